(** Specification of the masked gates, of ZeroPhaseFlip and of TimeEvolve. *)
From Coq Require Import NArith List Bool.
From Verif Require Import Amp MKernel SpecState SpecEngine MCircuit2.
Import ListNotations.
Local Open Scope N_scope.

(** The qubits of a mask. *)
Definition bits_of (mask : N) : list N := filter (N.testbit mask) (upto 64).

Section Spec.
  Context {K : StarRing}.
  Local Notation vec := (N -> K).

  (** The same gate on every qubit of a list. *)
  Definition on_all (m : mat2 K) (qs : list N) (psi : vec) : vec := fold_left (fun p q => gate1 always q m p) qs psi.
  Definition mat_x : mat2 K := mkMat 0%amp 1%amp 1%amp 0%amp.
  Definition mat_y (i : K) : mat2 K := mkMat 0%amp (- i)%amp i 0%amp.
  Definition mat_ph (z : K) : mat2 K := mkMat 1%amp 0%amp 0%amp z.
  (** Minus one where the register holds 0. *)
  Definition flip_zero (s len : N) (psi : vec) : vec := fun x => if get_reg x s len =? 0 then (- psi x)%amp else psi x.

  (** Every control has its wanted value: 1 (0 for an anti-controlled term), exchanged where the toggle is set. *)
  Fixpoint selected (anti : bool) (cs : list N) (ts : list bool) (x : N) : bool :=
    match cs with
    | [] => true
    | q :: cs => Bool.eqb (N.testbit x q) (xorb (negb anti) (hd false ts)) && selected anti cs (tl ts) x
    end.
  Definition times (z : K) (m : mat2 K) : mat2 K := mkMat (z * m00 m)%amp (z * m01 m)%amp (z * m10 m)%amp (z * m11 m)%amp.
  (** A term of a Hamiltonian with one matrix. *)
  Definition term_ok (n : N) (o : @hop K) : Prop :=
    ho_uniform o = false /\ NoDup (ho_controls o ++ [ho_target o]) /\ (forall q, In q (ho_controls o ++ [ho_target o]) -> q < n) /\
    (ho_toggles o = [] \/ length (ho_toggles o) = length (ho_controls o)).
  (** The exponential of -i t H, [ex] being the exponential of a matrix. *)
  Definition factor (ex : mat2 K -> mat2 K) (i dt : K) (m : mat2 K) : mat2 K := ex (times (- (i * dt))%amp m).
  (** The product of the factors, one term after the other. *)
  Definition evolved (ex : mat2 K -> mat2 K) (i dt : K) (l : list hop) (psi : vec) : vec :=
    fold_left (fun p o => gate1 (selected (ho_anti o) (ho_controls o) (ho_toggles o)) (ho_target o) (factor ex i dt (ho_mats o 0%N)) p) l psi.
End Spec.
