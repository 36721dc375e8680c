(** Specification of the rotation gates. *)
From Coq Require Import NArith List Bool.
From Verif Require Import Amp MKernel MEngine SpecState SpecEngine MCircuit MRot.
Import ListNotations.
Local Open Scope N_scope.

Inductive axis := AxX | AxY | AxZ.
Section Spec.
  Context {K : StarRing}.
  Local Notation vec := (N -> K).
  Local Open Scope amp_scope.

  (** The imaginary unit; the cosine and the sine of an angle. *)
  Definition imag_unit (i : K) : Prop := i * i = - (1) /\ sr_conj i = - i.
  Definition is_angle (a : ang K) : Prop := sr_conj (a_c a) = a_c a /\ sr_conj (a_s a) = a_s a /\ a_c a * a_c a + a_s a * a_s a = 1.
  Definition ang_add (a b : ang K) : ang K := mkAng (a_c a * a_c b - a_s a * a_s b) (a_s a * a_c b + a_c a * a_s b).
  Definition ang_neg (a : ang K) : ang K := mkAng (a_c a) (- a_s a).
  (** The Pauli operators, and exp(-i t P) = cos t - i sin t P for the angle t. *)
  Definition pauli (i : K) (P : axis) : mat2 K :=
    match P with AxX => mkMat 0 1 1 0 | AxY => mkMat 0 (- i) i 0 | AxZ => mkMat 1 0 0 (- (1)) end.
  Definition rot (i : K) (P : axis) (a : ang K) : mat2 K :=
    let p := pauli i P in let s := i * a_s a in
    mkMat (a_c a - s * m00 p) (- (s * m01 p)) (- (s * m10 p)) (a_c a - s * m11 p).
  (** The call for each axis. *)
  Definition R_call (rgp : bool) (i : K) (P : axis) (a : ang K) (q : N) : circ K :=
    match P with AxX => qi_RX i a q | AxY => qi_RY a q | AxZ => qi_RZ rgp i a q end.
  (** exp(i t). *)
  Definition expi (i : K) (a : ang K) : K := a_c a + i * a_s a.
  (** Every run ends with a state that is [F psi], up to a phase if the engine may drop global phases. *)
  Definition performs (c : cfg) (rgp : bool) (n : N) (l : circ K) (F : vec -> vec) (psi : vec) : Prop :=
    every_run (crun c rgp n l (Some psi)) (fun r => exists psi' g, r = Ok (Some psi') /\
      (forall x, (x < 2 ^ n)%N -> F psi x = g * psi' x) /\ (rgp = false -> g = 1) /\ anorm g = 1).
End Spec.
