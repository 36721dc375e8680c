(** Specification of the depolarizing channels: density matrices. *)
From Coq Require Import NArith List Bool.
From Verif Require Import Amp SpecState MRot SpecRot.
Import ListNotations.
Local Open Scope N_scope.

Section Spec.
  Context {K : StarRing}.
  Local Notation vec := (N -> K).
  Local Open Scope amp_scope.
  (** The density matrix of a state, and of a mixture of states. *)
  Definition pure (psi : vec) (x y : N) : K := psi x * sr_conj (psi y).
  Definition mixture (l : list (K * vec)) (x y : N) : K := asum (fun e => fst e * pure (snd e) x y) l.
  (** The density matrix of the qubits 0 to n - 1 when qubit n is ignored. *)
  Definition without_last (n : N) (psi : vec) (x y : N) : K := pure psi x y + pure psi (x + 2 ^ n)%N (y + 2 ^ n)%N.
  (** The channel a rho + b (X rho X + Y rho Y + Z rho Z) on qubit [q].  Depolarizing channels have a + 3 b = 1; the comment in
      qtensornetwork.hpp:533-535 has b = lambda / 3, the usual form (1 - lambda) rho + lambda I / 2 has b = lambda / 4. *)
  Definition depolarized (i a b : K) (q : N) (psi : vec) (x y : N) : K :=
    a * pure psi x y + b * asum (fun P => pure (gate1 always q (pauli i P) psi) x y) [AxX; AxY; AxZ].
  (** 1/sqrt 2. *)
  Definition root_half (h : K) : Prop := sr_conj h = h /\ h * h + h * h = 1.
End Spec.
