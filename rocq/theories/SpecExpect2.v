(** Specification of expectation values of observables on single qubits. *)
From Coq Require Import NArith List Bool.
From Verif Require Import Amp SpecState SpecExpect MExpect2.
Import ListNotations.
Local Open Scope N_scope.

Section Spec.
  Context {K : StarRing}.
  Local Notation vec := (N -> K).
  Local Open Scope amp_scope.
  (** A factor: a qubit, a basis (the columns of a matrix), and an eigenvalue for each of the two basis vectors. *)
  Record factor := mkF { f_bit : N; f_basis : mat2 K; f_e0 : K; f_e1 : K }.
  Definition f_eigs (f : factor) : list K := [f_e0 f; f_e1 f].
  (** The observable with these eigenvectors and eigenvalues. *)
  Definition obs (f : factor) : mat2 K := mmul (f_basis f) (mmul (mkMat (f_e0 f) 0 0 (f_e1 f)) (mdag (f_basis f))).
  Definition obs_on (f : factor) (psi : vec) : vec := gate1 always (f_bit f) (obs f) psi.
  Definition obs_exp (n : N) (f : factor) (psi : vec) : K := inner n psi (obs_on f psi).
  Definition obs_var (n : N) (f : factor) (psi : vec) : K := inner n psi (obs_on f (obs_on f psi)) - obs_exp n f psi * obs_exp n f psi.
  (** The expectation value of the product of several. *)
  Definition obs_prod (n : N) (l : list factor) (psi : vec) : K := inner n psi (fold_right obs_on psi l).
  (** Angles, the standard matrix of U(theta, phi, lambda), and the factor that a call with angles asks for. *)
  Definition angles (u : u3 K) : Prop :=
    sr_conj (u_c u) = u_c u /\ sr_conj (u_s u) = u_s u /\ u_c u * u_c u + u_s u * u_s u = 1 /\ u_ep u * sr_conj (u_ep u) = 1 /\ u_el u * sr_conj (u_el u) = 1.
  Definition u_std (u : u3 K) : mat2 K := mkMat (u_c u) (- (u_el u * u_s u)) (u_ep u * u_s u) (u_ep u * u_el u * u_c u).
  Definition u_factor (e : N * u3 K * (K * K)) : factor := mkF (fst (fst e)) (u_std (snd (fst e))) (fst (snd e)) (snd (snd e)).
End Spec.
Arguments factor : clear implicits.
