(** The exponential of diagonal complex matrices and a Hamiltonian, for the examples of PropCircuits2.v. *)
From Coq Require Import NArith List Bool Reals Lra.
From Verif Require Import Amp AmpC MEngine MCircuit2.
Import ListNotations.
Local Open Scope N_scope.

(** The exponential of a diagonal matrix over the complex numbers, for the examples. *)
Definition cexp (z : CC) : CC := (exp (fst z) * cos (snd z), exp (fst z) * sin (snd z))%R.
Definition dexp (m : mat2 CC) : mat2 CC := mkMat (cexp (m00 m)) 0%amp 0%amp (cexp (m11 m)).
Lemma cexp_phase (y : R) : (sr_conj (cexp (0, y)%R) * cexp (0, y)%R = 1)%amp.
Proof. cbn. unfold c_mul, c_conj, cexp; cbn [fst snd]. rewrite exp_0. pose proof (sin2_cos2 y) as H. unfold Rsqr in H. f_equal; [|ring]. transitivity (sin y * sin y + cos y * cos y)%R; [ring|exact H]. Qed.
Lemma dexp_diag a b : dexp (mkMat a 0%amp 0%amp b) = mkMat (cexp a) 0%amp 0%amp (cexp b).
Proof. reflexivity. Qed.
Lemma cexp_0 : cexp 0%amp = 1%amp.
Proof. cbn. unfold cexp; cbn [fst snd]. rewrite exp_0, cos_0, sin_0. f_equal; ring. Qed.
Definition ex_terms : list (@hop CC) :=
  [mkHop 0 false false (fun _ => mkMat 1 0 0 (- (1)))%amp [] []; mkHop 2 true false (fun _ => mkMat 1 0 0 0)%amp [0; 1] [true; false]].
