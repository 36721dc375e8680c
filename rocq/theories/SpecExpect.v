(** Specification of expectation values and variances. *)
From Coq Require Import NArith List Bool.
From Verif Require Import Amp SpecState MApi SpecApi3.
Import ListNotations.
Local Open Scope N_scope.

(** A list of distinct qubits. *)
Definition proper_bits (n : N) (bits : list N) : Prop := NoDup bits /\ forall q, In q bits -> q < n.
(** The sum of the entries that the bits select, two entries for every bit. *)
Fixpoint chosen (bits perms : list N) (x : N) : N :=
  match bits, perms with
  | q :: bs, a :: b :: ps => (if N.testbit x q then b else a) + chosen bs ps x
  | _, _ => 0
  end.

Section Spec.
  Context {K : StarRing}.
  Local Notation vec := (N -> K).
  Local Open Scope amp_scope.
  (** Mean and variance of a function of the basis state in the distribution of the state. *)
  Definition mean (n : N) (psi : vec) (f : N -> K) : K := asum (fun x => f x * anorm (psi x)) (basis n).
  Definition variance (n : N) (psi : vec) (f : N -> K) : K := let m := mean n psi f in mean n psi (fun x => (f x - m) * (f x - m)).
  Fixpoint total (bits : list N) (ws : list K) (x : N) : K :=
    match bits, ws with
    | q :: bs, a :: b :: t => (if N.testbit x q then b else a) + total bs t x
    | _, _ => 0
    end.
  Fixpoint product (bits : list N) (ws : list K) (x : N) : K :=
    match bits, ws with
    | q :: bs, a :: b :: t => (if N.testbit x q then b else a) * product bs t x
    | _, _ => 1
    end.
  (** A product of Pauli operators on a state, its expectation value and its variance. *)
  Definition paulis (i : K) (l : list (pauli * N)) (psi : vec) : vec := fold_right (fun e v => gate1 always (snd e) (pauli_mat i (fst e)) v) psi l.
  Definition inner (n : N) (a b : vec) : K := asum (fun x => sr_conj (a x) * b x) (basis n).
  Definition pauli_exp (n : N) (i : K) (l : list (pauli * N)) (psi : vec) : K := inner n psi (paulis i l psi).
  Definition pauli_var (n : N) (i : K) (l : list (pauli * N)) (psi : vec) : K :=
    inner n psi (paulis i l (paulis i l psi)) - pauli_exp n i l psi * pauli_exp n i l psi.
End Spec.
