(** Specification of measurements of a list of qubits. *)
From Coq Require Import NArith List Bool.
From Verif Require Import Amp SpecState.
Import ListNotations.
Local Open Scope N_scope.

(** The mask of the results: bit q is that of [x] if q is listed, and 0 otherwise. *)
Definition mask_of (bits : list N) (x m : N) : Prop := forall q, N.testbit m q = existsb (N.eqb q) bits && N.testbit x q.
(** Two basis states with the same values of the listed qubits. *)
Definition same_on (bits : list N) (x y : N) : bool := forallb (fun q => Bool.eqb (N.testbit y q) (N.testbit x q)) bits.
(** The listed qubits have the listed values. *)
Definition has_values (bits : list N) (values : list bool) (x : N) : Prop := forall q v, In (q, v) (combine bits values) -> N.testbit x q = v.
Section S.
  Context {K : StarRing}.
  (** The state after a measurement of the listed qubits that showed those of [x]. *)
  Definition measured_as (n : N) (bits : list N) (x : N) (psi psi' : N -> K) : Prop :=
    exists g, forall y, psi' y = if same_on bits x y then (g * psi y)%amp else 0%amp.
End S.
