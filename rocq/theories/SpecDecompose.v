(** Specification of separable states in polar form. *)
From Coq Require Import NArith QArith List.
From Verif Require Import SpecState.
Local Open Scope Q_scope.

(** The state of register value [k] (at position [start], [length] qubits) and remainder value [r] is the product of the
    amplitudes (pa r, alpha r) and (pb k, beta k); [same_angle] identifies arguments that differ by whole turns. *)
Definition same_angle (a b : Q) : Prop := exists z : Z, a == b + 2 * inject_Z z.
Definition separable (start length : N) (prob angle pa alpha pb beta : N -> Q) : Prop :=
  forall x, let r := outside x start length in let k := get_reg x start length in
    prob x == pa r * pb k /\ (0 < prob x -> same_angle (angle x) (alpha r + beta k) /\ -1 < angle x <= 1).
