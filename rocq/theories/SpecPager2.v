(** More vocabulary for statements about the pager. *)
From Coq Require Import NArith List Bool.
From Verif Require Import MKernel Amp SpecState MEngine SpecEngine MCircuit MPager SpecPager.
Import ListNotations.
Local Open Scope N_scope.

Section S.
  Context {K : StarRing}.
  Local Notation V := (mem K).

  (** Pages at least as large as the base size (the state between calls), and gates limited to nearby page bits: at most
      eight of them. *)
  Definition regular (p : pager K) : Prop := exists q, paged q p /\ pg_base p <= q.
  (** A call succeeds and leaves a pager of [n] qubits with the old threshold, whose state is [spec]. *)
  Definition paged_any (n : N) (p : pager K) (spec : V) (r : res (pager K)) : Prop :=
    exists p', r = Ok p' /\ pg_n p' = n /\ pg_thr p' = pg_thr p /\ regular p' /\ eqv n (flat p') spec.
  (** The action of a circuit of controlled matrices and XMask calls, and when it is allowed on pages of [q] qubits: a
      control of a gate on a qubit inside the pages is one of the eight lowest page bits at most. *)
  Definition gate_action (g : gop K) (psi : V) : V :=
    match g with
    | GM cs m t => gate1 (all_set cs) t m psi
    | GXM mask => fun x => psi (N.lxor x mask)
    end.
  Definition circuit_action (l : circ K) (psi : V) : V := fold_left (fun p g => gate_action g p) l psi.
  Definition gate_allowed (n q : N) (g : gop K) : Prop :=
    match g with
    | GM cs m t => NoDup (cs ++ [t]) /\ (forall y, In y (cs ++ [t]) -> y < n) /\ (t < q -> forall y, In y cs -> y < q + 8)
    | GXM mask => mask < 2 ^ n
    end.
End S.
