(** Vocabulary for statements about the pager: the state it represents is the concatenation of its pages. *)
From Coq Require Import NArith List Bool.
From Verif Require Import MKernel Amp SpecState MEngine SpecEngine MPager.
Import ListNotations.
Local Open Scope N_scope.

Section S.
  Context {K : StarRing}.
  Local Notation V := (mem K).

  (** Amplitude [x] of the concatenated pages. *)
  Definition flat (p : pager K) : V := fun x =>
    let sz := 2 ^ pg_n p / pg_count p in
    match pg_page p (x / sz) with None => 0%amp | Some psi => psi (x mod sz) end.
  (** A pager whose pages hold [q] qubits each. *)
  Definition paged (q : N) (p : pager K) : Prop := q <= pg_n p /\ pg_count p = 2 ^ (pg_n p - q).
  (** A call succeeds and leaves a pager of [n] qubits, with pages of [q] qubits and the old threshold, whose state is
      [spec]. *)
  Definition paged_result (n q : N) (p : pager K) (spec : V) (r : res (pager K)) : Prop :=
    exists p', r = Ok p' /\ pg_n p' = n /\ pg_thr p' = pg_thr p /\ paged q p' /\ eqv n (flat p') spec.
End S.
