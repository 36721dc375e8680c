(** Independent specification vocabulary for parallel loops. *)
From Coq Require Import NArith List Permutation.
From Verif Require Import MParFor.
Import ListNotations.
Local Open Scope N_scope.

(** The list [xs] enumerates exactly the numbers satisfying [P], each once. *)
Definition enumerates (P : N -> Prop) (xs : list N) : Prop := NoDup xs /\ forall x, In x xs <-> P x.

(** A schedule all of whose steps are taken by threads that are still running. *)
Fixpoint busy (p : ploop) (c : pconf) (sched : list nat) : Prop :=
  match sched with
  | [] => True
  | t :: s => (exists pc, nth_error (c_thr c) t = Some pc /\ pc <> TDone) /\ busy p (pstep p c t) s
  end.

(** Sum of [term] over a list, in an arbitrary carrier. *)
Fixpoint sum_list {A} (zero : A) (add : A -> A -> A) (term : N -> A) (l : list N) : A :=
  match l with
  | [] => zero
  | x :: t => add (term x) (sum_list zero add term t)
  end.
