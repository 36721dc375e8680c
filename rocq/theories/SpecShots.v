(** Specification of counting measurement outcomes. *)
From Coq Require Import NArith List Bool.
From Verif Require Import SpecState.
Import ListNotations.
Local Open Scope N_scope.

(** The number of shots that show [k], if shot [s] shows [f s]. *)
Definition times_seen (f : N -> N) (shots k : N) : N := N.of_nat (length (filter (fun s => f s =? k) (upto (N.to_nat shots)))).
(** The entry of a key; the sum of the entries. *)
Fixpoint entry (k : N) (m : list (N * N)) : N := match m with [] => 0 | (a, c) :: t => if k =? a then c else entry k t end.
Definition total (m : list (N * N)) : N := fold_right (fun e s => snd e + s) 0 m.
(** The keys are in increasing order. *)
Fixpoint increasing (m : list (N * N)) : Prop :=
  match m with [] => True | (a, _) :: t => (forall e, In e t -> a < fst e) /\ increasing t end.
