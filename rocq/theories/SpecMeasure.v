(** Specification of drawing from a distribution. *)
From Coq Require Import NArith QArith List.
Import ListNotations.

Definition nonneg (ps : list Q) : Prop := Forall (fun p => 0 <= p)%Q ps.
Fixpoint qsum (ps : list Q) : Q := match ps with [] => 0%Q | p :: t => (p + qsum t)%Q end.
(** Cumulative probability of the first [k] values. *)
Definition cum (ps : list Q) (k : nat) : Q := qsum (firstn k ps).
Definition prob_of (ps : list Q) (k : nat) : Q := nth k ps 0%Q.
