(** Independent specification vocabulary for wide integers: the number a little-endian word array denotes,
    and what a well-formed array is.  Nothing here refers to the model's algorithms. *)
From Coq Require Import ZArith List.
Import ListNotations.
Local Open Scope Z_scope.

(** The natural number denoted by a little-endian list of digits in base [b]. *)
Fixpoint big_value (b : Z) (l : list Z) : Z :=
  match l with
  | [] => 0
  | x :: t => x + b * big_value b t
  end.

(** An array of [n] words in base [b]. *)
Definition big_wf (b : Z) (n : nat) (l : list Z) : Prop :=
  length l = n /\ Forall (fun x => 0 <= x < b) l.

(** The array of [n] words in base [b] denoting [v] modulo b^n. *)
Fixpoint big_of_Z (b : Z) (n : nat) (v : Z) : list Z :=
  match n with
  | O => []
  | S k => (v mod b) :: big_of_Z b k (v / b)
  end.
