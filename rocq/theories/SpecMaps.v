(** Vocabulary for the swap containers: plain lists and transpositions. *)
From Coq Require Import NArith List Bool.
From Verif Require Import SpecState MMaps.
Import ListNotations.
Local Open Scope N_scope.

(** The basis state obtained by exchanging the listed pairs of qubits, the last pair first. *)
Fixpoint swaps_last_first (ps : list (N * N)) (x : N) : N :=
  match ps with
  | [] => x
  | (a, b) :: t => swap_bits a b (swaps_last_first t x)
  end.
(** All pairs are qubits below [n]. *)
Definition pairs_below (n : N) (ps : list (N * N)) : Prop := forall p, In p ps -> fst p < n /\ snd p < n.

(** Index [k] with [i] and [j] exchanged. *)
Definition exchange (i j k : nat) : nat := if Nat.eqb k i then j else if Nat.eqb k j then i else k.

(** A history of operations on a shard container. *)
Inductive history (A : Type) : Type :=
| h_new (n : N)
| h_push (h : history A) (a : A)
| h_set (h : history A) (i : N) (a : A)
| h_insert (h : history A) (start : N) (h' : history A)
| h_erase (h : history A) (b e : N)
| h_swap (h : history A) (i j : N).
Arguments h_new {A}. Arguments h_push {A}. Arguments h_set {A}. Arguments h_insert {A}. Arguments h_erase {A}. Arguments h_swap {A}.

(** The history on the container. *)
Fixpoint on_map {A} (d : A) (h : history A) : option (smap A) :=
  match h with
  | h_new n => Some (sm_new d n)
  | h_push h a => match on_map d h with Some m => Some (sm_push m a) | None => None end
  | h_set h i a => match on_map d h with Some m => sm_set m i a | None => None end
  | h_insert h s h' => match on_map d h, on_map d h' with Some m, Some m' => sm_insert m s m' | _, _ => None end
  | h_erase h b e => match on_map d h with Some m => sm_erase m b e | None => None end
  | h_swap h i j => match on_map d h with Some m => sm_swapq m i j | None => None end
  end.

(** The relation between a history and a plain list: arguments in range, and never more than 255 entries. *)
Inductive on_list {A} (d : A) : history A -> list A -> Prop :=
| l_new n l : n < 256 -> N.of_nat (length l) = n -> (forall a, In a l -> a = d) -> on_list d (h_new n) l
| l_push h l a : on_list d h l -> (length l < 255)%nat -> on_list d (h_push h a) (l ++ [a])
| l_set h l1 x l2 a : on_list d h (l1 ++ x :: l2) -> on_list d (h_set h (N.of_nat (length l1)) a) (l1 ++ a :: l2)
| l_insert h l1 l2 h' l' : on_list d h (l1 ++ l2) -> on_list d h' l' -> (length l1 + length l' + length l2 <= 255)%nat ->
    on_list d (h_insert h (N.of_nat (length l1)) h') (l1 ++ l' ++ l2)
| l_erase h l1 l2 l3 : on_list d h (l1 ++ l2 ++ l3) ->
    on_list d (h_erase h (N.of_nat (length l1)) (N.of_nat (length l1 + length l2))) (l1 ++ l3)
| l_swap h l i j l' : on_list d h l -> (i < length l)%nat -> (j < length l)%nat -> length l' = length l ->
    (forall k, nth_error l' k = nth_error l (exchange i j k)) -> on_list d (h_swap h (N.of_nat i) (N.of_nat j)) l'.
