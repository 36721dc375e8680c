(** Independent specifications for the integer helpers. *)
From Coq Require Import NArith ZArith List Bool.
Import ListNotations.
Local Open Scope N_scope.

(** Two's complement reading of an [L]-bit number. *)
Definition signed_value (L : N) (x : N) : Z :=
  if x <? 2 ^ (L - 1) then Z.of_N x else (Z.of_N x - 2 ^ Z.of_N L)%Z.

(** [z] is representable as an [L]-bit two's complement number. *)
Definition signed_range (L : N) (z : Z) : Prop :=
  (- 2 ^ (Z.of_N L - 1) <= z < 2 ^ (Z.of_N L - 1))%Z.

(** Value of a most-significant-first decimal digit string. *)
Fixpoint decimal_value_acc (acc : N) (ds : list N) : N :=
  match ds with
  | [] => acc
  | d :: t => decimal_value_acc (10 * acc + d) t
  end.
Definition decimal_value (ds : list N) : N := decimal_value_acc 0 ds.

(** ASCII encoding of a digit string. *)
Definition ascii_digits (ds : list N) : list N := map (fun d => 48 + d) ds.

(** A strictly increasing list of bit positions, all below [n]. *)
Fixpoint increasing_below (lo n : N) (ps : list N) : Prop :=
  match ps with
  | [] => True
  | p :: t => lo <= p < n /\ increasing_below (p + 1) n t
  end.

(** [x] has a zero at each listed position. *)
Definition zero_at (ps : list N) (x : N) : Prop := forall p, In p ps -> N.testbit x p = false.
