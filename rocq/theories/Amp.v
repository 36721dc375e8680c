(** Amplitudes: an arbitrary commutative ring with conjugation, in place of the floating-point [complex] of
    /repo/include/common/qrack_types.hpp:149-187.  Theorems quantify over every such ring, so they hold in particular
    for the exact complex numbers; rounding is not modelled. *)
From Coq Require Import ZArith NArith List Ring Ring_theory Bool Lia.
Import ListNotations.

Record StarRing := mkStar {
  sr_t :> Type;
  sr0 : sr_t;
  sr1 : sr_t;
  sr_add : sr_t -> sr_t -> sr_t;
  sr_mul : sr_t -> sr_t -> sr_t;
  sr_sub : sr_t -> sr_t -> sr_t;
  sr_opp : sr_t -> sr_t;
  sr_conj : sr_t -> sr_t;
  sr_eqb : sr_t -> sr_t -> bool;
  sr_ring : ring_theory sr0 sr1 sr_add sr_mul sr_sub sr_opp eq;
  sr_conj_add : forall x y, sr_conj (sr_add x y) = sr_add (sr_conj x) (sr_conj y);
  sr_conj_mul : forall x y, sr_conj (sr_mul x y) = sr_mul (sr_conj x) (sr_conj y);
  sr_conj_invol : forall x, sr_conj (sr_conj x) = x;
  sr_eqb_ok : forall x y, sr_eqb x y = true <-> x = y
}.
Arguments sr0 {_}.
Arguments sr1 {_}.
Arguments sr_add {_} _ _.
Arguments sr_mul {_} _ _.
Arguments sr_sub {_} _ _.
Arguments sr_opp {_} _.
Arguments sr_conj {_} _.
Arguments sr_eqb {_} _ _.

Declare Scope amp_scope.
Delimit Scope amp_scope with amp.
Bind Scope amp_scope with sr_t.
Infix "+" := sr_add : amp_scope.
Infix "*" := sr_mul : amp_scope.
Infix "-" := sr_sub : amp_scope.
Notation "- x" := (sr_opp x) : amp_scope.
Notation "0" := sr0 : amp_scope.
Notation "1" := sr1 : amp_scope.

(** Squared magnitude, std::norm. *)
Definition anorm {K : StarRing} (x : K) : K := (x * sr_conj x)%amp.

(** A 2x2 matrix: entries [0], [1], [2], [3] of a [complex*] in row-major order. *)
Record mat2 (K : StarRing) := mkMat { m00 : K; m01 : K; m10 : K; m11 : K }.
Arguments mkMat {K} _ _ _ _.
Arguments m00 {K} _.
Arguments m01 {K} _.
Arguments m10 {K} _.
Arguments m11 {K} _.

Definition midn {K} : mat2 K := mkMat 1%amp 0%amp 0%amp 1%amp.
Definition mdag {K} (m : mat2 K) : mat2 K := mkMat (sr_conj (m00 m)) (sr_conj (m10 m)) (sr_conj (m01 m)) (sr_conj (m11 m)).
Definition mmul {K} (a b : mat2 K) : mat2 K :=
  mkMat (m00 a * m00 b + m01 a * m10 b)%amp (m00 a * m01 b + m01 a * m11 b)%amp
        (m10 a * m00 b + m11 a * m10 b)%amp (m10 a * m01 b + m11 a * m11 b)%amp.
Definition unitary2 {K} (m : mat2 K) : Prop := mmul (mdag m) m = midn.

(** Powers, std::pow with an integer exponent. *)
Fixpoint apow {K : StarRing} (x : K) (k : nat) : K :=
  match k with O => 1%amp | S j => (x * apow x j)%amp end.

(** Sum of [f] over a list. *)
Fixpoint asum {K : StarRing} {T} (f : T -> K) (l : list T) : K :=
  match l with
  | [] => 0%amp
  | x :: t => (f x + asum f t)%amp
  end.

(** ** Gaussian integers, for computable examples. *)
Local Open Scope Z_scope.
Definition gi_add (a b : Z * Z) := (fst a + fst b, snd a + snd b).
Definition gi_mul (a b : Z * Z) := (fst a * fst b - snd a * snd b, fst a * snd b + snd a * fst b).
Definition gi_sub (a b : Z * Z) := (fst a - fst b, snd a - snd b).
Definition gi_opp (a : Z * Z) := (- fst a, - snd a).
Definition gi_conj (a : Z * Z) := (fst a, - snd a).
Definition gi_eqb (a b : Z * Z) : bool := (fst a =? fst b) && (snd a =? snd b).

Lemma gi_ring : ring_theory (0, 0) (1, 0) gi_add gi_mul gi_sub gi_opp eq.
Proof.
  constructor; unfold gi_add, gi_mul, gi_sub, gi_opp; intros;
  repeat match goal with x : Z * Z |- _ => destruct x end; cbn [fst snd]; apply f_equal2; ring.
Qed.
Lemma gi_conj_add x y : gi_conj (gi_add x y) = gi_add (gi_conj x) (gi_conj y).
Proof. unfold gi_conj, gi_add. cbn [fst snd]. apply f_equal2; ring. Qed.
Lemma gi_conj_mul x y : gi_conj (gi_mul x y) = gi_mul (gi_conj x) (gi_conj y).
Proof. unfold gi_conj, gi_mul. cbn [fst snd]. apply f_equal2; ring. Qed.
Lemma gi_conj_invol x : gi_conj (gi_conj x) = x.
Proof. destruct x. unfold gi_conj. cbn [fst snd]. apply f_equal2; ring. Qed.
Lemma gi_eqb_ok x y : gi_eqb x y = true <-> x = y.
Proof.
  destruct x, y. unfold gi_eqb. cbn [fst snd]. rewrite andb_true_iff, !Z.eqb_eq. split.
  - intros [-> ->]. reflexivity.
  - intros H. injection H as -> ->. auto.
Qed.
Definition GI : StarRing :=
  mkStar (Z * Z) (0, 0) (1, 0) gi_add gi_mul gi_sub gi_opp gi_conj gi_eqb gi_ring gi_conj_add gi_conj_mul
    gi_conj_invol gi_eqb_ok.
