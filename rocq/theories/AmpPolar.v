(** The operations of [Polar] exist for the Gaussian integers and for the complex numbers.  Only examples and refutations use
    this file. *)
From Coq Require Import ZArith Reals Lra Lia.
From Verif Require Import Amp AmpC MShard.

Definition gi_lt1 (x : GI) : bool := (fst x * fst x + snd x * snd x <? 1)%Z.
Lemma gi_lt1_2 (x : GI) : anorm x = 1%amp -> gi_lt1 (x + x)%amp = false.
Proof.
  destruct x as [a b]. unfold anorm, gi_lt1. cbn. intros [= H _]. apply Z.ltb_ge. nia.
Qed.
Definition polarGI : Polar GI := mkPolar GI (fun x => x) (fun x y => (x * sr_conj y)%amp) gi_lt1 (fun x _ => eq_refl) (fun x y _ => eq_refl) eq_refl gi_lt1_2.

Local Open Scope R_scope.
Definition cc_abs (x : CC) : R := sqrt (fst x * fst x + snd x * snd x).
Definition cc_scale (r : R) (x : CC) : CC := (r * fst x, r * snd x).
(** x / |x|, x / y and |x| < 1. *)
Definition cc_unit (x : CC) : CC := cc_scale (/ cc_abs x) x.
Definition cc_div (x y : CC) : CC := cc_scale (/ (fst y * fst y + snd y * snd y)) (x * sr_conj y)%amp.
Definition cc_lt1 (x : CC) : bool := if Rlt_dec (cc_abs x) 1 then true else false.
Lemma cc_norm1 (x : CC) : anorm x = 1%amp -> fst x * fst x + snd x * snd x = 1.
Proof. destruct x as [a b]. unfold anorm. cbn. unfold c_mul. cbn [fst snd]. intros [= H _]. lra. Qed.
Lemma cc_unit_ok (x : CC) : anorm x = 1%amp -> cc_unit x = x.
Proof.
  intros H. apply cc_norm1 in H. unfold cc_unit, cc_abs. rewrite H, sqrt_1, Rinv_1. destruct x as [a b]. unfold cc_scale. cbn [fst snd]. f_equal; ring.
Qed.
Lemma cc_div_ok (x y : CC) : anorm y = 1%amp -> cc_div x y = (x * sr_conj y)%amp.
Proof. intros H. apply cc_norm1 in H. unfold cc_div. rewrite H, Rinv_1. destruct (x * sr_conj y)%amp as [a b]. unfold cc_scale. cbn [fst snd]. f_equal; ring. Qed.
Lemma cc_lt1_0 : cc_lt1 0%amp = true.
Proof. unfold cc_lt1, cc_abs. cbn [fst snd sr0 CC]. replace (0 * 0 + 0 * 0) with 0 by ring. rewrite sqrt_0. destruct (Rlt_dec 0 1); [reflexivity|lra]. Qed.
Lemma cc_lt1_2 (x : CC) : anorm x = 1%amp -> cc_lt1 (x + x)%amp = false.
Proof.
  intros H. apply cc_norm1 in H. destruct x as [a b]. cbn [fst snd] in H. unfold cc_lt1, cc_abs. cbn. unfold c_add. cbn [fst snd].
  replace ((a + a) * (a + a) + (b + b) * (b + b)) with (2 * 2) by (replace 4 with (4 * (a * a + b * b)) by (rewrite H; ring); nra).
  rewrite sqrt_square by lra. destruct (Rlt_dec 2 1); [lra|reflexivity].
Qed.
Definition polarCC : Polar CC := mkPolar CC cc_unit cc_div cc_lt1 cc_unit_ok cc_div_ok cc_lt1_0 cc_lt1_2.
