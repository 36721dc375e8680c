(** Bit-level lemmas on [N] used by the proofs (no model content). *)
From Coq Require Import NArith List Bool Lia Btauto.
Import ListNotations.
Local Open Scope N_scope.

Lemma tb_shiftl a k m : N.testbit (N.shiftl a k) m = (k <=? m) && N.testbit a (m - k).
Proof.
  destruct (N.leb_spec k m).
  - now rewrite N.shiftl_spec_high'.
  - now rewrite N.shiftl_spec_low.
Qed.

Lemma tb_mul2 a k m : N.testbit (a * 2 ^ k) m = (k <=? m) && N.testbit a (m - k).
Proof. rewrite <- N.shiftl_mul_pow2. apply tb_shiftl. Qed.

Lemma tb_mul2' a k m : N.testbit (2 ^ k * a) m = (k <=? m) && N.testbit a (m - k).
Proof. rewrite N.mul_comm. apply tb_mul2. Qed.

Lemma tb_mod2 a k m : N.testbit (a mod 2 ^ k) m = (m <? k) && N.testbit a m.
Proof.
  destruct (N.ltb_spec m k).
  - now rewrite N.mod_pow2_bits_low.
  - now rewrite N.mod_pow2_bits_high.
Qed.

Lemma tb_div2 a k m : N.testbit (a / 2 ^ k) m = N.testbit a (m + k).
Proof. rewrite <- N.shiftr_div_pow2. apply N.shiftr_spec'. Qed.

Lemma tb_shiftr a k m : N.testbit (N.shiftr a k) m = N.testbit a (m + k).
Proof. apply N.shiftr_spec'. Qed.

Lemma tb_pow2 k m : N.testbit (2 ^ k) m = (k =? m).
Proof. apply N.pow2_bits_eqb. Qed.

Lemma tb_ones k m : N.testbit (2 ^ k - 1) m = (m <? k).
Proof.
  rewrite N.sub_1_r, <- N.ones_equiv. destruct (N.ltb_spec m k).
  - now apply N.ones_spec_low.
  - now apply N.ones_spec_high.
Qed.

Lemma pow2_pos k : 0 < 2 ^ k.
Proof. apply N.neq_0_lt_0, N.pow_nonzero. discriminate. Qed.

Lemma pow2_nz k : 2 ^ k <> 0.
Proof. apply N.pow_nonzero. discriminate. Qed.

Lemma lt_pow2_bits a k : a < 2 ^ k <-> (forall m, k <= m -> N.testbit a m = false).
Proof.
  split.
  - intros H m Hm. rewrite <- (N.mod_small a (2 ^ k)) by auto. now apply N.mod_pow2_bits_high.
  - intros H. replace a with (a mod 2 ^ k).
    + apply N.mod_lt, pow2_nz.
    + apply N.bits_inj. intros m. rewrite tb_mod2. destruct (N.ltb_spec m k); auto. now rewrite H.
Qed.

Lemma tb_high a k m : a < 2 ^ k -> k <= m -> N.testbit a m = false.
Proof. intros H. now apply lt_pow2_bits. Qed.

(** Sum of numbers without common bits. *)
Lemma add_lor a b : N.land a b = 0 -> a + b = N.lor a b.
Proof. intros H. rewrite N.add_nocarry_lxor by auto. apply N.lxor_lor. auto. Qed.

Lemma tb_cat a b k m : a < 2 ^ k -> N.testbit (a + b * 2 ^ k) m = if m <? k then N.testbit a m else N.testbit b (m - k).
Proof.
  intros H. destruct (N.ltb_spec m k).
  - rewrite <- (N.mod_pow2_bits_low _ k) by auto. rewrite N.mod_add by apply pow2_nz.
    now rewrite N.mod_small.
  - replace m with (m - k + k) at 1 by lia. rewrite <- tb_div2. rewrite N.div_add by apply pow2_nz.
    now rewrite N.div_small.
Qed.

Lemma land_pow2_testbit a k : N.land a (2 ^ k) = if N.testbit a k then 2 ^ k else 0.
Proof.
  apply N.bits_inj. intros m. rewrite N.land_spec, tb_pow2. destruct (N.eqb_spec k m).
  - subst. destruct (N.testbit a m) eqn:E; cbn [andb]. now rewrite tb_pow2, N.eqb_refl. now rewrite N.bits_0.
  - rewrite andb_false_r. destruct (N.testbit a k). rewrite tb_pow2. symmetry. now apply N.eqb_neq. now rewrite N.bits_0.
Qed.

Lemma land_ones a k : N.land a (2 ^ k - 1) = a mod 2 ^ k.
Proof. rewrite N.sub_1_r, <- N.ones_equiv. apply N.land_ones. Qed.

Lemma div_mod_eq a k : a = a mod 2 ^ k + a / 2 ^ k * 2 ^ k.
Proof. rewrite (N.div_mod a (2 ^ k)) at 1 by apply pow2_nz. lia. Qed.

Lemma mod_lt_pow2 a k : a mod 2 ^ k < 2 ^ k.
Proof. apply N.mod_lt, pow2_nz. Qed.

Lemma testbit_div_mod a k : N.testbit a k = negb ((a / 2 ^ k) mod 2 =? 0).
Proof.
  rewrite <- N.bit0_mod, tb_div2, N.add_0_l. destruct (N.testbit a k); reflexivity.
Qed.

Lemma pow2_le_mono a b : a <= b -> 2 ^ a <= 2 ^ b.
Proof. apply N.pow_le_mono_r. discriminate. Qed.
Lemma pow2_lt_mono a b : a < b -> 2 ^ a < 2 ^ b.
Proof. apply N.pow_lt_mono_r. lia. Qed.

#[export] Hint Rewrite N.land_spec N.lor_spec N.lxor_spec N.ldiff_spec tb_shiftl tb_shiftr tb_mul2 tb_mul2' tb_mod2 tb_div2
  tb_pow2 tb_ones N.bits_0 : tb.

(** Turn comparisons in the goal into case distinctions. *)
Ltac ncases :=
  repeat match goal with
  | |- context[?a <? ?b] => destruct (N.ltb_spec a b)
  | |- context[?a <=? ?b] => destruct (N.leb_spec a b)
  | |- context[?a =? ?b] => destruct (N.eqb_spec a b)
  end.

Ltac nblast := apply N.bits_inj; let j := fresh "j" in intros j; autorewrite with tb; ncases; subst; simpl;
  rewrite ?andb_true_r, ?andb_false_r, ?orb_true_r, ?orb_false_r, ?xorb_false_r, ?xorb_true_r;
  try lia; auto; try (f_equal; lia); try btauto.

(** Strong form of equality from bits: numbers below 2^n. *)
Lemma bits_inj_below n a b : a < 2 ^ n -> b < 2 ^ n ->
  (forall m, m < n -> N.testbit a m = N.testbit b m) -> a = b.
Proof.
  intros Ha Hb H. apply N.bits_inj. intros m. destruct (N.lt_ge_cases m n); auto.
  rewrite !(tb_high _ n) by auto. reflexivity.
Qed.

(** Order-comparison from bits. *)
Lemma lor_lt_pow2 a b n : a < 2 ^ n -> b < 2 ^ n -> N.lor a b < 2 ^ n.
Proof.
  intros Ha Hb. apply lt_pow2_bits. intros m Hm. rewrite N.lor_spec, !(tb_high _ n) by auto. auto.
Qed.
Lemma land_lt_pow2 a b n : a < 2 ^ n -> N.land a b < 2 ^ n.
Proof.
  intros Ha. apply lt_pow2_bits. intros m Hm. rewrite N.land_spec, (tb_high a n) by auto. auto.
Qed.
Lemma lxor_lt_pow2 a b n : a < 2 ^ n -> b < 2 ^ n -> N.lxor a b < 2 ^ n.
Proof.
  intros Ha Hb. apply lt_pow2_bits. intros m Hm. rewrite N.lxor_spec, !(tb_high _ n) by auto. auto.
Qed.
Lemma shiftr_lt a n : forall k, a < 2 ^ (n + k) -> N.shiftr a k < 2 ^ n.
Proof.
  intros k H. apply lt_pow2_bits. intros m Hm. rewrite tb_shiftr. apply (tb_high a (n + k)); auto. lia.
Qed.
Lemma pow2_lt k n : k < n -> 2 ^ k < 2 ^ n.
Proof. apply pow2_lt_mono. Qed.
