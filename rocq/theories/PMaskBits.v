(** The loop that takes the set bits of a mask one at a time, lowest first. *)
From Coq Require Import NArith List Bool Lia.
From Verif Require Import Bits Amp MCircuit.
Import ListNotations.
Local Open Scope N_scope.

Lemma low_bit m : m <> 0 -> exists b h, m = 2 ^ b + h * 2 ^ (b + 1).
Proof.
  destruct m as [|p]; [congruence|]. intros _. induction p as [p IH|p IH|].
  - exists 0, (Npos p). change (2 ^ 0) with 1. change (2 ^ (0 + 1)) with 2. lia.
  - destruct IH as [b [h E]]. exists (b + 1), h. rewrite (N.pow_add_r 2 (b + 1) 1), (N.pow_add_r 2 b 1) in *. change (2 ^ 1) with 2 in *. change (Npos p~0) with (2 * Npos p). lia.
  - exists 0, 0. reflexivity.
Qed.
(** One step: the lowest set bit [b], and the mask without it. *)
Lemma mask_step m : m <> 0 -> exists b, N.testbit m b = true /\ (forall j, j < b -> N.testbit m j = false) /\
  N.log2 (N.lxor m (N.land m (m - 1))) = b /\ N.land m (m - 1) = N.clearbit m b.
Proof.
  intros H. destruct (low_bit m H) as [b [h E]]. exists b.
  assert (L1 : 2 ^ b < 2 ^ (b + 1)) by (apply pow2_lt_mono; lia). assert (P := pow2_pos b).
  assert (Tm : forall j, N.testbit m j = if j <? b + 1 then j =? b else N.testbit h (j - (b + 1))).
  { intros j. rewrite E. rewrite tb_cat by auto. destruct (j <? b + 1); auto. rewrite tb_pow2. apply N.eqb_sym. }
  assert (E2 : m - 1 = (2 ^ b - 1) + h * 2 ^ (b + 1)) by lia.
  assert (T1 : forall j, N.testbit (m - 1) j = if j <? b + 1 then j <? b else N.testbit h (j - (b + 1))).
  { intros j. rewrite E2. rewrite tb_cat by lia. destruct (j <? b + 1); auto. rewrite N.sub_1_r, <- N.ones_equiv.
    destruct (N.ltb_spec j b). now apply N.ones_spec_low. now apply N.ones_spec_high. }
  assert (EL : N.land m (m - 1) = N.clearbit m b).
  { apply N.bits_inj. intros j. rewrite N.land_spec, N.clearbit_eqb, Tm, T1.
    destruct (N.ltb_spec j (b + 1)), (N.eqb_spec j b), (N.eqb_spec b j), (N.ltb_spec j b); cbn [andb negb]; rewrite ?andb_true_r; auto; try lia. apply andb_diag. }
  split. { rewrite Tm. destruct (N.ltb_spec b (b + 1)); [|lia]. apply N.eqb_refl. }
  split. { intros j Hj. rewrite Tm. destruct (N.ltb_spec j (b + 1)); [|lia]. destruct (N.eqb_spec j b); auto; lia. }
  split; auto. rewrite EL. replace (N.lxor m (N.clearbit m b)) with (2 ^ b). apply N.log2_pow2. lia.
  apply N.bits_inj. intros j. rewrite N.lxor_spec, N.clearbit_eqb, tb_pow2, Tm.
  destruct (N.ltb_spec j (b + 1)), (N.eqb_spec j b), (N.eqb_spec b j); cbn [andb negb]; rewrite ?andb_true_r, ?xorb_nilpotent; auto; lia.
Qed.
Lemma mask_bits_ok f : forall a m, m < 2 ^ (a + N.of_nat f) -> (forall j, j < a -> N.testbit m j = false) ->
  NoDup (mask_bits f m) /\ forall b, In b (mask_bits f m) <-> N.testbit m b = true.
Proof.
  induction f as [|f IH]; intros a m Hm Hl; cbn [mask_bits].
  - assert (E : m = 0).
    { apply N.bits_inj. intros j. rewrite N.bits_0. destruct (N.lt_ge_cases j a). now apply Hl. apply (tb_high m a); auto. now rewrite N.add_0_r in Hm. }
    subst. split. constructor. intros b. rewrite N.bits_0. cbn [In]. intuition discriminate.
  - destruct (N.eqb_spec m 0) as [->|Hz].
    + split. constructor. intros b. rewrite N.bits_0. cbn [In]. intuition discriminate.
    + destruct (mask_step m Hz) as [b [Tb [Lb [EL EC]]]]. cbv zeta. rewrite EL, EC.
      assert (Hab : a <= b). { destruct (N.le_gt_cases a b); auto. rewrite Hl in Tb by auto. discriminate. }
      destruct (IH (a + 1) (N.clearbit m b)) as [ND HI].
      { apply lt_pow2_bits. intros j Hj. rewrite N.clearbit_eqb. rewrite (tb_high m (a + N.of_nat (S f))); auto. lia. }
      { intros j Hj. rewrite N.clearbit_eqb. destruct (N.eqb_spec b j); cbn [negb]. apply andb_false_r. rewrite andb_true_r. destruct (N.lt_ge_cases j b). now apply Lb. lia. }
      split.
      * constructor; auto. rewrite HI, N.clearbit_eqb, N.eqb_refl. cbn [negb]. rewrite andb_false_r. discriminate.
      * intros j. cbn [In]. rewrite HI, N.clearbit_eqb. destruct (N.eqb_spec b j) as [->|]; cbn [negb].
        -- rewrite andb_false_r. intuition.
        -- rewrite andb_true_r. intuition congruence.
Qed.
