(** Proofs about wide-integer multiplication, division, operator+ and operator-. *)
From Coq Require Import ZArith List Bool Lia.
From Verif Require Import MBigInteger SpecBigInteger PBigInteger.
Import ListNotations.
Local Open Scope Z_scope.

Ltac spl := repeat match goal with |- _ /\ _ => split end.

Lemma B_HH p : 1 <= p -> B p = HW p * HW p /\ 2 <= HW p /\ 0 < hbits p /\ wbits p = hbits p + hbits p.
Proof.
  intros Hp. assert (E : wbits p = 2 * 2 ^ (p - 1)).
  { unfold wbits. rewrite <- Z.pow_succ_r by lia. f_equal. lia. }
  assert (Eh : hbits p = 2 ^ (p - 1)).
  { unfold hbits. rewrite E. rewrite Z.mul_comm, Z.div_mul; lia. }
  pose proof (Z.pow_pos_nonneg 2 (p - 1) ltac:(lia) ltac:(lia)).
  unfold B, HW. rewrite <- Z.pow_add_r by lia. split; [f_equal; lia|].
  split; [|lia]. change 2 with (2^1) at 1. apply Z.pow_le_mono_r; lia.
Qed.

Lemma land_Hmask p x : 1 <= p -> Z.land x (HW p - 1) = x mod HW p.
Proof.
  intros Hp. destruct (B_HH p Hp) as [_ [_ [Hh _]]]. unfold HW.
  replace (2 ^ hbits p - 1) with (Z.ones (hbits p)) by (rewrite Z.ones_equiv; lia).
  apply Z.land_ones. lia.
Qed.

Lemma shiftr_H p x : 1 <= p -> Z.shiftr x (hbits p) = x / HW p.
Proof. intros Hp. destruct (B_HH p Hp) as [_ [_ [Hh _]]]. now rewrite Z.shiftr_div_pow2 by lia. Qed.
Lemma shiftl_H p x : 1 <= p -> Z.shiftl x (hbits p) = x * HW p.
Proof. intros Hp. destruct (B_HH p Hp) as [_ [_ [Hh _]]]. now rewrite Z.shiftl_mul_pow2 by lia. Qed.

Lemma lor_H p x y : 1 <= p -> 0 <= x < HW p -> 0 <= y -> Z.lor x (y * HW p) = x + HW p * y.
Proof.
  intros Hp Hx Hy. destruct (B_HH p Hp) as [_ [_ [Hh _]]]. rewrite Z.mul_comm. unfold HW in *.
  apply lor_disjoint; lia.
Qed.

Lemma mul_half_from_ok p r : 1 <= p -> 0 <= r < HW p -> forall l n c, wf p n l -> 0 <= c < HW p ->
  wf p n (mul_half_from p c l r) /\
  exists k, val p (mul_half_from p c l r) = c + val p l * r + k * B p ^ Z.of_nat n.
Proof.
  intros Hp Hr. destruct (B_HH p Hp) as [EB [H2 [Hh _]]].
  induction l as [|x t IH]; intros n c [HL HF] Hc; simpl in HL; subst n.
  - simpl. split. split; auto. exists (-c). lia.
  - apply Forall_cons_iff in HF; destruct HF as [Hx Ht]. cbn [mul_half_from].
    rewrite !land_Hmask, !shiftr_H, shiftl_H by auto.
    set (lo := x mod HW p). set (hi := x / HW p).
    assert (Ex : x = HW p * hi + lo) by (apply Z.div_mod; lia).
    assert (Hlo : 0 <= lo < HW p) by (apply Z.mod_pos_bound; lia).
    assert (Hhi : 0 <= hi < HW p). { split. apply Z.div_pos; lia. apply Z.div_lt_upper_bound; lia. }
    rewrite (Z.mod_small (r * lo + c)) by nia.
    set (t0 := r * lo + c).
    set (c0 := t0 / HW p). set (w0 := t0 mod HW p).
    assert (Et0 : t0 = HW p * c0 + w0) by (apply Z.div_mod; lia).
    assert (Hw0 : 0 <= w0 < HW p) by (apply Z.mod_pos_bound; lia).
    assert (Hc0 : 0 <= c0 < HW p). { unfold c0, t0. split. apply Z.div_pos; nia. apply Z.div_lt_upper_bound; nia. }
    rewrite (Z.mod_small (r * hi + c0)) by nia.
    set (t1 := r * hi + c0).
    set (c1 := t1 / HW p). set (w1 := t1 mod HW p).
    assert (Et1 : t1 = HW p * c1 + w1) by (apply Z.div_mod; lia).
    assert (Hw1 : 0 <= w1 < HW p) by (apply Z.mod_pos_bound; lia).
    assert (Hc1 : 0 <= c1 < HW p). { unfold c1, t1. split. apply Z.div_pos; nia. apply Z.div_lt_upper_bound; nia. }
    rewrite Z.lor_0_l. rewrite (Z.mod_small (w1 * HW p)) by nia.
    rewrite lor_H by (auto; lia).
    destruct (IH (length t) c1 (conj eq_refl Ht) Hc1) as [[W1 W2] [k K]].
    split.
    + split. simpl; f_equal; auto. constructor; auto. nia.
    + cbn [big_value length]. rewrite K. exists k. rewrite Nat2Z.inj_succ, Z.pow_succ_r by lia.
      assert (F0 : w0 = t0 - HW p * c0) by lia. assert (F1 : w1 = t1 - HW p * c1) by lia.
      rewrite F0, F1. unfold t1, t0. rewrite Ex, EB. ring.
Qed.

Lemma bi_mul_half_ok p n l r : 1 <= p -> wf p n l -> 0 <= r < HW p ->
  wf p n (bi_mul_half p l r) /\ val p (bi_mul_half p l r) = (val p l * r) mod B p ^ Z.of_nat n.
Proof.
  intros Hp Hl Hr. destruct (B_HH p Hp) as [EB [H2 [Hh _]]].
  destruct (mul_half_from_ok p r Hp Hr l n 0 Hl) as [W [k K]]; [lia|].
  split; auto. apply (val_mod_unique p n _ _ k); auto. lia.
Qed.

(** ** Division by a half word *)
Lemma div_small_ok p r : 1 <= p -> 0 < r < HW p -> forall l n, wf p n l ->
  wf p n (fst (div_small p l r)) /\
  val p l = val p (fst (div_small p l r)) * r + snd (div_small p l r) /\
  0 <= snd (div_small p l r) < r.
Proof.
  intros Hp Hr. destruct (B_HH p Hp) as [EB [H2 [Hh _]]].
  induction l as [|x t IH]; intros n [HL HF]; simpl in HL; subst n.
  - simpl. repeat split; auto; lia.
  - apply Forall_cons_iff in HF; destruct HF as [Hx Ht].
    destruct (IH _ (conj eq_refl Ht)) as [[W1 W2] [V C]]. cbn [div_small].
    destruct (div_small p t r) as [q c]. cbn [fst snd] in *.
    rewrite !shiftl_H, shiftr_H, land_Hmask by auto.
    set (lo := x mod HW p). set (hi := x / HW p).
    assert (Ex : x = HW p * hi + lo) by (apply Z.div_mod; lia).
    assert (Hlo : 0 <= lo < HW p) by (apply Z.mod_pos_bound; lia).
    assert (Hhi : 0 <= hi < HW p). { split. apply Z.div_pos; lia. apply Z.div_lt_upper_bound; lia. }
    rewrite (Z.mod_small (c * HW p)) by nia.
    rewrite (Z.lor_comm (c * HW p)), lor_H by (auto; lia).
    set (c1 := hi + HW p * c).
    pose proof (Z.div_mod c1 r ltac:(lia)) as D1. pose proof (Z.mod_pos_bound c1 r ltac:(lia)) as M1.
    assert (Hq1 : 0 <= c1 / r < HW p). { unfold c1. split. apply Z.div_pos; nia. apply Z.div_lt_upper_bound; nia. }
    set (q1 := c1 / r) in *. set (m1 := c1 mod r) in *.
    rewrite (Z.mod_small (m1 * HW p)) by nia.
    rewrite (Z.lor_comm (m1 * HW p)), lor_H by (auto; lia).
    set (c0 := lo + HW p * m1).
    pose proof (Z.div_mod c0 r ltac:(lia)) as D0. pose proof (Z.mod_pos_bound c0 r ltac:(lia)) as M0.
    assert (Hq0 : 0 <= c0 / r < HW p). { unfold c0. split. apply Z.div_pos; nia. apply Z.div_lt_upper_bound; nia. }
    set (q0 := c0 / r) in *. set (m0 := c0 mod r) in *.
    rewrite (Z.mod_small (q1 * HW p)) by nia.
    rewrite (Z.lor_comm (q1 * HW p)), lor_H by (auto; lia).
    split; [|split].
    + split. simpl; f_equal; auto. constructor; auto. nia.
    + cbn [big_value]. rewrite V.
      assert (E0 : m0 = c0 - r * q0) by lia. assert (E1 : m1 = c1 - r * q1) by lia.
      rewrite E0. unfold c0. rewrite E1. unfold c1. rewrite Ex, EB. ring.
    + lia.
Qed.

(** ** Multiplication of wide integers *)
Lemma pre_zero p l i : 0 <= p -> (forall j, (j < i)%nat -> get l j = 0) -> (i <= length l)%nat -> pre p l i = 0.
Proof.
  intros Hp. induction i; intros Hz Hi. reflexivity.
  rewrite pre_S by (auto; lia). rewrite IHi by (auto; lia). rewrite Hz by lia. lia.
Qed.

Lemma mul_add_from_ok p n iw res part : 0 <= p -> (0 < n)%nat -> (iw <= n)%nat -> wf p n res -> wf p n part ->
  (forall j, (j < iw)%nat -> get part j = 0) ->
  wf p n (mul_add_from p iw res part) /\
  exists k, val p (mul_add_from p iw res part) = val p res + val p part + k * B p ^ Z.of_nat n.
Proof.
  intros Hp Hn Hiw Hr Hpt Hz. destruct n as [|m]; [lia|].
  assert (HLr : length res = S m) by apply Hr. assert (HLp : length part = S m) by apply Hpt.
  unfold mul_add_from, max_ix. rewrite HLr. cbn [pred].
  set (f := fun j s => _).
  pose (P := fun i s => wf p (S m) s /\ exists k, val p s = val p res + pre p part i + k * B p ^ Z.of_nat (S m)).
  assert (HP : P (iw + (S m - iw))%nat (loop (S m - iw) iw f res)).
  { apply loop_inv.
    - split; auto. exists 0. rewrite pre_zero by (auto; lia). lia.
    - intros j s Hj [W [k K]]. unfold f. cbv beta zeta.
      destruct (add_word_spec p (S m) m s part j) as [W' [k' K']]; auto; try lia.
      split; auto. exists (k + k'). rewrite K', K, pre_S by (auto; lia). ring. }
  replace (iw + (S m - iw))%nat with (S m) in HP by lia.
  destruct HP as [W [k K]]. split; auto. exists k. rewrite K, pre_full by lia. ring.
Qed.

Lemma get_val p n l i : 0 <= p -> wf p n l -> (i < n)%nat ->
  get l i = (val p l / B p ^ Z.of_nat i) mod B p.
Proof.
  intros Hp Hl Hi. destruct (val_split p n l i Hp Hl ltac:(lia)) as [V1 V2].
  rewrite V1. rewrite Z.mul_comm, Z_div_plus_full, Z.div_small by (auto; lia).
  destruct (skipn i l) as [|y t] eqn:E.
  - assert (length (skipn i l) = 0%nat) by now rewrite E. rewrite skipn_length in H. destruct Hl; lia.
  - cbn [big_value]. rewrite Z.add_0_l. rewrite (Z.mul_comm (B p)). rewrite Z_mod_plus_full.
    assert (G : get l i = y). { replace i with (i + 0)%nat by lia. rewrite <- get_skipn, E. reflexivity. }
    rewrite G. symmetry. apply Z.mod_small.
    pose proof (get_bound p n l i Hp Hl). lia.
Qed.

Lemma get_shl_low p n r i : 0 <= p -> wf p n r -> 0 <= i ->
  forall j, (j < Z.to_nat (i / wbits p))%nat -> (j < n)%nat -> get (bi_shl p r i) j = 0.
Proof.
  intros Hp Hr Hi j Hj Hjn. pose proof (wbits_pos p Hp) as Hw.
  destruct (bi_shl_ok p n r i Hp Hr Hi) as [W V].
  rewrite (get_val p n) by auto. rewrite V.
  assert (Hji : (Z.of_nat j + 1) * wbits p <= i).
  { assert (Z.of_nat j + 1 <= i / wbits p) by lia.
    pose proof (Z.mul_div_le i (wbits p) ltac:(lia)). nia. }
  rewrite !Bpow_eq by lia. unfold B.
  apply Z.bits_inj'. intros b Hb. rewrite Z.bits_0.
  destruct (Z_lt_ge_dec b (wbits p)).
  2:{ apply Z.mod_pow2_bits_high. lia. }
  rewrite Z.mod_pow2_bits_low by lia. rewrite Z.div_pow2_bits by nia.
  rewrite Z.mod_pow2_bits_low by nia. apply Z.mul_pow2_bits_low. nia.
Qed.

Lemma bit_of_word p n l i : 0 <= p -> wf p n l -> 0 <= i -> i / wbits p < Z.of_nat n ->
  Z.land 1 (Z.shiftr (get l (Z.to_nat (i / wbits p))) (i - Z.of_nat (Z.to_nat (i / wbits p)) * wbits p))
  = (val p l / 2 ^ i) mod 2.
Proof.
  intros Hp Hl Hi Hin. pose proof (wbits_pos p Hp) as Hw.
  pose proof (Z.div_pos i (wbits p) Hi ltac:(lia)) as Hq.
  rewrite (get_val p n) by (auto; lia). rewrite Z2Nat.id by lia.
  rewrite Z.land_comm. change 1 with (Z.ones 1) at 1. rewrite Z.land_ones, Z.pow_1_r by lia.
  pose proof (Z.div_mod i (wbits p) ltac:(lia)) as D. pose proof (Z.mod_pos_bound i (wbits p) ltac:(lia)) as M.
  set (q := i / wbits p) in *. replace (i - q * wbits p) with (i mod wbits p) by lia.
  set (m := i mod wbits p) in *.
  rewrite Bpow_eq by lia. unfold B.
  rewrite <- !Z.bit0_mod. f_equal.
  rewrite Z.shiftr_spec by lia. rewrite Z.mod_pow2_bits_low by lia.
  rewrite !Z.div_pow2_bits by nia. f_equal. lia.
Qed.

Lemma mul_loop_ok p n l r : 1 <= p -> (0 < n)%nat -> wf p n l -> wf p n r -> 0 < val p r ->
  forall k i res, wf p n res ->
  Z.of_nat i + Z.of_nat k + Z.log2 (val p r) <= wbits p * Z.of_nat n ->
  wf p n (mul_loop p k i l r res) /\
  exists q, val p (mul_loop p k i l r res) =
   val p res + val p r * (2 ^ Z.of_nat i * ((val p l / 2 ^ Z.of_nat i) mod 2 ^ Z.of_nat k)) + q * B p ^ Z.of_nat n.
Proof.
  intros Hp Hn Hl Hr Hr0. pose proof (wbits_pos p ltac:(lia)) as Hw.
  induction k; intros i res Hres Hb.
  - simpl. split; auto. exists 0. rewrite Z.mod_1_r. lia.
  - cbn [mul_loop]. destruct (bi_shl_ok p n r (Z.of_nat i) ltac:(lia) Hr ltac:(lia)) as [W V].
    set (part := bi_shl p r (Z.of_nat i)) in *.
    assert (Vp : val p part = val p r * 2 ^ Z.of_nat i).
    { rewrite V. apply Z.mod_small. pose proof (Z.log2_spec (val p r) Hr0) as [L1 L2].
      rewrite Bpow_eq by lia. split; [pose proof (Z.pow_pos_nonneg 2 (Z.of_nat i)); nia|].
      apply Z.lt_le_trans with (2 ^ Z.succ (Z.log2 (val p r)) * 2 ^ Z.of_nat i).
      - apply Z.mul_lt_mono_pos_r; auto. apply Z.pow_pos_nonneg; lia.
      - pose proof (Z.log2_nonneg (val p r)). rewrite <- Z.pow_add_r by lia. apply Z.pow_le_mono_r; lia. }
    pose proof (Z.pow_pos_nonneg 2 (Z.of_nat i) ltac:(lia) ltac:(lia)) as Pi.
    rewrite (bi_compare_0_ok p n) by (auto; lia). rewrite Vp.
    rewrite Z.sgn_pos by nia. simpl (1 =? 0). cbv iota.
    pose proof (Z.log2_nonneg (val p r)) as Hlog.
    assert (Hiq : Z.of_nat i / wbits p < Z.of_nat n) by (apply Z.div_lt_upper_bound; lia).
    rewrite (bit_of_word p n) by (auto; lia).
    set (b := (val p l / 2 ^ Z.of_nat i) mod 2).
    assert (Hbit : 0 <= b < 2) by (apply Z.mod_pos_bound; lia).
    set (res' := if b =? 0 then res else mul_add_from p (Z.to_nat (Z.of_nat i / wbits p)) res part).
    assert (HR : wf p n res' /\ exists q, val p res' = val p res + b * val p part + q * B p ^ Z.of_nat n).
    { unfold res'. destruct (Z.eqb_spec b 0) as [e|e].
      - split; auto. exists 0. rewrite e. ring.
      - replace b with 1 by lia.
        destruct (mul_add_from_ok p n (Z.to_nat (Z.of_nat i / wbits p)) res part) as [W' [q Q]]; auto; try lia.
        + intros j Hj. apply (get_shl_low p n); auto; try lia.
        + split; auto. exists q. rewrite Q. ring. }
    destruct HR as [WR [q Q]].
    destruct (IHk (S i) res' WR ltac:(lia)) as [W' [q' Q']]. split; auto.
    exists (q + q'). rewrite Q', Q, Vp.
    replace (2 ^ Z.of_nat (S k)) with (2 * 2 ^ Z.of_nat k) by (rewrite Nat2Z.inj_succ, Z.pow_succ_r; lia).
    replace (2 ^ Z.of_nat (S i)) with (2 ^ Z.of_nat i * 2) by (rewrite Nat2Z.inj_succ, Z.pow_succ_r; lia).
    rewrite <- Z.div_div by lia.
    rewrite (Z.rem_mul_r (val p l / 2 ^ Z.of_nat i) 2) by (try apply Z.pow_pos_nonneg; lia).
    fold b. ring.
Qed.

Lemma wf_zero p n (l : list Z) : 0 <= p -> length l = n -> wf p n (map (fun _ => 0) l).
Proof. intros. rewrite map_zero. split. rewrite repeat_length; auto. now apply Forall_repeat0. Qed.
Lemma val_zero p (l : list Z) : val p (map (fun _ => 0) l) = 0.
Proof. rewrite map_zero. apply val_repeat0. Qed.

Lemma bi_mul_char p n l r : 1 <= p -> (0 < n)%nat -> wf p n l -> wf p n r ->
  exists res, bi_mul p l r = Some res /\ wf p n res /\
    val p res = if val p r <=? 1 then val p l
                else (val p r * (val p l mod 2 ^ (wbits p * Z.of_nat n - Z.log2 (val p r)))) mod B p ^ Z.of_nat n.
Proof.
  intros Hp Hn Hl Hr. unfold bi_mul. assert (HL : length l = n) by apply Hl. rewrite HL.
  rewrite (bi_log2_ok p n) by (auto; apply bits_bound; auto; lia).
  pose proof (val_bound p n r ltac:(lia) Hr) as Hb.
  destruct (Z.leb_spec (val p r) 1).
  - exists l. assert (E : Z.log2 (val p r) = 0) by (assert (val p r = 0 \/ val p r = 1) as [-> | ->] by lia; reflexivity).
    rewrite E. simpl. auto.
  - assert (HE : Z.log2 (val p r) <> 0) by (pose proof (Z.log2_pos (val p r)); lia).
    destruct (Z.eqb_spec (Z.log2 (val p r)) 0); [lia|].
    assert (Hlog : Z.log2 (val p r) < wbits p * Z.of_nat n).
    { apply Z.log2_lt_pow2; [lia|]. rewrite Z.mul_comm, <- Bpow_eq by lia. lia. }
    pose proof (Z.log2_nonneg (val p r)).
    destruct (mul_loop_ok p n l r Hp Hn Hl Hr ltac:(lia)
      (Z.to_nat (wbits p * Z.of_nat n - Z.log2 (val p r))) 0 (map (fun _ => 0) l)) as [W [q Q]].
    + apply wf_zero; auto; lia.
    + lia.
    + eexists. split; [reflexivity|]. split; auto.
      rewrite val_zero in Q. change (Z.of_nat 0) with 0 in Q. rewrite Z.pow_0_r, Z.div_1_r, Z2Nat.id in Q by lia.
      apply (val_mod_unique p n _ _ q); auto; try lia.
Qed.

Lemma bi_mul_exact p n l r : 1 <= p -> (0 < n)%nat -> wf p n l -> wf p n r ->
  0 < val p r -> val p l * val p r < B p ^ Z.of_nat n ->
  exists res, bi_mul p l r = Some res /\ wf p n res /\ val p res = val p l * val p r.
Proof.
  intros Hp Hn Hl Hr Hr0 Hov. destruct (bi_mul_char p n l r Hp Hn Hl Hr) as [res [E [W V]]].
  exists res. split; auto. split; auto. rewrite V.
  destruct (Z.leb_spec (val p r) 1).
  - replace (val p r) with 1 by lia. lia.
  - pose proof (val_bound p n l ltac:(lia) Hl).
    pose proof (Z.log2_spec (val p r) Hr0) as [L1 L2]. pose proof (wbits_pos p ltac:(lia)).
    assert (Hlog : Z.log2 (val p r) < wbits p * Z.of_nat n).
    { apply Z.log2_lt_pow2; [lia|]. rewrite Z.mul_comm, <- Bpow_eq by lia. apply (val_bound p n r); auto; lia. }
    rewrite (Z.mod_small (val p l)).
    + rewrite Z.mod_small by nia. ring.
    + split; [lia|]. apply Z.mul_lt_mono_pos_r with (2 ^ Z.log2 (val p r)).
      * apply Z.pow_pos_nonneg; [lia|apply Z.log2_nonneg].
      * pose proof (Z.log2_nonneg (val p r)). rewrite <- Z.pow_add_r by lia.
        replace (wbits p * Z.of_nat n - Z.log2 (val p r) + Z.log2 (val p r)) with (Z.of_nat n * wbits p) by lia.
        rewrite <- Bpow_eq by lia. nia.
Qed.

(** ** Division of wide integers *)
Lemma wf_one p n (l : list Z) : 0 <= p -> (0 < n)%nat -> length l = n ->
  wf p n (upd (map (fun _ => 0) l) 0 1) /\ val p (upd (map (fun _ => 0) l) 0 1) = 1.
Proof.
  intros Hp Hn HL. pose proof (B_ge2 p Hp). split.
  - apply wf_upd. now apply wf_zero. lia.
  - rewrite val_upd by (auto; rewrite map_length; lia). rewrite val_zero. rewrite map_zero.
    rewrite get_repeat0. simpl. lia.
Qed.

(** Every step keeps q * right + rem = left modulo 2^BITS. *)
Lemma div_step_cong p n r q rem st' fuel : 1 <= p -> (0 < n)%nat -> wf p n r -> wf p n q -> wf p n rem ->
  val p rem < 2 ^ Z.of_nat fuel ->
  forall rl, div_step p r rl fuel (q, rem) = Some st' ->
  wf p n (fst st') /\ wf p n (snd st') /\
  exists k, val p (fst st') * val p r + val p (snd st') = val p q * val p r + val p rem + k * B p ^ Z.of_nat n.
Proof.
  intros Hp Hn Hr Hq Hrem Hfuel rl E. unfold div_step in E.
  rewrite (bi_log2_ok p n) in E by auto.
  set (d := Z.log2 (val p rem) - rl) in *.
  pose proof (Bpow_pos p (Z.of_nat n) ltac:(lia) ltac:(lia)) as HM.
  destruct (wf_one p n r ltac:(lia) Hn ltac:(apply Hr)) as [W1 V1].
  destruct (Z.ltb_spec 0 d).
  - injection E as <-. cbn [fst snd].
    destruct (bi_shl_ok p n _ d ltac:(lia) W1 ltac:(lia)) as [W2 V2].
    destruct (bi_shl_ok p n _ d ltac:(lia) Hr ltac:(lia)) as [W3 V3].
    destruct (bi_add_ip_ok p n q _ ltac:(lia) Hn Hq W2) as [W4 V4].
    destruct (bi_sub_ip_ok p n rem _ ltac:(lia) Hn Hrem W3) as [W5 V5].
    split; auto. split; auto. rewrite V4, V5, V2, V3, V1. clear V1 V2 V3 V4 V5.
    set (M := B p ^ Z.of_nat n) in *.
    rewrite Zplus_mod_idemp_r, Zminus_mod_idemp_r.
    rewrite !(Zmod_eq_full _ M) by lia.
    eexists (- ((val p q + 1 * 2 ^ d) / M) * val p r - ((val p rem - val p r * 2 ^ d) / M)). ring.
  - injection E as <-. cbn [fst snd]. pose proof (B_ge2 p ltac:(lia)).
    destruct (bi_increment_ok p n q 1 ltac:(lia) Hn Hq ltac:(lia)) as [W4 V4].
    destruct (bi_sub_ip_ok p n rem _ ltac:(lia) Hn Hrem Hr) as [W5 V5].
    split; auto. split; auto. rewrite V4, V5. clear V1 V4 V5.
    set (M := B p ^ Z.of_nat n) in *.
    rewrite !(Zmod_eq_full _ M) by lia.
    eexists (- ((val p q + 1) / M) * val p r - ((val p rem - val p r) / M)). ring.
Qed.

Lemma div_loop_cong p n r rl : 1 <= p -> (0 < n)%nat -> wf p n r ->
  forall fuel q rem st', wf p n q -> wf p n rem -> div_loop p fuel r rl (q, rem) = Some st' ->
  wf p n (fst st') /\ wf p n (snd st') /\ val p (snd st') < val p r /\
  exists k, val p (fst st') * val p r + val p (snd st') = val p q * val p r + val p rem + k * B p ^ Z.of_nat n.
Proof.
  intros Hp Hn Hr. induction fuel; intros q rem st' Hq Hrem E.
  - simpl in E. rewrite (bi_compare_ok p n) in E by (auto; lia).
    destruct (Z.ltb_spec (Z.sgn (val p rem - val p r)) 0); [|discriminate].
    injection E as <-. cbn [fst snd]. spl; auto; try lia.
    exists 0. ring.
  - cbn [div_loop snd] in E. rewrite (bi_compare_ok p n) in E by (auto; lia).
    destruct (Z.ltb_spec (Z.sgn (val p rem - val p r)) 0).
    + injection E as <-. cbn [fst snd]. spl; auto; try lia.
      exists 0. ring.
    + destruct (div_step p r rl _ (q, rem)) as [[q' rem']|] eqn:ES; [|discriminate].
      assert (HLr : length r = n) by apply Hr. rewrite HLr in ES.
      pose proof (bits_bound p n rem ltac:(lia) Hrem) as BB.
      destruct (div_step_cong p n r q rem _ _ Hp Hn Hr Hq Hrem BB rl ES)
        as [W1 [W2 [k K]]]. cbn [fst snd] in *.
      destruct (IHfuel q' rem' st' W1 W2 E) as [W3 [W4 [L [k' K']]]].
      spl; auto. exists (k + k'). rewrite K', K. ring.
Qed.

Lemma log2_test_dead p n r : 1 <= p -> (0 < n)%nat -> wf p n r -> 0 < val p r ->
  forall l : list Z, length l = n ->
  (bi_compare r (bi_shl p (upd (map (fun _ => 0) l) 0 1) (Z.log2 (val p r))) <? 0) = false.
Proof.
  intros Hp Hn Hr Hr0 l HL. destruct (wf_one p n l ltac:(lia) Hn HL) as [W1 V1].
  pose proof (Z.log2_nonneg (val p r)).
  destruct (bi_shl_ok p n _ (Z.log2 (val p r)) ltac:(lia) W1 H) as [W2 V2].
  rewrite (bi_compare_ok p n) by (auto; lia). rewrite V2, V1, Z.mul_1_l.
  pose proof (Z.log2_spec (val p r) Hr0) as [L1 L2].
  pose proof (val_bound p n r ltac:(lia) Hr).
  rewrite Z.mod_small by (split; [apply Z.pow_nonneg; lia|lia]).
  apply Z.ltb_ge. apply Z.sgn_nonneg. lia.
Qed.

(** When it terminates, bi_div_mod satisfies Euclid's equation modulo 2^BITS with a small remainder. *)
Lemma bi_div_mod_cong p n fuel l r q rem : 1 <= p -> (0 < n)%nat -> wf p n l -> wf p n r -> 0 < val p r ->
  bi_div_mod p fuel l r = Some (q, rem) ->
  wf p n q /\ wf p n rem /\ val p rem < val p r /\
  (val p q * val p r + val p rem) mod B p ^ Z.of_nat n = val p l.
Proof.
  intros Hp Hn Hl Hr Hr0 E. destruct (B_HH p Hp) as [EB [H2 [Hh _]]].
  assert (HL : length l = n) by apply Hl. assert (HLr : length r = n) by apply Hr.
  pose proof (val_bound p n l ltac:(lia) Hl) as Bl. pose proof (val_bound p n r ltac:(lia) Hr) as Br.
  unfold bi_div_mod in E. rewrite (bi_compare_ok p n) in E by (auto; lia).
  destruct (wf_one p n l ltac:(lia) Hn HL) as [W1 V1].
  destruct (Z.ltb_spec (Z.sgn (val p l - val p r)) 0) as [C|C].
  { injection E as <- <-. rewrite val_zero.
    assert (val p l - val p r < 0) by (pose proof (Z.sgn_spec (val p l - val p r)); lia).
    spl; auto; try (apply wf_zero; auto; lia); try lia. rewrite Z.mul_0_l, Z.add_0_l. apply Z.mod_small. lia. }
  destruct (Z.eqb_spec (Z.sgn (val p l - val p r)) 0) as [C'|C'].
  { injection E as <- <-. apply Z.sgn_null_iff in C'. rewrite val_zero, V1.
    spl; auto; try (apply wf_zero; auto; lia); try lia.
    rewrite Z.mod_small; lia. }
  destruct ((get r 0 <=? HW p - 1) && negb (existsb (fun x => negb (x =? 0)) (tl r)))%bool eqn:EC.
  { apply andb_true_iff in EC. destruct EC as [E1 E2]. apply Z.leb_le in E1.
    destruct r as [|x t]; [simpl in HLr; lia|]. destruct Hr as [_ HFr]. apply Forall_cons_iff in HFr. destruct HFr as [Hx Ht].
    cbn [tl] in E2. rewrite (existsb_nz p) in E2 by (auto; lia). rewrite negb_involutive in E2. apply Z.eqb_eq in E2.
    change (get (x :: t) 0) with x in *. cbn [big_value] in *. rewrite E2 in *.
    rewrite Z.mul_0_r, Z.add_0_r in *.
    destruct (div_small_ok p x Hp ltac:(lia) l n Hl) as [Wq [Vq Cq]].
    destruct (div_small p l x) as [q0 c0]. injection E as <- <-. cbn [fst snd] in *.
    assert (Vr : val p (upd (map (fun _ => 0) l) 0 c0) = c0).
    { rewrite val_upd by (try rewrite map_length; lia). rewrite val_zero, map_zero, get_repeat0. simpl. lia. }
    rewrite Vr. split; auto. split. apply wf_upd. apply wf_zero; auto; lia. nia.
    split; [lia|]. rewrite <- Vq. apply Z.mod_small. lia. }
  rewrite HLr in E.
  rewrite (bi_log2_ok p n) in E by (auto; apply bits_bound; auto; lia).
  rewrite (log2_test_dead p n) in E by auto.
  destruct (div_loop_cong p n r _ Hp Hn Hr fuel _ _ _ (wf_zero p n l ltac:(lia) HL) Hl E) as [W3 [W4 [L [k K]]]].
  cbn [fst snd] in *. spl; auto. rewrite val_zero in K.
  rewrite K. rewrite Z.mul_0_l, Z.add_0_l. rewrite Z_mod_plus_full. apply Z.mod_small. lia.
Qed.

(** Exactness for divisors that fit a half word. *)
Lemma bi_div_mod_half p n fuel l r : 1 <= p -> (0 < n)%nat -> wf p n l -> wf p n r ->
  0 < val p r < HW p ->
  exists q rem, bi_div_mod p fuel l r = Some (q, rem) /\ wf p n q /\ wf p n rem /\
   val p q = val p l / val p r /\ val p rem = val p l mod val p r.
Proof.
  intros Hp Hn Hl Hr Hr0. destruct (B_HH p Hp) as [EB [H2 [Hh _]]].
  assert (HL : length l = n) by apply Hl. assert (HLr : length r = n) by apply Hr.
  pose proof (val_bound p n l ltac:(lia) Hl) as Bl.
  unfold bi_div_mod. rewrite (bi_compare_ok p n) by (auto; lia).
  destruct (wf_one p n l ltac:(lia) Hn HL) as [W1 V1].
  destruct (Z.ltb_spec (Z.sgn (val p l - val p r)) 0) as [C|C].
  { assert (val p l - val p r < 0) by (pose proof (Z.sgn_spec (val p l - val p r)); lia).
    eexists; eexists. split; [reflexivity|]. rewrite val_zero. rewrite Z.div_small, Z.mod_small by lia.
    spl; auto; apply wf_zero; auto; lia. }
  destruct (Z.eqb_spec (Z.sgn (val p l - val p r)) 0) as [C'|C'].
  { apply Z.sgn_null_iff in C'. eexists; eexists. split; [reflexivity|]. rewrite val_zero, V1.
    replace (val p l) with (val p r) by lia. rewrite Z.div_same, Z.mod_same by lia.
    spl; auto; apply wf_zero; auto; lia. }
  destruct r as [|x t]; [simpl in HLr; lia|]. destruct Hr as [_ HFr]. apply Forall_cons_iff in HFr. destruct HFr as [Hx Ht].
  cbn [tl]. rewrite (existsb_nz p) by (auto; lia). rewrite negb_involutive.
  change (get (x :: t) 0) with x in *. cbn [big_value] in *.
  pose proof (val_bound p _ t ltac:(lia) (conj eq_refl Ht)) as Bt.
  assert (Et : val p t = 0) by nia. rewrite Et in *. rewrite Z.mul_0_r, Z.add_0_r in *.
  destruct (Z.leb_spec x (HW p - 1)); [|lia]. simpl andb. cbv iota.
  destruct (div_small_ok p x Hp ltac:(lia) l n Hl) as [Wq [Vq Cq]].
  destruct (div_small p l x) as [q0 c0]. cbn [fst snd] in *.
  exists q0, (upd (map (fun _ => 0) l) 0 c0). split; [reflexivity|].
  assert (Vr : val p (upd (map (fun _ => 0) l) 0 c0) = c0).
  { rewrite val_upd by (try rewrite map_length; lia). rewrite val_zero, map_zero, get_repeat0. simpl. lia. }
  split; auto. split. apply wf_upd. apply wf_zero; auto; lia. nia.
  rewrite Vr. split.
  - apply (Z.div_unique _ _ _ c0); lia.
  - apply (Z.mod_unique _ _ (val p q0)); lia.
Qed.

(** Exactness for power-of-two divisors (the long-division path never underflows). *)
Lemma div_loop_pow2 p n r e : 1 <= p -> (0 < n)%nat -> wf p n r -> 0 <= e -> val p r = 2 ^ e ->
  forall fuel q rem, wf p n q -> wf p n rem -> val p rem < 2 ^ Z.of_nat fuel ->
  val p q + val p rem / 2 ^ e < B p ^ Z.of_nat n ->
  exists q' rem', div_loop p fuel r e (q, rem) = Some (q', rem') /\ wf p n q' /\ wf p n rem' /\
    val p q' = val p q + val p rem / 2 ^ e /\ val p rem' = val p rem mod 2 ^ e.
Proof.
  intros Hp Hn Hr He Er. assert (HLr : length r = n) by apply Hr.
  pose proof (Z.pow_pos_nonneg 2 e ltac:(lia) He) as Pe.
  induction fuel; intros q rem Hq Hrem Hf Hov; pose proof (val_bound p n rem ltac:(lia) Hrem) as Brem.
  - simpl in Hf. assert (E0 : val p rem = 0) by lia. simpl. rewrite (bi_compare_ok p n) by (auto; lia).
    rewrite Er, E0. rewrite Z.sgn_neg by lia. simpl. exists q, rem. rewrite Z.div_0_l, Z.mod_0_l by lia.
    spl; auto; try lia.
  - cbn [div_loop snd]. rewrite (bi_compare_ok p n) by (auto; lia). rewrite Er.
    destruct (Z.ltb_spec (Z.sgn (val p rem - 2 ^ e)) 0) as [C|C].
    + assert (val p rem - 2 ^ e < 0) by (pose proof (Z.sgn_spec (val p rem - 2 ^ e)); lia).
      exists q, rem. rewrite Z.div_small, Z.mod_small by lia.
      spl; auto; try lia.
    + assert (Hge : 2 ^ e <= val p rem) by (pose proof (Z.sgn_spec (val p rem - 2 ^ e)); lia).
      rewrite HLr. unfold div_step. rewrite (bi_log2_ok p n) by (auto; apply bits_bound; auto; lia).
      pose proof (Z.log2_spec (val p rem) ltac:(lia)) as [L1 L2].
      assert (Hle : e <= Z.log2 (val p rem)) by (apply Z.log2_le_pow2; lia).
      set (lg := Z.log2 (val p rem)) in *.
      destruct (wf_one p n r ltac:(lia) Hn HLr) as [W1 V1].
      assert (Hstep : exists q1 rem1,
        (if 0 <? lg - e
         then Some (bi_add_ip p q (bi_shl p (upd (map (fun _ => 0) r) 0 1) (lg - e)), bi_sub_ip p rem (bi_shl p r (lg - e)))
         else Some (bi_increment p q 1, bi_sub_ip p rem r)) = Some (q1, rem1) /\
        wf p n q1 /\ wf p n rem1 /\ val p q1 = val p q + 2 ^ (lg - e) /\ val p rem1 = val p rem - 2 ^ lg).
      { pose proof (val_bound p n q ltac:(lia) Hq) as Bq.
        assert (Hq2 : 2 ^ (lg - e) <= val p rem / 2 ^ e).
        { apply Z.div_le_lower_bound; [lia|]. rewrite <- Z.pow_add_r by lia. replace (e + (lg - e)) with lg by lia. lia. }
        destruct (Z.ltb_spec 0 (lg - e)) as [Cd|Cd].
        - eexists; eexists. split; [reflexivity|].
          destruct (bi_shl_ok p n _ (lg - e) ltac:(lia) W1 ltac:(lia)) as [W2 V2].
          destruct (bi_shl_ok p n _ (lg - e) ltac:(lia) Hr ltac:(lia)) as [W3 V3].
          destruct (bi_add_ip_ok p n q _ ltac:(lia) Hn Hq W2) as [W4 V4].
          destruct (bi_sub_ip_ok p n rem _ ltac:(lia) Hn Hrem W3) as [W5 V5].
          split; auto. split; auto. rewrite V4, V5, V2, V3, V1, Er.
          rewrite <- Z.pow_add_r by lia. replace (e + (lg - e)) with lg by lia. rewrite Z.mul_1_l.
          rewrite Zplus_mod_idemp_r, Zminus_mod_idemp_r.
          pose proof (Z.pow_nonneg 2 (lg - e) ltac:(lia)). pose proof (Z.pow_nonneg 2 lg ltac:(lia)).
          rewrite !Z.mod_small by lia. lia.
        - assert (lg = e) by lia. rewrite H in *. replace (e - e) with 0 in * by lia. rewrite Z.pow_0_r in *.
          eexists; eexists. split; [reflexivity|]. pose proof (B_ge2 p ltac:(lia)).
          destruct (bi_increment_ok p n q 1 ltac:(lia) Hn Hq ltac:(lia)) as [W4 V4].
          destruct (bi_sub_ip_ok p n rem _ ltac:(lia) Hn Hrem Hr) as [W5 V5].
          split; auto. split; auto. rewrite V4, V5, Er. rewrite !Z.mod_small by lia. lia. }
      destruct Hstep as [q1 [rem1 [E1 [Wq1 [Wr1 [Vq1 Vr1]]]]]].
      cbv zeta. rewrite E1. clear E1.
      assert (Hdm : val p rem = val p rem1 + 2 ^ (lg - e) * 2 ^ e).
      { rewrite Vr1. rewrite <- Z.pow_add_r by lia. replace (lg - e + e) with lg by lia. lia. }
      assert (Hd : val p rem / 2 ^ e = val p rem1 / 2 ^ e + 2 ^ (lg - e)).
      { rewrite Hdm. apply Z_div_plus_full. lia. }
      assert (Hm : val p rem mod 2 ^ e = val p rem1 mod 2 ^ e).
      { rewrite Hdm. apply Z_mod_plus_full. }
      destruct (IHfuel q1 rem1 Wq1 Wr1) as [q' [rem' [E' [Wq' [Wr' [Vq' Vr']]]]]].
      * assert (lg < Z.of_nat (S fuel)).
        { apply Z.log2_lt_pow2; lia. }
        rewrite Vr1. assert (2 ^ Z.succ lg = 2 * 2 ^ lg) by (apply Z.pow_succ_r; lia).
        assert (2 ^ lg <= 2 ^ Z.of_nat fuel) by (apply Z.pow_le_mono_r; lia). lia.
      * rewrite Vq1. lia.
      * exists q', rem'. split; auto. split; auto. split; auto. rewrite Vq', Vr', Vq1, Hd, Hm. lia.
Qed.

Lemma bi_div_mod_pow2 p n fuel l r e : 1 <= p -> (0 < n)%nat -> wf p n l -> wf p n r ->
  0 <= e -> val p r = 2 ^ e -> B p ^ Z.of_nat n <= 2 ^ Z.of_nat fuel ->
  exists q rem, bi_div_mod p fuel l r = Some (q, rem) /\ wf p n q /\ wf p n rem /\
   val p q = val p l / val p r /\ val p rem = val p l mod val p r.
Proof.
  intros Hp Hn Hl Hr He Er Hfuel. destruct (B_HH p Hp) as [EB [H2 [Hh _]]].
  pose proof (Z.pow_pos_nonneg 2 e ltac:(lia) He) as Pe.
  destruct (Z_lt_ge_dec (val p r) (HW p)) as [Hs|Hs]; [apply bi_div_mod_half; auto; lia|].
  assert (HL : length l = n) by apply Hl. assert (HLr : length r = n) by apply Hr.
  pose proof (val_bound p n l ltac:(lia) Hl) as Bl.
  unfold bi_div_mod. rewrite (bi_compare_ok p n) by (auto; lia).
  destruct (wf_one p n l ltac:(lia) Hn HL) as [W1 V1].
  destruct (Z.ltb_spec (Z.sgn (val p l - val p r)) 0) as [C|C].
  { assert (val p l - val p r < 0) by (pose proof (Z.sgn_spec (val p l - val p r)); lia).
    eexists; eexists. split; [reflexivity|]. rewrite val_zero. rewrite Z.div_small, Z.mod_small by lia.
    spl; auto; apply wf_zero; auto; lia. }
  destruct (Z.eqb_spec (Z.sgn (val p l - val p r)) 0) as [C'|C'].
  { apply Z.sgn_null_iff in C'. eexists; eexists. split; [reflexivity|]. rewrite val_zero, V1.
    replace (val p l) with (val p r) by lia. rewrite Z.div_same, Z.mod_same by lia.
    spl; auto; apply wf_zero; auto; lia. }
  assert (EC : ((get r 0 <=? HW p - 1) && negb (existsb (fun x => negb (x =? 0)) (tl r)))%bool = false).
  { destruct r as [|x t]; [simpl in HLr; lia|]. destruct Hr as [_ HFr]. apply Forall_cons_iff in HFr. destruct HFr as [Hx Ht].
    cbn [tl]. rewrite (existsb_nz p) by (auto; lia). rewrite negb_involutive.
    change (get (x :: t) 0) with x in *. cbn [big_value] in *.
    destruct (Z.leb_spec x (HW p - 1)); simpl; auto. apply Z.eqb_neq. intros E0. rewrite E0 in Hs. lia. }
  rewrite EC. rewrite HLr.
  rewrite (bi_log2_ok p n) by (auto; apply bits_bound; auto; lia).
  rewrite (log2_test_dead p n) by (auto; lia). rewrite Er. rewrite Z.log2_pow2 by lia.
  assert (Hdle : val p l / 2 ^ e <= val p l) by (apply Z.div_le_upper_bound; nia).
  destruct (div_loop_pow2 p n r e Hp Hn Hr He Er fuel (map (fun _ => 0) l) l) as [q' [rem' [E' [Wq' [Wr' [Vq' Vr']]]]]]; auto.
  - apply wf_zero; auto; lia.
  - lia.
  - rewrite val_zero. lia.
  - exists q', rem'. rewrite val_zero in Vq'. spl; auto.
Qed.

(** ** operator+ and operator- under the conditions in which they are exact *)
Lemma bi_plus_restricted p n l r : 0 <= p -> (0 < n)%nat -> wf p n l -> wf p n r ->
  get l (n - 1) = 0 -> (forall i, (i < n)%nat -> get r i < B p - 1) ->
  wf p n (bi_plus p l r) /\ val p (bi_plus p l r) = (val p l + val p r) mod B p ^ Z.of_nat n.
Proof.
  intros Hp Hn Hl Hr Htop Hno. destruct n as [|m]; [lia|]. pose proof (B_ge2 p Hp) as HB.
  assert (HLl : length l = S m) by apply Hl. assert (HLr : length r = S m) by apply Hr.
  unfold bi_plus, max_ix. rewrite HLl. cbn [pred]. replace (S m - 1)%nat with m in Htop by lia.
  set (f := fun i s => _).
  pose (P := fun i s => wf p (S m) s /\ val p s = pre p l i + pre p r i /\ (0 <= get s i <= 1) /\
     (forall j, (i < j)%nat -> get s j = 0)).
  assert (HP : P (0 + m)%nat (loop m 0 f (map (fun _ => 0) l))).
  { apply loop_inv.
    - split. now apply wf_zero. rewrite val_zero. unfold pre; simpl. rewrite map_zero, get_repeat0.
      split; auto. split; [lia|]. intros. apply get_repeat0.
    - intros j s Hj [W [V [C Z0]]]. unfold f. cbv beta zeta.
      pose proof (get_bound p _ l j Hp Hl) as Gl. pose proof (get_bound p _ r j Hp Hr) as Gr.
      specialize (Hno j ltac:(lia)).
      assert (HLs : length s = S m) by apply W.
      rewrite get_upd_eq by lia.
      set (s1 := upd s j ((get s j + (get l j + get r j)) mod B p)).
      assert (W1 : wf p (S m) s1) by (apply wf_mod; auto).
      split; [|split; [|split]].
      + apply wf_upd; auto. destruct (_ <? _); lia.
      + rewrite val_upd by (try unfold s1; try rewrite length_upd; auto; lia).
        assert (G1 : get s1 (S j) = 0) by (unfold s1; rewrite get_upd_ne by lia; apply Z0; lia).
        rewrite G1. unfold s1. rewrite val_upd by (auto; lia). rewrite V. rewrite !pre_S by (auto; lia).
        rewrite Nat2Z.inj_succ, Z.pow_succ_r by lia.
        destruct (Z_lt_ge_dec (get s j + (get l j + get r j)) (B p)) as [Cc|Cc].
        * rewrite Z.mod_small by lia. destruct (Z.ltb_spec (get s j + (get l j + get r j)) (get l j)); [lia|]. ring.
        * replace ((get s j + (get l j + get r j)) mod B p) with (get s j + (get l j + get r j) - B p)
            by (replace (get s j + (get l j + get r j)) with ((get s j + (get l j + get r j) - B p) + 1 * B p) at 2 by ring;
                rewrite Z_mod_plus_full, Z.mod_small; lia).
          destruct (Z.ltb_spec (get s j + (get l j + get r j) - B p) (get l j)); [ring|lia].
      + rewrite get_upd_eq by (unfold s1; rewrite length_upd; lia). destruct (_ <? _); lia.
      + intros i Hi. rewrite get_upd_ne by lia. unfold s1. rewrite get_upd_ne by lia. apply Z0. lia. }
  rewrite Nat.add_0_l in HP. set (l1 := loop m 0 f (map (fun _ => 0) l)) in *.
  destruct HP as [W [V [C Z0]]].
  pose proof (get_bound p _ r m Hp Hr) as Gr. specialize (Hno m ltac:(lia)).
  split. apply wf_mod; auto.
  assert (HLs : length l1 = S m) by apply W.
  rewrite val_upd by (auto; lia). rewrite (Z.mod_small (get l1 m + get r m)) by lia.
  rewrite <- (pre_full p l (S m)), <- (pre_full p r (S m)) by lia.
  rewrite !pre_S by (auto; lia). rewrite Htop, V.
  pose proof (pre_bound p _ l m Hp Hl ltac:(lia)). pose proof (pre_bound p _ r m Hp Hr ltac:(lia)).
  rewrite Z.mod_small. ring.
  rewrite Nat2Z.inj_succ, Z.pow_succ_r by lia. nia.
Qed.

Lemma bi_minus_restricted p n l r : 0 <= p -> (0 < n)%nat -> wf p n l -> wf p n r ->
  get l (n - 1) = 0 -> (forall i, (i < n)%nat -> get r i < B p - 1) ->
  wf p n (bi_minus p l r) /\ val p (bi_minus p l r) = (val p l - val p r) mod B p ^ Z.of_nat n.
Proof.
  intros Hp Hn Hl Hr Htop Hno. destruct n as [|m]; [lia|]. pose proof (B_ge2 p Hp) as HB.
  assert (HLl : length l = S m) by apply Hl. assert (HLr : length r = S m) by apply Hr.
  unfold bi_minus, max_ix. rewrite HLl. cbn [pred]. replace (S m - 1)%nat with m in Htop by lia.
  set (f := fun i s => _).
  assert (Em1 : (-1) mod B p = B p - 1).
  { replace (-1) with (B p - 1 + (-1) * B p) by ring. rewrite Z_mod_plus_full, Z.mod_small; lia. }
  (* the pending word holds 0 or the all-ones word standing for -1 *)
  pose (P := fun i s => wf p (S m) s /\ (get s i = 0 \/ get s i = B p - 1) /\
     (forall j, (i < j)%nat -> get s j = 0) /\
     val p s - get s i * B p ^ Z.of_nat i = pre p l i - pre p r i + (if get s i =? 0 then 0 else B p ^ Z.of_nat i)).
  assert (HP : P (0 + m)%nat (loop m 0 f (map (fun _ => 0) l))).
  { apply loop_inv.
    - split. now apply wf_zero. rewrite val_zero. unfold pre; simpl. rewrite map_zero, get_repeat0.
      split; auto. split; [intros; apply get_repeat0|]. simpl. lia.
    - intros j s Hj [W [C [Z0 V]]]. unfold f. cbv beta zeta.
      pose proof (get_bound p _ l j Hp Hl) as Gl. pose proof (get_bound p _ r j Hp Hr) as Gr.
      specialize (Hno j ltac:(lia)).
      assert (HLs : length s = S m) by apply W.
      rewrite get_upd_eq by lia.
      set (s1 := upd s j ((get s j + (get l j - get r j)) mod B p)).
      assert (W1 : wf p (S m) s1) by (apply wf_mod; auto).
      assert (HLs1 : length s1 = S m) by apply W1.
      set (c := if get l j <? (get s j + (get l j - get r j)) mod B p then (-1) mod B p else 0).
      assert (Hc : c = 0 \/ c = B p - 1) by (unfold c; rewrite Em1; destruct (_ <? _); auto).
      split; [|split; [|split]].
      + apply wf_upd; auto. destruct Hc as [-> | ->]; lia.
      + rewrite get_upd_eq by lia. exact Hc.
      + intros i Hi. rewrite get_upd_ne by lia. unfold s1. rewrite get_upd_ne by lia. apply Z0. lia.
      + rewrite get_upd_eq by lia. rewrite val_upd by (auto; lia).
        assert (G1 : get s1 (S j) = 0) by (unfold s1; rewrite get_upd_ne by lia; apply Z0; lia).
        rewrite G1. unfold s1. rewrite val_upd by (auto; lia). rewrite !pre_S by (auto; lia).
        rewrite Nat2Z.inj_succ, Z.pow_succ_r by lia.
        set (d := if get s j =? 0 then 0 else 1).
        assert (Hd : exists e, get s j = e * B p - d /\ 0 <= d <= 1).
        { unfold d. destruct C as [-> | ->].
          - exists 0. simpl. lia.
          - destruct (Z.eqb_spec (B p - 1) 0); [lia|]. exists 1. lia. }
        assert (Vd : val p s = get s j * B p ^ Z.of_nat j + (pre p l j - pre p r j + d * B p ^ Z.of_nat j)).
        { assert (V' : val p s = get s j * B p ^ Z.of_nat j + (val p s - get s j * B p ^ Z.of_nat j)) by ring.
          rewrite V' at 1. rewrite V. unfold d. destruct (get s j =? 0); ring. }
        rewrite Vd. unfold c. clear Vd V Hc. destruct Hd as [e [Ed Bd]].
        replace ((get s j + (get l j - get r j)) mod B p) with ((get l j - get r j - d) mod B p)
          by (rewrite Ed; replace (e * B p - d + (get l j - get r j)) with (get l j - get r j - d + e * B p) by ring;
              now rewrite Z_mod_plus_full).
        destruct (Z_lt_ge_dec (get l j - get r j - d) 0) as [Cc|Cc].
        * replace ((get l j - get r j - d) mod B p) with (get l j - get r j - d + B p)
            by (replace (get l j - get r j - d) with ((get l j - get r j - d + B p) + (-1) * B p) at 2 by ring;
                rewrite Z_mod_plus_full, Z.mod_small; lia).
          destruct (Z.ltb_spec (get l j) (get l j - get r j - d + B p)); [|lia].
          rewrite Em1. destruct (Z.eqb_spec (B p - 1) 0); [lia|]. ring.
        * rewrite Z.mod_small by lia. destruct (Z.ltb_spec (get l j) (get l j - get r j - d)); [lia|]. simpl. ring. }
  rewrite Nat.add_0_l in HP. set (l1 := loop m 0 f (map (fun _ => 0) l)) in *.
  destruct HP as [W [C [Z0 V]]].
  pose proof (get_bound p _ r m Hp Hr) as Gr.
  assert (W' : wf p (S m) (upd l1 m ((get l1 m - get r m) mod B p))) by (apply wf_mod; auto).
  split; auto.
  assert (HLs : length l1 = S m) by apply W.
  set (k := (get l1 m - get r m) / B p).
  assert (Ek : (get l1 m - get r m) mod B p = get l1 m - get r m - k * B p) by (unfold k; rewrite Zmod_eq_full by lia; ring).
  set (d := if get l1 m =? 0 then 0 else 1).
  assert (Hd : exists e, get l1 m = e * B p - d).
  { unfold d. destruct C as [-> | ->].
    - exists 0. simpl. lia.
    - destruct (Z.eqb_spec (B p - 1) 0); [lia|]. exists 1. lia. }
  destruct Hd as [e Ed].
  apply (val_mod_unique p (S m) _ _ (e - k)); auto.
  rewrite val_upd by (auto; lia). rewrite Ek.
  assert (V' : val p l1 = get l1 m * B p ^ Z.of_nat m + (val p l1 - get l1 m * B p ^ Z.of_nat m)) by ring.
  rewrite V', V. clear V V'.
  replace (if get l1 m =? 0 then 0 else B p ^ Z.of_nat m) with (d * B p ^ Z.of_nat m) by (unfold d; destruct (get l1 m =? 0); ring).
  rewrite <- (pre_full p l (S m)), <- (pre_full p r (S m)) by lia.
  rewrite !pre_S by (auto; lia). rewrite Htop.
  rewrite Nat2Z.inj_succ, Z.pow_succ_r by lia. rewrite Ed. ring.
Qed.

(** ** Bitwise operators, instances of [bitop_val] *)
Lemma bi_and_ok p n l r : 0 <= p -> wf p n l -> wf p n r ->
  wf p n (bi_and l r) /\ val p (bi_and l r) = Z.land (val p l) (val p r).
Proof.
  intros Hp Hl Hr. pose proof (wbits_pos p Hp).
  apply (bitop_val p Z.land andb Hp); auto using Z.land_spec. intros x y Hx Hy. unfold B in *. apply land_range; lia.
Qed.
Lemma bi_or_ok p n l r : 0 <= p -> wf p n l -> wf p n r ->
  wf p n (bi_or l r) /\ val p (bi_or l r) = Z.lor (val p l) (val p r).
Proof.
  intros Hp Hl Hr. pose proof (wbits_pos p Hp).
  apply (bitop_val p Z.lor orb Hp); auto using Z.lor_spec. intros x y Hx Hy. unfold B in *. apply lor_range; lia.
Qed.
Lemma bi_xor_ok p n l r : 0 <= p -> wf p n l -> wf p n r ->
  wf p n (bi_xor l r) /\ val p (bi_xor l r) = Z.lxor (val p l) (val p r).
Proof.
  intros Hp Hl Hr. pose proof (wbits_pos p Hp).
  apply (bitop_val p Z.lxor xorb Hp); auto using Z.lxor_spec. intros x y Hx Hy. unfold B in *. apply lxor_range; lia.
Qed.
