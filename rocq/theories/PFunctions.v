(** Proofs about the integer helpers. *)
From Coq Require Import NArith ZArith List Bool Lia.
From Verif Require Import Bits MBigInteger SpecBigInteger PBigInteger PBigInteger2 MFunctions SpecFunctions.
Import ListNotations.
Local Open Scope N_scope.

(** ** log2 *)
Lemma log2Ocl_loop_ok fuel : forall p pow, p < 2 ^ N.of_nat fuel ->
  log2Ocl_loop fuel p pow = pow + (if p =? 0 then 0 else N.log2 p + 1).
Proof.
  induction fuel; intros p pow Hp; cbn [log2Ocl_loop].
  - simpl in Hp. replace p with 0 by lia. simpl. lia.
  - destruct (N.eqb_spec p 0). lia.
    rewrite IHfuel.
    + rewrite <- N.div2_spec. destruct (N.eqb_spec (N.div2 p) 0).
      * assert (p = 1). { destruct p as [|[| |]]; simpl in *; try lia; try discriminate. }
        subst. simpl. lia.
      * destruct p as [|[q|q|]]; simpl in *; try lia.
        -- destruct q; simpl; lia.
        -- destruct q; simpl; lia.
    + rewrite N.shiftr_div_pow2. apply N.div_lt_upper_bound; [discriminate|].
      rewrite Nat2N.inj_succ, N.pow_succ_r' in Hp. rewrite N.pow_1_r. lia.
Qed.

Lemma log2Ocl_ok n : 0 < n < 2 ^ 64 -> log2Ocl n = N.log2 n.
Proof.
  intros Hn. unfold log2Ocl. rewrite log2Ocl_loop_ok.
  - rewrite <- N.div2_spec. destruct n as [|[q|q|]]; simpl in *; try lia; try reflexivity;
    destruct q; simpl; lia.
  - rewrite N.shiftr_div_pow2. apply N.div_lt_upper_bound; [discriminate|].
    change (N.of_nat 64) with 64. lia.
Qed.

Lemma bi_log2_native_ok n : 0 < n < 2 ^ 64 -> bi_log2_native n = N.log2 n.
Proof. intros Hn. unfold bi_log2_native, w64. rewrite N.mod_small by lia. now apply log2Ocl_ok. Qed.

(** ** Range checks *)
Lemma isBadBitRange_ok s l q : s < 2 ^ 8 -> l < 2 ^ 8 -> q < 2 ^ 8 -> isBadBitRange s l q = (q <? s + l).
Proof.
  intros Hs Hl Hq. unfold isBadBitRange. destruct (N.ltb_spec q (s + l)); auto. simpl.
  rewrite N.mod_small by lia. apply N.ltb_ge. lia.
Qed.

Lemma isBadPermRange_ok s l m : s < 2 ^ 64 -> l < 2 ^ 64 -> m < 2 ^ 64 -> isBadPermRange s l m = (m <? s + l).
Proof.
  intros Hs Hl Hm. unfold isBadPermRange, w64.
  destruct (N.lt_ge_cases (s + l) (2 ^ 64)).
  - rewrite N.mod_small by auto. destruct (N.ltb_spec m (s + l)); auto. simpl. apply N.ltb_ge. lia.
  - replace ((s + l) mod 2 ^ 64) with (s + l - 2 ^ 64).
    + destruct (N.ltb_spec m (s + l)); [|lia]. destruct (N.ltb_spec (s + l - 2 ^ 64) s); [|lia]. now rewrite orb_true_r.
    + symmetry. replace (s + l) with ((s + l - 2 ^ 64) + 1 * 2 ^ 64) at 1 by lia.
      rewrite N.mod_add by discriminate. apply N.mod_small. lia.
Qed.

Lemma idArrayBad_loop_ok q : forall cs dupes, NoDup dupes ->
  idArrayBad_loop cs q dupes = false <-> (Forall (fun c => c < q) cs /\ NoDup (rev cs ++ dupes)).
Proof.
  induction cs as [|c t IH]; intros dupes Hd; simpl.
  - split; auto.
  - destruct (N.leb_spec q c).
    + split; [discriminate|]. intros [HF _]. inversion HF; subst. lia.
    + destruct (existsb (N.eqb c) dupes) eqn:E.
      * split; [discriminate|]. intros [_ HN]. apply existsb_exists in E. destruct E as [x [Hx Hcx]].
        apply N.eqb_eq in Hcx. subst x. rewrite <- app_assoc in HN. simpl in HN.
        apply NoDup_remove_2 in HN. exfalso. apply HN. apply in_or_app. auto.
      * assert (Hc : ~ In c dupes).
        { intros Hin. assert (existsb (N.eqb c) dupes = true) by (apply existsb_exists; exists c; split; auto; apply N.eqb_refl). congruence. }
        rewrite IH by (constructor; auto). rewrite <- app_assoc. simpl. split.
        -- intros [HF HN]. split; auto.
        -- intros [HF HN]. inversion HF; subst. auto.
Qed.

Lemma throwIf_ok cs q : throwIfQbIdArrayIsBad cs q = false <-> (Forall (fun c => c < q) cs /\ NoDup cs).
Proof.
  unfold throwIfQbIdArrayIsBad. rewrite idArrayBad_loop_ok by constructor. rewrite app_nil_r.
  split; intros [H1 H2]; split; auto.
  - apply NoDup_rev in H2. now rewrite rev_involutive in H2.
  - now apply NoDup_rev.
Qed.

(** ** Overflow predicates *)
Lemma not64_bit x i : i < 64 -> N.testbit (not64 x) i = negb (N.testbit x i).
Proof. intros. unfold not64. rewrite N.lxor_spec, tb_ones. destruct (N.ltb_spec i 64); [|lia]. now destruct (N.testbit x i). Qed.

Lemma not64_low L x : L <= 64 -> x < 2 ^ L -> N.land (not64 x) (2 ^ L - 1) = 2 ^ L - 1 - x.
Proof.
  intros HL Hx. rewrite land_ones.
  assert (Hlt : 2 ^ L - 1 < 2 ^ L) by (pose proof (pow2_pos L); lia).
  assert (E : x + (not64 x mod 2 ^ L) = 2 ^ L - 1).
  { rewrite add_lor.
    - unfold not64. apply N.bits_inj. intros j. autorewrite with tb. destruct (N.ltb_spec j L); simpl.
      + destruct (N.ltb_spec j 64); [|lia]. destruct (N.testbit x j); reflexivity.
      + rewrite (tb_high x L) by auto. reflexivity.
    - unfold not64. apply N.bits_inj. intros j. autorewrite with tb. destruct (N.ltb_spec j L); simpl.
      + destruct (N.ltb_spec j 64); [|lia]. destruct (N.testbit x j); reflexivity.
      + now rewrite andb_false_r. }
  lia.
Qed.

Lemma top_bit L x : 1 <= L -> x < 2 ^ L -> N.testbit x (L - 1) = (2 ^ (L - 1) <=? x).
Proof.
  intros HL Hx. assert (E : 2 ^ L = 2 * 2 ^ (L - 1)) by (rewrite <- N.pow_succ_r'; f_equal; lia).
  rewrite testbit_div_mod. destruct (N.leb_spec (2 ^ (L - 1)) x).
  - replace (x / 2 ^ (L - 1)) with 1. reflexivity.
    apply (N.div_unique _ _ _ (x - 2 ^ (L - 1))); lia.
  - now rewrite N.div_small.
Qed.

Lemma land_pow2_nz x k : negb (N.land x (2 ^ k) =? 0) = N.testbit x k.
Proof.
  rewrite land_pow2_testbit. destruct (N.testbit x k); auto.
  destruct (N.eqb_spec (2 ^ k) 0); auto. now apply pow2_nz in e.
Qed.

Lemma pow_Z_N L : 1 <= L -> (2 ^ Z.of_N L = 2 * Z.of_N (2 ^ (L - 1)))%Z /\ (2 ^ (Z.of_N L - 1) = Z.of_N (2 ^ (L - 1)))%Z.
Proof.
  intros HL. rewrite N2Z.inj_pow. change (Z.of_N 2) with 2%Z. rewrite N2Z.inj_sub by lia. change (Z.of_N 1) with 1%Z.
  split; auto. rewrite <- Z.pow_succ_r by lia. f_equal. lia.
Qed.

Lemma isOverflowAdd_ok L x y : 1 <= L <= 62 -> x < 2 ^ L -> y < 2 ^ L ->
  isOverflowAdd x y (2 ^ (L - 1)) (2 ^ L) = true <-> ~ signed_range L (signed_value L x + signed_value L y).
Proof.
  intros HL Hx Hy. unfold isOverflowAdd, signed_range, signed_value.
  destruct (pow_Z_N L ltac:(lia)) as [-> ->].
  assert (E : 2 ^ L = 2 * 2 ^ (L - 1)) by (rewrite <- N.pow_succ_r'; f_equal; lia).
  assert (E64 : 2 ^ L <= 2 ^ 62) by (apply pow2_le_mono; lia). change (2^62) with 4611686018427387904 in E64.
  rewrite !land_pow2_nz, !N.land_spec, !not64_bit, !top_bit by lia.
  rewrite !not64_low by lia. unfold w64. change (2^64) with 18446744073709551616.
  set (h := 2 ^ (L - 1)) in *. clearbody h. set (T := 2 ^ L) in *. clearbody T. subst T.
  destruct (N.leb_spec h x), (N.leb_spec h y); cbn [andb negb]; cbv iota; destruct (N.ltb_spec x h), (N.ltb_spec y h); try lia.
  - rewrite !(N.mod_small (2 * h - 1 - _ + 1)) by lia. rewrite N.mod_small by lia. rewrite N.ltb_lt. lia.
  - rewrite N.mod_small by lia. rewrite N.leb_le. lia.
Qed.

Lemma isOverflowSub_ok L x y : 1 <= L <= 62 -> x < 2 ^ L -> y < 2 ^ L ->
  isOverflowSub x y (2 ^ (L - 1)) (2 ^ L) = true <-> ~ signed_range L (signed_value L x - signed_value L y).
Proof.
  intros HL Hx Hy. unfold isOverflowSub, signed_range, signed_value.
  destruct (pow_Z_N L ltac:(lia)) as [-> ->].
  assert (E : 2 ^ L = 2 * 2 ^ (L - 1)) by (rewrite <- N.pow_succ_r'; f_equal; lia).
  assert (E64 : 2 ^ L <= 2 ^ 62) by (apply pow2_le_mono; lia). change (2^62) with 4611686018427387904 in E64.
  rewrite !land_pow2_nz, !N.land_spec, !not64_bit, !top_bit by lia.
  rewrite !not64_low by lia. unfold w64. change (2^64) with 18446744073709551616.
  set (h := 2 ^ (L - 1)) in *. clearbody h. set (T := 2 ^ L) in *. clearbody T. subst T.
  destruct (N.leb_spec h x), (N.leb_spec h y); cbn [andb negb]; cbv iota; destruct (N.ltb_spec x h), (N.ltb_spec y h); try lia.
  - rewrite !(N.mod_small (2 * h - 1 - _ + 1)) by lia. rewrite N.mod_small by lia. rewrite N.ltb_lt. lia.
  - rewrite !(N.mod_small (2 * h - 1 - _ + 1)) by lia. rewrite N.mod_small by lia. rewrite N.leb_le. lia.
Qed.

(** ** Inserting a zero bit *)
Definition ins (p x : N) : N := x mod 2 ^ p + x / 2 ^ p * 2 ^ (p + 1).
(** Deleting a bit. *)
Definition del (p x : N) : N := x mod 2 ^ p + x / 2 ^ (p + 1) * 2 ^ p.

Lemma tb_ins p x j : N.testbit (ins p x) j = if j <? p then N.testbit x j else if j =? p then false else N.testbit x (j - 1).
Proof.
  unfold ins. rewrite tb_cat.
  - destruct (N.ltb_spec j p), (N.ltb_spec j (p + 1)), (N.eqb_spec j p); try lia; autorewrite with tb.
    + destruct (N.ltb_spec j p); auto; lia.
    + destruct (N.ltb_spec j p); auto; lia.
    + f_equal. lia.
  - pose proof (mod_lt_pow2 x p). assert (2 ^ p < 2 ^ (p + 1)) by (apply pow2_lt_mono; lia). lia.
Qed.

Lemma tb_del p x j : N.testbit (del p x) j = if j <? p then N.testbit x j else N.testbit x (j + 1).
Proof.
  unfold del. rewrite tb_cat by apply mod_lt_pow2.
  destruct (N.ltb_spec j p); autorewrite with tb.
  - destruct (N.ltb_spec j p); auto; lia.
  - f_equal. lia.
Qed.

Lemma del_ins p x : del p (ins p x) = x.
Proof.
  apply N.bits_inj. intros j. rewrite tb_del. destruct (N.ltb_spec j p).
  - rewrite tb_ins. destruct (N.ltb_spec j p); auto; lia.
  - rewrite tb_ins. destruct (N.ltb_spec (j + 1) p), (N.eqb_spec (j + 1) p); try lia. f_equal. lia.
Qed.

Lemma ins_del p x : N.testbit x p = false -> ins p (del p x) = x.
Proof.
  intros Hz. apply N.bits_inj. intros j. rewrite tb_ins.
  destruct (N.ltb_spec j p).
  - rewrite tb_del. destruct (N.ltb_spec j p); auto; lia.
  - destruct (N.eqb_spec j p). now subst.
    rewrite tb_del. destruct (N.ltb_spec (j - 1) p); try lia. f_equal. lia.
Qed.

Lemma ins_lt p x n : p <= n -> x < 2 ^ n <-> ins p x < 2 ^ (n + 1).
Proof.
  intros Hp. rewrite !lt_pow2_bits. split; intros Hx m Hm.
  - rewrite tb_ins. destruct (N.ltb_spec m p), (N.eqb_spec m p); try lia; auto. apply Hx. lia.
  - specialize (Hx (m + 1) ltac:(lia)). rewrite tb_ins in Hx.
    destruct (N.ltb_spec (m + 1) p), (N.eqb_spec (m + 1) p); try lia. now replace (m + 1 - 1) with m in Hx by lia.
Qed.

Lemma ins_mono p x y : x < y -> ins p x < ins p y.
Proof.
  intros Hxy. unfold ins.
  assert (E : 2 ^ (p + 1) = 2 * 2 ^ p) by (rewrite N.add_1_r, N.pow_succ_r'; auto).
  pose proof (div_mod_eq x p) as Dx. pose proof (div_mod_eq y p) as Dy.
  pose proof (mod_lt_pow2 x p). pose proof (mod_lt_pow2 y p).
  set (P := 2 ^ p) in *. set (a := x / P) in *. set (b := y / P) in *. set (c := x mod P) in *. set (d := y mod P) in *.
  rewrite E.
  assert (a < b \/ (a = b /\ c < d)) as [Hab|[-> Hcd]] by nia.
  - nia.
  - nia.
Qed.

Definition ins_all (ps : list N) (x : N) : N := fold_left (fun y p => ins p y) ps x.

Lemma ins_all_mono ps : forall x y, x < y -> ins_all ps x < ins_all ps y.
Proof. induction ps; intros; simpl; auto. apply IHps. now apply ins_mono. Qed.

Lemma ins_all_low ps : forall lo n x j, increasing_below lo n ps -> j < lo ->
  N.testbit (ins_all ps x) j = N.testbit x j.
Proof.
  induction ps as [|p t IH]; intros lo n x j Hi Hj; simpl in *; auto. destruct Hi as [Hp Ht].
  rewrite (IH (p + 1) n) by (auto; lia). rewrite tb_ins. destruct (N.ltb_spec j p); auto; lia.
Qed.

Lemma ins_all_zero ps : forall lo n x, increasing_below lo n ps -> zero_at ps (ins_all ps x).
Proof.
  induction ps as [|p t IH]; intros lo n x Hi q Hq; simpl in *; [tauto|]. destruct Hi as [Hp Ht].
  destruct Hq as [<-|Hq].
  - rewrite (ins_all_low t (p + 1) n) by (auto; lia). rewrite tb_ins.
    destruct (N.ltb_spec p p), (N.eqb_spec p p); auto; lia.
  - eapply IH; eauto.
Qed.

Lemma increasing_length ps : forall lo n, increasing_below lo n ps -> lo <= n -> N.of_nat (length ps) <= n - lo.
Proof.
  induction ps as [|p t IH]; intros lo n Hi Hl; simpl length. lia.
  simpl in Hi. destruct Hi as [Hp Ht]. specialize (IH (p + 1) n Ht ltac:(lia)). lia.
Qed.

Lemma ins_all_lt ps : forall lo n x, increasing_below lo n ps -> lo <= n ->
  x < 2 ^ (n - N.of_nat (length ps)) -> ins_all ps x < 2 ^ n.
Proof.
  induction ps as [|p t IH]; intros lo n x Hi Hl Hx.
  - simpl in *. now rewrite N.sub_0_r in Hx.
  - simpl in Hi. destruct Hi as [Hp Ht]. pose proof (increasing_length t _ _ Ht ltac:(lia)) as HLt.
    unfold ins_all. cbn [fold_left]. fold (ins_all t (ins p x)).
    cbn [length] in Hx. rewrite Nat2N.inj_succ in Hx.
    apply (IH (p + 1) n); auto. lia.
    replace (n - N.of_nat (length t)) with (n - N.succ (N.of_nat (length t)) + 1) by lia.
    apply ins_lt; auto. lia.
Qed.

Lemma ins_all_onto ps : forall lo n x, increasing_below lo n ps -> lo <= n -> zero_at ps x -> x < 2 ^ n ->
  exists a, a < 2 ^ (n - N.of_nat (length ps)) /\ ins_all ps a = x.
Proof.
  induction ps as [|p t IH]; intros lo n x Hi Hl Hz Hx.
  - exists x. simpl. rewrite N.sub_0_r. auto.
  - simpl in Hi. destruct Hi as [Hp Ht]. pose proof (increasing_length t _ _ Ht ltac:(lia)) as HLt.
    destruct (IH (p + 1) n x Ht ltac:(lia)) as [a [Ha Ea]]; auto.
    { intros q Hq. apply Hz. now right. }
    assert (Hpz : N.testbit a p = false).
    { rewrite <- (ins_all_low t (p + 1) n a p Ht) by lia. rewrite Ea. apply Hz. now left. }
    exists (del p a). split.
    + cbn [length]. rewrite Nat2N.inj_succ. apply (ins_lt p). lia. rewrite ins_del by auto.
      replace (n - N.succ (N.of_nat (length t)) + 1) with (n - N.of_nat (length t)) by lia. auto.
    + unfold ins_all. cbn [fold_left]. rewrite ins_del by auto. exact Ea.
Qed.

(** pushApartBits computes [ins_all]. *)
Lemma pushApart_loop_ok ps : forall lo n i iHigh, increasing_below lo n ps -> lo <= n -> n <= 128 ->
  i < 2 ^ lo -> (forall j, j < lo -> N.testbit iHigh j = false) ->
  ins_all ps (i + iHigh) < 2 ^ n ->
  pushApart_loop i iHigh (map (fun p => 2 ^ p) ps) = ins_all ps (i + iHigh).
Proof.
  induction ps as [|p t IH]; intros lo n i iHigh Hinc Hl H128 Hi Hh Hn; cbn [pushApart_loop map].
  - symmetry. apply add_lor. apply N.bits_inj. intros j. rewrite N.land_spec, N.bits_0.
    destruct (N.lt_ge_cases j lo). rewrite Hh by auto. apply andb_false_r. now rewrite (tb_high i lo).
  - simpl in Hinc. destruct Hinc as [Hp Ht].
    rewrite land_ones.
    set (iLow := iHigh mod 2 ^ p). set (hi := iHigh / 2 ^ p).
    assert (Ex : N.lxor iHigh iLow = hi * 2 ^ p).
    { apply N.bits_inj. intros j. unfold iLow, hi. autorewrite with tb.
      destruct (N.ltb_spec j p), (N.leb_spec p j); try lia; simpl.
      - now rewrite xorb_nilpotent.
      - rewrite xorb_false_r. f_equal. lia. }
    rewrite Ex. rewrite N.shiftl_mul_pow2. rewrite <- N.mul_assoc, <- N.pow_add_r.
    assert (Edis : N.land i iHigh = 0).
    { apply N.bits_inj. intros j. rewrite N.land_spec, N.bits_0.
      destruct (N.lt_ge_cases j lo). rewrite Hh by auto. apply andb_false_r. now rewrite (tb_high i lo). }
    assert (Eins : ins p (i + iHigh) = N.lor i iLow + hi * 2 ^ (p + 1)).
    { apply N.bits_inj. intros j. rewrite tb_ins. rewrite tb_cat.
      - rewrite add_lor by auto. unfold iLow, hi.
        destruct (N.ltb_spec j p), (N.ltb_spec j (p + 1)), (N.eqb_spec j p); try lia; autorewrite with tb.
        + destruct (N.ltb_spec j p); auto; lia.
        + rewrite (tb_high i lo) by (auto; lia). destruct (N.ltb_spec j p); auto; lia.
        + rewrite (tb_high i lo) by (auto; lia). simpl. f_equal. lia.
      - apply lor_lt_pow2.
        + apply N.lt_le_trans with (2 ^ lo); auto. apply pow2_le_mono. lia.
        + unfold iLow. pose proof (mod_lt_pow2 iHigh p). assert (2 ^ p < 2 ^ (p + 1)) by (apply pow2_lt_mono; lia). lia. }
    unfold ins_all in *. cbn [fold_left] in *. rewrite Eins in *. fold (ins_all t) in *.
    assert (Hge : forall q y, y <= ins q y).
    { intros q y. unfold ins. pose proof (div_mod_eq y q) as D. rewrite N.pow_add_r. change (2 ^ 1) with 2. set (u := y / 2 ^ q) in *. set (v := y mod 2 ^ q) in *. clearbody u v. set (P := 2 ^ q) in *. clearbody P. clear - D. nia. }
    assert (Hge' : forall qs y, y <= ins_all qs y).
    { unfold ins_all. induction qs; intros y; simpl. lia. eapply N.le_trans; [apply (Hge a y)|apply IHqs]. }
    assert (Hw : w128 (hi * 2 ^ (p + 1)) = hi * 2 ^ (p + 1)).
    { unfold w128. apply N.mod_small.
      pose proof (Hge' t (N.lor i iLow + hi * 2 ^ (p + 1))). unfold ins_all in H.
      assert (2 ^ n <= 2 ^ 128) by (apply pow2_le_mono; lia).
      eapply N.le_lt_trans with (ins_all t (N.lor i iLow + hi * 2 ^ (p + 1))). 2:{ unfold ins_all. eapply N.lt_le_trans; eauto. }
      eapply N.le_trans; [|apply Hge']. lia. }
    rewrite Hw. apply (IH (p + 1) n); auto; try lia.
    + apply lor_lt_pow2.
      * apply N.lt_le_trans with (2 ^ lo); auto. apply pow2_le_mono. lia.
      * unfold iLow. pose proof (mod_lt_pow2 iHigh p). assert (2 ^ p < 2 ^ (p + 1)) by (apply pow2_lt_mono; lia). lia.
    + intros j Hj. autorewrite with tb. destruct (N.leb_spec (p + 1) j); auto; lia.
Qed.

Lemma pushApartBits_ok ps n x : increasing_below 0 n ps -> n <= 128 -> x < 2 ^ (n - N.of_nat (length ps)) ->
  pushApartBits x (map (fun p => 2 ^ p) ps) = ins_all ps x.
Proof.
  intros Hi Hn Hx. unfold pushApartBits. destruct ps as [|p t]. reflexivity.
  change (map (fun p => 2 ^ p) (p :: t)) with (2 ^ p :: map (fun p => 2 ^ p) t) at 1. cbv iota.
  rewrite (pushApart_loop_ok (p :: t) 0 n); auto; try lia.
  rewrite N.add_0_l. apply (ins_all_lt (p :: t) 0 n); auto. lia.
Qed.

(** ** Printing and parsing *)
Lemma print_loop_diverges b : b <> 0 -> forall fuel b' ds, print_loop fuel b b' ds = None.
Proof.
  intros Hb. induction fuel; intros b' ds; simpl; destruct (N.eqb_spec b 0); try contradiction; auto.
Qed.

Lemma print_bci_diverges b fuel : b <> 0 -> print_bci fuel b = None.
Proof.
  intros Hb. unfold print_bci. destruct (N.eqb_spec b 0); [contradiction|]. now apply print_loop_diverges.
Qed.

Lemma decimal_acc_ge ds : forall acc, acc <= decimal_value_acc acc ds.
Proof.
  induction ds; intros acc; cbn [decimal_value_acc]. lia. etransitivity; [|apply IHds]. lia.
Qed.

Lemma parse_bci_acc ds : forall acc, Forall (fun d => d < 10) ds -> decimal_value_acc acc ds < 2 ^ 128 ->
  fold_left (fun b c => w128 (w128 (b * 10) + (c - 48))) (ascii_digits ds) acc = decimal_value_acc acc ds.
Proof.
  induction ds as [|d t IH]; intros acc HF Hv; cbn [decimal_value_acc ascii_digits map fold_left] in *; auto. fold (ascii_digits t).
  inversion HF; subst. pose proof (decimal_acc_ge t (10 * acc + d)).
  unfold w128. rewrite (N.mod_small (acc * 10)) by lia.
  replace (acc * 10 + (48 + d - 48)) with (10 * acc + d) by lia. rewrite N.mod_small by lia. now apply IH.
Qed.

Lemma parse_bci_ok ds : Forall (fun d => d < 10) ds -> decimal_value ds < 2 ^ 128 ->
  parse_bci (ascii_digits ds) = decimal_value ds.
Proof. intros. now apply parse_bci_acc. Qed.

Lemma parse_big_acc p n ds : (4 <= p)%Z -> (0 < n)%nat -> forall acc, Forall (fun d => d < 10) ds ->
  big_wf (B p) n acc ->
  let r := fold_left (fun b c => bi_increment p (bi_mul_half p b 10) (Z.of_N (c - 48))) (ascii_digits ds) acc in
  big_wf (B p) n r /\
  exists k, big_value (B p) r = (Z.of_N (decimal_value_acc 0 ds) + big_value (B p) acc * 10 ^ Z.of_nat (length ds) + k * B p ^ Z.of_nat n)%Z.
Proof.
  intros Hp Hn. induction ds as [|d t IH] using rev_ind; intros acc HF Ha r.
  - simpl in r. subst r. split; auto. exists 0%Z. simpl. lia.
  - subst r. unfold ascii_digits. rewrite map_app, fold_left_app. cbn [map fold_left].
    apply Forall_app in HF. destruct HF as [HF Hd]. inversion Hd; subst.
    destruct (IH acc HF Ha) as [W [k K]]. fold (ascii_digits t).
    set (s := fold_left _ (ascii_digits t) acc) in *.
    assert (HB : (10 < HW p)%Z).
    { unfold HW. assert (8 <= hbits p)%Z.
      { unfold hbits, wbits. apply Z.div_le_lower_bound; [lia|]. change (2 * 8)%Z with (2 ^ 4)%Z. apply Z.pow_le_mono_r; lia. }
      assert (2 ^ 8 <= 2 ^ hbits p)%Z by (apply Z.pow_le_mono_r; lia). lia. }
    destruct (B_HH p ltac:(lia)) as [EB [HW2 [Hh _]]].
    destruct (bi_mul_half_ok p n s 10 ltac:(lia) W ltac:(lia)) as [W1 V1].
    destruct (bi_increment_ok p n _ (Z.of_N (48 + d - 48)) ltac:(lia) Hn W1) as [W2 V2]; [nia|].
    split; auto. rewrite V2, V1.
    pose proof (Bpow_pos p (Z.of_nat n) ltac:(lia) ltac:(lia)).
    rewrite Zplus_mod_idemp_l.
    replace (48 + d - 48) with d by lia.
    assert (Edec : forall ds a, decimal_value_acc a (ds ++ [d]) = 10 * decimal_value_acc a ds + d).
    { clear. induction ds as [|e u IHu]; intros a; [reflexivity|]. cbn [app decimal_value_acc]. apply IHu. }
    rewrite Edec, app_length. simpl length. rewrite Nat2Z.inj_add.
    rewrite Z.pow_add_r by lia.
    rewrite (Zmod_eq_full _ (B p ^ Z.of_nat n)) by lia. rewrite K.
    rewrite N2Z.inj_add, N2Z.inj_mul.
    eexists (k * 10 - (((Z.of_N (decimal_value_acc 0 t) + big_value (B p) acc * 10 ^ Z.of_nat (length t) + k * B p ^ Z.of_nat n) * 10 +
  Z.of_N d) / B p ^ Z.of_nat n))%Z. change (Z.of_nat 1) with 1%Z. rewrite Z.pow_1_r. change (Z.of_N 10) with 10%Z. ring.
Qed.

Lemma parse_big_ok p n ds : (4 <= p)%Z -> (0 < n)%nat -> Forall (fun d => d < 10) ds ->
  big_wf (B p) n (parse_big p n (ascii_digits ds)) /\
  big_value (B p) (parse_big p n (ascii_digits ds)) = (Z.of_N (decimal_value ds) mod B p ^ Z.of_nat n)%Z.
Proof.
  intros Hp Hn HF. unfold parse_big.
  destruct (parse_big_acc p n ds Hp Hn (repeat 0%Z n) HF) as [W [k K]].
  - split. apply repeat_length. apply Forall_repeat0. lia.
  - split; auto. apply (val_mod_unique p n _ _ k); auto. lia. rewrite K, val_repeat0. unfold decimal_value. ring.
Qed.

(** ** intPowOcl *)
Lemma intPowOcl_ok base power : base < 2 ^ 64 -> intPowOcl base power = (base ^ power) mod 2 ^ 64.
Proof.
  intros Hb. destruct power as [|q]. reflexivity.
  unfold intPowOcl. induction q.
  - cbn [intPowOcl_pos]. rewrite IHq. unfold w64.
    rewrite <- N.mul_mod by discriminate. rewrite N.mul_mod_idemp_l by discriminate.
    f_equal. change (N.pos q~1) with (2 * N.pos q + 1). rewrite N.pow_add_r, N.pow_mul_r, N.pow_1_r.
    rewrite N.pow_2_r. rewrite N.pow_mul_l. ring.
  - cbn [intPowOcl_pos]. rewrite IHq. unfold w64.
    rewrite <- N.mul_mod by discriminate. f_equal. change (N.pos q~0) with (2 * N.pos q).
    rewrite N.pow_mul_r. rewrite N.pow_2_r. rewrite N.pow_mul_l. ring.
  - cbn [intPowOcl_pos]. rewrite N.pow_1_r. now rewrite N.mod_small by auto.
Qed.

(** ** Further integer helpers *)
Lemma isPowerOfTwo_ok x : isPowerOfTwoOcl x = true <-> exists k, x = 2 ^ k.
Proof.
  unfold isPowerOfTwoOcl. rewrite andb_true_iff, negb_true_iff, N.eqb_neq, N.eqb_eq. split.
  - intros [Hx Hl]. exists (N.log2 x).
    pose proof (N.log2_spec x ltac:(lia)) as [Hlo Hhi]. rewrite N.pow_succ_r' in Hhi.
    destruct (N.eq_dec x (2 ^ N.log2 x)) as [|Hne]; auto. exfalso.
    assert (T1 : N.testbit x (N.log2 x) = true) by (apply N.bit_log2; auto).
    assert (T2 : N.testbit (x - 1) (N.log2 x) = true).
    { replace (N.log2 x) with (N.log2 (x - 1)). apply N.bit_log2. lia.
      apply N.log2_unique; [lia|]. rewrite N.pow_succ_r'. lia. }
    assert (T : N.testbit (N.land x (x - 1)) (N.log2 x) = true) by (rewrite N.land_spec, T1, T2; auto).
    rewrite Hl, N.bits_0 in T. discriminate.
  - intros [k ->]. split. apply pow2_nz. rewrite land_ones. apply N.mod_same. apply pow2_nz.
Qed.

Lemma bitRegMask_ok start len : start + len < 64 -> forall j,
  N.testbit (bitRegMaskOcl start len) j = ((start <=? j) && (j <? start + len)).
Proof.
  intros H j. unfold bitRegMaskOcl, w64.
  assert (E : N.shiftl 1 len = 2 ^ len) by (rewrite N.shiftl_mul_pow2; lia).
  assert (2 ^ len < 2 ^ 64) by (apply pow2_lt_mono; lia).
  rewrite E. rewrite (N.mod_small (2 ^ len)) by auto.
  rewrite tb_mod2, tb_shiftl, tb_ones. ncases; simpl; auto; lia.
Qed.

(** The bijection statement for pushApartBits. *)
Lemma pushApart_spec ps n : increasing_below 0 n ps -> n <= 128 ->
  (forall x, x < 2 ^ (n - N.of_nat (length ps)) ->
     pushApartBits x (map (fun p => 2 ^ p) ps) < 2 ^ n /\ zero_at ps (pushApartBits x (map (fun p => 2 ^ p) ps))) /\
  (forall x y, x < 2 ^ (n - N.of_nat (length ps)) -> y < 2 ^ (n - N.of_nat (length ps)) -> x < y ->
     pushApartBits x (map (fun p => 2 ^ p) ps) < pushApartBits y (map (fun p => 2 ^ p) ps)) /\
  (forall z, z < 2 ^ n -> zero_at ps z ->
     exists x, x < 2 ^ (n - N.of_nat (length ps)) /\ pushApartBits x (map (fun p => 2 ^ p) ps) = z).
Proof.
  intros Hi Hn. split; [|split].
  - intros x Hx. rewrite (pushApartBits_ok ps n) by auto. split.
    + apply (ins_all_lt ps 0 n); auto. lia.
    + now apply (ins_all_zero ps 0 n).
  - intros x y Hx Hy Hxy. rewrite !(pushApartBits_ok ps n) by auto. now apply ins_all_mono.
  - intros z Hz Hzz. destruct (ins_all_onto ps 0 n z) as [a [Ha Ea]]; auto. lia.
    exists a. split; auto. now rewrite (pushApartBits_ok ps n) by auto.
Qed.
