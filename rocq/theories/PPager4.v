(** (Controlled) single-qubit gates on a pager. *)
From Coq Require Import NArith List Bool Lia Ring.
From Verif Require PAlu5.
From Verif Require Import Bits MQCircuit MFunctions SpecFunctions PFunctions MParFor SpecParFor PParFor MKernel PKernel Amp PAmp SpecState MEngine SpecEngine PLoop PApply PGates PGates2 PGates3 PCompose PProb PEngine MPager SpecPager PPager1 PPager2 PPager3.
Import ListNotations.
Local Open Scope N_scope.

(** ** Control permutations *)
Lemma match_perm_ext_p cs x : forall i p p', (forall k, i <= k < i + N.of_nat (length cs) -> N.testbit p k = N.testbit p' k) -> match_perm i cs p x = match_perm i cs p' x.
Proof.
  induction cs as [|q cs IH]; intros i p p' H; cbn [match_perm]; auto. cbn [length] in H. rewrite (H i) by lia. f_equal. apply IH. intros k Hk. apply H. lia.
Qed.
Lemma match_perm_ext_x cs p x y : forall i, (forall q, In q cs -> N.testbit x q = N.testbit y q) -> match_perm i cs p x = match_perm i cs p y.
Proof.
  induction cs as [|q cs IH]; intros i H; cbn [match_perm]; auto. rewrite (H q) by (now left). f_equal. apply IH. intros; apply H; now right.
Qed.
Lemma match_perm_app a b p x : forall i, match_perm i (a ++ b) p x = match_perm i a p x && match_perm (i + N.of_nat (length a)) b p x.
Proof.
  induction a as [|q a IH]; intros i; cbn [app match_perm length]. now rewrite N.add_0_r. rewrite IH, <- andb_assoc. do 3 f_equal. lia.
Qed.
Lemma match_perm_snoc l p (bit : bool) y x : p < 2 ^ N.of_nat (length l) ->
  match_perm 0 (l ++ [y]) (N.lor p (if bit then 2 ^ N.of_nat (length l) else 0)) x = match_perm 0 l p x && Bool.eqb (N.testbit x y) bit.
Proof.
  intros Hp. rewrite match_perm_app. cbn [match_perm]. rewrite andb_true_r. f_equal.
  - apply match_perm_ext_p. intros k Hk. rewrite N.lor_spec. destruct bit. rewrite tb_pow2. destruct (N.eqb_spec (N.of_nat (length l)) k); [lia|]. apply orb_false_r. rewrite N.bits_0. apply orb_false_r.
  - f_equal. rewrite N.lor_spec, (tb_high p (N.of_nat (length l))) by (auto; lia). destruct bit. rewrite N.add_0_l, tb_pow2, N.eqb_refl. auto. now rewrite N.bits_0.
Qed.
Lemma match_perm_set cs x : match_perm 0 cs (2 ^ N.of_nat (length cs) - 1) x = all_set cs x.
Proof.
  assert (G : forall k i, (forall j, i <= j < i + N.of_nat (length cs) -> N.testbit k j = true) -> match_perm i cs k x = all_set cs x).
  { induction cs as [|q cs IH]; intros k i H; cbn [match_perm all_set forallb]; auto. cbn [length] in H. rewrite H by lia. fold (all_set cs x). rewrite (IH k (i + 1)).
    now destruct (N.testbit x q). intros j Hj. apply H. lia. }
  apply G. intros j Hj. rewrite N.sub_1_r, <- N.ones_equiv. apply N.ones_spec_low. lia.
Qed.
Lemma match_perm_clear cs x : forall i, match_perm i cs 0 x = all_clear cs x.
Proof.
  induction cs as [|q cs IH]; intros i; cbn [match_perm all_clear forallb]; auto. fold (all_clear cs x). rewrite IH, N.bits_0. now destruct (N.testbit x q).
Qed.

(** ** Splitting the controls *)
Definition sqi_ok (q cp x : N) (s : csplit) : bool := if cs_sqi s then Bool.eqb (N.testbit x (q - 1)) (N.testbit cp (cs_sqiIndex s)) else true.
Definition sp_match (q cp x : N) (s : csplit) : bool := match_perm 0 (cs_intra s) (cs_iperm s) x && match_perm 0 (cs_meta s) (cs_mperm s) x && sqi_ok q cp x s.
Definition sp_inv (s : csplit) : Prop :=
  cs_iperm s < 2 ^ N.of_nat (length (cs_intra s)) /\ cs_mperm s < 2 ^ N.of_nat (length (cs_meta s)).
Definition special (q target y : N) : bool := (q <=? target) && (y + 1 =? q).
Lemma bit_shift cp i k : k < 64 -> w64 (N.shiftl (N.land (N.shiftr cp i) 1) k) = if N.testbit cp i then 2 ^ k else 0.
Proof.
  intros Hk. assert (E : N.land (N.shiftr cp i) 1 = N.b2n (N.testbit cp i)).
  { apply N.bits_inj. intros j. rewrite N.land_spec, N.shiftr_spec'. destruct (N.eq_dec j 0) as [->|Hj].
    - rewrite N.add_0_l. destruct (N.testbit cp i); reflexivity.
    - replace (N.testbit 1 j) with false. 2:{ symmetry. change 1 with (2 ^ 0). rewrite tb_pow2. destruct (N.eqb_spec 0 j); auto; subst; contradiction. }
      rewrite andb_false_r. destruct (N.testbit cp i); cbn [N.b2n]. symmetry. change 1 with (2 ^ 0). rewrite tb_pow2. destruct (N.eqb_spec 0 j); auto; subst; contradiction. now rewrite N.bits_0. }
  rewrite E. destruct (N.testbit cp i); cbn [N.b2n].
  - rewrite N.shiftl_1_l. unfold w64. apply N.mod_small. now apply pow2_lt_mono.
  - now rewrite N.shiftl_0_l.
Qed.
Lemma split_ok q target cp x : 0 < q -> forall cs i s, sp_inv s -> (length (cs_intra s) + length (cs_meta s) + length cs < 64)%nat -> NoDup cs ->
  (cs_sqi s = true -> ~ In (q - 1) cs) ->
  (forall y, In y (cs_intra s) -> ~ In y cs) -> (forall y, In y (cs_meta s) -> ~ In y cs) -> NoDup (cs_intra s) -> NoDup (cs_meta s) ->
  let s' := split_controls q target cp i cs s in
  sp_inv s' /\ sp_match q cp x s' = sp_match q cp x s && match_perm i cs cp x /\
  (forall y, In y (cs_intra s') <-> In y (cs_intra s) \/ (In y cs /\ y < q /\ special q target y = false)) /\
  (forall y, In y (cs_meta s') <-> In y (cs_meta s) \/ (In y cs /\ q <= y)) /\
  (cs_sqi s' = true -> cs_sqi s = true \/ q <= target) /\
  NoDup (cs_intra s') /\ NoDup (cs_meta s') /\ (length (cs_intra s') + length (cs_meta s') <= length (cs_intra s) + length (cs_meta s) + length cs)%nat.
Proof.
  intros Hq. induction cs as [|y cs IH]; intros i s Hs Hl ND Hsq Hi Hm NDi NDm; cbn [split_controls].
  - cbv zeta. cbn [match_perm]. rewrite andb_true_r. cbn [In length]. intuition.
  - apply NoDup_cons_iff in ND. destruct ND as [Hy ND]. cbn [length] in Hl.
    fold (special q target y). destruct (special q target y) eqn:Esp.
    + (* the control at q - 1 *)
      unfold special in Esp. apply andb_true_iff in Esp. destruct Esp as [E1 E2]. apply N.leb_le in E1. apply N.eqb_eq in E2.
      assert (Ey : y = q - 1) by lia.
      assert (Hf : cs_sqi s = false) by (destruct (cs_sqi s) eqn:E; auto; exfalso; apply (Hsq eq_refl); left; auto).
      specialize (IH (i + 1) (mkSplit (cs_intra s) (cs_iperm s) (cs_meta s) (cs_mperm s) true i)). cbn [cs_intra cs_iperm cs_meta cs_mperm cs_sqi cs_sqiIndex] in IH.
      destruct IH as [A [B [C [D [E [F [G H]]]]]]]; auto; try lia.
      { intros _. rewrite <- Ey. auto. } { intros z Hz Hz'. apply (Hi z Hz). now right. } { intros z Hz Hz'. apply (Hm z Hz). now right. }
      cbv zeta in *. split; auto. split.
      { rewrite B. unfold sp_match, sqi_ok. cbn [cs_intra cs_iperm cs_meta cs_mperm cs_sqi cs_sqiIndex match_perm]. rewrite Hf, andb_true_r, <- Ey. now rewrite <- !andb_assoc. }
      split. { intros z. rewrite C. cbn [In]. split. intuition. intros [Hz|[[<-|Hz] [Hz2 Hz3]]]; auto. unfold special in Hz3. exfalso. destruct (N.leb_spec q target); [|lia]. destruct (N.eqb_spec (y + 1) q); [discriminate|lia]. }
      split. { intros z. rewrite D. cbn [In]. split. intuition. intros [Hz|[[<-|Hz] Hz2]]; auto. lia. }
      split. intros _. right. auto. split; auto. split; auto. cbn [length]. lia.
    + destruct (N.ltb_spec y q) as [L|L].
      * specialize (IH (i + 1) (mkSplit (cs_intra s ++ [y]) (N.lor (cs_iperm s) (w64 (N.shiftl (N.land (N.shiftr cp i) 1) (N.of_nat (length (cs_intra s)))))) (cs_meta s) (cs_mperm s) (cs_sqi s) (cs_sqiIndex s))).
        cbn [cs_intra cs_iperm cs_meta cs_mperm cs_sqi cs_sqiIndex] in IH. rewrite bit_shift in * by lia. destruct Hs as [I1 I2].
        destruct IH as [A [B [C [D [E [F [G H]]]]]]]; auto.
        { split; cbn [cs_intra cs_iperm cs_meta cs_mperm]; auto. rewrite app_length. cbn [length]. replace (N.of_nat (length (cs_intra s) + 1)) with (N.of_nat (length (cs_intra s)) + 1) by lia.
          apply lor_lt_pow2. apply N.lt_le_trans with (1 := I1). apply pow2_le_mono. lia. destruct (N.testbit cp i). apply pow2_lt_mono. lia. apply pow2_pos. }
        { rewrite app_length. cbn [length]. lia. } { intros H1 H2. apply (Hsq H1). now right. }
        { intros z Hz Hz'. apply in_app_or in Hz. destruct Hz as [Hz|[<-|[]]]. apply (Hi z Hz). now right. auto. }
        { intros z Hz Hz'. apply (Hm z Hz). now right. }
        { apply PAlu5.NoDup_app_disjoint; auto. repeat constructor; auto. intros z Hz [<-|[]]. apply (Hi _ Hz). now left. }
        cbv zeta in *. split; auto. split.
        { rewrite B. unfold sp_match, sqi_ok. cbn [cs_intra cs_iperm cs_meta cs_mperm cs_sqi cs_sqiIndex match_perm]. rewrite match_perm_snoc by auto.
          destruct (match_perm 0 (cs_intra s) (cs_iperm s) x), (match_perm 0 (cs_meta s) (cs_mperm s) x), (eqb (N.testbit x y) (N.testbit cp i)), (match_perm (i + 1) cs cp x), (if cs_sqi s then _ else _); reflexivity. }
        split. { intros z. rewrite C. rewrite in_app_iff. cbn [In]. split. intros [[Hz|[<-|[]]]|Hz]; intuition. intros [Hz|[[<-|Hz] [Hz2 Hz3]]]; auto. }
        split. { intros z. rewrite D. cbn [In]. split. intuition. intros [Hz|[[<-|Hz] Hz2]]; auto. lia. }
        split; auto. split; auto. split; auto. rewrite app_length in H. cbn [length] in *. lia.
      * specialize (IH (i + 1) (mkSplit (cs_intra s) (cs_iperm s) (cs_meta s ++ [y]) (N.lor (cs_mperm s) (w64 (N.shiftl (N.land (N.shiftr cp i) 1) (N.of_nat (length (cs_meta s)))))) (cs_sqi s) (cs_sqiIndex s))).
        cbn [cs_intra cs_iperm cs_meta cs_mperm cs_sqi cs_sqiIndex] in IH. rewrite bit_shift in * by lia. destruct Hs as [I1 I2].
        destruct IH as [A [B [C [D [E [F [G H]]]]]]]; auto.
        { split; cbn [cs_intra cs_iperm cs_meta cs_mperm]; auto. rewrite app_length. cbn [length]. replace (N.of_nat (length (cs_meta s) + 1)) with (N.of_nat (length (cs_meta s)) + 1) by lia.
          apply lor_lt_pow2. apply N.lt_le_trans with (1 := I2). apply pow2_le_mono. lia. destruct (N.testbit cp i). apply pow2_lt_mono. lia. apply pow2_pos. }
        { rewrite app_length. cbn [length]. lia. } { intros H1 H2. apply (Hsq H1). now right. }
        { intros z Hz Hz'. apply (Hi z Hz). now right. }
        { intros z Hz Hz'. apply in_app_or in Hz. destruct Hz as [Hz|[<-|[]]]. apply (Hm z Hz). now right. auto. }
        { apply PAlu5.NoDup_app_disjoint; auto. repeat constructor; auto. intros z Hz [<-|[]]. apply (Hm _ Hz). now left. }
        cbv zeta in *. split; auto. split.
        { rewrite B. unfold sp_match, sqi_ok. cbn [cs_intra cs_iperm cs_meta cs_mperm cs_sqi cs_sqiIndex match_perm]. rewrite match_perm_snoc by auto.
          destruct (match_perm 0 (cs_intra s) (cs_iperm s) x), (match_perm 0 (cs_meta s) (cs_mperm s) x), (eqb (N.testbit x y) (N.testbit cp i)), (match_perm (i + 1) cs cp x), (if cs_sqi s then _ else _); reflexivity. }
        split. { intros z. rewrite C. cbn [In]. split. intuition. intros [Hz|[[<-|Hz] [Hz2 Hz3]]]; auto. lia. }
        split. { intros z. rewrite D. rewrite in_app_iff. cbn [In]. split. intros [[Hz|[<-|[]]]|Hz]; intuition. intros [Hz|[[<-|Hz] Hz2]]; auto. }
        split; auto. split; auto. split; auto. rewrite app_length in H. cbn [length] in *. lia.
Qed.
