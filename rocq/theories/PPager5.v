(** (Controlled) single-qubit gates on a pager: the entry points. *)
From Coq Require Import NArith List Bool Lia Ring.
From Verif Require PAlu5.
From Verif Require Import Bits MQCircuit MFunctions SpecFunctions PFunctions MParFor SpecParFor PParFor MKernel PKernel Amp PAmp SpecState MEngine SpecEngine PLoop PApply PGates PGates2 PGates3 PCompose PProb PEngine MPager SpecPager PPager1 PPager2 PPager3 PPager4.
Import ListNotations.
Local Open Scope N_scope.

Lemma match_perm_page q cs p x : (forall y, In y cs -> q <= y) -> forall i, match_perm i (map (fun y => y - q) cs) p (x / 2 ^ q) = match_perm i cs p x.
Proof.
  induction cs as [|y cs IH]; intros H i; cbn [map match_perm]; auto. rewrite tb_page. assert (q <= y) by (apply H; now left). replace (y - q + q) with y by lia.
  rewrite IH; auto. intros; apply H; now right.
Qed.
Lemma match_perm_off q cs p x i : (forall y, In y cs -> y < q) -> match_perm i cs p (x mod 2 ^ q) = match_perm i cs p x.
Proof. intros H. apply match_perm_ext_x. intros y Hy. apply tb_off. auto. Qed.
Lemma NoDup_shift q cs : NoDup cs -> (forall y, In y cs -> q <= y) -> NoDup (map (fun y => y - q) cs).
Proof.
  intros ND H. apply (NoDup_map_inv (fun y => y + q)). rewrite map_map. erewrite map_ext_in. rewrite map_id. exact ND. intros y Hy. specialize (H y Hy). cbv beta. lia.
Qed.

Lemma NoDup_len l n : NoDup l -> (forall y, In y l -> y < n) -> (length l <= N.to_nat n)%nat.
Proof.
  intros N1 H. assert (HI : incl l (iota 0 (N.to_nat n))). { intros y Hy. apply iota_In. specialize (H y Hy). lia. }
  pose proof (NoDup_incl_length N1 HI) as L. now rewrite iota_length in L.
Qed.

Section Gates.
  Context {K : StarRing}.
  Variable c : cfg.
  Add Ring KrAU : (sr_ring K).
  Local Notation V := (mem K).

  Lemma each_ext_in (b b' : N -> @pgstep K) l : (forall i, In i l -> b i = b' i) -> each b l = each b' l.
  Proof. induction l as [|i t IH]; intros H; cbn [each]; auto. rewrite (H i) by (now left). rewrite IH; auto. intros; apply H; now right. Qed.

  Lemma meta_pairs q f T (m : mat2 K) C ps o (p : pager K) (Mb : N -> bool) : paged q p -> pg_n p < 64 -> T < pg_n p - q ->
    op2_ok q f (pair_gate m C) -> increasing_below 0 (pg_n p - q) ps -> only_bits ps o -> o < 2 ^ (pg_n p - q) ->
    (forall j, agree ps j o <-> Mb j = true /\ N.testbit j T = false) -> indep Mb T ->
    every_run (each (fun i => pair_op f (N.lor (spread 0 i (map m1 ps)) o) (N.lor (N.lor (spread 0 i (map m1 ps)) o) (2 ^ T)))
                 (iota 0 (N.to_nat (N.shiftr (pg_count p) (N.of_nat (length ps))))) p)
      (paged_result (pg_n p) q p (gate1 (fun x => C (x mod 2 ^ q) && Mb (x / 2 ^ q)) (T + q) m (flat p))).
  Proof.
    intros Hp Hn HT Hf Hi Ho Hk HA Hind. assert (EC : pg_count p = 2 ^ (pg_n p - q)) by apply Hp.
    pose proof (increasing_length ps 0 _ Hi ltac:(lia)) as HL.
    replace (N.shiftr (pg_count p) (N.of_nat (length ps))) with (2 ^ (pg_n p - q - N.of_nat (length ps))) by (rewrite EC, shift_count by lia; auto).
    fold (idx (pg_n p - q) ps).
    rewrite (each_ext_in _ (fun i => pair_op f (N.lor (ins_all ps i) o) (N.lor (N.lor (ins_all ps i) o) (2 ^ T)))).
    2:{ intros i Hin. apply idx_In in Hin. rewrite (spread_ins (pg_n p - q)) by (auto; lia). reflexivity. }
    apply (pairs_flat q f T m C (fun i => N.lor (ins_all ps i) o) (idx (pg_n p - q) ps) p Mb); auto.
    - now apply pages_NoDup.
    - intros j. rewrite pages_In by auto. rewrite HA, EC. tauto.
    - intros j. apply Hind.
    - intros j. apply Hind.
  Qed.
  Lemma plain_pairs q f T (m : mat2 K) C (p : pager K) : paged q p -> pg_n p < 64 -> T < pg_n p - q -> op2_ok q f (pair_gate m C) ->
    every_run (each (fun i => pair_op f (pair_lo (2 ^ T) i) (N.lor (pair_lo (2 ^ T) i) (2 ^ T))) (iota 0 (N.to_nat (N.shiftr (pg_count p) 1))) p)
      (paged_result (pg_n p) q p (gate1 (fun x => C (x mod 2 ^ q)) (T + q) m (flat p))).
  Proof.
    intros Hp Hn HT Hf. eapply run_eqv.
    - rewrite (each_ext_in _ (fun i => pair_op f (N.lor (spread 0 i (map m1 [T])) 0) (N.lor (N.lor (spread 0 i (map m1 [T])) 0) (2 ^ T)))).
      2:{ intros i _. rewrite N.lor_0_r, pair_lo_spread. reflexivity. }
      apply (meta_pairs q f T m C [T] 0 p always); auto.
      + cbn [increasing_below]. lia.
      + intros i H. rewrite N.bits_0 in H. discriminate.
      + apply pow2_pos.
      + intros j. unfold agree, always. split. intros H. split; auto. rewrite (H T) by (now left). apply N.bits_0. intros [_ H] y [<-|[]]. now rewrite H, N.bits_0.
      + intros x; split; reflexivity.
    - apply gate1_ext; auto. intros x _. unfold always. apply andb_true_r.
  Qed.

  Lemma plain_pairs' q f t (m : mat2 K) C (p : pager K) : paged q p -> pg_n p < 64 -> q <= t < pg_n p -> op2_ok q f (pair_gate m C) ->
    every_run (each (fun i => pair_op f (pair_lo (2 ^ (t - q)) i) (N.lor (pair_lo (2 ^ (t - q)) i) (2 ^ (t - q)))) (iota 0 (N.to_nat (N.shiftr (pg_count p) 1))) p)
      (paged_result (pg_n p) q p (gate1 (fun x => C (x mod 2 ^ q)) t m (flat p))).
  Proof.
    intros Hp Hn HT Hf. pose proof (plain_pairs q f (t - q) m C p Hp Hn ltac:(lia) Hf) as H. now replace (t - q + q) with t in H by lia.
  Qed.

  Lemma indep_lo P t : indep P t -> (forall o, P (N.setbit o t) = P o) /\ (forall o, P (N.clearbit o t) = P o).
  Proof. intros H. split; intros o; apply H. Qed.
  Definition pair_cond (q : N) (P : N -> bool) (sqi anti : bool) (o : N) : bool := P o && (if sqi then Bool.eqb (N.testbit o (q - 1)) (negb anti) else true).
  Lemma single_lo q fn (m : mat2 K) P sqi anti (p : pager K) t : paged q p -> pg_n p < 64 -> t < q -> op_ok q (fn t) (gate1 P t m) ->
    every_run (SingleBitGate c t fn sqi anti p) (paged_result (pg_n p) q p (gate1 (fun x => P (x mod 2 ^ q)) t m (flat p))).
  Proof.
    intros Hp Hn Ht Hf. unfold SingleBitGate. rewrite (paged_qpp q p) by auto. cbv zeta. destruct (N.ltb_spec t q); [|lia]. now apply gate_all_pages.
  Qed.
  Lemma single_hi q fn (m : mat2 K) P sqi anti (p : pager K) t : paged q p -> fits c (pg_n p) -> 0 < q -> q <= t < pg_n p -> op_ok q (fn (q - 1)) (gate1 P (q - 1) m) -> indep P (q - 1) ->
    every_run (SingleBitGate c t fn sqi anti p) (paged_result (pg_n p) q p (gate1 (fun x => pair_cond q P sqi anti (x mod 2 ^ q)) t m (flat p))).
  Proof.
    intros Hp Hf Hq Ht Hop Hind. assert (Hn : pg_n p < 64) by apply Hf. unfold SingleBitGate. rewrite (paged_qpp q p) by auto. cbv zeta. destruct (N.ltb_spec t q); [lia|].
    rewrite pow2Ocl_small by lia. apply (plain_pairs' q _ t m (pair_cond q P sqi anti) p); auto.
    apply op2_shuffle; auto; try lia. apply (fits_le c (pg_n p)); auto. apply Hp. all: intros o; apply Hind.
  Qed.
  Lemma op2_special_gate q inv (top bottom : K) : fits c q -> 0 < q ->
    op2_ok q (special_op c q inv top bottom) (pair_gate (if inv then mkMat 0%amp top bottom 0%amp else mkMat top 0%amp 0%amp bottom) always).
  Proof.
    intros Hf Hq. eapply op2_ext. apply op2_special; auto. intros a b. unfold pair_gate, always. destruct inv; cbn [fst snd m00 m01 m10 m11]; split; intros x _; ring.
  Qed.

  Lemma either_single q inv (top bottom : K) (p : pager K) t : paged q p -> fits c (pg_n p) -> 0 < q -> t < pg_n p ->
    every_run (ApplySingleEither c inv top bottom t p)
      (paged_result (pg_n p) q p (gate1 always t (if inv then mkMat 0%amp top bottom 0%amp else mkMat top 0%amp 0%amp bottom) (flat p))).
  Proof.
    intros Hp Hf Hq Ht. assert (Hn : pg_n p < 64) by apply Hf. assert (Hfq : fits c q) by (apply (fits_le c (pg_n p)); auto; apply Hp).
    unfold ApplySingleEither. rewrite (paged_qpp q p) by auto. cbv zeta. destruct (N.ltb_spec t q) as [L|L].
    - destruct inv; apply (single_lo q _ _ always); auto. now apply op_mtrx. now apply op_phase.
    - rewrite pow2Ocl_small by lia. apply (plain_pairs' q _ t _ always p); auto. now apply op2_special_gate.
  Qed.
  Theorem mtrx_pager q (m : mat2 K) (p : pager K) t : paged q p -> fits c (pg_n p) -> 0 < q -> t < pg_n p ->
    every_run (PMtrx c m t p) (paged_result (pg_n p) q p (gate1 always t m (flat p))).
  Proof.
    intros Hp Hf Hq Ht. assert (Hn : pg_n p < 64) by apply Hf. assert (Hfq : fits c q) by (apply (fits_le c (pg_n p)); auto; apply Hp). unfold PMtrx.
    destruct (eqb_spec K (m01 m) 0%amp) as [E1|E1], (eqb_spec K (m10 m) 0%amp) as [E2|E2], (eqb_spec K (m00 m) 0%amp) as [E3|E3], (eqb_spec K (m11 m) 0%amp) as [E4|E4]; cbn [andb];
    try (eapply run_eqv; [apply either_single; auto | apply gate1_ext; auto; fail]).
    all: rewrite (paged_qpp q p) by auto; destruct (N.ltb_spec t q) as [L|L];
      [ apply (single_lo q _ m always); auto; now apply op_mtrx
      | eapply run_eqv; [apply (single_hi q _ m always false false p t); auto; [apply op_mtrx; auto; lia | intros x; split; reflexivity] | apply gate1_ext; auto] ].
  Qed.

  Lemma meta_op q (sg : page_fn) I ip (sqi isAnti an : bool) (m : mat2 K) : fits c q -> 0 < q -> q < 256 -> op_ok q (sg (q - 1)) (gate1 (match_perm 0 I ip) (q - 1) m) ->
    indep (match_perm 0 I ip) (q - 1) -> (sqi = true -> an = isAnti) ->
    op2_ok q (if negb sqi && negb (negb (N.of_nat (length I) =? 0)) && sr_eqb (m01 m) 0%amp && sr_eqb (m10 m) 0%amp then special_op c q false (m00 m) (m11 m)
              else if negb sqi && negb (negb (N.of_nat (length I) =? 0)) && sr_eqb (m00 m) 0%amp && sr_eqb (m11 m) 0%amp then special_op c q true (m01 m) (m10 m)
              else shuffle_op c q sg sqi an)
      (pair_gate m (pair_cond q (match_perm 0 I ip) sqi isAnti)).
  Proof.
    intros Hfq Hq Hq8 Hop Hind Han.
    assert (SH : op2_ok q (shuffle_op c q sg sqi an) (pair_gate m (pair_cond q (match_perm 0 I ip) sqi isAnti))).
    { eapply op2_ext. apply (op2_shuffle c q sg m (match_perm 0 I ip) sqi an); auto. 1,2: intros o; apply Hind.
      intros a b. unfold pair_cond. destruct sqi. rewrite (Han eq_refl). all: split; intros o _; reflexivity. }
    destruct sqi; cbn [negb andb]. exact SH.
    destruct I as [|y0 it].
    - change (N.of_nat (length (@nil N)) =? 0) with true. cbn [negb andb].
      assert (SD : m01 m = 0%amp -> m10 m = 0%amp -> op2_ok q (special_op c q false (m00 m) (m11 m)) (pair_gate m (pair_cond q (match_perm 0 [] ip) false isAnti))).
      { intros E1 E2. eapply op2_ext. apply op2_special_gate; auto. intros a b. unfold pair_gate, always, pair_cond. cbn [fst snd m00 m01 m10 m11 match_perm andb]. split; intros o _; rewrite ?E1, ?E2; ring. }
      assert (SI : m00 m = 0%amp -> m11 m = 0%amp -> op2_ok q (special_op c q true (m01 m) (m10 m)) (pair_gate m (pair_cond q (match_perm 0 [] ip) false isAnti))).
      { intros E1 E2. eapply op2_ext. apply op2_special_gate; auto. intros a b. unfold pair_gate, always, pair_cond. cbn [fst snd m00 m01 m10 m11 match_perm andb]. split; intros o _; rewrite ?E1, ?E2; ring. }
      destruct (eqb_spec K (m01 m) 0%amp) as [E1|E1], (eqb_spec K (m10 m) 0%amp) as [E2|E2], (eqb_spec K (m00 m) 0%amp) as [E3|E3], (eqb_spec K (m11 m) 0%amp) as [E4|E4]; cbn [andb]; auto.
    - replace (N.of_nat (length (y0 :: it)) =? 0) with false by (cbn [length]; destruct (N.eqb_spec (N.of_nat (S (length it))) 0); auto; lia). cbn [negb andb]. exact SH.
  Qed.

  (** ** Controlled gates *)
  Section Ctl.
    Variables (q target cp : N) (controls : list N) (p : pager K) (m : mat2 K).
    Hypothesis Hp : paged q p.
    Hypothesis Hf : fits c (pg_n p).
    Hypothesis Hq : 0 < q.
    Hypothesis ND : NoDup (controls ++ [target]).
    Hypothesis Hlt : forall y, In y (controls ++ [target]) -> y < pg_n p.
    (** The page bits used as controls of a gate inside the pages are among the first eight. *)
    Hypothesis Hsemi : target < q -> forall y, In y controls -> y < q + 8.
    Let s := split_controls q target cp 0 controls (mkSplit [] 0 [] 0 false 0).

    Lemma split_s x : sp_inv s /\ sp_match q cp x s = match_perm 0 controls cp x /\
      (forall y, In y (cs_intra s) <-> In y controls /\ y < q /\ special q target y = false) /\
      (forall y, In y (cs_meta s) <-> In y controls /\ q <= y) /\ (cs_sqi s = true -> q <= target) /\ NoDup (cs_intra s) /\ NoDup (cs_meta s) /\
      (length (cs_intra s) < 64)%nat /\ (length (cs_meta s) < 64)%nat.
    Proof.
      assert (Hn : pg_n p < 64) by apply Hf.
      assert (NDc : NoDup controls) by (apply NoDup_remove_1 in ND; now rewrite app_nil_r in ND).
      assert (L : (length controls < 64)%nat).
      { pose proof (NoDup_len (controls ++ [target]) (pg_n p) ND Hlt) as L. rewrite app_length in L. cbn [length] in L. lia. }
      destruct (split_ok q target cp x Hq controls 0 (mkSplit [] 0 [] 0 false 0)) as [A [B [C [D [E [F [G H]]]]]]]; cbn [cs_intra cs_iperm cs_meta cs_mperm cs_sqi cs_sqiIndex length] in *; auto; try constructor; try easy; try lia.
      fold s in A, B, C, D, E, F, G, H |- *. split.
      - rewrite B. unfold sp_match, sqi_ok. cbn. reflexivity.
      - split. intros y. rewrite C. cbn [In]. tauto. split. intros y. rewrite D. cbn [In]. tauto. split. intros HS. destruct (E HS); auto; discriminate. repeat split; auto; lia.
    Qed.
    Lemma extra_perm (ex : bool) l prm x : (length l < 64)%nat -> match_perm 0 l (if ex then N.lor prm (pow2Ocl (N.of_nat (length l))) else prm) x = match_perm 0 l prm x.
    Proof.
      intros Hl. destruct ex; auto. apply match_perm_ext_p. intros k Hk. rewrite pow2Ocl_small by lia. rewrite N.lor_spec, tb_pow2.
      destruct (N.eqb_spec (N.of_nat (length l)) k); [lia|]. apply orb_false_r.
    Qed.
    Let isAnti := negb (N.testbit cp (cs_sqiIndex s)).
    Let extra := cs_sqi s && negb isAnti.
    Let intraPerm := if extra then N.lor (cs_iperm s) (pow2Ocl (N.of_nat (length (cs_intra s)))) else cs_iperm s.
    Let metaPerm := if extra then N.lor (cs_mperm s) (pow2Ocl (N.of_nat (length (cs_meta s)))) else cs_mperm s.
    Let sg := fun t => UCMtrx c false q (cs_intra s) m t intraPerm.

    Lemma Hfq : fits c q. Proof. apply (fits_le c (pg_n p)); auto; apply Hp. Qed.
    Lemma target_lt : target < pg_n p. Proof. apply Hlt. apply in_or_app. right. now left. Qed.
    Lemma intra_lt y : In y (cs_intra s) -> y < q.
    Proof. intros H. destruct (split_s 0) as [_ [_ [C _]]]. apply C in H. tauto. Qed.
    Lemma meta_ge y : In y (cs_meta s) -> q <= y < pg_n p.
    Proof. intros H. destruct (split_s 0) as [_ [_ [_ [D _]]]]. apply D in H. split. tauto. apply Hlt. apply in_or_app. tauto. Qed.
    Lemma not_target y : In y controls -> y <> target.
    Proof. intros H ->. apply NoDup_remove_2 in ND. rewrite app_nil_r in ND. contradiction. Qed.
    Lemma op_sg_lo : target < q -> op_ok q (sg target) (gate1 (match_perm 0 (cs_intra s) intraPerm) target m).
    Proof.
      intros L. destruct (split_s 0) as [_ [_ [C [D [E [F G]]]]]]. apply op_uc. apply Hfq.
      - apply PAlu5.NoDup_app_disjoint; auto. repeat constructor; auto. intros y Hy [<-|[]]. apply C in Hy. now apply (not_target target).
      - intros y Hy. apply in_app_or in Hy. destruct Hy as [Hy|[<-|[]]]; auto. now apply intra_lt.
    Qed.
    Lemma intra_free : q <= target -> ~ In (q - 1) (cs_intra s).
    Proof.
      intros L H. destruct (split_s 0) as [_ [_ [C _]]]. apply C in H. destruct H as [_ [_ H]]. unfold special in H.
      destruct (N.leb_spec q target); [|lia]. destruct (N.eqb_spec (q - 1 + 1) q); [discriminate|lia].
    Qed.
    Lemma op_sg_hi : q <= target -> op_ok q (sg (q - 1)) (gate1 (match_perm 0 (cs_intra s) intraPerm) (q - 1) m).
    Proof.
      intros L. destruct (split_s 0) as [_ [_ [C [D [E [F G]]]]]]. apply op_uc. apply Hfq.
      - apply PAlu5.NoDup_app_disjoint; auto. repeat constructor; auto. intros y Hy [<-|[]]. now apply intra_free.
      - intros y Hy. apply in_app_or in Hy. destruct Hy as [Hy|[<-|[]]]; auto. now apply intra_lt. lia.
    Qed.
    Lemma intra_cond x : match_perm 0 (cs_intra s) intraPerm (x mod 2 ^ q) = match_perm 0 (cs_intra s) (cs_iperm s) x.
    Proof. rewrite match_perm_off by apply intra_lt. apply extra_perm. apply (split_s 0). Qed.
    Lemma meta_cond x : match_perm 0 (map (fun y => y - q) (cs_meta s)) (w64 metaPerm) (x / 2 ^ q) = match_perm 0 (cs_meta s) (cs_mperm s) x.
    Proof.
      rewrite match_perm_page. 2: intros y Hy; now apply meta_ge. rewrite <- (extra_perm extra (cs_meta s) (cs_mperm s)) by apply (split_s 0). fold metaPerm.
      apply match_perm_ext_p. intros k Hk. unfold w64. rewrite tb_mod2. destruct (split_s 0) as [_ [_ [_ [_ [_ [_ [_ [_ L]]]]]]]]. destruct (N.ltb_spec k 64); auto; lia.
    Qed.
    Lemma sqi_cond x : (if cs_sqi s then Bool.eqb (N.testbit (x mod 2 ^ q) (q - 1)) (negb isAnti) else true) = sqi_ok q cp x s.
    Proof. unfold sqi_ok, isAnti. rewrite negb_involutive. rewrite tb_off by lia. reflexivity. Qed.

    Lemma ctl_single : cs_meta s = [] ->
      every_run (SingleBitGate c target sg (cs_sqi s) isAnti p) (paged_result (pg_n p) q p (gate1 (match_perm 0 controls cp) target m (flat p))).
    Proof.
      intros EM. assert (Hn : pg_n p < 64) by apply Hf. destruct (N.lt_ge_cases target q) as [L|L].
      - eapply run_eqv. apply (single_lo q sg m (match_perm 0 (cs_intra s) intraPerm) _ _ p target Hp Hn L). apply op_sg_lo; auto. apply gate1_ext; auto. intros x _.
        rewrite intra_cond. destruct (split_s x) as [_ [<- [_ [_ [E _]]]]]. unfold sp_match, sqi_ok. rewrite EM. cbn [match_perm].
        destruct (cs_sqi s); rewrite ?andb_true_r; auto. specialize (E eq_refl). lia.
      - eapply run_eqv. apply (single_hi q sg m (match_perm 0 (cs_intra s) intraPerm) _ _ p target Hp Hf Hq). split; auto. apply target_lt. apply op_sg_hi; auto. apply indep_match_perm. now apply intra_free.
        apply gate1_ext; auto. intros x _. unfold pair_cond. rewrite intra_cond, sqi_cond. destruct (split_s x) as [_ [<- _]]. unfold sp_match. rewrite EM. cbn [match_perm]. now rewrite andb_true_r.
    Qed.
    Lemma meta_lt y : In y (map (fun y => y - q) (cs_meta s)) -> y < pg_n p - q.
    Proof. intros H. apply in_map_iff in H. destruct H as [z [<- Hz]]. apply meta_ge in Hz. lia. Qed.
    Lemma meta_ND : NoDup (map (fun y => y - q) (cs_meta s)).
    Proof. apply NoDup_shift. apply (split_s 0). intros y Hy. now apply meta_ge. Qed.
    Lemma mask_only prm : only_bits (map (fun y => y - q) (cs_meta s)) (perm_mask 0 (map (fun y => y - q) (cs_meta s)) prm).
    Proof.
      intros i H. assert (Hn : pg_n p < 64) by apply Hf. apply perm_mask_bit in H. destruct H as [k [H _]]. eapply nth_error_In; eauto. intros y Hy. apply meta_lt in Hy. lia. apply meta_ND.
    Qed.
    Lemma mask_lt prm : perm_mask 0 (map (fun y => y - q) (cs_meta s)) prm < 2 ^ (pg_n p - q).
    Proof.
      apply lt_pow2_bits. intros k Hk. destruct (N.testbit _ k) eqn:E; auto. apply mask_only in E. apply meta_lt in E. lia.
    Qed.
    Lemma masks_eq l : (forall y, In y l -> y < 64) -> map (fun y => pow2Ocl y - 1) l = map m1 l.
    Proof. intros H. apply map_ext_in. intros y Hy. unfold m1. rewrite pow2Ocl_small; auto. Qed.

    Lemma nsort_len l : length (nsort l) = length l.
    Proof. symmetry. apply Permutation.Permutation_length, nsort_perm. Qed.
    Lemma ctl_meta : q <= target ->
      every_run (MetaControlled c metaPerm (cs_meta s) target sg m (cs_sqi s) (negb (N.of_nat (length (cs_intra s)) =? 0)) p)
        (paged_result (pg_n p) q p (gate1 (match_perm 0 controls cp) target m (flat p))).
    Proof.
      intros L. assert (Hn : pg_n p < 64) by apply Hf. unfold MetaControlled. rewrite (paged_qpp q p) by auto. cbv zeta.
      pose proof target_lt as HT. rewrite pow2Ocl_small by lia. set (meta := map (fun y => y - q) (cs_meta s)).
      set (T := target - q). set (an := negb (N.testbit (w64 metaPerm) (N.of_nat (length (cs_meta s))))).
      set (F := if _ && _ && _ then _ else _).
      set (C := pair_cond q (match_perm 0 (cs_intra s) intraPerm) (cs_sqi s) isAnti).
      assert (EanT : cs_sqi s = true -> an = isAnti).
      { intros ES. unfold an, metaPerm, extra, w64. rewrite ES. cbn [andb]. destruct (split_s 0) as [[_ I2] [_ [_ [_ [_ [_ [_ [_ LL]]]]]]]].
        rewrite tb_mod2. destruct (N.ltb_spec (N.of_nat (length (cs_meta s))) 64); [|lia]. cbn [andb].
        destruct isAnti; cbn [negb].
        - rewrite (tb_high (cs_mperm s) (N.of_nat (length (cs_meta s)))) by (auto; lia). auto.
        - rewrite N.lor_spec, pow2Ocl_small, tb_pow2, N.eqb_refl, orb_true_r by lia. auto. }
      assert (HF : op2_ok q F (pair_gate m C)).
      { apply (meta_op q sg (cs_intra s) intraPerm (cs_sqi s) isAnti an m); auto. apply Hfq. destruct Hp; lia. now apply op_sg_hi. now apply indep_match_perm, intra_free. }
      clearbody F.
      assert (NDT : NoDup (meta ++ [T])).
      { apply PAlu5.NoDup_app_disjoint. apply meta_ND. repeat constructor; auto. intros y Hy [<-|[]]. apply in_map_iff in Hy. destruct Hy as [z [E Hz]].
        pose proof (meta_ge z Hz). destruct (split_s 0) as [_ [_ [_ [D _]]]]. apply D in Hz. destruct Hz as [Hz _]. apply (not_target z Hz). unfold T in E. lia. }
      assert (HTm : ~ In T meta) by (apply NoDup_remove_2 in NDT; now rewrite app_nil_r in NDT).
      replace (map (fun y => pow2Ocl y - 1) meta ++ [2 ^ T - 1]) with (map m1 (meta ++ [T])).
      2:{ rewrite map_app. cbn [map]. f_equal. symmetry. apply masks_eq. intros y Hy. apply meta_lt in Hy. lia. }
      rewrite nsort_m1, map_length.
      eapply run_eqv. apply (meta_pairs q F T m C (nsort (meta ++ [T])) (perm_mask 0 meta (w64 metaPerm)) p (match_perm 0 meta (w64 metaPerm))); auto.
      - unfold T. lia.
      - apply nsort_increasing; auto. intros y Hy. apply in_app_or in Hy. destruct Hy as [Hy|[<-|[]]]. now apply meta_lt. unfold T. lia.
      - apply only_bits_sort. intros i Hi. apply in_or_app. left. now apply mask_only in Hi.
      - apply mask_lt.
      - intros j. rewrite agree_sort, agree_app. rewrite match_perm_agree. 3: apply meta_ND. 2: intros y Hy; apply meta_lt in Hy; lia.
        assert (EO : N.testbit (perm_mask 0 meta (w64 metaPerm)) T = false). { destruct (N.testbit _ T) eqn:E; auto. apply mask_only in E. contradiction. }
        split; intros [H1 H2]; split; auto. rewrite (H2 T) by (now left). exact EO. intros y [<-|[]]. now rewrite H2, EO.
      - now apply indep_match_perm.
      - replace (T + q) with target by (unfold T; lia). apply gate1_ext; auto. intros x _. unfold C, pair_cond. rewrite intra_cond, sqi_cond. unfold meta. rewrite meta_cond.
        destruct (split_s x) as [_ [<- _]]. unfold sp_match. destruct (match_perm 0 (cs_intra s) (cs_iperm s) x), (match_perm 0 (cs_meta s) (cs_mperm s) x), (sqi_ok q cp x s); reflexivity.
    Qed.
    Lemma semi_mask_ok l prm : (forall y, In y l -> y < 8) -> forall i, semi_mask i l prm = perm_mask i l prm.
    Proof.
      induction l as [|y l IH]; intros H i; cbn [semi_mask perm_mask]; auto. rewrite IH by (intros; apply H; now right). do 2 f_equal.
      rewrite pow2Ocl_small by (pose proof (H y (or_introl eq_refl)); lia). destruct (N.testbit prm i); auto. unfold w8. apply N.mod_small. change 256 with (2 ^ 8). apply pow2_lt_mono. apply H. now left.
    Qed.
    Lemma ctl_semi : target < q ->
      every_run (SemiMetaControlled metaPerm (cs_meta s) target sg p) (paged_result (pg_n p) q p (gate1 (match_perm 0 controls cp) target m (flat p))).
    Proof.
      intros L. assert (Hn : pg_n p < 64) by apply Hf. unfold SemiMetaControlled. rewrite (paged_qpp q p) by auto. cbv zeta.
      set (meta := map (fun y => y - q) (cs_meta s)).
      assert (H8 : forall y, In y meta -> y < 8).
      { intros y Hy. apply in_map_iff in Hy. destruct Hy as [z [<- Hz]]. pose proof (meta_ge z Hz). destruct (split_s 0) as [_ [_ [_ [D _]]]]. apply D in Hz. destruct Hz as [Hz _].
        specialize (Hsemi L z Hz). lia. }
      rewrite semi_mask_ok by auto.
      replace (map (fun y => w8 (w8 (pow2Ocl y) + 255)) meta) with (map m1 meta).
      2:{ apply map_ext_in. intros y Hy. specialize (H8 y Hy). unfold m1. rewrite pow2Ocl_small by lia. assert (2 ^ y < 2 ^ 8) by now apply pow2_lt_mono.
          pose proof (pow2_pos y). unfold w8. change (2 ^ 8) with 256 in *. rewrite (N.mod_small (2 ^ y)) by auto.
          replace (2 ^ y + 255) with (2 ^ y - 1 + 1 * 256) by lia. rewrite N.mod_add by discriminate. symmetry. apply N.mod_small. lia. }
      rewrite nsort_m1, map_length. set (ps := nsort meta). set (o := perm_mask 0 meta (w64 metaPerm)).
      assert (Hi : increasing_below 0 (pg_n p - q) ps) by (apply nsort_increasing; [apply meta_ND | apply meta_lt]).
      assert (EC : pg_count p = 2 ^ (pg_n p - q)) by apply Hp.
      pose proof (increasing_length ps 0 _ Hi ltac:(lia)) as HL.
      replace (N.shiftr (pg_count p) (N.of_nat (length ps))) with (2 ^ (pg_n p - q - N.of_nat (length ps))) by (rewrite EC, shift_count by lia; auto).
      fold (idx (pg_n p - q) ps).
      rewrite (each_ext_in _ (fun i => page_op (sg target) (N.lor (ins_all ps i) o))).
      2:{ intros i Hin. apply idx_In in Hin. rewrite (spread_ins (pg_n p - q)) by (auto; lia). reflexivity. }
      rewrite <- (each_map (page_op (sg target)) (fun i => N.lor (ins_all ps i) o)).
      eapply run_eqv. apply (gate_pages q (sg target) _ p (match_perm 0 meta (w64 metaPerm)) (match_perm 0 (cs_intra s) intraPerm) target m); auto.
      - apply pages_NoDup; auto. apply only_bits_sort. apply mask_only.
      - intros j. rewrite pages_In; auto. 2: apply only_bits_sort, mask_only. 2: apply mask_lt. unfold ps. rewrite agree_sort, EC.
        rewrite match_perm_agree. tauto. intros y Hy. apply meta_lt in Hy. lia. apply meta_ND.
      - now apply op_sg_lo.
      - apply gate1_ext; auto. intros x _. rewrite intra_cond. unfold meta. rewrite meta_cond. destruct (split_s x) as [_ [<- [_ [_ [E _]]]]]. unfold sp_match, sqi_ok.
        destruct (cs_sqi s); rewrite ?andb_true_r; auto. specialize (E eq_refl). lia.
    Qed.
  End Ctl.

  Theorem ctl_pager q cp controls (m : mat2 K) target (p : pager K) : paged q p -> fits c (pg_n p) -> 0 < q -> NoDup (controls ++ [target]) ->
    (forall y, In y (controls ++ [target]) -> y < pg_n p) -> (target < q -> forall y, In y controls -> y < q + 8) ->
    every_run (ApplyEitherControlledSingleBit c cp controls target m p) (paged_result (pg_n p) q p (gate1 (match_perm 0 controls cp) target m (flat p))).
  Proof.
    intros Hp Hf Hq ND Hlt Hs. assert (Hn : pg_n p < 64) by apply Hf. unfold ApplyEitherControlledSingleBit. destruct controls as [|y0 ct].
    - eapply run_eqv. apply (mtrx_pager q); auto. apply Hlt. now left. apply gate1_ext; auto.
    - set (controls := y0 :: ct) in *. rewrite (paged_qpp q p) by auto. cbv zeta.
      eapply run_eqv with (s := gate1 (match_perm 0 controls (w64 cp)) target m (flat p)).
      + destruct (cs_meta (split_controls q target (w64 cp) 0 controls (mkSplit [] 0 [] 0 false 0))) eqn:EM.
        * apply ctl_single; auto.
        * rewrite <- EM. destruct (N.ltb_spec target q). apply ctl_semi; auto. apply ctl_meta; auto.
      + apply gate1_ext; auto. intros x _. apply match_perm_ext_p. intros k Hk. unfold w64. rewrite tb_mod2.
        pose proof (NoDup_len (controls ++ [target]) (pg_n p) ND Hlt) as LL. rewrite app_length in LL. cbn [length] in LL. destruct (N.ltb_spec k 64); auto; lia.
  Qed.
  Lemma one_page q (p : pager K) : paged q p -> pg_count p = 1 -> q = pg_n p.
  Proof.
    intros [A B] E1. rewrite B in E1. destruct (N.eq_dec (pg_n p - q) 0). lia. assert (2 ^ 1 <= 2 ^ (pg_n p - q)) by (apply pow2_le_mono; lia). change (2 ^ 1) with 2 in *. lia.
  Qed.
  Lemma one_op f G (p : pager K) : paged (pg_n p) p -> op_ok (pg_n p) f G -> (forall a b, eqv (pg_n p) a b -> eqv (pg_n p) (G a) (G b)) ->
    every_run (page_op f 0 p) (paged_result (pg_n p) (pg_n p) p (G (flat p))).
  Proof.
    intros Hp Hf HG. assert (E1 : pg_count p = 1) by (destruct Hp as [_ ->]; now rewrite N.sub_diag).
    unfold page_op. rewrite E1. cbn [N.leb N.compare]. destruct (Hf (pg_page p 0)) as [[r1 H1] A]. split.
    - eexists. exists r1. split; [exact H1|reflexivity].
    - intros r [r2 [H2 ->]]. destruct (A r2 H2) as [v [-> Hv]]. eexists. split; [reflexivity|]. repeat split; try apply Hp.
      intros x Hx. assert (Hp' : paged (pg_n p) (set_page p 0 v)) by exact Hp. rewrite (flat_at (pg_n p)) by auto. rewrite N.div_small, N.mod_small by auto.
      cbn [pg_page set_page]. rewrite N.eqb_refl. rewrite (Hv x Hx). apply HG; auto. intros y Hy. rewrite (flat_at (pg_n p)) by auto. now rewrite N.div_small, N.mod_small by auto.
  Qed.
  Theorem either_pager q anti controls (m : mat2 K) target (p : pager K) : paged q p -> fits c (pg_n p) -> 0 < q -> NoDup (controls ++ [target]) ->
    (forall y, In y (controls ++ [target]) -> y < pg_n p) -> (target < q -> forall y, In y controls -> y < q + 8) ->
    every_run (PEitherMtrx c anti controls m target p)
      (paged_result (pg_n p) q p (gate1 (if anti then all_clear controls else all_set controls) target m (flat p))).
  Proof.
    intros Hp Hf Hq ND Hlt Hs. unfold PEitherMtrx. destruct (N.eqb_spec (pg_count p) 1) as [E1|E1].
    - pose proof (one_page q p Hp E1). subst q. apply one_op; auto. apply op_either; auto.
      intros a b Hab. apply gate1_eqv; auto. apply Hlt. apply in_or_app. right. now left.
    - eapply run_eqv. apply (ctl_pager q); auto. apply gate1_ext; auto. intros x _. destruct anti. apply match_perm_clear. apply match_perm_set.
  Qed.
End Gates.
