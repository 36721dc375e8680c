(** Disposal of qubits in a known state on a pager. *)
From Coq Require Import NArith List Bool Lia Ring.
From Verif Require Import Bits MQCircuit MFunctions SpecFunctions PFunctions MParFor SpecParFor PParFor MKernel PKernel Amp PAmp SpecState SpecAlu MEngine SpecEngine PLoop PApply PGates PGates2 PGates3 PCompose PProb PEngine MCircuit PCircuit PCircuit4 PCircuit11 PCircuit12 PMaskBits MPager SpecPager PPager1 PPager2 PPager3 PPager4 PPager5 PPager6 PPager7 PPager8 PPager9 PPager10 MPager2 SpecPager2 PPager11.
Import ListNotations.
Local Open Scope N_scope.

Section Dispose.
  Context {K : StarRing}.
  Variable c : cfg.
  Add Ring KrBB : (sr_ring K).
  Local Notation V := (mem K).

  Lemma slice_page s len perm q x : s + len <= q -> perm < 2 ^ len ->
    slice_ix s len perm x / 2 ^ q = x / 2 ^ (q - len) /\ slice_ix s len perm x mod 2 ^ q = slice_ix s len perm (x mod 2 ^ (q - len)).
  Proof.
    intros Hs Hp. split; apply N.bits_inj; intros j.
    - rewrite !tb_div2, tb_slice_ix by auto. destruct (N.ltb_spec (j + q) s); [lia|]. destruct (N.ltb_spec (j + q) (s + len)); [lia|]. f_equal. lia.
    - rewrite tb_mod2, !tb_slice_ix, !tb_mod2 by auto. destruct (N.ltb_spec j q); cbn [andb].
      + destruct (N.ltb_spec j s). destruct (N.ltb_spec j (q - len)); auto; lia. destruct (N.ltb_spec j (s + len)); auto. destruct (N.ltb_spec (j - len) (q - len)); auto; lia.
      + destruct (N.ltb_spec j s); [lia|]. destruct (N.ltb_spec j (s + len)); [lia|]. destruct (N.ltb_spec (j - len) (q - len)); auto; lia.
  Qed.
  Lemma dispose_pages_run q s len perm (p : pager K) : paged q p -> fits c (pg_n p) -> 0 < pg_thr p -> s + len <= q -> 0 < len < q -> perm < 2 ^ len ->
    every_run (dispose_pages c s len perm p) (paged_any (pg_n p - len) p (slice s len perm (flat p))).
  Proof.
    intros Hp Hf H0 Hs HL Hm. assert (Hn : pg_n p < 64) by apply Hf. assert (Hqn : q <= pg_n p) by apply Hp. assert (EC : pg_count p = 2 ^ (pg_n p - q)) by apply Hp.
    assert (Hfq : fits c q) by (apply (fits_le c (pg_n p)); auto). unfold dispose_pages.
    apply (andthen_run _ _ p (fun p1 => shape p p1 /\ forall j, j < pg_count p -> eqv (q - len) (vread (pg_page p1 j)) (slice s len perm (vread (pg_page p j))))).
    - rewrite (paged_qpp q p) by auto. eapply every_run_weaken. apply (each_pages (q - len) (fun _ => eng_Dispose c q s len perm) (fun _ => slice s len perm)).
      + apply iota_NoDup.
      + intros j Hj. unfold all_pages in Hj. apply iota_In in Hj. rewrite N2Nat.id in Hj. lia.
      + intros j _ v. unfold eng_Dispose. destruct (c24_dispose c q s len perm v Hfq) as [[r1 R1] A]; auto. { change (2 ^ 8) with 256. lia. } lia. split. eexists. exists r1. split; [exact R1|reflexivity].
        intros r [r2 [R2 ->]]. destruct (A r2 R2) as [v' [-> [_ Hv]]]. exists v'. auto.
      + intros r [p' [-> [S E]]]. exists p'. split; auto. split; auto. intros j Hj. apply E. unfold all_pages. apply iota_In. rewrite N2Nat.id. lia.
    - intros p1 [[A1 [B1 C1]] D1].
      apply (andthen_run _ _ p1 (fun p2 => p2 = mkPager (pg_n p - len) (pg_thr p) (pg_count p1) (pg_page p1))).
      { split. eexists; reflexivity. intros r ->. rewrite B1. eexists. split; reflexivity. }
      intros p2 E2. assert (Hp2 : paged (q - len) p2). { rewrite E2. split; cbn [pg_n pg_count]. lia. rewrite C1, EC. f_equal. lia. }
      assert (N2 : pg_n p2 = pg_n p - len) by (now rewrite E2). assert (T2 : pg_thr p2 = pg_thr p) by (now rewrite E2).
      assert (F2 : eqv (pg_n p - len) (flat p2) (slice s len perm (flat p))).
      { intros x Hx. rewrite (flat_at (q - len) p2) by auto. rewrite E2. cbn [pg_page]. rewrite D1. 2:{ rewrite EC. replace (pg_n p - q) with (pg_n p - len - (q - len)) by lia. apply page_lt; auto. lia. } 2:{ apply N.mod_lt, pow2_nz. }
        unfold slice. fold (slice_ix s len perm x). fold (slice_ix s len perm (x mod 2 ^ (q - len))). rewrite (flat_at q p) by auto. destruct (slice_page s len perm q x Hs Hm) as [-> ->]. reflexivity. }
      assert (Hf2 : fits c (pg_n p2)) by (rewrite N2; apply (fits_le c (pg_n p)); auto; lia).
      apply (andthen_run _ _ p2 (fun p3 => pg_n p3 = pg_n p - len /\ pg_thr p3 = pg_thr p /\ paged (N.max (q - len) (N.min (pg_thr p) (pg_n p - len))) p3 /\ eqv (pg_n p - len) (flat p3) (flat p2))).
      { eapply every_run_weaken. apply (combine_ok c (q - len) (pg_thr p) p2 Hp2); auto. rewrite N2. intros r [p3 [-> [A [B [C D]]]]]. exists p3. rewrite T2 in B. auto. }
      intros p3 [A3 [B3 [C3 D3]]]. eapply every_run_weaken. unfold SeparateBase. apply (separate_ok c _ (pg_base p3) false p3 C3). rewrite A3, <- N2. auto.
      intros r [p4 [-> [A4 [B4 [C4 D4]]]]]. rewrite A3 in A4, D4. rewrite B3 in B4. exists p4. repeat split; auto.
      + eexists. split. exact C4. assert (E4 := base_min p4). assert (E3 := base_min p3). rewrite A4, B4 in E4. rewrite A3, B3 in E3. lia.
      + intros x Hx. now rewrite (D4 x Hx), (D3 x Hx), (F2 x Hx).
  Qed.
  Lemma dispose_index n s len perm y : s + len <= n -> perm < 2 ^ len -> y < 2 ^ (n - len) ->
    swaps_inv (ror_pairs s 0 n) (slice_ix 0 len perm (swaps_inv (rol_pairs s 0 (n - len)) y)) = slice_ix s len perm y.
  Proof.
    intros Hs Hp Hy. set (z := swaps_inv (rol_pairs s 0 (n - len)) y). assert (Hz : z < 2 ^ (n - len)) by (apply swaps_inv_lt; auto; apply rol_pairs_lt; lia).
    assert (Ez : cact (qi_ROL s 0 (n - len) : circ K) z = y) by (rewrite <- (rol_pairs_act K); apply swaps_map_inv). clearbody z.
    destruct (rol_bits (K:=K) s (n - len) z ltac:(lia)) as [L1 [L2 _]]. rewrite Ez in L1, L2.
    set (w := slice_ix s len perm y). assert (Hw : w < 2 ^ n). { unfold w. replace n with (n - len + len) by lia. apply slice_ix_lt; auto. lia. }
    destruct (ror_bits (K:=K) s n w ltac:(lia)) as [R1 [R2 R3]].
    rewrite <- (swaps_inv_map (ror_pairs s 0 n) w). f_equal. rewrite (ror_pairs_act K). symmetry. apply N.bits_inj. intros j. rewrite tb_slice_ix by auto. rewrite N.add_0_l. destruct (N.ltb_spec j 0); [lia|].
    destruct (N.lt_ge_cases j n) as [Lj|Lj].
    - destruct (N.lt_ge_cases (j + s) n) as [Ls|Ls].
      + rewrite R1 by lia. unfold w. rewrite tb_slice_ix by auto. destruct (N.ltb_spec (j + s) s); [lia|]. destruct (N.ltb_spec j len).
        * destruct (N.ltb_spec (j + s) (s + len)); [|lia]. f_equal. lia.
        * destruct (N.ltb_spec (j + s) (s + len)); [lia|]. rewrite <- L1 by lia. f_equal. lia.
      + rewrite R2 by lia. unfold w. rewrite tb_slice_ix by auto. destruct (N.ltb_spec (j + s - n) s); [|lia]. destruct (N.ltb_spec j len); [lia|]. rewrite <- L2 by lia. f_equal. lia.
    - rewrite R3 by lia. rewrite (tb_high w n) by auto. destruct (N.ltb_spec j len); [lia|]. symmetry. apply (tb_high z (n - len)); auto. lia.
  Qed.
  Theorem dispose_pager s len perm (p : pager K) : regular p -> fits c (pg_n p) -> 0 < pg_thr p -> s + len <= pg_n p -> 0 < len < pg_n p -> perm < 2 ^ len -> pg_n p <= pg_base p + 8 ->
    pg_n p - len <= pg_thr p + 8 ->
    every_run (PDispose c s len perm p) (paged_any (pg_n p - len) p (slice s len perm (flat p))).
  Proof.
    intros [q [Hp Hb]] Hf H0 Hs HL Hm H8 H8'. assert (Hn : pg_n p < 64) by apply Hf. assert (Hqn : q <= pg_n p) by apply Hp. unfold PDispose.
    replace (w8 (len + 1)) with (len + 1) by (unfold w8; symmetry; apply N.mod_small; lia).
    set (q1 := N.max q (N.min (len + 1) (pg_n p))).
    apply (andthen_run _ _ p (fun p1 => pg_n p1 = pg_n p /\ pg_thr p1 = pg_thr p /\ paged q1 p1 /\ eqv (pg_n p) (flat p1) (flat p))).
    { eapply every_run_weaken. apply (combine_ok c q (len + 1) p Hp Hf). intros r [p1 [-> [A [B [C D]]]]]. exists p1. auto. }
    intros p1 [A1 [B1 [C1 D1]]]. assert (Hn1 : pg_n p1 < 64) by now rewrite A1. rewrite (paged_qpp q1 p1) by auto.
    assert (E1 : pg_base p1 = pg_base p) by (now rewrite !base_min, A1, B1). assert (Ep := base_min p).
    assert (SL : forall a b : V, eqv (pg_n p) a b -> eqv (pg_n p - len) (slice s len perm a) (slice s len perm b)).
    { intros a b H x Hx. unfold slice. fold (slice_ix s len perm x). apply H. replace (pg_n p) with (pg_n p - len + len) by lia. apply slice_ix_lt; auto. lia. }
    destruct (N.ltb_spec q1 (s + len)) as [L|L].
    - apply (andthen_run _ _ p1 (fun p2 => pg_n p2 = pg_n p /\ pg_thr p2 = pg_thr p /\ regular p2 /\ eqv (pg_n p) (flat p2) (fun x => flat p (swaps_inv (ror_pairs s 0 (pg_n p)) x)))).
      { eapply every_run_weaken. unfold PROR. rewrite A1. apply swaps_run; rewrite ?A1, ?B1, ?E1; auto. exists q1. split; auto. rewrite E1. unfold q1. lia. apply ror_pairs_lt. lia.
        rewrite A1, <- B1. intros r [p2 [-> [A [B [C D]]]]]. exists p2. split; auto. split; auto. split; auto. split; auto. intros x Hx. rewrite (D x Hx). apply D1. apply swaps_inv_lt; auto. apply ror_pairs_lt. lia. }
      intros p2 [A2 [B2 [[q2 [C2 C2']] D2]]]. set (q3 := N.max q2 (N.min (len + 1) (pg_n p))). assert (Hf2 : fits c (pg_n p2)) by now rewrite A2.
      apply (andthen_run _ _ p2 (fun p3 => pg_n p3 = pg_n p /\ pg_thr p3 = pg_thr p /\ paged q3 p3 /\ eqv (pg_n p) (flat p3) (flat p2))).
      { eapply every_run_weaken. apply (combine_ok c q2 (len + 1) p2 C2 Hf2). rewrite A2, <- B2. intros r [p3 [-> [A [B [C D]]]]]. exists p3. auto. }
      intros p3 [A3 [B3 [C3 D3]]].
      apply (andthen_run _ _ p3 (fun p4 => pg_n p4 = pg_n p - len /\ pg_thr p4 = pg_thr p /\ regular p4 /\ eqv (pg_n p - len) (flat p4) (slice 0 len perm (flat p3)))).
      { eapply every_run_weaken. apply (dispose_pages_run q3); rewrite ?A3, ?B3; auto; unfold q3; lia. rewrite A3. intros r [p4 [-> [A [B [C D]]]]]. exists p4. split; auto. split; auto. split; auto. congruence. }
      intros p4 [A4 [B4 [C4 D4]]]. eapply every_run_weaken. unfold PROL. rewrite A4. assert (E4 := base_min p4). rewrite A4, B4 in E4. apply swaps_run; rewrite ?A4, ?B4; auto. apply (fits_le c (pg_n p)); auto; lia. lia. apply rol_pairs_lt. lia.
      rewrite A4. intros r [p5 [-> [A5 [B5 [C5 D5]]]]]. exists p5. rewrite B4 in B5. repeat split; auto. intros y Hy. rewrite (D5 y Hy).
      assert (Hz : swaps_inv (rol_pairs s 0 (pg_n p - len)) y < 2 ^ (pg_n p - len)) by (apply swaps_inv_lt; auto; apply rol_pairs_lt; lia).
      rewrite (D4 _ Hz). unfold slice. fold (slice_ix 0 len perm (swaps_inv (rol_pairs s 0 (pg_n p - len)) y)). fold (slice_ix s len perm y).
      assert (HS : slice_ix 0 len perm (swaps_inv (rol_pairs s 0 (pg_n p - len)) y) < 2 ^ pg_n p). { replace (pg_n p) with (pg_n p - len + len) at 2 by lia. apply slice_ix_lt; auto. lia. }
      rewrite (D3 _ HS), (D2 _ HS). now rewrite dispose_index.
    - eapply every_run_weaken. apply (dispose_pages_run q1); rewrite ?A1, ?B1; auto; unfold q1; lia. rewrite A1. intros r [p4 [-> [A [B [C D]]]]]. exists p4. split; auto. split; auto. split. congruence. split; auto.
      intros x Hx. rewrite (D x Hx). now apply SL.
  Qed.
End Dispose.
