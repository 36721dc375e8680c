(** Combining and separating pages. *)
From Coq Require Import NArith List Bool Lia Ring.
From Verif Require Import Bits MQCircuit MFunctions SpecFunctions PFunctions MParFor SpecParFor PParFor MKernel PKernel Amp PAmp SpecState MEngine SpecEngine PLoop PApply PGates PGates2 PGates3 PCompose PProb PEngine MPager SpecPager PPager1 PPager2 PPager3 PPager4 PPager5.
Import ListNotations.
Local Open Scope N_scope.

Section Build.
  Context {K : StarRing}.
  Variable c : cfg.
  Add Ring KrAV : (sr_ring K).
  Local Notation V := (mem K).

  Lemma build_run f (Q : N -> option V -> Prop) : forall l acc, NoDup l ->
    (forall i, In i l -> every_run (f i) (fun r => exists v, r = Ok v /\ Q i v)) ->
    every_run (build f l acc) (fun r => exists pages, r = Ok pages /\ (forall i, In i l -> Q i (pages i)) /\ (forall i, ~ In i l -> pages i = acc i)).
  Proof.
    induction l as [|i t IH]; intros acc ND H; cbn [build].
    - split. eexists; reflexivity. intros r ->. exists acc. split; auto. split; auto. intros i [].
    - apply NoDup_cons_iff in ND. destruct ND as [Hi ND]. destruct (H i (or_introl eq_refl)) as [[r1 H1] A]. split.
      + destruct (A r1 H1) as [v [-> Hv]]. destruct (IH (fun j => if j =? i then v else acc j) ND) as [[r Hr] _]. intros j Hj. apply H. now right. exists r, (Ok v). auto.
      + intros r [r2 [H2 H3]]. destruct (A r2 H2) as [v [-> Hv]]. destruct (IH (fun j => if j =? i then v else acc j) ND) as [_ B]. intros j Hj. apply H. now right.
        destruct (B r H3) as [pages [-> [P1 P2]]]. exists pages. split; auto. split.
        * intros j [<-|Hj]; auto. rewrite P2 by auto. now rewrite N.eqb_refl.
        * intros j Hj. rewrite P2. destruct (N.eqb_spec j i); auto. subst. exfalso. apply Hj. now left. intros H'. apply Hj. now right.
  Qed.
  Lemma new_pages_run q' count f (p : pager K) (spec : V) : q' <= pg_n p -> count = 2 ^ (pg_n p - q') ->
    (forall i, i < count -> every_run (f i) (fun r => exists v, r = Ok v /\ eqv q' (vread v) (fun x => spec (i * 2 ^ q' + x)))) ->
    every_run (new_pages count f p) (paged_result (pg_n p) q' p spec).
  Proof.
    intros Hq Hc H. unfold new_pages.
    destruct (build_run f (fun i v => eqv q' (vread v) (fun x => spec (i * 2 ^ q' + x))) (iota 0 (N.to_nat count)) (fun _ => None)) as [[r1 H1] A].
    apply iota_NoDup. intros i Hi. apply H. apply iota_In in Hi. rewrite N2Nat.id in Hi. lia. split.
    - eexists. exists r1. split; [exact H1|reflexivity].
    - intros r [r2 [H2 ->]]. destruct (A r2 H2) as [pages [-> [P _]]]. eexists. split; [reflexivity|]. cbn [pg_n pg_thr].
      assert (Hp : paged q' (mkPager (pg_n p) (pg_thr p) count pages)) by (split; auto). split; auto. split; auto. split; auto.
      intros x Hx. rewrite (flat_at q') by auto. cbn [pg_page]. rewrite P.
      + f_equal. rewrite N.mul_comm. symmetry. apply N.div_mod. apply pow2_nz.
      + apply iota_In. rewrite N2Nat.id. rewrite Hc, N.add_0_l. split. apply N.le_0_l. now apply page_lt.
      + apply N.mod_lt, pow2_nz.
  Qed.
  Lemma eng_each_run body (I : N -> option V -> Prop) : forall k a v, I a v ->
    (forall j u, a <= j < a + N.of_nat k -> I j u -> every_run (body j u) (fun r => exists u', r = Ok u' /\ I (j + 1) u')) ->
    every_run (eng_each body (iota a k) v) (fun r => exists u, r = Ok u /\ I (a + N.of_nat k) u).
  Proof.
    induction k as [|k IH]; intros a v Hv H; cbn [eng_each iota].
    - split. eexists; reflexivity. intros r ->. exists v. now rewrite N.add_0_r.
    - destruct (H a v ltac:(lia) Hv) as [[r1 H1] A].
      assert (HK : forall u, I (a + 1) u -> every_run (eng_each body (iota (a + 1) k) u) (fun r => exists u, r = Ok u /\ I (a + N.of_nat (S k)) u)).
      { intros u Hu. replace (a + N.of_nat (S k)) with (a + 1 + N.of_nat k) by lia. apply IH; auto. intros j u' Hj. apply H. lia. }
      split.
      + destruct (A r1 H1) as [u [-> Hu]]. destruct (HK u Hu) as [[r Hr] _]. exists r, (Ok u). auto.
      + intros r [r2 [H2 H3]]. destruct (A r2 H2) as [u [-> Hu]]. destruct (HK u Hu) as [_ B]. auto.
  Qed.
  Lemma set_page_eng_run n ns (src : option V) so d len v : fits c n -> ns < 64 -> d + len <= 2 ^ n -> so + len <= 2 ^ ns ->
    every_run (SetAmplitudePageEng c n ns src so d len v) (fun r => exists v', r = Ok v' /\ eqv n (vread v') (overwrite d len (fun i => vread src (so + i)) (vread v))).
  Proof.
    intros Hf Hns Hd Hs. split. 2: intros r; now apply set_page_eng_ok.
    assert (Hn : n < 64) by apply Hf. pose proof (pow2_lt_mono n 64 Hn). pose proof (pow2_lt_mono ns 64 Hns).
    unfold SetAmplitudePageEng. rewrite !isBadPermRange_ok by lia.
    destruct (N.ltb_spec (2 ^ n) (d + len)); [lia|]. destruct (N.ltb_spec (2 ^ ns) (so + len)); [lia|]. cbn [orb].
    destruct (cleared_any c n v Hf) as [m0 Hcl].
    destruct (loop_for_exists c n len (fun lcv => Wr (w64 (lcv + d)) (vread src (w64 (lcv + so))) Ret) m0 Hf) as [m' Hm]. lia.
    destruct v, src; cbn [andb]; try destruct (_ =? _); eauto 8.
  Qed.

  (** C62. *)
  Theorem combine_ok q bit (p : pager K) : paged q p -> fits c (pg_n p) ->
    every_run (CombineEngines c bit p) (paged_result (pg_n p) (N.max q (N.min bit (pg_n p))) p (flat p)).
  Proof.
    intros Hp Hf. assert (Hn : pg_n p < 64) by apply Hf. unfold CombineEngines. rewrite (paged_qpp q p), (paged_power q p) by auto. cbv zeta.
    replace (if pg_n p <? bit then pg_n p else bit) with (N.min bit (pg_n p)) by (destruct (N.ltb_spec (pg_n p) bit); lia).
    set (b := N.min bit (pg_n p)). destruct (N.leb_spec b q) as [L|L].
    - replace (N.max q b) with q by lia. split. eexists; reflexivity. intros r ->. exists p. repeat split; auto; apply Hp.
    - replace (N.max q b) with b by lia. rewrite pow2Ocl_small by lia. assert (Hb : b <= pg_n p) by lia. assert (EC : pg_count p = 2 ^ (pg_n p - q)) by apply Hp.
      assert (EG : pg_count p / 2 ^ (pg_n p - b) = 2 ^ (b - q)).
      { rewrite EC. symmetry. apply N.div_unique_exact. apply pow2_nz. rewrite <- N.pow_add_r. f_equal. lia. }
      rewrite EG. apply new_pages_run; auto. intros i Hi.
      assert (Hfb : fits c b) by (apply (fits_le c (pg_n p)); auto).
      assert (EP : 2 ^ b = 2 ^ (b - q) * 2 ^ q) by (rewrite <- N.pow_add_r; f_equal; lia).
      eapply every_run_weaken.
      + apply (eng_each_run _ (fun j v => eqv b (vread v) (fun x => if x <? j * 2 ^ q then flat p (i * 2 ^ b + x) else 0%amp)) (N.to_nat (2 ^ (b - q))) 0 None).
        * intros x _. cbn [vread]. destruct (N.ltb_spec x (0 * 2 ^ q)); auto. lia.
        * intros j u Hj Hu. rewrite N2Nat.id in Hj. eapply every_run_weaken. apply set_page_eng_run; auto; try lia.
          { rewrite EP. replace (j * 2 ^ q + 2 ^ q) with ((j + 1) * 2 ^ q) by lia. apply N.mul_le_mono_r. lia. }
          intros r [u' [-> Eu]]. exists u'. split; auto. intros x Hx. rewrite (Eu x Hx). unfold overwrite. rewrite (Hu x Hx).
          rewrite (N.mul_add_distr_r j 1), N.mul_1_l.
          destruct (N.leb_spec (j * 2 ^ q) x) as [L1|L1], (N.ltb_spec x (j * 2 ^ q + 2 ^ q)) as [L2|L2], (N.ltb_spec x (j * 2 ^ q)) as [L3|L3]; cbn [andb]; auto; try lia.
          rewrite (flat_at q p) by auto.
          assert (EI : i * 2 ^ b + x = (j + i * 2 ^ (b - q)) * 2 ^ q + (x - j * 2 ^ q)) by (rewrite EP; lia).
          assert (ED : (i * 2 ^ b + x) / 2 ^ q = j + i * 2 ^ (b - q)) by (symmetry; apply (N.div_unique _ _ _ (x - j * 2 ^ q)); [lia|rewrite EI; lia]).
          assert (EM : (i * 2 ^ b + x) mod 2 ^ q = x - j * 2 ^ q) by (symmetry; apply (N.mod_unique _ _ (j + i * 2 ^ (b - q))); [lia|rewrite EI; lia]).
          rewrite ED, EM. reflexivity.
      + intros r [v [-> Hv]]. exists v. split; auto. intros x Hx. rewrite (Hv x Hx). rewrite N.add_0_l, N2Nat.id, <- EP. destruct (N.ltb_spec x (2 ^ b)); auto; lia.
  Qed.
  Theorem separate_ok q bits nf (p : pager K) : paged q p -> fits c (pg_n p) ->
    every_run (SeparateEngines c bits nf p) (paged_result (pg_n p) (N.min q (if nf : bool then bits else N.max bits (pg_base p))) p (flat p)).
  Proof.
    intros Hp Hf. assert (Hn : pg_n p < 64) by apply Hf. unfold SeparateEngines. rewrite (paged_qpp q p) by auto. cbv zeta.
    replace (if negb nf && (bits <? pg_base p) then pg_base p else bits) with (if nf then bits else N.max bits (pg_base p)).
    2:{ destruct nf; cbn [negb andb]; auto. destruct (N.ltb_spec bits (pg_base p)); lia. }
    set (b := if nf then bits else _). destruct (N.leb_spec q b) as [L|L].
    - replace (N.min q b) with q by lia. split. eexists; reflexivity. intros r ->. exists p. repeat split; auto; apply Hp.
    - replace (N.min q b) with b by lia. assert (Hq : q <= pg_n p) by apply Hp. rewrite !pow2Ocl_small by lia. assert (EC : pg_count p = 2 ^ (pg_n p - q)) by apply Hp.
      assert (EG : 2 ^ (pg_n p - b) / pg_count p = 2 ^ (q - b)).
      { rewrite EC. symmetry. apply N.div_unique_exact. apply pow2_nz. rewrite <- N.pow_add_r. f_equal. lia. }
      rewrite EG. assert (EN : pg_count p * 2 ^ (q - b) = 2 ^ (pg_n p - b)) by (rewrite EC, <- N.pow_add_r; f_equal; lia). rewrite EN.
      apply new_pages_run; auto. lia. intros k Hk.
      assert (Hfb : fits c b) by (apply (fits_le c (pg_n p)); auto; lia).
      assert (EP : 2 ^ q = 2 ^ (q - b) * 2 ^ b) by (rewrite <- N.pow_add_r; f_equal; lia).
      set (i := k / 2 ^ (q - b)). set (j := k mod 2 ^ (q - b)). assert (Hj : j < 2 ^ (q - b)) by (apply N.mod_lt, pow2_nz).
      assert (Ek : k = 2 ^ (q - b) * i + j) by (apply N.div_mod, pow2_nz).
      eapply every_run_weaken. apply set_page_eng_run; auto; try lia.
      { rewrite EP. replace (j * 2 ^ b + 2 ^ b) with ((j + 1) * 2 ^ b) by lia. apply N.mul_le_mono_r. lia. }
      intros r [v [-> Hv]]. exists v. split; auto. intros x Hx. rewrite (Hv x Hx). unfold overwrite. rewrite N.add_0_l, N.sub_0_r. destruct (N.leb_spec 0 x); [|lia]. destruct (N.ltb_spec x (2 ^ b)); [|lia]. cbn [andb].
      rewrite (flat_at q p) by auto.
      assert (EI : k * 2 ^ b + x = 2 ^ q * i + (j * 2 ^ b + x)) by (rewrite Ek, EP; lia).
      assert (HL : j * 2 ^ b + x < 2 ^ q). { rewrite EP. apply N.lt_le_trans with ((j + 1) * 2 ^ b). lia. apply N.mul_le_mono_r. lia. }
      assert (ED : (k * 2 ^ b + x) / 2 ^ q = i) by (symmetry; apply (N.div_unique _ _ _ (j * 2 ^ b + x)); auto).
      assert (EM : (k * 2 ^ b + x) mod 2 ^ q = j * 2 ^ b + x) by (symmetry; apply (N.mod_unique _ _ i); auto).
      rewrite ED, EM. reflexivity.
  Qed.
End Build.
