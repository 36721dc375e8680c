(** Probabilities, measurement update, composition, conversion from and to an engine, and circuits on a pager. *)
From Coq Require Import NArith List Bool Lia Ring.
From Verif Require Import Bits MQCircuit MFunctions SpecFunctions PFunctions MParFor SpecParFor PParFor MKernel PKernel Amp PAmp SpecState MEngine SpecEngine PLoop PApply PGates PGates2 PGates3 PCompose PProb PEngine MCircuit PCircuit PMaskBits MPager SpecPager PPager1 PPager2 PPager3 PPager4 PPager5 PPager6 PPager7 PPager8 PPager9.
Import ListNotations.
Local Open Scope N_scope.

Section Sums.
  Context {K : StarRing}.
  Variable c : cfg.
  Add Ring KrAZ : (sr_ring K).
  Local Notation V := (mem K).

  Lemma page_sum_run f (g : N -> K) : forall l acc, (forall i, In i l -> every_run (f i) (fun x => x = g i)) -> every_run (page_sum f l acc) (fun r => r = (acc + asum g l)%amp).
  Proof.
    induction l as [|i t IH]; intros acc H; cbn [page_sum asum].
    - split. eexists; reflexivity. intros r ->. ring.
    - destruct (H i (or_introl eq_refl)) as [[x Hx] A]. destruct (IH (acc + x)%amp) as [[r Hr] B]. intros j Hj. apply H. now right. split.
      + exists r, x. auto.
      + intros r' [x' [Hx' Hr']]. rewrite (A x' Hx') in *. rewrite (A x Hx) in B. rewrite (B r' Hr'). ring.
  Qed.
  (** A sum over the basis, block by block. *)
  Lemma block_iota (f : N -> K) w : forall k a, asum f (iota (a * w) (k * N.to_nat w)) = asum (fun j => asum (fun o => f (j * w + o)%N) (iota 0 (N.to_nat w))) (iota a k).
  Proof.
    induction k as [|k IH]; intros a. reflexivity. cbn [iota asum Nat.mul]. rewrite iota_app, asum_app. f_equal.
    - clear. set (m := N.to_nat w). clearbody m. set (b := a * w). clearbody b. assert (G : forall m s, asum f (iota (b + s) m) = asum (fun o => f (b + o)%N) (iota s m)).
      { clear. induction m as [|m IH]; intros s; cbn [iota asum]; auto. f_equal. rewrite <- IH. f_equal. f_equal. lia. }
      specialize (G m 0). now rewrite N.add_0_r in G.
    - rewrite <- IH. f_equal. f_equal. lia.
  Qed.
  Lemma block_basis (f : N -> K) n q : q <= n -> asum f (basis n) = asum (fun j => asum (fun o => f (j * 2 ^ q + o)%N) (basis q)) (iota 0 (N.to_nat (2 ^ (n - q)))).
  Proof.
    intros H. rewrite !basis_iota. rewrite <- block_iota. rewrite N.mul_0_l. f_equal. f_equal. rewrite <- N2Nat.inj_mul, <- N.pow_add_r. do 2 f_equal. lia.
  Qed.

  Lemma running_run q v : fits c q -> every_run (running_norm c q v) (fun x => x = norm2 (K := K) q (vread v)).
  Proof.
    intros Hf. unfold running_norm. destruct v as [psi|].
    - split.
      + destruct (loop_for_exists c q (2 ^ q) (fun _ => @Ret K) (fun _ => 0%amp) Hf (N.le_refl _)) as [m' [calls [Hc _]]]. unfold par_for in Hc. rewrite N.sub_0_r in Hc. eexists. exists calls. split; [exact Hc|reflexivity].
      + intros r H. destruct Hf as [H1 [H2 [H3 H4]]]. apply par_norm_ok in H; auto; try (intros; ring). rewrite H. unfold norm2. rewrite basis_iota.
        generalize (iota 0 (N.to_nat (2 ^ q))) as l. induction l as [|x l IH]; cbn [sum_list asum]; auto. now rewrite IH.
    - split. eexists; reflexivity. intros r ->. unfold norm2. symmetry. apply asum_zero. intros x _. cbn [vread]. unfold anorm. ring.
  Qed.
  Lemma prob_run simd q t v : fits c q -> t < q -> every_run (fun x => Prob c simd q t v (Ok x)) (fun x => x = weight_of (K := K) q (fun y => N.testbit y t) (vread v)).
  Proof.
    intros Hf Ht. destruct v as [psi|].
    - destruct (c25_prob c simd q t psi Hf Ht) as [[r Hr] A]. split. exists (weight_of q (fun y => N.testbit y t) psi). now rewrite <- (A r Hr).
      intros x Hx. specialize (A _ Hx). now injection A.
    - unfold Prob. destruct (N.leb_spec q t); [lia|]. split. exists 0%amp. reflexivity. intros x Hx. injection Hx as ->. unfold weight_of. symmetry. apply asum_zero. intros y _. cbn [vread]. destruct (N.testbit y t); auto. unfold anorm. ring.
  Qed.

  (** The probability of a qubit. *)
  Theorem prob_pager q simd t (p : pager K) : paged q p -> fits c (pg_n p) -> t < pg_n p ->
    every_run (PProb c simd t p) (fun r => r = weight_of (pg_n p) (fun x => N.testbit x t) (flat p)).
  Proof.
    intros Hp Hf Ht. assert (Hn : pg_n p < 64) by apply Hf. assert (Hfq : fits c q) by (apply (fits_le c (pg_n p)); auto; apply Hp).
    assert (EC : pg_count p = 2 ^ (pg_n p - q)) by apply Hp. assert (Hqn : q <= pg_n p) by apply Hp.
    unfold PProb. rewrite (paged_qpp q p) by auto. cbv zeta. destruct (N.eqb_spec (pg_count p) 1) as [E1|E1].
    - rewrite (one_page q p Hp E1) in Hp. eapply every_run_weaken. apply prob_run; auto. intros r ->. unfold weight_of. apply asum_ext. intros x Hx. apply basis_In in Hx.
      rewrite (flat_at (pg_n p)) by auto. now rewrite N.div_small, N.mod_small.
    - assert (HW : weight_of (pg_n p) (fun x => N.testbit x t) (flat p) = asum (fun j => asum (fun o => if N.testbit (j * 2 ^ q + o) t then anorm (vread (pg_page p j) o) else 0%amp) (basis q)) (iota 0 (N.to_nat (2 ^ (pg_n p - q))))).
      { unfold weight_of. rewrite (block_basis _ (pg_n p) q) by auto. apply asum_ext. intros j Hj. apply asum_ext. intros o Ho. apply basis_In in Ho. rewrite (flat_at q p) by auto.
        destruct (pair_idx j q o Ho) as [-> ->]. reflexivity. }
      rewrite HW. destruct (N.ltb_spec t q) as [L|L].
      + unfold all_pages. rewrite EC. eapply every_run_weaken. apply (page_sum_run _ (fun i => weight_of q (fun y => N.testbit y t) (vread (pg_page p i)))).
        intros i _. now apply prob_run. intros r ->. transitivity (asum (fun i => weight_of q (fun y => N.testbit y t) (vread (pg_page p i))) (iota 0 (N.to_nat (2 ^ (pg_n p - q))))). ring. apply asum_ext.
        intros j Hj. unfold weight_of. apply asum_ext. intros o Ho. apply basis_In in Ho. destruct (pair_idx j q o Ho) as [_ Em].
        rewrite <- (tb_off q (j * 2 ^ q + o) t L). now rewrite Em.
      + rewrite pow2Ocl_small by lia. set (T := t - q). assert (HT : T < pg_n p - q) by (unfold T; lia). set (k := pg_n p - q) in *.
        eapply every_run_weaken. apply (page_sum_run _ (fun i => norm2 q (vread (pg_page p (N.lor (pair_lo (2 ^ T) i) (2 ^ T)))))). intros i _. now apply running_run.
        intros r ->. rewrite EC. rewrite shift_count by lia.
        assert (Hi : increasing_below 0 k [T]) by (cbn [increasing_below]; lia).
        assert (HO : only_bits [T] (2 ^ T)). { intros j Hj. rewrite tb_pow2 in Hj. apply N.eqb_eq in Hj. subst. now left. }
        assert (HL : 2 ^ T < 2 ^ k) by now apply pow2_lt_mono.
        assert (EM : map (fun i => N.lor (pair_lo (2 ^ T) i) (2 ^ T)) (iota 0 (N.to_nat (2 ^ (k - 1)))) = map (fun i => N.lor (ins_all [T] i) (2 ^ T)) (idx k [T])).
        { unfold idx. cbn [length]. change (N.of_nat 1) with 1. apply map_ext_in. intros i Hin. apply iota_In in Hin. rewrite N2Nat.id in Hin. rewrite pair_lo_spread. rewrite (spread_ins k); auto. unfold k; lia. cbn [length]. change (N.of_nat 1) with 1. lia. }
        rewrite <- (asum_map K (fun j => norm2 q (vread (pg_page p j))) (fun i => N.lor (pair_lo (2 ^ T) i) (2 ^ T))). rewrite EM.
        transitivity (asum (fun j => norm2 q (vread (pg_page p j))) (filter (fun j => N.testbit j T) (iota 0 (N.to_nat (2 ^ k))))).
        * transitivity (asum (fun j => norm2 q (vread (pg_page p j))) (map (fun i => N.lor (ins_all [T] i) (2 ^ T)) (idx k [T]))). ring.
          apply asum_perm. apply Permutation.NoDup_Permutation. now apply pages_NoDup. apply NoDup_filter, iota_NoDup.
          intros j. rewrite pages_In by auto. rewrite filter_In, iota_In, N2Nat.id. unfold agree. split.
          -- intros [A B]. split. lia. rewrite (B T) by (now left). rewrite tb_pow2. apply N.eqb_refl.
          -- intros [A B]. split. lia. intros y [<-|[]]. rewrite B, tb_pow2. symmetry. apply N.eqb_refl.
        * rewrite asum_filter. apply asum_ext. intros j Hj.
          assert (EB : forall o, o < 2 ^ q -> N.testbit (j * 2 ^ q + o) t = N.testbit j T).
          { intros o Ho. destruct (pair_idx j q o Ho) as [Ed _]. rewrite <- Ed at 2. rewrite tb_div2. f_equal. unfold T. lia. }
          destruct (N.testbit j T) eqn:Eb.
          -- unfold norm2. apply asum_ext. intros o Ho. apply basis_In in Ho. now rewrite EB.
          -- symmetry. apply asum_zero. intros o Ho. apply basis_In in Ho. now rewrite EB.
  Qed.

  (** The update after a measurement. *)
  Lemma op_applym q t (result : bool) (nrm : K) : fits c q -> t < q ->
    op_ok q (fun v r => exists v', ApplyM c q (pow2Ocl t) (if result then pow2Ocl t else 0) nrm v v' /\ r = Ok v') (project (fun x => Bool.eqb (N.testbit x t) result) nrm).
  Proof.
    intros Hf Ht v. assert (Hn : q < 64) by apply Hf. rewrite pow2Ocl_small by lia. pose proof (pow2_lt_mono t q Ht).
    assert (EB : forall x, (N.land x (2 ^ t) =? (if result then 2 ^ t else 0)) = Bool.eqb (N.testbit x t) result).
    { intros x. destruct (N.eqb_spec (N.land x (2 ^ t)) (if result then 2 ^ t else 0)) as [E|E].
      - apply (f_equal (fun z => N.testbit z t)) in E. rewrite N.land_spec, tb_pow2, N.eqb_refl, andb_true_r in E. rewrite E. destruct result. rewrite tb_pow2, N.eqb_refl. reflexivity. now rewrite N.bits_0.
      - destruct (Bool.eqb (N.testbit x t) result) eqn:B; auto. exfalso. apply E. apply Bool.eqb_prop in B. apply N.bits_inj. intros j. rewrite N.land_spec, tb_pow2. destruct result.
        + rewrite tb_pow2. destruct (N.eqb_spec t j) as [<-|]; rewrite ?andb_true_r, ?andb_false_r; auto.
        + rewrite N.bits_0. destruct (N.eqb_spec t j) as [<-|]; rewrite ?andb_true_r, ?andb_false_r; auto. }
    destruct v as [psi|].
    - destruct (c26_applym c q (2 ^ t) (if result then 2 ^ t else 0) nrm psi Hf) as [[v' Hv] A]; auto. destruct result; auto. apply pow2_pos.
      split. eexists. exists v'. split; [exact Hv|reflexivity]. intros r [v2 [H2 ->]]. destruct (A v2 H2) as [psi' [-> E]]. exists (Some psi'). split; auto.
      intros x Hx. cbn [vread]. rewrite (E x Hx). unfold project. rewrite EB. reflexivity.
    - split. exists (Ok None), None. split; reflexivity. intros r [v' [-> ->]]. exists None. split; auto. intros x _. unfold project. cbn [vread]. destruct (Bool.eqb _ _); auto. ring.
  Qed.
  Theorem applyresult_pager q t result (nrm : K) (p : pager K) : paged q p -> fits c (pg_n p) -> 0 < q -> t < pg_n p ->
    every_run (PApplyResult c t result nrm p) (paged_result (pg_n p) q p (project (fun x => Bool.eqb (N.testbit x t) result) nrm (flat p))).
  Proof.
    intros Hp Hf Hq Ht. assert (Hn : pg_n p < 64) by apply Hf. assert (Hfq : fits c q) by (apply (fits_le c (pg_n p)); auto; apply Hp).
    unfold PApplyResult. rewrite (paged_qpp q p) by auto. cbv zeta. destruct (N.ltb_spec t q) as [L|L].
    - eapply run_eqv. apply (pages_flat q (fun _ v r => exists v', ApplyM c q (pow2Ocl t) (if result then pow2Ocl t else 0) nrm v v' /\ r = Ok v') (fun _ => project (fun x => Bool.eqb (N.testbit x t) result) nrm) (all_pages p) p always); auto.
      + apply iota_NoDup.
      + intros j. rewrite all_pages_In. unfold always. intuition.
      + intros j _. now apply op_applym.
      + intros x Hx. unfold always, project. rewrite tb_off by auto. now rewrite (flat_at q p).
    - eapply run_eqv. apply (pages_flat q (fun i v r => if Bool.eqb (N.testbit i (t - q)) result then Phase c false q nrm nrm 0 v r else r = Ok None) (fun i a x => if Bool.eqb (N.testbit i (t - q)) result then (nrm * a x)%amp else 0%amp) (all_pages p) p always); auto.
      + apply iota_NoDup.
      + intros j. rewrite all_pages_In. unfold always. intuition.
      + intros j _ v. destruct (Bool.eqb (N.testbit j (t - q)) result). now apply op_scale. split. eexists; reflexivity. intros r ->. exists None. split; auto. intros x _. reflexivity.
      + intros x Hx. unfold always, project. rewrite tb_div2. replace (t - q + q) with t by lia. now rewrite (flat_at q p).
  Qed.

  (** Composition. *)
  Theorem compose_pager q q2 (p p2 : pager K) : paged q p -> paged q2 p2 -> fits c (pg_n p + pg_n p2) -> 0 < q -> pg_base p <= q ->
    every_run (ComposeLarge c p2 p) (fun r => exists p', r = Ok p' /\ pg_n p' = pg_n p + pg_n p2 /\ pg_thr p' = pg_thr p /\
      paged (N.min (N.max q (N.min (pg_thr p) (pg_n p + pg_n p2))) (pg_base p')) p' /\ eqv (pg_n p + pg_n p2) (flat p') (tensor (pg_n p) (flat p) (flat p2))).
  Proof.
    intros Hp Hp2 Hf Hq Hb. assert (Hn : pg_n p + pg_n p2 < 64) by apply Hf. assert (Hfn : fits c (pg_n p)) by (apply (fits_le c (pg_n p + pg_n p2)); auto; lia).
    assert (Hfq : fits c q) by (apply (fits_le c (pg_n p)); auto; apply Hp). assert (EC : pg_count p = 2 ^ (pg_n p - q)) by apply Hp. assert (Hqn : q <= pg_n p) by apply Hp.
    set (N2 := pg_n p + pg_n p2) in *. unfold ComposeLarge.
    apply (andthen_run _ _ p (fun p1 => exists pages, p1 = mkPager (pg_n p) (pg_thr p) (2 ^ (N2 - q)) pages /\ forall k, k < 2 ^ (N2 - q) -> eqv q (vread (pages k)) (fun x => tensor (pg_n p) (flat p) (flat p2) (k * 2 ^ q + x)))).
    - unfold new_pages. assert (ECC : 2 ^ pg_n p2 * pg_count p = 2 ^ (N2 - q)) by (rewrite EC, <- N.pow_add_r; f_equal; unfold N2; lia). rewrite ECC.
      destruct (build_run (compose_page c p p2) (fun k v => eqv q (vread v) (fun x => tensor (pg_n p) (flat p) (flat p2) (k * 2 ^ q + x))) (iota 0 (N.to_nat (2 ^ (N2 - q)))) (fun _ => None)) as [[r1 H1] A].
      + apply iota_NoDup.
      + intros k Hk. apply iota_In in Hk. rewrite N2Nat.id in Hk. unfold compose_page. cbv zeta. set (i := k / pg_count p). set (j := k mod pg_count p).
        assert (HCz : pg_count p <> 0) by (rewrite EC; apply pow2_nz). assert (Hj : j < pg_count p) by (now apply N.mod_lt).
        assert (EK : k = pg_count p * i + j) by (now apply N.div_mod).
        rewrite (paged_qpp q p) by (auto; lia). destruct (getamp_pager q2 p2 i Hp2 ltac:(lia)) as [EG _]. rewrite EG.
        assert (ET : forall x, x < 2 ^ q -> tensor (pg_n p) (flat p) (flat p2) (k * 2 ^ q + x) = (vread (pg_page p j) x * flat p2 i)%amp).
        { intros x Hx. unfold tensor. assert (Epn : 2 ^ pg_n p = pg_count p * 2 ^ q) by (rewrite EC, <- N.pow_add_r; f_equal; lia).
          assert (HB : j * 2 ^ q + x < 2 ^ pg_n p). { rewrite Epn. assert ((j + 1) * 2 ^ q <= pg_count p * 2 ^ q) by (apply N.mul_le_mono_r; lia). lia. }
          assert (ED : (k * 2 ^ q + x) / 2 ^ pg_n p = i) by (symmetry; apply (N.div_unique _ _ _ (j * 2 ^ q + x)); auto; rewrite EK, Epn; lia).
          assert (EM : (k * 2 ^ q + x) mod 2 ^ pg_n p = j * 2 ^ q + x) by (symmetry; apply (N.mod_unique _ _ i); auto; rewrite EK, Epn; lia).
          rewrite ED, EM. rewrite (flat_at q p) by auto. destruct (pair_idx j q x Hx) as [-> ->]. reflexivity. }
        destruct (eqb_spec K (flat p2 i) 0%amp) as [E0|E0].
        * split. eexists; reflexivity. intros r ->. exists None. split; auto. intros x Hx. rewrite (ET x Hx), E0. cbn [vread]. ring.
        * destruct (pg_page p j) as [a|] eqn:Ej.
          -- destruct (set_page_eng_run c q q (Some a) 0 0 (2 ^ q) None Hfq ltac:(apply Hfq) ltac:(lia) ltac:(lia)) as [[r1 H1] A1].
             assert (A2 : forall u, eqv q (vread u) (overwrite 0 (2 ^ q) (fun i => vread (Some a) (0 + i)) (vread None)) -> every_run (Phase c false q (flat p2 i) (flat p2 i) 0 u) (fun r => exists v, r = Ok v /\ eqv q (vread v) (fun x => tensor (pg_n p) (flat p) (flat p2) (k * 2 ^ q + x)))).
             { intros u Hu. eapply every_run_weaken. apply op_scale; auto. intros r [v [-> Hv]]. exists v. split; auto. intros x Hx. rewrite (Hv x Hx), (Hu x Hx), (ET x Hx). unfold overwrite. rewrite !N.add_0_l, N.sub_0_r.
               destruct (N.leb_spec 0 x); [|lia]. destruct (N.ltb_spec x (2 ^ q)); [|lia]. cbn [andb vread]. ring. }
             split.
             ++ destruct (A1 r1 H1) as [u [-> Hu]]. destruct (A2 u Hu) as [[r2 H2] _]. exists r2, (Ok u). auto.
             ++ intros r [r2 [H2 H3]]. destruct (A1 r2 H2) as [u [-> Hu]]. destruct (A2 u Hu) as [_ B]. auto.
          -- split. eexists; reflexivity. intros r ->. exists None. split; auto. intros x Hx. rewrite (ET x Hx). cbn [vread]. ring.
      + split. eexists. exists r1. split; [exact H1|reflexivity]. intros r [r2 [H2 ->]]. destruct (A r2 H2) as [pages [-> [P1 _]]]. eexists. split; [reflexivity|]. exists pages. split; auto.
        intros k Hk. apply P1. apply iota_In. rewrite N2Nat.id. lia.
    - intros p1 [pages [-> HP]].
      apply (andthen_run _ _ _ (fun p1 => p1 = mkPager N2 (pg_thr p) (2 ^ (N2 - q)) pages)).
      { split. eexists; reflexivity. intros r ->. eexists. split; [reflexivity|reflexivity]. }
      intros p1 ->. set (p3 := mkPager N2 (pg_thr p) (2 ^ (N2 - q)) pages). assert (Hp3 : paged q p3) by (split; [unfold p3, N2; cbn [pg_n]; lia|reflexivity]).
      assert (HF3 : eqv N2 (flat p3) (tensor (pg_n p) (flat p) (flat p2))).
      { intros x Hx. rewrite (flat_at q p3) by auto. unfold p3. cbn [pg_page]. rewrite (HP (x / 2 ^ q)). now rewrite <- idx_split. apply page_lt; auto. unfold N2. lia. apply N.mod_lt, pow2_nz. }
      apply (andthen_run _ _ _ (fun p4 => pg_n p4 = N2 /\ pg_thr p4 = pg_thr p /\ paged (N.max q (N.min (pg_thr p) N2)) p4 /\ eqv N2 (flat p4) (flat p3))).
      { eapply every_run_weaken. apply (combine_ok c q (pg_thr p) p3 Hp3); auto. intros r [p4 [-> [A [B [C D]]]]]. exists p4. auto. }
      intros p4 [A [B [C D]]]. eapply every_run_weaken. apply (separate_ok c _ (pg_base p4) false p4 C). now rewrite A.
      intros r [p5 [-> [A5 [B5 [C5 D5]]]]]. exists p5. split; auto. split. congruence. split. congruence. cbn [negb] in C5.
      assert (Eb : pg_base p4 = pg_base p5) by (unfold pg_base; now rewrite A5, B5). rewrite N.max_id in C5. rewrite Eb in C5. split; auto.
      rewrite A in D5. intros x Hx. rewrite (D5 x Hx), (D x Hx). now apply HF3.
  Qed.

  (** From an engine and back. *)
  Theorem from_engine n thr (v : option V) : fits c n ->
    every_run (FromEngine c n thr v) (fun r => exists p, r = Ok p /\ pg_n p = n /\ pg_thr p = thr /\ paged (N.min n thr) p /\ eqv n (flat p) (vread v)).
  Proof.
    intros Hf. unfold FromEngine. set (p0 := mkPager n thr 1 (fun _ => v)). assert (Hp0 : paged n p0) by (split; [apply N.le_refl|cbn [pg_n pg_count p0]; now rewrite N.sub_diag]).
    assert (EB : pg_base p0 = N.min n thr) by (unfold pg_base; cbn [pg_n pg_thr p0]; destruct (N.ltb_spec n thr); lia).
    assert (HF : eqv n (flat p0) (vread v)). { intros x Hx. rewrite (flat_at n p0) by auto. rewrite N.div_small, N.mod_small by auto. reflexivity. }
    apply (andthen_run _ _ _ (fun p1 => pg_n p1 = n /\ pg_thr p1 = thr /\ paged (N.min n thr) p1 /\ eqv n (flat p1) (vread v))).
    - eapply every_run_weaken. apply (separate_base c n p0); auto. apply (base_le p0). intros r [p1 [-> [A [B [C D]]]]]. exists p1. split; auto. cbn [pg_n pg_thr p0] in *. rewrite EB in C. repeat split; auto; try apply C.
      intros x Hx. rewrite (D x Hx). now apply HF.
    - intros p1 [A [B [C D]]]. assert (EB1 : pg_base p1 = N.min n thr) by (unfold pg_base; rewrite A, B; destruct (N.ltb_spec n thr); lia).
      eapply every_run_weaken. apply (separate_base c (N.min n thr) p1); auto. now rewrite A. lia.
      intros r [p2 [-> [A2 [B2 [C2 D2]]]]]. exists p2. rewrite EB1 in C2. split; auto. split. congruence. split. congruence. split; auto. intros x Hx. rewrite D2 by (now rewrite A). now apply D.
  Qed.
  Theorem release_engine q (p : pager K) : paged q p -> fits c (pg_n p) ->
    every_run (ReleaseEngine c p) (fun r => exists v, r = Ok v /\ eqv (pg_n p) (vread v) (flat p)).
  Proof.
    intros Hp Hf. unfold ReleaseEngine, CombineAll. destruct (combine_ok c q (pg_n p) p Hp Hf) as [[r1 H1] A]. split.
    - eexists. exists r1. split; [exact H1|reflexivity].
    - intros r [r2 [H2 ->]]. destruct (A r2 H2) as [p1 [-> [B [C [D E]]]]]. eexists. split; [reflexivity|]. intros x Hx. rewrite <- (E x Hx).
      assert (Hq : q <= pg_n p) by apply Hp. replace (N.max q (N.min (pg_n p) (pg_n p))) with (pg_n p) in D by lia. rewrite (flat_at (pg_n p) p1) by auto. now rewrite N.div_small, N.mod_small.
  Qed.

  (** Circuits. *)
  Definition wfp (n q : N) (g : gop K) : Prop :=
    match g with
    | GM cs m t => NoDup (cs ++ [t]) /\ (forall y, In y (cs ++ [t]) -> y < n) /\ (t < q -> forall y, In y cs -> y < q + 8)
    | GXM mask => mask < 2 ^ n
    end.
  Lemma gsem_eqv_p n q g (a b : V) : wfp n q g -> eqv n a b -> eqv n (gsem g a) (gsem g b).
  Proof.
    destruct g as [cs m t|mask]; cbn [wfp gsem].
    - intros [_ [W _]] H. apply gate1_eqv; auto. apply W. apply in_or_app. right. now left.
    - intros W H x Hx. apply H. now apply lxor_lt_pow2.
  Qed.
  Theorem circuit_pager q (l : circ K) : forall (p : pager K), paged q p -> fits c (pg_n p) -> 0 < q -> Forall (wfp (pg_n p) q) l ->
    every_run (pcrun c l p) (paged_result (pg_n p) q p (csem l (flat p))).
  Proof.
    induction l as [|g l IH]; intros p Hp Hf Hq W; cbn [pcrun].
    - split. eexists; reflexivity. intros r ->. exists p. repeat split; auto; apply Hp.
    - apply Forall_cons_iff in W. destruct W as [Wg Wl]. rewrite csem_cons. apply (andthen_result (pg_n p) q q _ _ p (gsem g (flat p))).
      + destruct g as [cs m t|mask]; cbn [pgate gsem wfp] in *.
        * destruct Wg as [W1 [W2 W3]]. destruct cs as [|y cs]. eapply run_eqv. apply (mtrx_pager c q); auto. apply W2. now left. apply gate1_ext; auto.
          apply (either_pager c q false); auto.
        * now apply xmask_pager.
      + intros p1 N1 T1 P1 E1. rewrite <- N1 in *. eapply run_eqv. apply IH; auto. clear IH Wg. revert E1. generalize (flat p1) as a. generalize (gsem g (flat p)) as b. intros b a E1. clear - Wl E1. revert a b E1.
        induction Wl as [|h l Wh Wl IH]; intros a b E; cbn [csem fold_left]. exact E. apply IH. now apply (gsem_eqv_p _ q).
  Qed.

  (** SumSqrDiff of a two-page state with itself. *)
  Lemma ssd_run q (p p2 : pager K) : paged q p -> fits c (pg_n p) ->
    every_run (PSumSqrDiff c p p2) (fun r => r = asum (fun i => match pg_page p i, pg_page p2 i with
      | None, _ => norm2 q (vread (pg_page p2 i)) | _, None => norm2 q (vread (pg_page p i))
      | Some a, Some b => (1 - anorm (asum (fun x => sr_conj (a x) * b x) (basis q)))%amp end) (iota 0 (N.to_nat (pg_count p)))).
  Proof.
    intros Hp Hf. assert (Hn : pg_n p < 64) by apply Hf. assert (Hfq : fits c q) by (apply (fits_le c (pg_n p)); auto; apply Hp). unfold PSumSqrDiff. rewrite (paged_qpp q p) by auto.
    eapply every_run_weaken. apply (page_sum_run _ (fun i => match pg_page p i, pg_page p2 i with
      | None, _ => norm2 q (vread (pg_page p2 i)) | _, None => norm2 q (vread (pg_page p i))
      | Some a, Some b => (1 - anorm (asum (fun x => sr_conj (a x) * b x) (basis q)))%amp end)).
    - intros i _. unfold eng_SumSqrDiff. destruct (pg_page p i) as [a|] eqn:Ea, (pg_page p2 i) as [b|] eqn:Eb.
      + destruct (sum_for_exists c q (2 ^ q) (fun lcv => sr_conj (a lcv) * b lcv)%amp Hfq (N.le_refl _)) as [s Hs]. split. eexists. exists s. split; [exact Hs|reflexivity].
        intros r [s' [Hs' ->]]. unfold inner_sum in Hs'. now rewrite (inner_ok c q a b s' Hfq Hs').
      + apply (running_run q (Some a)); auto.
      + apply (running_run q (Some b)); auto.
      + split. eexists; reflexivity. intros r ->. unfold norm2. symmetry. apply asum_zero. intros x _. cbn [vread]. unfold anorm. ring.
    - intros r ->. unfold all_pages. ring.
  Qed.
End Sums.
