(** Basis states, amplitude access, construction, and the controlled gate across more than eight page bits. *)
From Coq Require Import NArith List Bool Lia Ring.
From Verif Require Import Bits MQCircuit MFunctions SpecFunctions PFunctions MParFor SpecParFor PParFor MKernel PKernel Amp PAmp SpecState MEngine SpecEngine PLoop PApply PGates PGates2 PGates3 PCompose PProb PEngine MCircuit PMaskBits MPager SpecPager PPager1 PPager2 PPager3 PPager4 PPager5 PPager6 PPager7 PPager8.
Import ListNotations.
Local Open Scope N_scope.

Section Access.
  Context {K : StarRing}.
  Variable c : cfg.
  Add Ring KrAY : (sr_ring K).
  Local Notation V := (mem K).

  Lemma pair_idx i q x : x < 2 ^ q -> (i * 2 ^ q + x) / 2 ^ q = i /\ (i * 2 ^ q + x) mod 2 ^ q = x.
  Proof. intros H. split; [symmetry; apply (N.div_unique _ _ _ x); lia | symmetry; apply (N.mod_unique _ _ i); lia]. Qed.
  Lemma idx_split q x : x = x / 2 ^ q * 2 ^ q + x mod 2 ^ q.
  Proof. rewrite N.mul_comm. apply N.div_mod. apply pow2_nz. Qed.

  (** ** Construction *)
  Theorem ctor_zero n thr init : fits c n -> every_run (Constructor c n thr init) (fun r => exists p, r = Ok p /\ pg_n p = n /\ pg_thr p = thr /\ forall j, pg_page (K := K) p j = None).
  Proof.
    intros Hf. assert (Hn : n < 64) by apply Hf. unfold Constructor. destruct (N.eqb_spec n 0) as [E0|E0].
    { split. eexists; reflexivity. intros r ->. eexists. split; [reflexivity|]. auto. }
    set (p0 := mkPager n thr 0 (fun _ => None) : pager K). set (b := pg_base p0). assert (Hb : b <= n) by apply (base_le p0).
    destruct (build_run (ctor_page c b (2 ^ n + 1)) (fun _ (v : option V) => v = None) (iota 0 (N.to_nat (2 ^ (n - b)))) (fun _ => None)) as [[r1 H1] A].
    - apply iota_NoDup.
    - intros i Hi. apply iota_In in Hi. rewrite N2Nat.id in Hi. unfold ctor_page.
      assert (HL : (i + 1) * 2 ^ b <= 2 ^ n). { replace (2 ^ n) with (2 ^ (n - b) * 2 ^ b) by (rewrite <- N.pow_add_r; f_equal; lia). apply N.mul_le_mono_r. lia. }
      assert (H64 : 2 ^ n < 2 ^ 64) by (apply pow2_lt_mono; lia). unfold w64 at 1. rewrite (N.mod_small ((i + 1) * 2 ^ b)) by lia.
      destruct (N.ltb_spec (2 ^ n + 1) ((i + 1) * 2 ^ b)); [lia|]. split. eexists; reflexivity. intros r ->. eauto.
    - unfold new_pages. split. eexists. exists r1. split; [exact H1|reflexivity]. intros r [r2 [H2 ->]]. destruct (A r2 H2) as [pages [-> [P1 P2]]]. eexists. split; [reflexivity|].
      split; auto. split; auto. cbn [pg_page]. intros j. destruct (in_dec N.eq_dec j (iota 0 (N.to_nat (2 ^ (n - b))))). auto. now apply P2.
  Qed.
  Theorem ctor_flat n thr init : fits c n -> every_run (Constructor c n thr init) (fun r => exists p, r = Ok p /\ pg_n p = n /\ forall x, flat (K := K) p x = 0%amp).
  Proof.
    intros Hf. eapply every_run_weaken. now apply ctor_zero. intros r [p [-> [A [B C]]]]. exists p. split; auto. split; auto. intros x. unfold flat. now rewrite C.
  Qed.

  (** ** SetPermutation *)
  Lemma eng_perm_run q perm (ph : K) v : fits c q -> perm < 2 ^ q -> every_run (eng_SetPermutation c q perm ph v) (fun r => exists v', r = Ok v' /\ eqv q (vread v') (fun x => if x =? perm then ph else 0%amp)).
  Proof.
    intros Hf Hp. unfold eng_SetPermutation. destruct (N.leb_spec (2 ^ q) perm); [lia|].
    split.
    - destruct (fill_exists c q (2 ^ q) (fun _ => 0%amp) (fun _ => 0%amp : K) Hf) as [m Hm]. lia. eexists. exists (fun _ => 0%amp : K), m. split; [exact Hm|reflexivity].
    - intros r [fresh [m [HF ->]]]. eexists. split; [reflexivity|]. intros x Hx. cbn [vread]. unfold mset. destruct (N.eqb_spec x perm); auto.
      exact (fill_ok c q (2 ^ q) (fun _ => 0%amp) fresh m Hf (N.le_refl _) HF x Hx).
  Qed.
  Theorem setperm_pager q perm (ph : K) (p : pager K) : paged q p -> fits c (pg_n p) ->
    every_run (PSetPermutation c perm ph p) (paged_result (pg_n p) q p (fun x => if x =? perm mod 2 ^ pg_n p then ph else 0%amp)).
  Proof.
    intros Hp Hf. assert (Hn : pg_n p < 64) by apply Hf. assert (Hfq : fits c q) by (apply (fits_le c (pg_n p)); auto; apply Hp).
    unfold PSetPermutation. rewrite (paged_power q p), (paged_qpp q p) by auto. cbv zeta.
    assert (EM : N.land (w64 perm) (2 ^ pg_n p - 1) = perm mod 2 ^ pg_n p).
    { rewrite land_ones. apply N.bits_inj. intros j. unfold w64. rewrite !tb_mod2. destruct (N.ltb_spec j (pg_n p)), (N.ltb_spec j 64); cbn [andb]; auto; lia. }
    rewrite EM. set (P := perm mod 2 ^ pg_n p). assert (HP : P < 2 ^ pg_n p) by (apply N.mod_lt, pow2_nz).
    eapply run_eqv.
    - apply (pages_flat q _ (fun i _ x => if i * 2 ^ q + x =? P then ph else 0%amp) (all_pages p) p always); auto.
      + apply iota_NoDup.
      + intros j. rewrite all_pages_In. unfold always. intuition.
      + intros j Hj v. destruct (N.leb_spec (j * 2 ^ q) P) as [L1|L1], (N.ltb_spec P ((j + 1) * 2 ^ q)) as [L2|L2]; cbn [andb].
        * eapply every_run_weaken. apply (eng_perm_run q); auto; lia. intros r [v' [-> E]]. exists v'. split; auto. intros x Hx. rewrite (E x Hx).
          destruct (N.eqb_spec x (P - j * 2 ^ q)), (N.eqb_spec (j * 2 ^ q + x) P); auto; lia.
        * split. eexists; reflexivity. intros r ->. exists None. split; auto. intros x Hx. cbn [vread]. destruct (N.eqb_spec (j * 2 ^ q + x) P); auto; lia.
        * split. eexists; reflexivity. intros r ->. exists None. split; auto. intros x Hx. cbn [vread]. destruct (N.eqb_spec (j * 2 ^ q + x) P); auto; lia.
        * lia.
    - intros x Hx. unfold always. now rewrite <- (idx_split q x).
  Qed.

  (** ** Single amplitudes *)
  Theorem getamp_pager q (p : pager K) x : paged q p -> pg_n p < 64 -> PGetAmplitude p x = flat p x /\ PProbAll p x = anorm (flat p x).
  Proof. intros Hp Hn. unfold PGetAmplitude, PProbAll, ProbAll. rewrite (paged_power q p) by auto. now rewrite (flat_at q p). Qed.
  Theorem setamp_pager q tracked perm (amp : K) (p : pager K) : paged q p -> fits c (pg_n p) -> perm < 2 ^ pg_n p ->
    (pg_page p (perm / 2 ^ q) = None -> tracked = false /\ (anorm amp = 0%amp -> amp = 0%amp)) ->
    every_run (PSetAmplitude c tracked perm amp p) (paged_result (pg_n p) q p (fun x => if x =? perm then amp else flat p x)).
  Proof.
    intros Hp Hf Hx Hnull. assert (Hn : pg_n p < 64) by apply Hf. assert (Hfq : fits c q) by (apply (fits_le c (pg_n p)); auto; apply Hp).
    unfold PSetAmplitude. rewrite (paged_power q p), (paged_qpp q p) by auto.
    set (i := perm / 2 ^ q) in *. set (o := perm mod 2 ^ q). assert (Ho : o < 2 ^ q) by (apply N.mod_lt, pow2_nz).
    assert (Hi : i < pg_count p) by now apply count_at.
    assert (HR : every_run (SetAmplitude c q o tracked amp (pg_page p i)) (fun r => exists v', r = Ok v' /\ eqv q (vread v') (fun y => if y =? o then amp else vread (pg_page p i) y))).
    { unfold SetAmplitude. destruct (N.leb_spec (2 ^ q) o); [lia|]. destruct (pg_page p i) as [psi|].
      - split. eexists; reflexivity. intros r ->. eexists. split; [reflexivity|]. intros y Hy. cbn [vread]. unfold mset. destruct (N.eqb_spec y o); auto.
      - destruct (Hnull eq_refl) as [-> Hz]. destruct (eqb_spec K (anorm amp) 0%amp) as [E|E].
        + split. eexists; reflexivity. intros r ->. exists None. split; auto. intros y Hy. cbn [vread]. rewrite (Hz E). destruct (y =? o); auto.
        + split. destruct (cleared_any (K := K) c q None Hfq) as [m0 Hm]. eauto. intros r [m0 [Hm ->]]. eexists. split; [reflexivity|]. intros y Hy. cbn [vread]. unfold mset. destruct (N.eqb_spec y o); auto.
          pose proof (cleared_ok c q None m0 Hfq Hm y Hy) as Hc. exact Hc. }
    unfold page_op. destruct (N.leb_spec (pg_count p) i); [lia|]. destruct HR as [[r1 H1] A]. split.
    - eexists. exists r1. split; [exact H1|reflexivity].
    - intros r [r2 [H2 ->]]. destruct (A r2 H2) as [v' [-> Hv]]. eexists. split; [reflexivity|]. split; auto. split; auto. assert (Hp' : paged q (set_page p i v')) by exact Hp. split; auto.
      intros x Hxl. rewrite !(flat_at q) by auto. cbn [pg_page set_page]. destruct (N.eqb_spec (x / 2 ^ q) i) as [Ei|Ei].
      + rewrite (Hv (x mod 2 ^ q)) by (apply N.mod_lt, pow2_nz). rewrite Ei. destruct (N.eqb_spec x perm) as [->|Ex]. fold o. now rewrite N.eqb_refl.
        destruct (N.eqb_spec (x mod 2 ^ q) o) as [Eo|]; auto. exfalso. apply Ex. rewrite (idx_split q x), (idx_split q perm). fold i o. now rewrite Ei, Eo.
      + destruct (N.eqb_spec x perm) as [->|]; auto. contradiction.
  Qed.

  (** ** Whole states *)
  Lemma out_each_ok q (pages : N -> option V) : forall k a (o o' : V), (a + N.of_nat k) * 2 ^ q <= 2 ^ 63 ->
    out_each (fun i => copy_page q (w64 (i * 2 ^ q)) (pages i)) (iota a k) o o' ->
    forall x, o' x = if (a * 2 ^ q <=? x) && (x <? (a + N.of_nat k) * 2 ^ q) then vread (pages (x / 2 ^ q)) (x mod 2 ^ q) else o x.
  Proof.
    induction k as [|k IH]; intros a o o' Hb; cbn [iota out_each].
    - intros -> x. rewrite N.add_0_r. destruct (N.leb_spec (a * 2 ^ q) x), (N.ltb_spec x (a * 2 ^ q)); cbn [andb]; auto; lia.
    - intros [o1 [H1 H2]] x. assert (Hb' : (a + 1 + N.of_nat k) * 2 ^ q <= 2 ^ 63) by (replace (a + 1 + N.of_nat k) with (a + N.of_nat (S k)) by lia; auto).
      rewrite (IH (a + 1) o1 o' Hb' H2 x). replace (a + 1 + N.of_nat k) with (a + N.of_nat (S k)) in * by lia.
      rewrite (H1 x). assert (Hw : w64 (a * 2 ^ q) = a * 2 ^ q).
      { unfold w64. apply N.mod_small. change (2 ^ 63) with 9223372036854775808 in Hb. change (2 ^ 64) with 18446744073709551616. assert (a * 2 ^ q <= (a + N.of_nat (S k)) * 2 ^ q) by (apply N.mul_le_mono_r; lia). lia. }
      rewrite Hw. pose proof (pow2_pos q). assert (Hm : (a + 1) * 2 ^ q <= (a + N.of_nat (S k)) * 2 ^ q) by (apply N.mul_le_mono_r; lia).
      destruct (N.leb_spec ((a + 1) * 2 ^ q) x) as [L1|L1], (N.ltb_spec x ((a + N.of_nat (S k)) * 2 ^ q)) as [L2|L2], (N.leb_spec (a * 2 ^ q) x) as [L3|L3], (N.ltb_spec x (a * 2 ^ q + 2 ^ q)) as [L4|L4]; cbn [andb]; auto; try lia.
      destruct (pair_idx a q (x - a * 2 ^ q)) as [E1 E2]; [lia|]. replace (a * 2 ^ q + (x - a * 2 ^ q)) with x in * by lia. now rewrite E1, E2.
  Qed.
  Theorem getstate_pager q (p : pager K) (out out' : V) : paged q p -> pg_n p < 64 -> PGetQuantumState p out out' ->
    forall x, out' x = if x <? 2 ^ pg_n p then flat p x else out x.
  Proof.
    intros Hp Hn H x. unfold PGetQuantumState in H. rewrite (paged_qpp q p), (paged_power q p) in H by auto. unfold all_pages in H.
    assert (EC : pg_count p * 2 ^ q = 2 ^ pg_n p). { destruct Hp as [A ->]. rewrite <- N.pow_add_r. f_equal. lia. }
    assert (HB : (0 + N.of_nat (N.to_nat (pg_count p))) * 2 ^ q <= 2 ^ 63). { rewrite N2Nat.id, N.add_0_l, EC. apply pow2_le_mono. lia. }
    rewrite (out_each_ok q (pg_page p) _ _ _ _ HB H x). rewrite N2Nat.id, N.add_0_l, EC, N.mul_0_l. cbn [N.leb N.compare].
    replace (0 <=? x) with true by (symmetry; apply N.leb_le, N.le_0_l). cbn [andb]. destruct (x <? 2 ^ pg_n p); auto. now rewrite (flat_at q p).
  Qed.
  Lemma getstate_any q (p : pager K) (out : V) : paged q p -> exists out', PGetQuantumState p out out'.
  Proof.
    intros Hp. unfold PGetQuantumState. generalize (all_pages p) as l. intros l. revert out. induction l as [|i l IH]; intros out; cbn [out_each]. eauto.
    set (o1 := fun x => if (w64 (i * pageMaxQPower p) <=? x) && (x <? w64 (i * pageMaxQPower p) + 2 ^ qubitsPerPage p) then vread (pg_page p i) (x - w64 (i * pageMaxQPower p)) else out x).
    destruct (IH o1) as [o' Ho']. exists o', o1. split; auto. intros x. reflexivity.
  Qed.
  Theorem setstate_pager q (inp : V) (p : pager K) : paged q p -> fits c (pg_n p) -> every_run (PSetQuantumState inp p) (paged_result (pg_n p) q p inp).
  Proof.
    intros Hp Hf. assert (Hn : pg_n p < 64) by apply Hf. unfold PSetQuantumState. rewrite (paged_qpp q p), (paged_power q p) by auto.
    eapply run_eqv.
    - apply (pages_flat q _ (fun i _ x => inp (i * 2 ^ q + x)) (all_pages p) p always); auto.
      + apply iota_NoDup.
      + intros j. rewrite all_pages_In. unfold always. intuition.
      + intros j Hj v. apply all_pages_In in Hj. unfold eng_SetQuantumState.
        assert (Hw : w64 (j * 2 ^ q) = j * 2 ^ q).
        { apply (w64_small _ (pg_n p)); auto. destruct Hp as [A B]. rewrite B in Hj. replace (2 ^ pg_n p) with (2 ^ (pg_n p - q) * 2 ^ q) by (rewrite <- N.pow_add_r; f_equal; lia). apply N.mul_lt_mono_pos_r; auto. apply pow2_pos. }
        rewrite Hw. split. exists (Ok (Some (fun x => inp (j * 2 ^ q + x)))). eexists. split; [|reflexivity]. auto.
        intros r [m [Hm ->]]. eexists. split; [reflexivity|]. intros x Hx. cbn [vread]. auto.
    - intros x Hx. unfold always. now rewrite <- (idx_split q x).
  Qed.

  (** ** Amplitude pages *)
  Lemma get_skip len q (pages : N -> option V) offset L l : forall (out : V) r, L < offset -> get_page_loop c len q pages offset L l 0 out r <-> r = Ok out.
  Proof. induction l as [|i l IH]; intros out r H; cbn [get_page_loop]. tauto. rewrite N.add_0_l. destruct (N.ltb_spec L offset); [|lia]. now apply IH. Qed.
  Theorem getpage_nothing offset len (p : pager K) (out : V) r : len < offset -> PGetAmplitudePage c offset len p out r <-> r = Ok out.
  Proof. intros H. unfold PGetAmplitudePage. now apply get_skip. Qed.
  Lemma set_skip len q offset L (page : V) l : forall (p : pager K), L < offset -> set_page_loop c len q offset L page l 0 p = pg_skip p.
  Proof. induction l as [|i l IH]; intros p H; cbn [set_page_loop]. reflexivity. rewrite N.add_0_l. destruct (N.ltb_spec L offset); [|lia]. now apply IH. Qed.
  Theorem setpage_nothing offset len (page : V) (p : pager K) r : len < offset -> PSetAmplitudePage c offset len page p r <-> r = Ok p.
  Proof. intros H. unfold PSetAmplitudePage. rewrite set_skip by auto. reflexivity. Qed.

  Lemma get_page_run q offset len v (out : V) : fits c q -> offset + len <= 2 ^ q ->
    every_run (GetAmplitudePage c q offset len v out) (fun r => exists out', r = Ok out' /\ forall i, i < len -> out' i = vread v (offset + i)).
  Proof.
    intros Hf Hr. assert (Hn : q < 64) by apply Hf. pose proof (pow2_lt_mono q 64 Hn). split. 2: intros r; now apply get_page_ok.
    unfold GetAmplitudePage. rewrite isBadPermRange_ok by lia. destruct (N.ltb_spec (2 ^ q) (offset + len)); [lia|].
    destruct (loop_for_exists c q len (fun lcv => Wr lcv (vread v (w64 (lcv + offset))) Ret) out Hf) as [m' Hm]. lia. eauto.
  Qed.
  Lemma set_page_run q offset len (page : V) v : fits c q -> offset + len <= 2 ^ q ->
    every_run (SetAmplitudePage c q offset len page v) (fun r => exists v', r = Ok v' /\ eqv q (vread v') (overwrite offset len page (vread v))).
  Proof.
    intros Hf Hr. assert (Hn : q < 64) by apply Hf. pose proof (pow2_lt_mono q 64 Hn). split.
    - unfold SetAmplitudePage. rewrite isBadPermRange_ok by lia. destruct (N.ltb_spec (2 ^ q) (offset + len)); [lia|].
      destruct (cleared_any c q v Hf) as [m0 Hcl]. destruct (loop_for_exists c q len (fun lcv => Wr (w64 (lcv + offset)) (page lcv) Ret) m0 Hf) as [m' Hm]. lia. eauto 8.
    - intros r H1. destruct (set_page_ok c q offset len page v r Hf Hr H1) as [m' [-> E]]. exists (Some m'). auto.
  Qed.
  Lemma all_pages_cons q (p : pager K) : paged q p -> exists l, all_pages p = 0 :: l.
  Proof.
    intros [_ H]. unfold all_pages. rewrite H. pose proof (pow2_pos (pg_n p - q)). destruct (N.to_nat (2 ^ (pg_n p - q))) eqn:E. lia. cbn [iota]. eauto.
  Qed.
  Theorem getpage_first q offset len (p : pager K) (out : V) : paged q p -> fits c (pg_n p) -> offset <= len -> offset + len <= 2 ^ q -> 0 < len ->
    every_run (PGetAmplitudePage c offset len p out) (fun r => exists out', r = Ok out' /\ forall i, i < len -> out' i = flat p (offset + i)).
  Proof.
    intros Hp Hf Hol Hr Hl. assert (Hn : pg_n p < 64) by apply Hf. assert (Hfq : fits c q) by (apply (fits_le c (pg_n p)); auto; apply Hp).
    unfold PGetAmplitudePage. rewrite (paged_power q p), (paged_qpp q p) by auto. destruct (all_pages_cons q p Hp) as [l ->]. cbn [get_page_loop]. rewrite !N.add_0_l.
    destruct (N.ltb_spec len offset); [lia|]. destruct (N.leb_spec (offset + len) 0); [lia|]. cbv zeta. rewrite N.sub_0_r.
    replace (if 0 <? offset then offset else 0) with offset by (destruct (N.ltb_spec 0 offset); lia).
    replace (if len <? 2 ^ q then len else 2 ^ q) with len by (destruct (N.ltb_spec len (2 ^ q)); lia).
    assert (HT : forall out1 r, get_page_loop c (2 ^ q) q (pg_page p) offset len l (2 ^ q) out1 r <-> r = Ok out1).
    { intros out1 r. destruct l as [|i l]; cbn [get_page_loop]. tauto. destruct (N.ltb_spec (2 ^ q + len) offset); [lia|]. destruct (N.leb_spec (offset + len) (2 ^ q)); [|lia]. tauto. }
    destruct (get_page_run q offset len (pg_page p 0) out Hfq Hr) as [[r1 H1] A]. split.
    - destruct (A r1 H1) as [out1 [-> _]]. exists (Ok out1), (Ok out1). split; auto. now apply HT.
    - intros r [r2 [H2 H3]]. destruct (A r2 H2) as [out1 [-> E]]. apply HT in H3. subst r. exists out1. split; auto. intros i Hi. rewrite (E i Hi), (flat_at q p) by auto.
      rewrite N.div_small, N.mod_small by lia. reflexivity.
  Qed.
  Theorem setpage_first q offset len (page : V) (p : pager K) : paged q p -> fits c (pg_n p) -> offset <= len -> offset + len <= 2 ^ q -> 0 < len ->
    every_run (PSetAmplitudePage c offset len page p) (paged_result (pg_n p) q p (overwrite offset len page (flat p))).
  Proof.
    intros Hp Hf Hol Hr Hl. assert (Hn : pg_n p < 64) by apply Hf. assert (Hfq : fits c q) by (apply (fits_le c (pg_n p)); auto; apply Hp).
    unfold PSetAmplitudePage. rewrite (paged_power q p), (paged_qpp q p) by auto. destruct (all_pages_cons q p Hp) as [l ->]. cbn [set_page_loop]. rewrite !N.add_0_l.
    destruct (N.ltb_spec len offset); [lia|]. destruct (N.leb_spec (offset + len) 0); [lia|]. cbv zeta. rewrite N.sub_0_r.
    replace (if 0 <? offset then offset else 0) with offset by (destruct (N.ltb_spec 0 offset); lia).
    replace (if len <? 2 ^ q then len else 2 ^ q) with len by (destruct (N.ltb_spec len (2 ^ q)); lia).
    apply (andthen_result (pg_n p) q q _ _ p (overwrite offset len page (flat p))).
    - assert (HC : 0 < pg_count p) by (destruct Hp as [_ ->]; apply pow2_pos). unfold page_op. destruct (N.leb_spec (pg_count p) 0); [lia|].
      destruct (set_page_run q offset len page (pg_page p 0) Hfq Hr) as [[r1 HR1] A]. split. eexists. exists r1. split; [exact HR1|reflexivity].
      intros r [r2 [H2 ->]]. destruct (A r2 H2) as [v' [-> E]]. eexists. split; [reflexivity|]. split; auto. split; auto. assert (Hp' : paged q (set_page p 0 v')) by exact Hp. split; auto.
      intros x Hx. unfold overwrite. rewrite !(flat_at q) by auto. cbn [pg_page set_page]. destruct (N.eqb_spec (x / 2 ^ q) 0) as [E0|E0].
      + apply N.div_small_iff in E0; [|apply pow2_nz]. rewrite (N.mod_small x), (N.div_small x) by auto. rewrite (E x E0). reflexivity.
      + assert (2 ^ q <= x) by (destruct (N.lt_ge_cases x (2 ^ q)); auto; exfalso; apply E0; now apply N.div_small). destruct (N.leb_spec offset x), (N.ltb_spec x (offset + len)); cbn [andb]; auto; lia.
    - intros p1 N1 _ P1 E1. replace (set_page_loop c (2 ^ q) q offset len page l (2 ^ q) p1) with (pg_skip p1).
      2:{ destruct l as [|i l]; cbn [set_page_loop]; auto. destruct (N.ltb_spec (2 ^ q + len) offset); [lia|]. destruct (N.leb_spec (offset + len) (2 ^ q)); [reflexivity|lia]. }
      split. eexists; reflexivity. intros r ->. exists p1. repeat split; auto; apply P1.
  Qed.

  (** ** A control nine page bits up acts as an anti-control *)
  Theorem semi_anti q t (m : mat2 K) (p : pager K) : paged q p -> fits c (pg_n p) -> 0 < q -> pg_n p = q + 9 -> t < q ->
    every_run (PEitherMtrx c false [q + 8] m t p) (paged_result (pg_n p) q p (gate1 (all_clear [q + 8]) t m (flat p))).
  Proof.
    intros Hp Hf Hq Hn9 Ht. assert (Hn : pg_n p < 64) by apply Hf. assert (Hfq : fits c q) by (apply (fits_le c (pg_n p)); auto; apply Hp).
    assert (EC : pg_count p = 512) by (destruct Hp as [_ ->]; rewrite Hn9; replace (q + 9 - q) with 9 by lia; reflexivity).
    unfold PEitherMtrx. rewrite EC. change (512 =? 1) with false. cbv iota. unfold ApplyEitherControlledSingleBit. rewrite (paged_qpp q p) by auto. cbv zeta.
    change (w64 (2 ^ N.of_nat (length [q + 8]) - 1)) with 1. cbn [split_controls].
    destruct (N.leb_spec q t); [lia|]. cbn [andb]. destruct (N.ltb_spec (q + 8) q); [lia|]. cbn [cs_intra cs_iperm cs_meta cs_mperm cs_sqi cs_sqiIndex length app andb].
    destruct (N.ltb_spec t q); [|lia]. unfold SemiMetaControlled. rewrite (paged_qpp q p) by auto. cbv zeta. cbn [map]. replace (q + 8 - q) with 8 by lia. rewrite EC.
    change (nsort [w8 (w8 (pow2Ocl 8) + 255)]) with [255]. change (N.of_nat (length [255])) with 1. change (N.shiftr 512 1) with 256.
    change (semi_mask 0 [8] (w64 (N.lor 0 (w64 (N.shiftl (N.land (N.shiftr 1 0) 1) (N.of_nat 0)))))) with 0.
    rewrite (each_ext_in _ (fun i => page_op (fun v => UCMtrx c false q [] m t 0 v) i)).
    2:{ intros i Hi. apply iota_In in Hi. cbn [spread]. assert (Hl : N.land i 255 = i) by (change 255 with (2 ^ 8 - 1); rewrite (land_ones i 8); apply N.mod_small; change (2 ^ 8) with 256; lia).
        rewrite Hl, N.lxor_nilpotent, N.lor_0_l. change (w64 (N.shiftl 0 1)) with 0. now rewrite !N.lor_0_r. }
    eapply run_eqv. apply (gate_pages q _ _ p (fun j => negb (N.testbit j 8)) (match_perm 0 [] 0) t m); auto.
    - apply iota_NoDup.
    - intros j. rewrite iota_In, EC. split.
      + intros Hj. split; [lia|]. rewrite (tb_high j 8); auto; try lia.
      + intros [Hj Hb]. split. lia. apply negb_true_iff in Hb. assert (j < 2 ^ 8); [|change (2 ^ 8) with 256 in *; lia]. apply lt_pow2_bits. intros k Hk. destruct (N.eq_dec k 8) as [->|]; auto.
        apply (tb_high j 9). change (2 ^ 9) with 512. lia. lia.
    - apply op_uc; auto. constructor; auto. constructor. intros y [<-|[]]; auto.
    - apply gate1_ext; auto. intros x _. cbn [match_perm all_clear forallb]. rewrite tb_div2. unfold all_clear. cbn [forallb]. rewrite andb_true_r. rewrite N.add_comm. reflexivity.
  Qed.
End Access.
