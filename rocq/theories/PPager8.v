(** The swap family on a pager. *)
From Coq Require Import NArith List Bool Lia Ring.
From Verif Require PAlu5.
From Verif Require Import Bits MQCircuit MFunctions SpecFunctions PFunctions MParFor SpecParFor PParFor MKernel PKernel Amp PAmp SpecState MEngine SpecEngine PLoop PApply PGates PGates2 PGates3 PCompose PProb PEngine MCircuit PMaskBits MPager SpecPager PPager1 PPager2 PPager3 PPager4 PPager5 PPager6 PPager7.
Import ListNotations.
Local Open Scope N_scope.

Lemma swap_sym a b x : swap_bits a b x = swap_bits b a x.
Proof. apply N.bits_inj. intros m. rewrite !tb_swap. destruct (N.eqb_spec a m), (N.eqb_spec b m); subst; auto. Qed.
Lemma swap_same a b x : xorb (N.testbit x a) (N.testbit x b) = false -> swap_bits a b x = x.
Proof.
  intros H. apply N.bits_inj. intros m. rewrite tb_swap. destruct (N.eqb_spec a m) as [E1|E1], (N.eqb_spec b m) as [E2|E2]; try subst m; auto;
  destruct (N.testbit x a), (N.testbit x b); auto; discriminate.
Qed.
Lemma swap_hi q a b x : q <= a -> q <= b -> swap_bits a b x / 2 ^ q = swap_bits (a - q) (b - q) (x / 2 ^ q) /\ swap_bits a b x mod 2 ^ q = x mod 2 ^ q.
Proof.
  intros Ha Hb. split; apply N.bits_inj; intros j.
  - rewrite !tb_swap, !tb_div2, !tb_swap. replace (b - q + q) with b by lia. replace (a - q + q) with a by lia.
    destruct (N.eqb_spec a (j + q)), (N.eqb_spec (a - q) j), (N.eqb_spec b (j + q)), (N.eqb_spec (b - q) j); try lia; auto.
  - rewrite !tb_mod2, tb_swap. destruct (N.ltb_spec j q); cbn [andb]; auto. destruct (N.eqb_spec a j), (N.eqb_spec b j); auto; lia.
Qed.
Lemma swap_lo q a b x : a < q -> b < q -> swap_bits a b x / 2 ^ q = x / 2 ^ q /\ swap_bits a b x mod 2 ^ q = swap_bits a b (x mod 2 ^ q).
Proof.
  intros Ha Hb. split; apply N.bits_inj; intros j.
  - rewrite !tb_div2, tb_swap. destruct (N.eqb_spec a (j + q)), (N.eqb_spec b (j + q)); auto; lia.
  - rewrite tb_swap, !tb_mod2, tb_swap. destruct (N.ltb_spec j q), (N.ltb_spec a q), (N.ltb_spec b q); try lia; cbn [andb]; destruct (N.eqb_spec a j), (N.eqb_spec b j); auto; try lia.
Qed.
Definition cn (a b x : N) : N := if N.testbit x a then N.lxor x (2 ^ b) else x.
Lemma tb_cn a b x m : N.testbit (cn a b x) m = xorb (N.testbit x m) (N.testbit x a && (b =? m)).
Proof. unfold cn. destruct (N.testbit x a); cbn [andb]. now rewrite N.lxor_spec, tb_pow2. now rewrite xorb_false_r. Qed.
Lemma cn_swap a b x : a <> b -> cn a b (cn b a (cn a b x)) = swap_bits a b x.
Proof.
  intros H. apply N.bits_inj. intros m. rewrite tb_swap, !tb_cn. rewrite !N.eqb_refl.
  assert (E1 : (a =? b) = false) by now apply N.eqb_neq. assert (E2 : (b =? a) = false) by (apply N.eqb_neq; auto). rewrite ?E1, ?E2.
  destruct (N.eqb_spec a m) as [Ea|Ea], (N.eqb_spec b m) as [Eb|Eb]; try congruence; try subst m; destruct (N.testbit x a), (N.testbit x b); cbn; auto; try (rewrite !xorb_false_r; reflexivity); try (destruct (N.testbit x m); reflexivity).
Qed.
Lemma cn_lt a b x n : b < n -> x < 2 ^ n -> cn a b x < 2 ^ n.
Proof. intros Hb Hx. unfold cn. destruct (N.testbit x a); auto. apply lxor_lt_pow2; auto. now apply pow2_lt_mono. Qed.

Section Swaps.
  Context {K : StarRing}.
  Variable c : cfg.
  Add Ring KrAX : (sr_ring K).
  Local Notation V := (mem K).

  (** A swap with factor [f] on the two states in which the qubits differ. *)
  Lemma swap_at (f : K) a b (psi : V) x : gate_swap always a b (mkMat 0%amp f f 0%amp) psi x =
    if xorb (N.testbit x a) (N.testbit x b) then (f * psi (swap_bits a b x))%amp else psi x.
  Proof. unfold gate_swap, always. cbn [andb m00 m01 m10 m11]. destruct (xorb _ _); auto. destruct (N.testbit x a); ring. Qed.
  Lemma swap_plain a b (psi : V) x : gate_swap always a b (mkMat 0%amp 1%amp 1%amp 0%amp) psi x = psi (swap_bits a b x).
  Proof. rewrite swap_at. destruct (xorb _ _) eqn:E. ring. now rewrite swap_same. Qed.

  Lemma op_swap q (f : K) a b : fits c q -> a < q -> b < q -> a <> b ->
    op_ok q (SwapLike c q (mkMat 0%amp f f 0%amp) a b) (gate_swap always a b (mkMat 0%amp f f 0%amp)).
  Proof.
    intros Hf Ha Hb Hab v. destruct v as [psi|].
    - eapply every_run_weaken. apply (c19_swap c false q [] (mkMat 0%amp f f 0%amp) a b psi); auto.
      + split; auto.
      + constructor. intros [H|[]]; auto. constructor; auto. constructor.
      + intros y [<-|[<-|[]]]; auto.
      + intros r [psi' [-> E]]. exists (Some psi'). split; auto.
    - unfold SwapLike. destruct (N.eqb_spec a b); [contradiction|]. cbv zeta. unfold Apply2x2. split. eexists; reflexivity. intros r ->. exists None. split; auto.
      intros x _. rewrite swap_at. cbn [vread]. destruct (xorb _ _); auto. ring.
  Qed.

  Lemma op2_swap q (ph : option K) f : fits c q -> 0 < q -> f = match ph with None => 1%amp | Some f => f end ->
    op2_ok q (swap_pages c q ph) (fun a b => (fun x => (f * b x)%amp, fun x => (f * a x)%amp)).
  Proof.
    intros Hf Hq -> v w. unfold swap_pages. destruct ph as [f|].
    - destruct (op_scale c q f Hf Hq w) as [[ra Ha] Hwa]. destruct (op_scale c q f Hf Hq v) as [[rb Hb] Hwb]. split.
      + eexists. exists ra, rb. split; auto.
      + intros r [ra' [rb' [H1 [H2 ->]]]]. destruct (Hwa _ H1) as [a' [-> Ea]]. destruct (Hwb _ H2) as [b' [-> Eb]]. exists a', b'. auto.
    - split. eexists; reflexivity. intros r ->. exists w, v. split; auto. cbn [fst snd]. split; intros x _; ring.
  Qed.

  Lemma meta_swap_pairs q (ph : option K) f T1 T2 (p : pager K) : paged q p -> fits c (pg_n p) -> 0 < q -> T1 < T2 -> T2 < pg_n p - q ->
    f = match ph with None => 1%amp | Some f => f end ->
    every_run (each (fun i => pair_op (swap_pages c q ph) (N.lor (spread 0 i (map m1 [T1; T2])) (2 ^ T1)) (N.lor (spread 0 i (map m1 [T1; T2])) (2 ^ T2)))
                 (iota 0 (N.to_nat (N.shiftr (pg_count p) 2))) p)
      (paged_result (pg_n p) q p (fun x => if xorb (N.testbit (x / 2 ^ q) T1) (N.testbit (x / 2 ^ q) T2)
         then (f * vread (pg_page p (swap_bits T1 T2 (x / 2 ^ q))) (x mod 2 ^ q))%amp else flat p x)).
  Proof.
    intros Hp Hf Hq H12 H2 Ef. assert (Hn : pg_n p < 64) by apply Hf. assert (Hfq : fits c q) by (apply (fits_le c (pg_n p)); auto; apply Hp).
    assert (EC : pg_count p = 2 ^ (pg_n p - q)) by apply Hp. set (k := pg_n p - q) in *.
    assert (Hi : increasing_below 0 k [T1; T2]) by (cbn [increasing_below]; lia).
    replace (N.shiftr (pg_count p) 2) with (2 ^ (k - N.of_nat (length [T1; T2]))) by (rewrite EC, shift_count; cbn [length]; auto; lia).
    fold (idx k [T1; T2]). set (l := idx k [T1; T2]). set (ps := [T1; T2]) in *.
    rewrite (each_ext_in _ (fun i => pair_op (swap_pages c q ph) (N.lor (ins_all ps i) (2 ^ T1)) (N.lor (ins_all ps i) (2 ^ T2)))).
    2:{ intros i Hin. apply idx_In in Hin. rewrite (spread_ins k) by (auto; lia). reflexivity. }
    assert (O1 : only_bits ps (2 ^ T1)). { intros j Hj. rewrite tb_pow2 in Hj. apply N.eqb_eq in Hj. subst. now left. }
    assert (O2 : only_bits ps (2 ^ T2)). { intros j Hj. rewrite tb_pow2 in Hj. apply N.eqb_eq in Hj. subst. right; now left. }
    assert (L1 : 2 ^ T1 < 2 ^ k) by (apply pow2_lt_mono; lia). assert (L2 : 2 ^ T2 < 2 ^ k) by (apply pow2_lt_mono; lia).
    assert (N12 : (T1 =? T2) = false) by (apply N.eqb_neq; lia). assert (N21 : (T2 =? T1) = false) by (apply N.eqb_neq; lia).
    assert (A1 : forall j, agree ps j (2 ^ T1) <-> N.testbit j T1 = true /\ N.testbit j T2 = false).
    { intros j. unfold agree, ps. split.
      - intros H. split; rewrite H; cbn [In]; auto; rewrite tb_pow2; auto. apply N.eqb_refl.
      - intros [X Y] y [<-|[<-|[]]]; rewrite tb_pow2, ?N.eqb_refl, ?N12; auto. }
    assert (A2 : forall j, agree ps j (2 ^ T2) <-> N.testbit j T1 = false /\ N.testbit j T2 = true).
    { intros j. unfold agree, ps. split.
      - intros H. split; rewrite H; cbn [In]; auto; rewrite tb_pow2; auto. apply N.eqb_refl.
      - intros [X Y] y [<-|[<-|[]]]; rewrite tb_pow2, ?N.eqb_refl, ?N21; auto. }
    set (lo := fun i => N.lor (ins_all ps i) (2 ^ T1)). set (hi := fun i => N.lor (ins_all ps i) (2 ^ T2)).
    assert (HL : forall j, In j (map lo l) <-> j < 2 ^ k /\ N.testbit j T1 = true /\ N.testbit j T2 = false).
    { intros j. unfold lo, l. rewrite pages_In by auto. now rewrite A1. }
    assert (HH : forall j, In j (map hi l) <-> j < 2 ^ k /\ N.testbit j T1 = false /\ N.testbit j T2 = true).
    { intros j. unfold hi, l. rewrite pages_In by auto. now rewrite A2. }
    assert (Hsw : forall i, In i l -> hi i = swap_bits T1 T2 (lo i)).
    { intros i Hin. assert (Z : forall y, In y ps -> N.testbit (ins_all ps i) y = false) by (now apply (ins_all_zero ps 0 k)).
      assert (Z1 : N.testbit (ins_all ps i) T1 = false) by (apply Z; now left). assert (Z2 : N.testbit (ins_all ps i) T2 = false) by (apply Z; right; now left).
      apply N.bits_inj. intros m. unfold hi, lo. rewrite tb_swap, !N.lor_spec, !tb_pow2, Z1, Z2, N12, N.eqb_refl. cbn [orb].
      destruct (N.eqb_spec T1 m) as [Ea|Ea], (N.eqb_spec T2 m) as [Eb|Eb]; try lia; try subst m; rewrite ?Z1, ?Z2, ?N12; try lia; auto. }
    assert (ND : NoDup (map lo l ++ map hi l)).
    { apply PAlu5.NoDup_app_disjoint. now apply pages_NoDup. now apply pages_NoDup. intros j X Y. apply HL in X. apply HH in Y. destruct X as [_ [X _]], Y as [_ [Y _]]. congruence. }
    eapply every_run_weaken.
    { apply (each_pairs q _ _ lo hi (op2_swap q ph f Hfq Hq Ef) l p ND). intros i Hin. rewrite EC. split. apply (HL (lo i)). now apply in_map. apply (HH (hi i)). now apply in_map. }
    intros r [p' [-> [S [E O]]]]. exists p'. split; auto. pose proof (shape_paged q p p' S Hp) as Hp'. destruct S as [A [B C']].
    repeat split; auto; try apply Hp'. intros x Hx. rewrite (flat_at q p') by auto.
    assert (Ho : x mod 2 ^ q < 2 ^ q) by (apply N.mod_lt, pow2_nz). pose proof (count_at q p x Hp Hx) as Hc.
    rewrite (flat_at q p) by auto. set (j := x / 2 ^ q) in *. set (o := x mod 2 ^ q) in *. rewrite EC in Hc.
    destruct (N.testbit j T1) eqn:E1, (N.testbit j T2) eqn:E2; cbn [xorb].
    - rewrite O; auto. intros H. apply in_app_or in H. destruct H as [H|H]. apply HL in H. destruct H as [_ [_ H]]. congruence. apply HH in H. destruct H as [_ [H _]]. congruence.
    - assert (H : In j (map lo l)) by (apply HL; auto). apply in_map_iff in H. destruct H as [i [Ei Hin]]. destruct (E i Hin) as [Ea _]. rewrite Ei in Ea. rewrite (Ea o Ho). cbn [fst].
      rewrite (Hsw i Hin), Ei. reflexivity.
    - assert (H : In j (map hi l)) by (apply HH; auto). apply in_map_iff in H. destruct H as [i [Ei Hin]]. destruct (E i Hin) as [_ Ea]. rewrite Ei in Ea. rewrite (Ea o Ho). cbn [snd].
      rewrite <- Ei, (Hsw i Hin), swap_bits_invol. reflexivity.
    - rewrite O; auto. intros H. apply in_app_or in H. destruct H as [H|H]. apply HL in H. destruct H as [_ [H _]]. congruence. apply HH in H. destruct H as [_ [_ H]]. congruence.
  Qed.
  Theorem meta_swap_pager q (ph : option K) f a b (p : pager K) : paged q p -> fits c (pg_n p) -> 0 < q -> q <= a < pg_n p -> q <= b < pg_n p -> a <> b ->
    f = match ph with None => 1%amp | Some f => f end ->
    every_run (MetaSwap c a b ph p) (paged_result (pg_n p) q p (gate_swap always a b (mkMat 0%amp f f 0%amp) (flat p))).
  Proof.
    intros Hp Hf Hq Ha Hb Hab Ef. assert (Hn : pg_n p < 64) by apply Hf. unfold MetaSwap. rewrite (paged_qpp q p) by auto. cbv zeta.
    set (T1 := N.min (a - q) (b - q)). set (T2 := N.max (a - q) (b - q)). assert (H12 : T1 < T2) by (unfold T1, T2; lia). assert (H2 : T2 < pg_n p - q) by (unfold T2; lia).
    rewrite !pow2Ocl_small by (unfold T1, T2; lia).
    assert (Esw : forall y, swap_bits (a - q) (b - q) y = swap_bits T1 T2 y).
    { intros y. unfold T1, T2. destruct (N.le_ge_cases (a - q) (b - q)). rewrite N.min_l, N.max_r by auto. auto. rewrite N.min_r, N.max_l by auto. apply swap_sym. }
    assert (Ex : forall y, xorb (N.testbit y (a - q)) (N.testbit y (b - q)) = xorb (N.testbit y T1) (N.testbit y T2)).
    { intros y. unfold T1, T2. destruct (N.le_ge_cases (a - q) (b - q)). rewrite N.min_l, N.max_r by auto. auto. rewrite N.min_r, N.max_l by auto. apply xorb_comm. }
    eapply run_eqv.
    - erewrite each_ext_in. apply (meta_swap_pairs q ph f T1 T2 p); auto. intros i _. cbn [spread map]. rewrite N.lor_0_l. fold (m1 T1). fold (m1 T2). now rewrite !N.lor_assoc.
    - intros x Hx. rewrite swap_at. rewrite (flat_at q p) by auto. rewrite (flat_at q p (swap_bits a b x)) by auto.
      destruct (swap_hi q a b x) as [E1 E2]; try lia. rewrite E1, E2, Esw.
      replace (xorb (N.testbit x a) (N.testbit x b)) with (xorb (N.testbit (x / 2 ^ q) (a - q)) (N.testbit (x / 2 ^ q) (b - q))).
      now rewrite Ex. rewrite !tb_div2. f_equal; f_equal; lia.
  Qed.

  (** ** The generic swap *)
  Lemma cnot_at a b (psi : V) x : gate1 (all_set [a]) b (mkMat 0%amp 1%amp 1%amp 0%amp) psi x = psi (cn a b x).
  Proof.
    pose proof (flip_gate b psi x) as H. unfold cn. unfold gate1, always, all_set in *. cbn [forallb]. rewrite andb_true_r. destruct (N.testbit x a); auto.
  Qed.
  Lemma cnot_pager q a b (p : pager K) : paged q p -> fits c (pg_n p) -> 0 < q -> a <> b -> a < pg_n p -> b < pg_n p -> (b < q -> a < q + 8) ->
    every_run (PCNOT c a b p) (paged_result (pg_n p) q p (fun x => flat p (cn a b x))).
  Proof.
    intros Hp Hf Hq Hab Ha Hb H8. unfold PCNOT. eapply run_eqv. apply (either_pager c q false [a]); auto.
    - constructor. intros [H|[]]; auto. constructor; auto. constructor.
    - intros y [<-|[<-|[]]]; auto.
    - intros H y [<-|[]]. auto.
    - intros x Hx. apply cnot_at.
  Qed.
  Lemma generic_swap_pager q a b (p : pager K) : paged q p -> fits c (pg_n p) -> 0 < q -> a <> b -> a < pg_n p -> b < pg_n p -> (b < q -> a < q + 8) -> (a < q -> b < q + 8) ->
    every_run (GenericSwap c a b p) (paged_result (pg_n p) q p (fun x => flat p (swap_bits a b x))).
  Proof.
    intros Hp Hf Hq Hab Ha Hb H8 H8'. unfold GenericSwap. destruct (N.eqb_spec a b); [contradiction|].
    apply (andthen_result (pg_n p) q q _ _ p (fun x => flat p (cn a b x))). now apply cnot_pager.
    intros p1 N1 _ P1 E1. rewrite <- N1 in *. apply (andthen_result (pg_n p1) q q _ _ p1 (fun x => flat p (cn a b (cn b a x)))).
    { eapply run_eqv. apply (cnot_pager q b a); auto. intros x Hx. apply E1. now apply cn_lt. }
    intros p2 N2 _ P2 E2. rewrite <- N2 in *. eapply run_eqv. apply (cnot_pager q a b); auto. intros x Hx. rewrite (E2 (cn a b x)) by (now apply cn_lt). now rewrite cn_swap.
  Qed.

  Lemma base_pos (p : pager K) : 0 < pg_thr p -> 0 < pg_n p -> 0 < pg_base p.
  Proof. unfold pg_base. destruct (_ <? _); auto. Qed.
  Lemma base_le (p : pager K) : pg_base p <= pg_n p.
  Proof. unfold pg_base. destruct (N.ltb_spec (pg_n p) (pg_thr p)); lia. Qed.
  Lemma separate_base q (p : pager K) : paged q p -> fits c (pg_n p) -> pg_base p <= q ->
    every_run (SeparateBase c p) (paged_result (pg_n p) (pg_base p) p (flat p)).
  Proof.
    intros Hp Hf Hb. unfold SeparateBase. pose proof (separate_ok c q (pg_base p) false p Hp Hf) as H. cbn [negb] in H.
    replace (N.min q (N.max (pg_base p) (pg_base p))) with (pg_base p) in H by lia. exact H.
  Qed.
  (** The page size after a swap. *)
  Definition swap_size (base q a b : N) : N := if (a =? b) then q else if (base <=? a) || (base <=? b) then base else q.

  Lemma inner_swap q (f : K) a b (p : pager K) : paged q p -> fits c (pg_n p) -> a < q -> b < q -> a <> b ->
    every_run (each (page_op (SwapLike c q (mkMat 0%amp f f 0%amp) a b)) (all_pages p) p)
      (paged_result (pg_n p) q p (gate_swap always a b (mkMat 0%amp f f 0%amp) (flat p))).
  Proof.
    intros Hp Hf Ha Hb Hab. eapply run_eqv.
    - apply (pages_flat q (fun _ => SwapLike c q (mkMat 0%amp f f 0%amp) a b) (fun _ => gate_swap always a b (mkMat 0%amp f f 0%amp)) (all_pages p) p always); auto.
      + apply iota_NoDup.
      + intros j. rewrite all_pages_In. unfold always. intuition.
      + intros j _. apply op_swap; auto. apply (fits_le c (pg_n p)); auto; apply Hp.
    - intros x Hx. unfold always at 1. rewrite !swap_at. rewrite !tb_off by auto. rewrite !(flat_at q p) by auto. destruct (swap_lo q a b x Ha Hb) as [-> ->]. reflexivity.
  Qed.
  (** Swap. *)
  Theorem swap_pager q a b (p : pager K) : paged q p -> fits c (pg_n p) -> 0 < pg_thr p -> pg_base p <= q -> a < pg_n p -> b < pg_n p -> (b < pg_base p -> a < pg_base p + 8) -> (a < pg_base p -> b < pg_base p + 8) ->
    every_run (PSwap c a b p) (paged_result (pg_n p) (swap_size (pg_base p) q a b) p (fun x => flat p (swap_bits a b x))).
  Proof.
    intros Hp Hf Ht Hbq Ha Hb Ha8 Hb8. assert (Hn : pg_n p < 64) by apply Hf. assert (Hb0 : 0 < pg_base p) by (apply base_pos; auto; lia). unfold PSwap, swap_size.
    destruct (N.eqb_spec a b) as [<-|Hab].
    { split. eexists; reflexivity. intros r ->. exists p. repeat split; auto; try apply Hp. intros x _. rewrite swap_same; auto. apply xorb_nilpotent. }
    cbv zeta.
    destruct (N.leb_spec (pg_base p) a) as [La|La], (N.leb_spec (pg_base p) b) as [Lb|Lb]; cbn [andb orb].
    4:{ rewrite (paged_qpp q p) by auto. eapply run_eqv. apply (inner_swap q 1%amp); auto; lia. intros x _. apply swap_plain. }
    all: apply (andthen_result (pg_n p) (pg_base p) (pg_base p) _ _ p (flat p)); [apply (separate_base q); auto|]; intros p1 N1 _ P1 E1; rewrite <- N1 in *; eapply run_eqv.
    1:{ apply (meta_swap_pager (pg_base p) None 1%amp); auto. }
    1:{ intros x Hx. rewrite swap_plain. apply E1. apply swap_bits_lt; auto. }
    all: try (apply (generic_swap_pager (pg_base p)); auto; lia).
    all: intros x Hx; apply E1; apply swap_bits_lt; auto.
  Qed.

  Lemma phases_pager q (f : K) mq lq (p : pager K) : paged q p -> fits c (pg_n p) -> q <= mq < pg_n p -> lq < q ->
    every_run (each (fun i => page_op (fun v => if N.testbit i (mq - q) then Phase c false q f 1%amp lq v else Phase c false q 1%amp f lq v) i) (all_pages p) p)
      (paged_result (pg_n p) q p (fun x => if xorb (N.testbit x mq) (N.testbit x lq) then (f * flat p x)%amp else flat p x)).
  Proof.
    intros Hp Hf Hm Hl. assert (Hfq : fits c q) by (apply (fits_le c (pg_n p)); auto; apply Hp). eapply run_eqv.
    - apply (pages_flat q _ (fun j => gate1 always lq (if N.testbit j (mq - q) then mkMat f 0%amp 0%amp 1%amp else mkMat 1%amp 0%amp 0%amp f)) (all_pages p) p always); auto.
      + apply iota_NoDup.
      + intros j. rewrite all_pages_In. unfold always. intuition.
      + intros j _. destruct (N.testbit j (mq - q)); apply op_phase; auto.
    - intros x Hx. unfold always at 1. rewrite (gate_page q p) by auto. unfold gate1, always. rewrite tb_div2. replace (mq - q + q) with mq by lia.
      destruct (N.testbit x mq) eqn:E1, (N.testbit x lq) eqn:E2; cbn [xorb m00 m01 m10 m11].
      all: try (replace (N.setbit x lq) with x by (apply N.bits_inj; intros j; rewrite tb_setbit; destruct (N.eqb_spec lq j) as [<-|]; auto)).
      all: try (replace (N.clearbit x lq) with x by (apply N.bits_inj; intros j; rewrite tb_clearbit; destruct (N.eqb_spec lq j) as [<-|]; cbn [negb]; rewrite ?andb_true_r, ?andb_false_r; auto)).
      all: ring.
  Qed.
  (** ISwap and its inverse. *)
  Theorem iswap_pager q (f : K) a b (p : pager K) : paged q p -> fits c (pg_n p) -> 0 < pg_thr p -> pg_base p <= q -> a < pg_n p -> b < pg_n p -> (b < pg_base p -> a < pg_base p + 8) -> (a < pg_base p -> b < pg_base p + 8) ->
    every_run (PISwap c f a b p) (paged_result (pg_n p) (swap_size (pg_base p) q a b) p (gate_swap always a b (mkMat 0%amp f f 0%amp) (flat p))).
  Proof.
    intros Hp Hf Ht Hbq Ha Hb Ha8 Hb8. assert (Hn : pg_n p < 64) by apply Hf. assert (Hb0 : 0 < pg_base p) by (apply base_pos; auto; lia). unfold PISwap, swap_size.
    destruct (N.eqb_spec a b) as [<-|Hab].
    { split. eexists; reflexivity. intros r ->. exists p. repeat split; auto; try apply Hp. intros x _. rewrite swap_at. now rewrite xorb_nilpotent. }
    cbv zeta.
    destruct (N.leb_spec (pg_base p) a) as [La|La], (N.leb_spec (pg_base p) b) as [Lb|Lb]; cbn [andb orb].
    4:{ rewrite (paged_qpp q p) by auto. apply inner_swap; auto; lia. }
    - apply (andthen_result (pg_n p) (pg_base p) (pg_base p) _ _ p (flat p)). apply (separate_base q); auto. intros p1 N1 _ P1 E1. rewrite <- N1 in *. eapply run_eqv.
      apply (meta_swap_pager (pg_base p) (Some f) f); auto. intros x Hx. rewrite !swap_at. rewrite !E1; auto. apply swap_bits_lt; auto.
    - apply (andthen_result (pg_n p) (pg_base p) (pg_base p) _ _ p (fun x => flat p (swap_bits a b x))).
      + apply (andthen_result (pg_n p) (pg_base p) (pg_base p) _ _ p (flat p)). apply (separate_base q); auto. intros p1 N1 _ P1 E1. rewrite <- N1 in *. eapply run_eqv.
        apply (generic_swap_pager (pg_base p)); auto; lia. intros x Hx. apply E1. apply swap_bits_lt; auto.
      + intros p1 N1 _ P1 E1. rewrite (paged_qpp (pg_base p) p1) by (auto; lia). rewrite <- N1 in *. eapply run_eqv. apply (phases_pager (pg_base p)); auto; lia.
        intros x Hx. rewrite swap_at. rewrite E1 by auto. destruct (xorb _ _) eqn:Ex; auto. now rewrite swap_same.
    - apply (andthen_result (pg_n p) (pg_base p) (pg_base p) _ _ p (fun x => flat p (swap_bits a b x))).
      + apply (andthen_result (pg_n p) (pg_base p) (pg_base p) _ _ p (flat p)). apply (separate_base q); auto. intros p1 N1 _ P1 E1. rewrite <- N1 in *. eapply run_eqv.
        apply (generic_swap_pager (pg_base p)); auto; lia. intros x Hx. apply E1. apply swap_bits_lt; auto.
      + intros p1 N1 _ P1 E1. rewrite (paged_qpp (pg_base p) p1) by (auto; lia). rewrite <- N1 in *. eapply run_eqv. apply (phases_pager (pg_base p)); auto; lia.
        intros x Hx. rewrite swap_at. rewrite E1 by auto. rewrite (xorb_comm (N.testbit x b)). destruct (xorb _ _) eqn:Ex; auto. now rewrite swap_same.
  Qed.
End Swaps.
