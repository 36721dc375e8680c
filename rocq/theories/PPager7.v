(** Register-wide gates and the swap family on a pager. *)
From Coq Require Import NArith List Bool Lia Ring.
From Verif Require PAlu5.
From Verif Require Import Bits MQCircuit MFunctions SpecFunctions PFunctions MParFor SpecParFor PParFor MKernel PKernel Amp PAmp SpecState MEngine SpecEngine PLoop PApply PGates PGates2 PGates3 PCompose PProb PEngine MCircuit PMaskBits MPager SpecPager PPager1 PPager2 PPager3 PPager4 PPager5 PPager6.
Import ListNotations.
Local Open Scope N_scope.

Lemma odd_bits_ext k x y : (forall j, j < N.of_nat k -> N.testbit x j = N.testbit y j) -> odd_bits k x = odd_bits k y.
Proof. induction k as [|k IH]; intros H; cbn [odd_bits]; auto. rewrite (H (N.of_nat k)) by lia. f_equal. apply IH. intros j Hj. apply H. lia. Qed.
Lemma odd_bits_zero k : odd_bits k 0 = false.
Proof. induction k as [|k IH]; cbn [odd_bits]; auto. now rewrite N.bits_0, IH. Qed.
Lemma odd_bits_trunc k m x : (forall j, N.of_nat k <= j -> N.testbit x j = false) -> (k <= m)%nat -> odd_bits m x = odd_bits k x.
Proof.
  intros H. induction m as [|m IH]; intros L. now replace k with 0%nat by lia. destruct (PeanoNat.Nat.eq_dec k (S m)) as [->|]; auto.
  cbn [odd_bits]. rewrite H by lia. rewrite IH by lia. apply xorb_false_l.
Qed.
(** Parity of a number split at bit [q]. *)
Lemma odd_bits_split q k x : odd_bits (N.to_nat q + k) x = xorb (odd_bits (N.to_nat q) x) (odd_bits k (x / 2 ^ q)).
Proof.
  induction k as [|k IH]. rewrite PeanoNat.Nat.add_0_r. cbn [odd_bits]. now rewrite xorb_false_r.
  rewrite PeanoNat.Nat.add_succ_r. cbn [odd_bits]. rewrite IH, tb_div2. replace (N.of_nat (N.to_nat q + k)) with (N.of_nat k + q) by lia.
  destruct (N.testbit x (N.of_nat k + q)), (odd_bits (N.to_nat q) x), (odd_bits k (x / 2 ^ q)); reflexivity.
Qed.

Section Wide.
  Context {K : StarRing}.
  Variable c : cfg.
  Add Ring KrAW : (sr_ring K).
  Local Notation V := (mem K).

  (** A loop whose every step keeps the page size. *)
  Lemma each_steps n q thr (body : N -> @pgstep K) (F : N -> V -> V) : forall l p (s : V), pg_n p = n -> pg_thr p = thr -> paged q p -> eqv n (flat p) s ->
    (forall i, In i l -> forall a b, eqv n a b -> eqv n (F i a) (F i b)) ->
    (forall i p', In i l -> pg_n p' = n -> pg_thr p' = thr -> paged q p' -> every_run (body i p') (paged_result n q p' (F i (flat p')))) ->
    every_run (each body l p) (paged_result n q p (fold_left (fun a i => F i a) l s)).
  Proof.
    induction l as [|i t IH]; intros p s Hn Ht Hp Hs HF H; cbn [each fold_left].
    - split. eexists; reflexivity. intros r ->. exists p. repeat split; auto; apply Hp.
    - apply (andthen_run _ _ p (fun p1 => pg_n p1 = n /\ pg_thr p1 = thr /\ paged q p1 /\ eqv n (flat p1) (F i s))).
      + eapply every_run_weaken. apply H; auto. now left. intros r [p1 [-> [A [B [C D]]]]]. exists p1. split; auto. split; auto. split. congruence. split; auto.
        intros x Hx. rewrite (D x Hx). apply (HF i (or_introl eq_refl) _ _ Hs x Hx).
      + intros p1 [A [B [C D]]]. eapply every_run_weaken. apply (IH p1 (F i s)); auto. intros j Hj. apply HF. now right. intros j p' Hj. apply H. now right.
        intros r [p' [-> [A' [B' [C' D']]]]]. exists p'. repeat split; auto; try apply C'. congruence.
  Qed.
  Lemma andthen_result n q q' (a b : @pgstep K) p (s s' : V) :
    every_run (a p) (paged_result n q p s) -> (forall p1, pg_n p1 = n -> pg_thr p1 = pg_thr p -> paged q p1 -> eqv n (flat p1) s -> every_run (b p1) (paged_result n q' p1 s')) ->
    every_run (andthen a b p) (paged_result n q' p s').
  Proof.
    intros Ha Hb. apply (andthen_run _ _ p (fun p1 => pg_n p1 = n /\ pg_thr p1 = pg_thr p /\ paged q p1 /\ eqv n (flat p1) s)).
    - eapply every_run_weaken. exact Ha. intros r [p1 [-> [A [B [C D]]]]]. exists p1. auto.
    - intros p1 [A [B [C D]]]. eapply every_run_weaken. apply Hb; auto. intros r [p' [-> [A' [B' [C' D']]]]]. exists p'. repeat split; auto; try apply C'. congruence.
  Qed.

  (** ** XMask *)
  Lemma flip_gate t (psi : V) x : gate1 always t (mkMat 0%amp 1%amp 1%amp 0%amp) psi x = psi (N.lxor x (2 ^ t)).
  Proof.
    unfold gate1, always. cbn [m00 m01 m10 m11]. destruct (N.testbit x t) eqn:E.
    - replace (N.lxor x (2 ^ t)) with (N.clearbit x t). ring. apply N.bits_inj. intros j. rewrite N.lxor_spec, tb_clearbit, tb_pow2.
      destruct (N.eqb_spec t j) as [<-|]; cbn [negb]; rewrite ?andb_true_r, ?andb_false_r, ?xorb_false_r; auto. now rewrite E.
    - replace (N.lxor x (2 ^ t)) with (N.setbit x t). ring. apply N.bits_inj. intros j. rewrite N.lxor_spec, tb_setbit, tb_pow2.
      destruct (N.eqb_spec t j) as [<-|]; cbn [negb orb]; rewrite ?xorb_false_r; auto. now rewrite E.
  Qed.
  Lemma fold_flips l : forall (s : V) x, NoDup l -> fold_left (fun a t => fun y => a (N.lxor y (2 ^ t))) l s x = s (N.lxor x (fold_left (fun a t => N.lxor a (2 ^ t)) l 0)).
  Proof.
    assert (G : forall l a, fold_left (fun a t => N.lxor a (2 ^ t)) l a = N.lxor a (fold_left (fun a t => N.lxor a (2 ^ t)) l 0)).
    { clear. induction l as [|t l IH]; intros a; cbn [fold_left]. now rewrite N.lxor_0_r. rewrite (IH (N.lxor a _)), (IH (N.lxor 0 _)). now rewrite N.lxor_0_l, N.lxor_assoc. }
    induction l as [|t l IH]; intros s x ND; cbn [fold_left]. now rewrite N.lxor_0_r.
    apply NoDup_cons_iff in ND. destruct ND as [_ ND]. rewrite IH by auto. f_equal. rewrite (G l (N.lxor 0 _)), N.lxor_0_l.
    rewrite N.lxor_assoc. f_equal. apply N.lxor_comm.
  Qed.
  Lemma fold_pows l m : NoDup l -> (forall b, In b l <-> N.testbit m b = true) -> fold_left (fun a t => N.lxor a (2 ^ t)) l 0 = m.
  Proof.
    intros ND H. apply N.bits_inj. intros j.
    assert (G : forall l a, NoDup l -> N.testbit (fold_left (fun a t => N.lxor a (2 ^ t)) l a) j = xorb (N.testbit a j) (existsb (N.eqb j) l)).
    { clear. induction l as [|t l IH]; intros a ND; cbn [fold_left existsb]. now rewrite xorb_false_r. apply NoDup_cons_iff in ND. destruct ND as [Ht ND]. rewrite IH by auto.
      rewrite N.lxor_spec, tb_pow2. rewrite (N.eqb_sym t j). destruct (N.eqb_spec j t) as [->|]; cbn [orb]; rewrite ?xorb_false_r; auto.
      replace (existsb (N.eqb t) l) with false. destruct (N.testbit a t); reflexivity. symmetry. destruct (existsb (N.eqb t) l) eqn:E; auto. apply existsb_exists in E. destruct E as [y [Hy Hy']]. apply N.eqb_eq in Hy'. subst. contradiction. }
    rewrite G by auto. rewrite N.bits_0, xorb_false_l. destruct (N.testbit m j) eqn:E.
    - apply H in E. apply existsb_exists. exists j. split; auto. apply N.eqb_refl.
    - destruct (existsb (N.eqb j) l) eqn:E2; auto. apply existsb_exists in E2. destruct E2 as [y [Hy Hy']]. apply N.eqb_eq in Hy'. subst. apply H in Hy. congruence.
  Qed.
  Lemma op_xmask q mask : fits c q -> mask < 2 ^ q -> op_ok (K:=K) q (fun v => XMask c false q mask v) (fun a x => a (N.lxor x mask)).
  Proof.
    intros Hf Hm v. destruct v as [psi|].
    - eapply every_run_weaken. apply c21_xmask; auto. intros r [psi' [-> E]]. exists (Some psi'). auto.
    - unfold XMask. destruct (N.leb_spec (2 ^ q) mask); [lia|]. split. eexists; reflexivity. intros r ->. exists None. split; auto. intros x _. reflexivity.
  Qed.
  Lemma lxor_hi_lo q x m : m < 2 ^ q -> N.lxor x m / 2 ^ q = x / 2 ^ q /\ N.lxor x m mod 2 ^ q = N.lxor (x mod 2 ^ q) m.
  Proof.
    intros Hm. split; apply N.bits_inj; intros j.
    - rewrite !tb_div2, N.lxor_spec. rewrite (tb_high m q) by (auto; lia). apply xorb_false_r.
    - rewrite N.lxor_spec, !tb_mod2, N.lxor_spec. destruct (N.ltb_spec j q); cbn [andb]; auto. now rewrite (tb_high m q).
  Qed.
  Lemma mask_parts q mask : N.land mask (2 ^ q - 1) = mask mod 2 ^ q /\ (forall j, N.testbit (N.lxor mask (N.land mask (2 ^ q - 1))) j = (q <=? j) && N.testbit mask j).
  Proof.
    split. apply land_ones. intros j. rewrite land_ones, N.lxor_spec, tb_mod2. destruct (N.ltb_spec j q), (N.leb_spec q j); cbn [andb]; try lia. apply xorb_nilpotent. apply xorb_false_r.
  Qed.
  Theorem xmask_pager q mask (p : pager K) : paged q p -> fits c (pg_n p) -> 0 < q -> mask < 2 ^ pg_n p ->
    every_run (PXMask c mask p) (paged_result (pg_n p) q p (fun x => flat p (N.lxor x mask))).
  Proof.
    intros Hp Hf Hq Hm. assert (Hn : pg_n p < 64) by apply Hf. assert (Hfq : fits c q) by (apply (fits_le c (pg_n p)); auto; apply Hp).
    unfold PXMask. rewrite (paged_power q p), (paged_qpp q p) by auto. cbv zeta. rewrite (w64_small mask (pg_n p)) by auto.
    destruct (mask_parts q mask) as [EI EO]. set (intra := N.land mask (2 ^ q - 1)) in *. set (inter := N.lxor mask intra) in *.
    assert (Hil : inter < 2 ^ pg_n p). { apply lt_pow2_bits. intros j Hj. rewrite EO. rewrite (tb_high mask (pg_n p)) by auto. apply andb_false_r. }
    assert (Hia : intra < 2 ^ q) by (rewrite EI; apply N.mod_lt, pow2_nz).
    assert (H64 : inter < 2 ^ (0 + N.of_nat 64)). { eapply N.lt_trans. exact Hil. apply pow2_lt_mono. lia. }
    destruct (mask_bits_ok 64 0 inter H64 ltac:(intros; lia)) as [ND HI].
    assert (Hbits : forall b, In b (mask_bits 64 inter) -> b < pg_n p).
    { intros b Hb. apply HI in Hb. destruct (N.lt_ge_cases b (pg_n p)); auto. rewrite (tb_high inter (pg_n p)) in Hb by auto. discriminate. }
    apply (andthen_result (pg_n p) q q _ _ p (fun x => flat p (N.lxor x inter))).
    - eapply run_eqv. apply (each_steps (pg_n p) q (pg_thr p) _ (fun t a y => a (N.lxor y (2 ^ t))) (mask_bits 64 inter) p (flat p)); auto.
      + intros x _; reflexivity.
      + intros i Hi a b Hab x Hx. apply Hab. apply lxor_lt_pow2; auto. apply pow2_lt_mono. auto.
      + intros i p' Hi Hn' _ Hp'. eapply run_eqv. rewrite <- Hn'. apply (either_single c q true 1%amp 1%amp p' i); auto. now rewrite Hn'. rewrite Hn'. auto.
        intros x _. apply flip_gate.
      + intros x Hx. rewrite fold_flips by auto. rewrite (fold_pows _ inter ND HI). reflexivity.
    - intros p1 Hn1 Ht1 Hp1 E1. assert (EC : all_pages p = all_pages p1). { unfold all_pages. destruct Hp as [_ ->], Hp1 as [_ ->]. now rewrite Hn1. }
      rewrite EC. eapply run_eqv. rewrite <- Hn1.
      apply (pages_flat q (fun _ v => XMask c false q intra v) (fun _ a x => a (N.lxor x intra)) (all_pages p1) p1 always); auto.
      + apply iota_NoDup.
      + intros j. rewrite all_pages_In. unfold always. intuition.
      + intros j _. now apply op_xmask.
      + intros x Hx. unfold always. destruct (lxor_hi_lo q x intra Hia) as [D1 D2]. rewrite <- D2, <- D1. rewrite <- (flat_at q p1) by auto.
        rewrite (E1 (N.lxor x intra)). f_equal. unfold inter. rewrite (N.lxor_comm mask intra), <- N.lxor_assoc. rewrite (N.lxor_assoc x intra intra), N.lxor_nilpotent, N.lxor_0_r. reflexivity.
        apply lxor_lt_pow2; auto. eapply N.lt_le_trans. exact Hia. apply pow2_le_mono. apply Hp.
  Qed.

  (** ** PhaseParity *)
  Lemma op_parity q (ph phA : K) mask : fits c q -> 0 < mask < 2 ^ q -> op_ok (K:=K) q (fun v => PhaseParity c false q ph phA mask v) (parity_phase mask ph phA).
  Proof.
    intros Hf Hm v. destruct v as [psi|].
    - eapply every_run_weaken. apply c21_phaseparity; auto. intros r [psi' [g [-> [E [->|[? _]]]]]]; [|discriminate]. exists (Some psi'). split; auto. intros x Hx. transitivity (1 * psi' x)%amp. cbn [vread]. ring. symmetry. exact (E x Hx).
    - unfold PhaseParity. destruct (N.leb_spec (2 ^ q) mask); [lia|]. split. eexists; reflexivity. intros r ->. exists None. split; auto. intros x _. unfold parity_phase. cbn [vread]. destruct (odd_bits 64 (N.land x mask)); ring.
  Qed.
  Theorem parity_pager q (ph phA : K) mask (p : pager K) : paged q p -> fits c (pg_n p) -> 0 < q -> mask < 2 ^ pg_n p ->
    every_run (PPhaseParity c ph phA mask p) (paged_result (pg_n p) q p (parity_phase mask ph phA (flat p))).
  Proof.
    intros Hp Hf Hq Hm. assert (Hn : pg_n p < 64) by apply Hf. assert (Hfq : fits c q) by (apply (fits_le c (pg_n p)); auto; apply Hp).
    unfold PPhaseParity. rewrite (paged_power q p), (paged_qpp q p) by auto. cbv zeta. rewrite (w64_small mask (pg_n p)) by auto.
    destruct (mask_parts q mask) as [EI EO]. set (intra := N.land mask (2 ^ q - 1)) in *. set (inter := N.shiftr (N.lxor mask intra) q).
    assert (Hia : intra < 2 ^ q) by (rewrite EI; apply N.mod_lt, pow2_nz).
    eapply run_eqv.
    - apply (pages_flat q _ (fun i a x => ((if xorb (odd_bits 64 (N.land x intra)) (odd_bits 64 (N.land inter i)) then ph else phA) * a x)%amp) (all_pages p) p always); auto.
      + apply iota_NoDup.
      + intros j. rewrite all_pages_In. unfold always. intuition.
      + intros j _ v. rewrite parity64_ok. destruct (N.eqb_spec intra 0) as [E0|E0]; cbn [negb].
        * destruct (odd_bits 64 (N.land inter j)); eapply every_run_weaken; try (apply op_scale; auto); intros r [v' [-> Hv]]; exists v'; split; auto; intros x Hx; rewrite (Hv x Hx), E0, N.land_0_r; reflexivity.
        * destruct (odd_bits 64 (N.land inter j)); eapply every_run_weaken; try (apply op_parity; auto; lia); intros r [v' [-> Hv]]; exists v'; split; auto; intros x Hx; rewrite (Hv x Hx); unfold parity_phase;
          destruct (odd_bits 64 (N.land x intra)); reflexivity.
    - intros x Hx. unfold always. rewrite <- (flat_at q p) by auto. unfold parity_phase. f_equal.
      assert (E : odd_bits 64 (N.land x mask) = xorb (odd_bits 64 (N.land (x mod 2 ^ q) intra)) (odd_bits 64 (N.land inter (x / 2 ^ q)))); [|now rewrite E].
      assert (Hq64 : q <= pg_n p) by apply Hp.
      replace 64%nat with (N.to_nat q + (64 - N.to_nat q))%nat at 1 by lia. rewrite odd_bits_split. f_equal.
      + rewrite (odd_bits_trunc (N.to_nat q) 64). 3: lia.
        * apply odd_bits_ext. intros j Hj. rewrite !N.land_spec, tb_mod2. destruct (N.ltb_spec j q); [|lia]. rewrite EI, tb_mod2. destruct (N.ltb_spec j q); [|lia]. reflexivity.
        * intros j Hj. rewrite N.land_spec, tb_mod2. destruct (N.ltb_spec j q); [lia|]. reflexivity.
      + rewrite (odd_bits_trunc (64 - N.to_nat q) 64). 3: lia.
        * apply odd_bits_ext. intros j Hj. rewrite N.land_spec, !tb_div2, N.land_spec. unfold inter. rewrite N.shiftr_spec', EO. destruct (N.leb_spec q (j + q)); [|lia]. cbn [andb]. apply andb_comm.
        * intros j Hj. rewrite N.land_spec, tb_div2. rewrite (tb_high x (pg_n p)) by (auto; lia). apply andb_false_r.
  Qed.
End Wide.
