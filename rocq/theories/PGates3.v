(** Mask gates and uniformly controlled gates. *)
From Coq Require Import NArith List Bool Lia Permutation Ring.
From Verif Require Import Bits MFunctions SpecFunctions PFunctions MParFor SpecParFor PParFor MKernel PKernel Amp PAmp SpecState MEngine SpecEngine PLoop PApply PGates PGates2.
Import ListNotations.
Local Open Scope N_scope.

(** ** Parity *)
Lemma odd_bits_lxor k u v : odd_bits k (N.lxor u v) = xorb (odd_bits k u) (odd_bits k v).
Proof. induction k as [|k IH]; simpl; auto. rewrite N.lxor_spec, IH. ring. Qed.
Lemma odd_bits_add a b v : odd_bits (b + a) v = xorb (odd_bits a v) (odd_bits b (N.shiftr v (N.of_nat a))).
Proof.
  induction b as [|b IH]; simpl. now rewrite xorb_false_r.
  rewrite IH, tb_shiftr. replace (N.of_nat (b + a)) with (N.of_nat b + N.of_nat a) by lia. ring.
Qed.
Lemma odd_bits_fold s v : odd_bits (s + s) v = odd_bits s (N.lxor v (N.shiftr v (N.of_nat s))).
Proof. now rewrite odd_bits_add, odd_bits_lxor. Qed.
Lemma parity64_ok v : negb (parity64 v =? 0) = odd_bits 64 v.
Proof.
  unfold parity64. cbn [fold_parity].
  rewrite (odd_bits_fold 32), (odd_bits_fold 16), (odd_bits_fold 8), (odd_bits_fold 4), (odd_bits_fold 2), (odd_bits_fold 1).
  change (N.of_nat 32) with 32. change (N.of_nat 16) with 16. change (N.of_nat 8) with 8. change (N.of_nat 4) with 4.
  change (N.of_nat 2) with 2. change (N.of_nat 1) with 1.
  generalize (N.lxor v (N.shiftr v 32)) as a. intros a. generalize (N.lxor a (N.shiftr a 16)) as b. intros b.
  generalize (N.lxor b (N.shiftr b 8)) as d. intros d. generalize (N.lxor d (N.shiftr d 4)) as e. intros e.
  generalize (N.lxor e (N.shiftr e 2)) as f. intros f. generalize (N.lxor f (N.shiftr f 1)) as g. intros g.
  cbn [odd_bits]. rewrite xorb_false_r. change (N.of_nat 0) with 0. change 1 with (2 ^ 0). apply land_pow2_nz.
Qed.
Lemma odd_bits_S k v : odd_bits (S k) v = xorb (N.testbit v 0) (odd_bits k (N.div2 v)).
Proof.
  replace (S k) with (k + 1)%nat by lia. rewrite odd_bits_add. cbn [odd_bits]. rewrite xorb_false_r.
  reflexivity.
Qed.
Lemma odd_bits_0 k : odd_bits k 0 = false.
Proof. induction k; cbn [odd_bits]; auto. now rewrite N.bits_0, IHk. Qed.
Lemma odd_add1 a : N.odd (1 + a) = negb (N.odd a).
Proof. rewrite N.odd_add. change (N.odd 1) with true. now destruct (N.odd a). Qed.
Lemma pop_odd p : forall k, Npos p < 2 ^ N.of_nat k -> N.odd (pop_pos p) = odd_bits k (Npos p).
Proof.
  induction p as [p IH|p IH|]; intros k Hk.
  - destruct k as [|k]. simpl in Hk. lia.
    rewrite odd_bits_S. cbn [pop_pos N.div2]. rewrite odd_add1, (IH k). reflexivity.
    rewrite Nat2N.inj_succ, N.pow_succ_r' in Hk. lia.
  - destruct k as [|k]. simpl in Hk. lia.
    rewrite odd_bits_S. cbn [pop_pos N.div2]. rewrite (IH k). change (N.testbit (N.pos p~0) 0) with false. now rewrite xorb_false_l.
    rewrite Nat2N.inj_succ, N.pow_succ_r' in Hk. lia.
  - destruct k as [|k]. simpl in Hk. lia.
    rewrite odd_bits_S. cbn [pop_pos N.div2]. now rewrite odd_bits_0.
Qed.
Lemma popcount_odd k x : x < 2 ^ N.of_nat k -> N.testbit (popcount x) 0 = odd_bits k x.
Proof.
  intros H. rewrite N.bit0_odd. destruct x as [|p]. now rewrite odd_bits_0. now apply pop_odd.
Qed.
Lemma odd_bits_more a k x : x < 2 ^ N.of_nat k -> odd_bits (a + k) x = odd_bits k x.
Proof.
  intros H. rewrite odd_bits_add. replace (N.shiftr x (N.of_nat k)) with 0. now rewrite odd_bits_0, xorb_false_r.
  symmetry. rewrite N.shiftr_div_pow2. now apply N.div_small.
Qed.
Lemma popCountOcl_odd pb x : pb <= 64 -> x < 2 ^ pb -> N.testbit (popCountOcl pb x) 0 = odd_bits 64 x.
Proof.
  intros Hp Hx. unfold popCountOcl. rewrite N.mod_small by auto. apply popcount_odd.
  apply N.lt_le_trans with (2 ^ pb); auto. change (N.of_nat 64) with 64. now apply pow2_le_mono.
Qed.
Lemma land_mask_lt x mask n : mask < 2 ^ n -> N.land x mask < 2 ^ n.
Proof. intros. rewrite N.land_comm. now apply land_lt_pow2. Qed.
Lemma land_split x n mask : x < 2 ^ n -> N.lor (N.land x mask) (N.land x (N.lxor (2 ^ n - 1) mask)) = x.
Proof.
  intros H. apply N.bits_inj. intros m. rewrite N.lor_spec, !N.land_spec, N.lxor_spec, tb_ones.
  destruct (N.ltb_spec m n). destruct (N.testbit x m), (N.testbit mask m); reflexivity.
  rewrite (tb_high x n) by auto. reflexivity.
Qed.
Lemma power_of_mask mask n : n < 64 -> mask < 2 ^ n -> isPowerOfTwoOcl mask = true ->
  bi_log2_native mask < n /\ mask = 2 ^ bi_log2_native mask.
Proof.
  intros Hn Hm H. apply isPowerOfTwo_ok in H. destruct H as [k ->].
  assert (Hk : k < n) by (apply (N.pow_lt_mono_r_iff 2); auto; lia).
  rewrite bi_log2_native_ok. rewrite N.log2_pow2 by lia. auto.
  split. apply pow2_pos. pose proof (pow2_lt_mono n 64 Hn). lia.
Qed.

(** ** Inserting zero bits at 64-bit width *)
Lemma skip_loop_ok ps : forall lo n i iHigh, increasing_below lo n ps -> lo <= n -> n <= 64 ->
  i < 2 ^ lo -> (forall j, j < lo -> N.testbit iHigh j = false) ->
  ins_all ps (i + iHigh) < 2 ^ n ->
  skip_loop i iHigh (map (fun p => 2 ^ p) ps) = ins_all ps (i + iHigh).
Proof.
  induction ps as [|p t IH]; intros lo n i iHigh Hinc Hl H64 Hi Hh Hn; cbn [skip_loop map].
  - symmetry. apply add_lor. apply N.bits_inj. intros j. rewrite N.land_spec, N.bits_0.
    destruct (N.lt_ge_cases j lo). rewrite Hh by auto. apply andb_false_r. now rewrite (tb_high i lo).
  - simpl in Hinc. destruct Hinc as [Hp Ht].
    rewrite land_ones.
    set (iLow := iHigh mod 2 ^ p). set (hi := iHigh / 2 ^ p).
    assert (Ex : N.lxor iHigh iLow = hi * 2 ^ p).
    { apply N.bits_inj. intros j. unfold iLow, hi. autorewrite with tb.
      destruct (N.ltb_spec j p), (N.leb_spec p j); try lia; simpl.
      - now rewrite xorb_nilpotent.
      - rewrite xorb_false_r. f_equal. lia. }
    rewrite Ex. rewrite N.shiftl_mul_pow2. rewrite <- N.mul_assoc, <- N.pow_add_r.
    assert (Edis : N.land i iHigh = 0).
    { apply N.bits_inj. intros j. rewrite N.land_spec, N.bits_0.
      destruct (N.lt_ge_cases j lo). rewrite Hh by auto. apply andb_false_r. now rewrite (tb_high i lo). }
    assert (Eins : ins p (i + iHigh) = N.lor i iLow + hi * 2 ^ (p + 1)).
    { apply N.bits_inj. intros j. rewrite tb_ins. rewrite tb_cat.
      - rewrite add_lor by auto. unfold iLow, hi.
        destruct (N.ltb_spec j p), (N.ltb_spec j (p + 1)), (N.eqb_spec j p); try lia; autorewrite with tb.
        + destruct (N.ltb_spec j p); auto; lia.
        + rewrite (tb_high i lo) by (auto; lia). destruct (N.ltb_spec j p); auto; lia.
        + rewrite (tb_high i lo) by (auto; lia). simpl. f_equal. lia.
      - apply lor_lt_pow2.
        + apply N.lt_le_trans with (2 ^ lo); auto. apply pow2_le_mono. lia.
        + unfold iLow. pose proof (mod_lt_pow2 iHigh p). assert (2 ^ p < 2 ^ (p + 1)) by (apply pow2_lt_mono; lia). lia. }
    unfold ins_all in *. cbn [fold_left] in *. rewrite Eins in *. fold (ins_all t) in *.
    assert (Hge : forall q y, y <= ins q y).
    { intros q y. unfold ins. pose proof (div_mod_eq y q) as D. rewrite N.pow_add_r. change (2 ^ 1) with 2. set (u := y / 2 ^ q) in *. set (v := y mod 2 ^ q) in *. clearbody u v. set (P := 2 ^ q) in *. clearbody P. clear - D. nia. }
    assert (Hge' : forall qs y, y <= ins_all qs y).
    { unfold ins_all. induction qs; intros y; simpl. lia. eapply N.le_trans; [apply (Hge a y)|apply IHqs]. }
    assert (Hw : w64 (hi * 2 ^ (p + 1)) = hi * 2 ^ (p + 1)).
    { unfold w64. apply N.mod_small.
      pose proof (Hge' t (N.lor i iLow + hi * 2 ^ (p + 1))). unfold ins_all in H.
      assert (2 ^ n <= 2 ^ 64) by (apply pow2_le_mono; lia).
      eapply N.le_lt_trans with (ins_all t (N.lor i iLow + hi * 2 ^ (p + 1))). 2:{ unfold ins_all. eapply N.lt_le_trans; eauto. }
      eapply N.le_trans; [|apply Hge']. lia. }
    rewrite Hw. apply (IH (p + 1) n); auto; try lia.
    + apply lor_lt_pow2.
      * apply N.lt_le_trans with (2 ^ lo); auto. apply pow2_le_mono. lia.
      * unfold iLow. pose proof (mod_lt_pow2 iHigh p). assert (2 ^ p < 2 ^ (p + 1)) by (apply pow2_lt_mono; lia). lia.
    + intros j Hj. autorewrite with tb. destruct (N.leb_spec (p + 1) j); auto; lia.
Qed.
Lemma insert_zeros_ins ps x : insert_zeros ps x = ins_all ps x.
Proof. reflexivity. Qed.

Section Masks.
  Context {K : StarRing}.
  Variable c : cfg.
  Add Ring Kr5 : (sr_ring K).
  Local Notation V := (mem K).

  Lemma trivial_ring : (0 = 1 :> K)%amp -> forall x y : K, x = y.
  Proof. intros H x y. transitivity (1 * x)%amp. ring. transitivity (1 * y)%amp. rewrite <- H. ring. ring. Qed.

  Theorem xmask_ok rgp n mask (psi : V) r : fits c n -> mask < 2 ^ n -> XMask c rgp n mask (Some psi) r ->
    exists psi', r = Ok (Some psi') /\ eqv n psi' (fun x => psi (N.lxor x mask)).
  Proof.
    intros Hf Hm. assert (Hn : n < 64) by apply Hf. unfold XMask. destruct (N.leb_spec (2 ^ n) mask); [lia|].
    destruct (N.eqb_spec mask 0) as [->|Hm0].
    - intros ->. exists psi. split; auto. intros x _. now rewrite N.lxor_0_r.
    - destruct (isPowerOfTwoOcl mask) eqn:EP.
      + apply (power_of_mask _ n) in EP; auto. destruct EP as [Hq Eq]. set (q := bi_log2_native mask) in *. clearbody q.
        intros HM. apply mtrx_ok in HM; auto. destruct HM as [psi' [ph [-> [HE Hph]]]]. exists psi'. split; auto.
        assert (G : forall x, gate1 always q matX psi x = psi (N.lxor x mask)).
        { intros x. unfold gate1, always, matX. cbn [m00 m01 m10 m11]. rewrite Eq. destruct (N.testbit x q) eqn:E.
          rewrite lxor_clear by auto. ring. rewrite lxor_set by auto. ring. }
        intros x Hx. destruct Hph as [->|[_ [_ Hph]]].
        * rewrite <- G, HE by auto. ring.
        * apply trivial_ring. unfold matX in Hph. injection Hph. intros; congruence.
      + intros [psi' [HR ->]]. exists psi'. split; auto. apply (loop_for_runs c n) in HR; auto; [|lia].
        assert (Hs : forall i, i < 2 ^ n -> N.lor (N.land i mask) (N.land i (N.lxor (2 ^ n - 1) mask)) = i) by (intros; now apply land_split).
        assert (Ht : forall i, i < 2 ^ n -> N.lor (N.lxor (N.land i mask) mask) (N.land i (N.lxor (2 ^ n - 1) mask)) = N.lxor i mask).
        { intros i Hi. apply N.bits_inj. intros m. rewrite N.lor_spec, !N.lxor_spec, !N.land_spec, N.lxor_spec, tb_ones.
          destruct (N.ltb_spec m n). destruct (N.testbit i m), (N.testbit mask m); reflexivity.
          rewrite (tb_high i n), (tb_high mask n) by auto. reflexivity. }
        set (act := fun i => negb (N.land i mask <? N.lxor (N.land i mask) mask)).
        assert (Hact : forall i, i < 2 ^ n -> act (N.lxor i mask) = negb (act i)).
        { intros i Hi. unfold act.
          assert (E1 : N.land (N.lxor i mask) mask = N.lxor (N.land i mask) mask).
          { apply N.bits_inj. intros m. rewrite !N.land_spec, !N.lxor_spec, N.land_spec. destruct (N.testbit i m), (N.testbit mask m); reflexivity. }
          assert (E2 : N.lxor (N.lxor (N.land i mask) mask) mask = N.land i mask).
          { now rewrite N.lxor_assoc, N.lxor_nilpotent, N.lxor_0_r. }
          rewrite E1, E2. set (u := N.land i mask) in *. assert (u <> N.lxor u mask).
          { intros E. apply Hm0. transitivity (N.lxor u (N.lxor u mask)). rewrite <- N.lxor_assoc, N.lxor_nilpotent, N.lxor_0_l; reflexivity. rewrite <- E. apply N.lxor_nilpotent. }
          destruct (N.ltb_spec u (N.lxor u mask)), (N.ltb_spec (N.lxor u mask) u); auto; lia. }
        assert (HX : forall i, N.lxor (N.lxor i mask) mask = i) by (intros; now rewrite N.lxor_assoc, N.lxor_nilpotent, N.lxor_0_r).
        assert (HL : forall i, i < 2 ^ n -> N.lxor i mask < 2 ^ n) by (intros; now apply lxor_lt_pow2).
        destruct (runs_local (fun i => i < 2 ^ n) (fun i a => act i = true /\ (a = i \/ a = N.lxor i mask)) (xmask_body n mask) psi psi') as [A B]; auto.
        * intros i j a Hi Hj [Ai Fi] [Aj Fj]. specialize (Hact i Hi) as Ha.
          destruct Fi as [-> | ->], Fj as [E|E].
          -- auto.
          -- rewrite <- (HX i), E, HX in *. specialize (Hact j Hj). rewrite Hact, Aj in Ai. discriminate.
          -- subst j. rewrite Ha, Ai in Aj. discriminate.
          -- rewrite <- (HX i), E. apply HX.
        * intros i Hi. unfold xmask_body. rewrite Hs, Ht by auto.
          destruct (N.land i mask <? N.lxor (N.land i mask) mask) eqn:El. exact I.
          assert (act i = true) by (unfold act; rewrite El; auto).
          cbn [within2]. repeat split; auto.
        * assert (EX : forall i, i < 2 ^ n -> act i = true -> psi' i = psi (N.lxor i mask) /\ psi' (N.lxor i mask) = psi i).
          { intros i Hi Ha. rewrite !(A i) by auto. unfold xmask_body. rewrite Hs, Ht by auto. unfold act in Ha.
            apply negb_true_iff in Ha. rewrite Ha. cbn [exec]. split.
            - now rewrite mset_eq.
            - destruct (N.eq_dec (N.lxor i mask) i) as [E|E].
              + rewrite E, mset_eq. reflexivity.
              + rewrite mset_neq by auto. now rewrite mset_eq. }
          intros x Hx. destruct (act x) eqn:Ax. now apply EX.
          specialize (Hact x Hx). rewrite Ax in Hact. cbn [negb] in Hact. destruct (EX (N.lxor x mask)) as [_ E]; auto. rewrite HX in E. exact E.
  Qed.

  (** A loop in which index [i] only rewrites cell [i]. *)
  Lemma pointwise_ok n e (body : N -> prog K) (f : N -> K -> K) psi psi' : fits c n -> e <= 2 ^ n ->
    (forall i, i < e -> body i = Ret /\ (forall y, f i y = y) \/ body i = Rd i (fun y => Wr i (f i y) Ret)) ->
    loop_for c e body psi psi' -> forall x, x < e -> psi' x = f x (psi x).
  Proof.
    intros Hf He Hb HR x Hx. apply (loop_for_runs c n) in HR; auto.
    apply runs_cell in HR.
    - destruct HR as [A _]. rewrite A by auto. destruct (Hb x Hx) as [[-> E]| ->]; cbn [exec]. now rewrite E. apply mset_eq.
    - intros i Hi. destruct (Hb i Hi) as [[-> _]| ->]; cbn [within2]; repeat split; auto.
  Qed.


  Theorem phaseparity_ok rgp n (ph phA : K) mask (psi : V) r : fits c n -> 0 < mask < 2 ^ n -> PhaseParity c rgp n ph phA mask (Some psi) r ->
    exists psi' g, r = Ok (Some psi') /\ (forall x, x < 2 ^ n -> parity_phase mask ph phA psi x = (g * psi' x)%amp) /\
      (g = 1%amp \/ rgp = true /\ g = ph /\ g = phA).
  Proof.
    intros Hf Hm. assert (Hn : n < 64) by apply Hf. unfold PhaseParity. destruct (N.leb_spec (2 ^ n) mask); [lia|].
    destruct (N.eqb_spec mask 0) as [->|Hm0]; [lia|].
    destruct (isPowerOfTwoOcl mask) eqn:EP.
    - apply (power_of_mask _ n) in EP; [|auto|lia]. destruct EP as [Hq Eq]. set (q := bi_log2_native mask) in *. clearbody q.
      assert (G : forall x, parity_phase mask ph phA psi x = gate1 always q (mkMat phA 0%amp 0%amp ph) psi x).
      { intros x. unfold parity_phase, gate1, always. cbn [m00 m01 m10 m11]. rewrite Eq.
        replace (odd_bits 64 (N.land x (2 ^ q))) with (N.testbit x q).
        - destruct (N.testbit x q); ring.
        - rewrite land_pow2_testbit, <- parity64_ok. destruct (N.testbit x q).
          2:{ reflexivity. }
          rewrite parity64_ok. symmetry.
          assert (E1 : forall k, q < N.of_nat k -> odd_bits k (2 ^ q) = true).
          { induction k as [|k IH]; intros Hk. lia. cbn [odd_bits]. rewrite tb_pow2. destruct (N.eqb_spec q (N.of_nat k)) as [->|].
            - replace (odd_bits k (2 ^ N.of_nat k)) with false; auto. symmetry.
              assert (E2 : forall j, (j <= k)%nat -> odd_bits j (2 ^ N.of_nat k) = false).
              { induction j; intros Hj; auto. cbn [odd_bits]. rewrite tb_pow2. rewrite IHj by lia.
                destruct (N.eqb_spec (N.of_nat k) (N.of_nat j)); auto. lia. }
              auto.
            - rewrite IH by lia. reflexivity. }
          apply E1. lia. }
      unfold Phase. destruct ((rgp || sr_eqb (1 - phA)%amp 0%amp) && sr_eqb (phA - ph)%amp 0%amp) eqn:E.
      + intros ->. apply andb_true_iff in E. destruct E as [E1 E2].
        destruct (eqb_spec K (phA - ph)%amp 0%amp) as [E3|]; [|discriminate].
        assert (Ee : phA = ph) by (transitivity (phA - (phA - ph))%amp; [rewrite E3; ring | ring]).
        exists psi, phA. split; auto. split.
        * intros x _. rewrite G, <- Ee, gate1_scalar; auto.
        * destruct (eqb_spec K (1 - phA)%amp 0%amp) as [E4|].
          left. transitivity (1 - (1 - phA))%amp; [ring | rewrite E4; ring].
          rewrite orb_false_r in E1. auto.
      + intros HM. apply mtrx_ok in HM; auto. destruct HM as [psi' [g [-> [HE Hg]]]]. exists psi', g. split; auto. split.
        * intros x Hx. rewrite G. auto.
        * destruct Hg as [->|[-> [_ Hg]]]; auto. right. injection Hg. intros. auto.
    - intros [psi' [HR ->]]. exists psi', 1%amp. split; auto. split; auto. intros x Hx.
      rewrite (pointwise_ok n (2 ^ n) _ (fun i y => (if odd_bits 64 (N.land i mask) then ph else phA) * y)%amp psi psi' Hf (N.le_refl _)) with (2 := HR); auto.
      + unfold parity_phase. ring.
      + intros i Hi. right. unfold pparity_body. rewrite land_split by auto. rewrite <- parity64_ok. destruct (parity64 _ =? 0); reflexivity.
  Qed.

  Theorem uprz_ok pb n mask (ph phA : K) (psi : V) r : fits c n -> pb <= 64 -> mask < 2 ^ n -> mask < 2 ^ pb ->
    UniformParityRZ c pb n mask ph phA (Some psi) r -> exists psi', r = Ok (Some psi') /\ eqv n psi' (parity_phase mask ph phA psi).
  Proof.
    intros Hf Hpb Hm Hm'. unfold UniformParityRZ. destruct (N.leb_spec (2 ^ n) mask); [lia|].
    intros [psi' [HR ->]]. exists psi'. split; auto. intros x Hx.
    rewrite (pointwise_ok n (2 ^ n) _ (fun i y => y * (if odd_bits 64 (N.land i mask) then ph else phA))%amp psi psi' Hf (N.le_refl _)) with (2 := HR); auto.
    + unfold parity_phase. ring.
    + intros i Hi. right. unfold uprz_body. rewrite popCountOcl_odd by (auto; now apply land_mask_lt). reflexivity.
  Qed.

  (** Controlled: loop over the indices with all controls clear; the body rewrites [cmask | lcv]. *)
  Theorem cuprz_ok pb n cs mask (ph phA : K) (psi : V) r : fits c n -> pb <= 64 -> mask < 2 ^ n -> mask < 2 ^ pb -> cs <> [] ->
    NoDup cs -> (forall q, In q cs -> q < n /\ N.testbit mask q = false) ->
    CUniformParityRZ c pb n cs mask ph phA (Some psi) r ->
    exists psi', r = Ok (Some psi') /\
      eqv n psi' (fun x => if all_set cs x then parity_phase mask ph phA psi x else psi x).
  Proof.
    intros Hf Hpb Hm Hm' Hne ND Hin. assert (Hn : n < 64) by apply Hf. unfold CUniformParityRZ. destruct cs as [|q0 cs0] eqn:Ecs; [congruence|]. rewrite <- Ecs in *. clear Hne.
    destruct (N.leb_spec (2 ^ n) mask); [lia|]. replace (throwIfQbIdArrayIsBad cs n) with false.
    2:{ symmetry. apply throwIf_ok. split; auto. apply Forall_forall. intros; now apply Hin. }
    cbn [orb]. intros [psi' [HR ->]]. exists psi'. split; auto.
    rewrite (map_pow2Ocl n) in HR; [|lia|intros x Hx; apply (proj1 (nsort_In x cs)) in Hx; now apply Hin].
    assert (HI : increasing_below 0 n (nsort cs)) by (apply nsort_increasing; auto; intros; now apply Hin).
    apply (loop_mask_runs c n) in HR; auto.
    set (cm := or_pows (nsort cs)) in *.
    assert (Hcm : forall i, N.testbit cm i = true <-> In i cs).
    { intros i. unfold cm. rewrite or_pows_bit. apply nsort_In. intros x Hx. apply (proj1 (nsort_In x cs)) in Hx. specialize (Hin x Hx). lia. }
    assert (HZ : forall x, zero_at (nsort cs) x <-> zero_at cs x).
    { intros x. unfold zero_at. split; intros Hz p Hp; apply Hz; now apply nsort_In. }
    assert (HB : forall i, zero_at cs i -> N.ldiff (N.lor cm i) cm = i).
    { intros i Hz. apply N.bits_inj. intros m. rewrite N.ldiff_spec, N.lor_spec. destruct (N.testbit cm m) eqn:E; cbn [negb orb].
      apply Hcm in E. now rewrite Hz. apply andb_true_r. }
    destruct (runs_local (fun x => x < 2 ^ n /\ zero_at (nsort cs) x) (fun i a => a = N.lor cm i) (cuprz_body pb mask cm ph phA) psi psi') as [A B]; auto.
    - intros i j a [_ Hi] [_ Hj] -> E. rewrite HZ in Hi, Hj. rewrite <- (HB i), <- (HB j) by auto. now rewrite E.
    - intros i _. cbn [within2 cuprz_body]. repeat split; auto.
    - intros x Hx. destruct (all_set cs x) eqn:EA.
      + unfold all_set in EA. rewrite forallb_forall in EA.
        assert (Ex : N.lor cm (N.ldiff x cm) = x).
        { apply N.bits_inj. intros m. rewrite N.lor_spec, N.ldiff_spec. destruct (N.testbit cm m) eqn:E; cbn [negb orb].
          apply Hcm in E. rewrite EA; auto. apply andb_true_r. }
        assert (Hz : zero_at cs (N.ldiff x cm)).
        { intros p Hp. rewrite N.ldiff_spec. apply Hcm in Hp. rewrite Hp. apply andb_false_r. }
        rewrite (A (N.ldiff x cm) x).
        * unfold cuprz_body. cbn [exec]. rewrite Ex, mset_eq. unfold parity_phase.
          replace (N.land (N.ldiff x cm) mask) with (N.land x mask).
          -- rewrite popCountOcl_odd by (auto; now apply land_mask_lt). ring.
          -- apply N.bits_inj. intros m. rewrite !N.land_spec, N.ldiff_spec. destruct (N.testbit cm m) eqn:E; cbn [negb].
             ++ apply Hcm in E. destruct (Hin m E) as [_ ->]. now rewrite !andb_false_r.
             ++ now rewrite andb_true_r.
        * split. apply lt_pow2_bits. intros m Hmm. now rewrite N.ldiff_spec, (tb_high x n) by auto. now apply HZ.
        * symmetry. exact Ex.
      + apply B. intros i [Hi Hz] ->. apply not_true_iff_false in EA. apply EA. unfold all_set. apply forallb_forall. intros p Hp.
        rewrite N.lor_spec. apply Hcm in Hp. now rewrite Hp.
  Qed.

  (** ** Uniformly controlled gates *)
  Lemma ctrl_offset_ok cs x : forall j, j + N.of_nat (length cs) <= 64 -> (forall q, In q cs -> q < 64) ->
    ctrl_offset j cs x = ctrl_value j cs x /\ ctrl_value j cs x < 2 ^ (j + N.of_nat (length cs)) /\
    (forall i, i < j -> N.testbit (ctrl_value j cs x) i = false).
  Proof.
    induction cs as [|q cs IH]; intros j Hj Hq; cbn [ctrl_offset ctrl_value length] in *.
    - split; auto. split. apply pow2_pos. intros. apply N.bits_0.
    - rewrite Nat2N.inj_succ in *. destruct (IH (j + 1)) as [E [L B]]; [lia|intros; apply Hq; simpl; auto|]. rewrite E.
      rewrite !pow2Ocl_small by (try lia; apply Hq; simpl; auto).
      replace (N.land x (2 ^ q) =? 0) with (negb (N.testbit x q)) by (rewrite <- land_pow2_nz; destruct (_ =? 0); auto).
      set (v := ctrl_value (j + 1) cs x) in *. replace (j + 1 + N.of_nat (length cs)) with (j + N.succ (N.of_nat (length cs))) in L by lia.
      destruct (N.testbit x q); cbn [negb].
      + assert (D : N.land (2 ^ j) v = 0).
        { apply N.bits_inj. intros i. rewrite N.land_spec, tb_pow2, N.bits_0. destruct (N.eqb_spec j i); auto. rewrite B by lia. reflexivity. }
        rewrite add_lor by auto. split; auto. split.
        * apply lor_lt_pow2; auto. apply pow2_lt_mono. lia.
        * intros i Hi. rewrite N.lor_spec, tb_pow2, B by lia. destruct (N.eqb_spec j i); auto. lia.
      + rewrite N.lor_0_l, N.add_0_l. split; auto. split; auto. intros i Hi. apply B. lia.
  Qed.

  Lemma ctrl_value_indep cs t x y : ~ In t cs -> (forall q, q <> t -> N.testbit x q = N.testbit y q) -> forall j, ctrl_value j cs x = ctrl_value j cs y.
  Proof.
    intros Ht E. induction cs as [|q cs IH]; intros j; cbn [ctrl_value]; auto. rewrite IH by (intros ?; apply Ht; simpl; auto).
    rewrite E; auto. intros ->. apply Ht. simpl; auto.
  Qed.

  Lemma layout_mat_at (mtrxs : N -> K) M k : layout mtrxs M -> mat_at mtrxs (k * 4) = M k.
  Proof.
    intros H. destruct (H k) as [A [B [C D]]]. apply mat2_eq; cbn [mat_at m00 m01 m10 m11]; rewrite ?A, ?B, ?C, ?D; f_equal; lia.
  Qed.

  Theorem ucsb_ok rgp n cs t (mtrxs : N -> K) M skips skipValue (psi : V) r : fits c n -> layout mtrxs M -> cs <> [] ->
    NoDup (cs ++ [t]) -> (forall q, In q (cs ++ [t]) -> q < n) ->
    increasing_below 0 62 skips -> N.of_nat (length cs) + N.of_nat (length skips) <= 62 -> skipValue < 2 ^ 62 ->
    UniformlyControlledSingleBit c rgp n cs t mtrxs (map (fun q => 2 ^ q) skips) skipValue (Some psi) r ->
    exists psi', r = Ok (Some psi') /\
      eqv n psi' (fun x => gate1 always t (M (N.lor (insert_zeros skips (ctrl_value 0 cs x)) skipValue)) psi x).
  Proof.
    intros Hf HL Hne ND Hin HI Hlen Hsv. assert (Hn : n < 64) by apply Hf.
    assert (Ht : t < n) by (apply Hin, in_or_app; simpl; auto).
    assert (Hcs : forall q, In q cs -> q < n) by (intros; apply Hin, in_or_app; auto).
    assert (Htc : ~ In t cs) by (intros H; apply NoDup_remove_2 in ND; rewrite app_nil_r in ND; auto).
    assert (ND' : NoDup cs) by (apply NoDup_remove_1 in ND; now rewrite app_nil_r in ND).
    unfold UniformlyControlledSingleBit. destruct cs as [|q0 cs0] eqn:Ecs; [congruence|]. rewrite <- Ecs in *. clear Hne.
    destruct (N.leb_spec n t); [lia|]. replace (throwIfQbIdArrayIsBad cs n) with false.
    2:{ symmetry. apply throwIf_ok. split; auto. apply Forall_forall. intros; now apply Hcs. }
    cbn [orb]. rewrite (pow2Ocl_small t) by lia. intros [psi' [HR ->]]. exists psi'. split; auto.
    assert (Hoff : forall x, mat_at mtrxs (ucsb_offset cs (map (fun q => 2 ^ q) skips) skipValue x) = M (N.lor (insert_zeros skips (ctrl_value 0 cs x)) skipValue)).
    { intros x. unfold ucsb_offset. destruct (ctrl_offset_ok cs x 0) as [E [L _]]. lia. intros q Hq. specialize (Hcs q Hq). lia.
      rewrite E. rewrite N.add_0_l in L.
      assert (Li : ins_all skips (ctrl_value 0 cs x) < 2 ^ 62).
      { apply (ins_all_lt skips 0 62); auto. lia. eapply N.lt_le_trans; eauto. apply pow2_le_mono. lia. }
      rewrite (skip_loop_ok skips 0 62); auto; try lia. rewrite N.add_0_l, <- insert_zeros_ins in *.
      unfold w64. rewrite N.mod_small. now apply layout_mat_at.
      assert (N.lor (insert_zeros skips (ctrl_value 0 cs x)) skipValue < 2 ^ 62) by now apply lor_lt_pow2.
      change (2 ^ 64) with (2 ^ 62 * 4). lia. }
    apply (loop_skip_runs c n) in HR; auto; [|lia].
    assert (HB : forall x, N.testbit x t = false -> N.lor x (2 ^ t) = N.setbit x t).
    { intros x E. apply N.bits_inj. intros m. rewrite N.lor_spec, tb_pow2, tb_setbit. apply orb_comm. }
    assert (HC : forall x, N.testbit x t = false -> N.clearbit (N.setbit x t) t = x).
    { intros x E. apply N.bits_inj. intros m. rewrite tb_clearbit, tb_setbit. destruct (N.eqb_spec t m); subst; cbn [orb negb]; rewrite ?andb_true_r, ?andb_false_r; auto. }
    assert (HS : forall x, N.testbit x t = true -> N.setbit (N.clearbit x t) t = x).
    { intros x E. apply N.bits_inj. intros m. rewrite tb_setbit, tb_clearbit. destruct (N.eqb_spec t m); subst; cbn [orb negb]; rewrite ?andb_true_r; auto. }
    assert (HZ : forall x, (forall j, t <= j < t + 1 -> N.testbit x j = false) -> N.testbit x t = false) by (intros x Hx; apply Hx; lia).
    destruct (runs_local (fun x => x < 2 ^ n /\ forall j, t <= j < t + 1 -> N.testbit x j = false) (fun i a => a = i \/ a = N.setbit i t)
      (ucsb_body cs t mtrxs (map (fun q => 2 ^ q) skips) skipValue) psi psi') as [A B]; auto.
    - intros i j a [_ Hi] [_ Hj] Fi Fj. apply HZ in Hi, Hj. destruct Fi as [-> | ->], Fj as [E|E].
      + auto.
      + rewrite E, tb_setbit, N.eqb_refl in Hi. discriminate.
      + rewrite <- E, tb_setbit, N.eqb_refl in Hj. discriminate.
      + rewrite <- (HC i), <- (HC j) by auto. now rewrite E.
    - intros i [_ Hi]. apply HZ in Hi. unfold ucsb_body. rewrite pow2Ocl_small by lia. rewrite HB by auto. cbn [within2]. repeat split; auto.
    - assert (HH : forall i, i < 2 ^ n -> N.testbit i t = false ->
        let m := M (N.lor (insert_zeros skips (ctrl_value 0 cs i)) skipValue) in
        psi' i = (m00 m * psi i + m01 m * psi (N.setbit i t))%amp /\ psi' (N.setbit i t) = (m10 m * psi i + m11 m * psi (N.setbit i t))%amp).
      { intros i Hi Hti m.
        assert (Hp : i < 2 ^ n /\ forall j, t <= j < t + 1 -> N.testbit i j = false) by (split; auto; intros j Hj; replace j with t by lia; auto).
        rewrite !(A i) by auto. unfold ucsb_body. rewrite pow2Ocl_small by lia. rewrite HB by auto. rewrite Hoff. fold m. cbn [exec].
        assert (Hd : i <> N.setbit i t) by (intros E; rewrite E, tb_setbit, N.eqb_refl in Hti; discriminate).
        rewrite mset_neq by auto. rewrite !mset_eq. auto. }
      intros x Hx. unfold gate1, always. destruct (N.testbit x t) eqn:Et.
      + assert (Hc : N.clearbit x t < 2 ^ n) by now apply clearbit_lt.
        assert (Htc' : N.testbit (N.clearbit x t) t = false) by (rewrite tb_clearbit, N.eqb_refl; apply andb_false_r).
        destruct (HH (N.clearbit x t) Hc Htc') as [_ H2]. rewrite HS in H2 by auto. rewrite H2.
        rewrite (ctrl_value_indep cs t (N.clearbit x t) x); auto.
        intros q Hq. rewrite tb_clearbit. destruct (N.eqb_spec t q); try congruence. apply andb_true_r.
      + now apply HH.
  Qed.
End Masks.
