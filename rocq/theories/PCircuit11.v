(** Proofs about the generic circuits (part 11: ProbReg, ProbMask and Compose at a position). *)
From Coq Require Import NArith Arith List Bool Lia Ring.
From Verif Require Import Bits MFunctions PFunctions MParFor PParFor MKernel Amp PAmp MEngine SpecState SpecEngine SpecParFor PApply PKernel PLoop PProb
  PGates PGates2 PGates3 PEngine PEngine2 PCompose MAlu SpecAlu PAlu PAlu2 PAlu5 PAlu6 PAlu9 MCircuit SpecCircuit PCircuit PCircuit2 PCircuit3 PCircuit4 PCircuit5 PCircuit6.
Import ListNotations.
Local Open Scope N_scope.

Section P.
  Context {K : StarRing}.
  Add Ring KrU : (sr_ring K).
  Variable c : cfg.
  Local Notation V := (mem K).
  Local Notation circ := (circ K).

  Lemma basis_enum n : enumerates (fun x => x < 2 ^ n) (basis n).
  Proof. split. apply basis_NoDup. intros x. apply basis_In. Qed.

  Lemma probreg_generic n start len perm (psi : V) : n < 64 -> start + len <= n -> perm < 2 ^ len -> (perm = 0 \/ start = len) ->
    qi_ProbReg n start len perm (Some psi) = weight_of n (reg_is start len perm) psi.
  Proof.
    intros Hn Hs Hp HC. unfold qi_ProbReg.
    replace (2 ^ n / 2 ^ len) with (2 ^ (n - len)). 2:{ replace n with (n - len + len) at 2 by lia. rewrite N.pow_add_r, N.div_mul; auto. now apply N.pow_nonzero. }
    rewrite <- basis_iota.
    set (ix := fun lcv => N.lor (N.land lcv (pow2Ocl start - 1)) (shl64 (N.lor (N.lxor lcv (N.land lcv (pow2Ocl start - 1))) perm) len)).
    change (fold_left (fun p lcv => (p + ProbAll (Some psi) (ix lcv))%amp) (basis (n - len)) 0%amp = weight_of n (reg_is start len perm) psi).
    rewrite fold_asum.
    assert (E : forall lcv, lcv < 2 ^ (n - len) -> ix lcv = slice_ix start len perm lcv).
    { intros lcv Hl. apply N.bits_inj. intros j. unfold ix. rewrite pow2Ocl_small by lia. rewrite <- N.pred_sub, <- N.ones_equiv. rewrite tb_slice_ix by auto. rewrite N.lor_spec.
      rewrite (tb_shl64 _ len (n - len)).
      - rewrite N.lor_spec, N.lxor_spec, !N.land_spec.
        assert (TO : forall k, N.testbit (N.ones start) k = (k <? start)). { intros k. destruct (N.ltb_spec k start). now apply N.ones_spec_low. now apply N.ones_spec_high. }
        rewrite !TO. assert (TP : forall k, len <= k -> N.testbit perm k = false) by (intros; apply (tb_high perm len); auto).
        destruct HC as [-> | ->].
        + rewrite !N.bits_0. destruct (N.ltb_spec j start), (N.leb_spec len j); cbn [andb orb]; rewrite ?andb_true_r, ?andb_false_r, ?orb_false_r; cbn [orb]; auto.
          * destruct (N.ltb_spec (j - len) start); [|lia]. rewrite andb_true_r, xorb_nilpotent. apply orb_false_r.
          * destruct (N.ltb_spec (j - len) start), (N.ltb_spec j (start + len)); try lia; rewrite ?andb_true_r, ?xorb_nilpotent, ?andb_false_r, ?xorb_false_r; auto.
          * destruct (N.ltb_spec j (start + len)); auto. lia.
        + destruct (N.ltb_spec j len), (N.leb_spec len j); try lia; cbn [andb orb]; rewrite ?andb_true_r, ?andb_false_r, ?orb_false_r; cbn [orb]; auto.
          destruct (N.ltb_spec (j - len) len), (N.ltb_spec j (len + len)); try lia; rewrite ?andb_true_r, ?xorb_nilpotent, ?andb_false_r, ?xorb_false_r; auto.
          rewrite (TP (j - len)) by lia. apply orb_false_r.
      - lia.
      - apply lt_pow2_bits. intros m Hm. rewrite N.lor_spec, N.lxor_spec, N.land_spec. rewrite (tb_high lcv (n - len)) by auto. assert (HP0 : N.testbit perm m = false) by (destruct HC as [->|HC]; [apply N.bits_0|apply (tb_high perm len); auto; lia]). now rewrite HP0. }
    transitivity (asum (fun x => anorm (psi (slice_ix start len perm x))) (basis (n - len))).
    { rewrite (asum_ext K (fun lcv => ProbAll (Some psi) (ix lcv)) (fun x => anorm (psi (slice_ix start len perm x)))). ring. intros x Hx. rewrite basis_In in Hx. unfold ProbAll. cbn [vread]. now rewrite E. }
    unfold weight_of. apply (asum_reindex n (fun x => x < 2 ^ (n - len)) (reg_is start len perm) (slice_ix start len perm) (fun x => anorm (psi x))).
    - apply basis_enum.
    - intros x y _ _ H. rewrite <- (outside_slice start len perm x), <- (outside_slice start len perm y) by auto. now rewrite H.
    - intros y. unfold reg_is. rewrite N.eqb_eq. split.
      + intros [Hy Hr]. exists (outside y start len). split. apply outside_lt. lia. now replace (n - len + len) with n by lia. rewrite <- Hr. apply slice_outside.
      + intros [x [Hx <-]]. split. replace n with (n - len + len) by lia. apply slice_ix_lt; auto. lia. now apply reg_slice.
  Qed.
  Lemma probmask_generic n mask perm (psi : V) : mask < 2 ^ n -> perm < 2 ^ n ->
    qi_ProbMask n mask perm (Some psi) = weight_of n (fun x => N.land x mask =? perm) psi.
  Proof.
    intros Hm Hp. unfold qi_ProbMask. destruct (N.eqb_spec (2 ^ n - 1) mask) as [<-|E].
    - unfold weight_of. unfold ProbAll. cbn [vread]. rewrite (asum_ext K _ (fun x => if x =? perm then anorm (psi x) else 0%amp)).
      2:{ intros x Hx. rewrite basis_In in Hx. rewrite <- N.pred_sub, <- N.ones_equiv, N.land_ones, N.mod_small by auto. reflexivity. }
      assert (G : forall l, NoDup l -> asum (fun x => if x =? perm then anorm (psi x) else 0%amp) l = if existsb (N.eqb perm) l then anorm (psi perm) else 0%amp).
      { induction l as [|a r IH]; intros ND; cbn [asum existsb]; auto. inversion ND as [|a' r' Ha ND' [E1 E2]]. rewrite IH by auto. rewrite (N.eqb_sym perm a).
        destruct (N.eqb_spec a perm) as [->|]; cbn [orb]. destruct (existsb (N.eqb perm) r) eqn:B. apply existsb_exists in B. destruct B as [z [Hz Ez]]. apply N.eqb_eq in Ez. subst. contradiction.
        ring. ring. }
      rewrite G by apply basis_NoDup. replace (existsb (N.eqb perm) (basis n)) with true; auto. symmetry. apply existsb_exists. exists perm. split. now apply basis_In. apply N.eqb_refl.
    - rewrite <- basis_iota. unfold weight_of.
      assert (G : forall l a, fold_left (fun p lcv => if N.land lcv mask =? perm then (p + ProbAll (Some psi) lcv)%amp else p) l a =
        (a + asum (fun x => if N.land x mask =? perm then anorm (psi x) else 0%amp) l)%amp).
      { induction l as [|b r IH]; intros a; cbn [fold_left asum]. ring. rewrite IH. unfold ProbAll. cbn [vread]. destruct (N.land b mask =? perm); ring. }
      rewrite G. ring.
  Qed.

  (** ** Compose at a position *)
  Lemma rol_bits shift len x : let y := cact (qi_ROL shift 0 len : circ) x in shift <= len ->
    (forall j, j + shift < len -> N.testbit y (j + shift) = N.testbit x j) /\ (forall j, j < len -> len <= j + shift -> N.testbit y (j + shift - len) = N.testbit x j) /\
    (forall q, len <= q -> N.testbit y q = N.testbit x q).
  Proof.
    cbn zeta. intros Hs. destruct (rol_act (K:=K) shift 0 len x) as [H1 H2]. repeat split.
    - intros j Hj. specialize (H1 j ltac:(lia)). rewrite !N.add_0_l, N.mod_small in H1 by auto. exact H1.
    - intros j Hj Hl. specialize (H1 j Hj). rewrite !N.add_0_l in H1. rewrite <- H1. f_equal. apply (N.mod_unique _ _ 1); lia.
    - intros q Hq. apply H2. unfold outside_reg. lia.
  Qed.
  Lemma ror_bits shift len x : let y := cact (qi_ROR shift 0 len : circ) x in shift <= len ->
    (forall j, j + shift < len -> N.testbit y j = N.testbit x (j + shift)) /\ (forall j, j < len -> len <= j + shift -> N.testbit y j = N.testbit x (j + shift - len)) /\
    (forall q, len <= q -> N.testbit y q = N.testbit x q).
  Proof.
    cbn zeta. intros Hs. destruct (ror_act (K:=K) shift 0 len x) as [H1 H2]. repeat split.
    - intros j Hj. specialize (H1 j ltac:(lia)). rewrite !N.add_0_l, N.mod_small in H1 by auto. now rewrite H1.
    - intros j Hj Hl. specialize (H1 j Hj). rewrite !N.add_0_l in H1. rewrite <- H1. f_equal. symmetry. apply (N.mod_unique _ _ 1); lia.
    - intros q Hq. symmetry. apply H2. unfold outside_reg. lia.
  Qed.
  Lemma compose_at_generic rgp maxQB na nb start (pa pb : V) : fits c (na + nb) -> 0 < na -> 0 < nb -> na + nb <= maxQB -> start <= na ->
    every_run (qi_ComposeAt c rgp maxQB (mkEng na (Some pa)) (mkEng nb (Some pb)) start) (fun r =>
      exists v, r = Ok (mkEng (na + nb) v, na) /\ eqv (na + nb) (vread v) (tensor_at start nb pa pb)).
  Proof.
    intros Hf Ha Hb Hm Hs. assert (Hfa : fits c na). { destruct Hf as [? [? [? ?]]]. repeat split; auto. lia. eapply N.le_lt_trans; [|eassumption]. apply N.add_le_mono_r. apply N.pow_le_mono_r; lia. }
    unfold qi_ComposeAt. cbn [e_n e_vec]. destruct (N.eqb_spec start na) as [->|E].
    - destruct (PEngine.c23_compose c maxQB na nb (Some pa) (Some pb) Hf Ha Hb Hm) as [He Hx]. split; auto. intros r Hr. destruct (Hx r Hr) as [v [-> HE]]. exists v. split; auto.
      intros x Hlt. rewrite (HE x Hlt). unfold tensor, tensor_at. cbn [vread]. f_equal; f_equal; apply N.bits_inj; intros j.
      + rewrite tb_outside, tb_mod2. destruct (N.ltb_spec j na); auto. symmetry. apply (tb_high x (na + nb)); auto. lia.
      + rewrite tb_get_reg, N.div_pow2_bits. destruct (N.ltb_spec j nb); auto. apply (tb_high x (na + nb)); auto. lia.
    - destruct (perm_run c rgp na (qi_ROL (na - start) 0 na) (cact (qi_ROL (na - start) 0 na : circ)) pa Hfa) as [[r1 H1] HA1]; auto. { apply wf_ROL. lia. }
      assert (Step : forall r1, crun c rgp na (qi_ROL (na - start) 0 na) (Some pa) r1 -> exists p1, r1 = Ok (Some p1) /\ basis_map na always (cact (qi_ROL (na - start) 0 na : circ)) (fun _ => 1%amp) pa p1) by (intros; now apply HA1).
      assert (Rest : forall p1, basis_map na always (cact (qi_ROL (na - start) 0 na : circ)) (fun _ => 1%amp) pa p1 ->
        every_run (fun r => exists r2, Compose c maxQB (mkEng na (Some p1)) (mkEng nb (Some pb)) r2 /\
          match r2 with
          | Throw => r = Throw
          | Ok (e, idx) => exists r3, crun c rgp (e_n e) (qi_ROR (na - start) 0 (e_n e)) (e_vec e) r3 /\ r = match r3 with Throw => Throw | Ok v3 => Ok (mkEng (e_n e) v3, idx) end
          end) (fun r => exists v, r = Ok (mkEng (na + nb) v, na) /\ eqv (na + nb) (vread v) (tensor_at start nb pa pb))).
      { intros p1 B1. destruct (PEngine.c23_compose c maxQB na nb (Some p1) (Some pb) Hf Ha Hb Hm) as [[r2 H2] HA2].
        assert (Last : forall v, eqv (na + nb) (vread v) (tensor na (vread (Some p1)) (vread (Some pb))) -> v <> None ->
          every_run (crun c rgp (na + nb) (qi_ROR (na - start) 0 (na + nb)) v) (fun r3 => exists v3, r3 = Ok v3 /\ eqv (na + nb) (vread v3) (tensor_at start nb pa pb))).
        { intros v HE HN. destruct v as [p2|]; [|congruence]. destruct (perm_run c rgp (na + nb) (qi_ROR (na - start) 0 (na + nb)) (cact (qi_ROR (na - start) 0 (na + nb) : circ)) p2 Hf) as [He3 HA3]; auto. { apply wf_ROR. lia. }
          split; auto. intros r3 Hr3. destruct (HA3 r3 Hr3) as [p3 [-> B3]]. exists (Some p3). split; auto. cbn [vread] in *.
          destruct B1 as [_ [B1 _]]. destruct B3 as [_ [B3 _]]. intros y Hy.
          assert (W : Forall (wfx (na + nb)) (qi_ROR (na - start) 0 (na + nb) : circ)) by (apply wf_ROR; lia).
          set (x := cact (rev (qi_ROR (na - start) 0 (na + nb) : circ)) y). assert (Hx : x < 2 ^ (na + nb)) by (apply cact_lt; auto; now apply wfx_rev).
          assert (Ey : cact (qi_ROR (na - start) 0 (na + nb) : circ) x = y). { unfold x. rewrite <- (rev_involutive (qi_ROR (na - start) 0 (na + nb))) at 1. apply (cact_rev (na + nb)). now apply wfx_rev. }
          clearbody x. destruct (B3 x Hx eq_refl) as [_ E3]. rewrite Ey in E3. change (vread (Some p3) y) with (p3 y). rewrite E3. change (p2 x) with (vread (Some p2) x). rewrite HE by auto. unfold tensor, tensor_at. cbn [vread].
          destruct (ror_bits (na - start) (na + nb) x ltac:(lia)) as [R1 [R2 _]]. rewrite Ey in R1, R2.
          destruct (B1 (outside y start nb)) as [_ E1]; auto. { apply outside_lt; auto. }
          destruct (rol_bits (na - start) na (outside y start nb) ltac:(lia)) as [L1 [L2 L3]].
          replace (x mod 2 ^ na) with (cact (qi_ROL (na - start) 0 na : circ) (outside y start nb)).
          - rewrite E1. replace (x / 2 ^ na) with (get_reg y start nb). ring. apply N.bits_inj. intros j. rewrite tb_get_reg, N.div_pow2_bits. destruct (N.ltb_spec j nb); cbn [andb].
            + rewrite R1 by lia. f_equal. lia.
            + symmetry. apply (tb_high x (na + nb)); auto. lia.
          - apply N.bits_inj. intros q. rewrite tb_mod2. destruct (N.ltb_spec q na).
            + destruct (N.lt_ge_cases q (na - start)).
              * (* original qubit q + start *)
                replace q with (q + start + (na - start) - na) at 1 by lia. rewrite L2 by lia. rewrite tb_outside. destruct (N.ltb_spec (q + start) start); [lia|].
                rewrite R2 by lia. cbn [andb]. f_equal. lia.
              * replace q with (q - (na - start) + (na - start)) at 1 by lia. rewrite L1 by lia. rewrite tb_outside. destruct (N.ltb_spec (q - (na - start)) start); [|lia].
                rewrite R1 by lia. cbn [andb]. f_equal. lia.
            + cbn [andb]. rewrite L3 by auto. apply (tb_high _ na); auto. apply outside_lt; auto. }
        assert (NN : forall v r, Compose c maxQB (mkEng na (Some p1)) (mkEng nb (Some pb)) r -> r = Ok (mkEng (na + nb) v, na) -> v <> None).
        { intros v r Hr ->. unfold Compose in Hr. cbn [e_n e_vec] in Hr. rewrite (neqb_f nb 0), (neqb_f na 0) in Hr by lia. destruct (maxQB <? na + nb); [discriminate|].
          destruct Hr as [fr [m' [_ Hr]]]. injection Hr as ->. discriminate. }
        split.
        - destruct (HA2 r2 H2) as [v [-> HE]]. destruct (Last v HE (NN v _ H2 eq_refl)) as [[r3 H3] _]. exists (match r3 with Throw => Throw | Ok v3 => Ok (mkEng (na + nb) v3, na) end), (Ok (mkEng (na + nb) v, na)).
          split; auto. cbn [e_n e_vec]. exists r3. auto.
        - intros r [r2' [H2' HR]]. destruct (HA2 r2' H2') as [v [-> HE]]. cbn [e_n e_vec] in HR. destruct HR as [r3 [H3 ->]].
          destruct (Last v HE (NN v _ H2' eq_refl)) as [_ HL]. destruct (HL r3 H3) as [v3 [-> HE3]]. exists v3. auto. }
      split.
      + destruct (Step r1 H1) as [p1 [-> B1]]. destruct (Rest p1 B1) as [[r Hr] _]. exists r, (Ok (Some p1)). split; auto.
      + intros r [r1' [H1' HR]]. destruct (Step r1' H1') as [p1 [-> B1]]. destruct (Rest p1 B1) as [_ HR2]. now apply HR2.
  Qed.
End P.
