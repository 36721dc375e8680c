(** Operations of a page engine (possibly with a null vector), and of a pair of pages. *)
From Coq Require Import NArith List Bool Lia Ring.
From Verif Require Import Bits MQCircuit MFunctions SpecFunctions PFunctions MParFor SpecParFor PParFor MKernel PKernel Amp PAmp SpecState MEngine SpecEngine PLoop PApply PGates PGates2 PGates3 PCompose PProb PEngine MPager SpecPager PPager1.
Import ListNotations.
Local Open Scope N_scope.

Section Ops.
  Context {K : StarRing}.
  Variable c : cfg.
  Add Ring KrAS : (sr_ring K).
  Local Notation V := (mem K).

  Lemma gate1_zero P t (m : mat2 K) x : gate1 P t m (fun _ => 0%amp : K) x = 0%amp.
  Proof. unfold gate1. destruct (P x), (N.testbit x t); ring. Qed.
  Lemma gate1_eqv n P t (m : mat2 K) a b : t < n -> eqv n a b -> eqv n (gate1 P t m a) (gate1 P t m b).
  Proof.
    intros Ht H x Hx. unfold gate1. rewrite (H x Hx). rewrite (H (N.clearbit x t)) by now apply clearbit_lt. rewrite (H (N.setbit x t)) by now apply setbit_lt. reflexivity.
  Qed.
  (** With a fixed global phase the effect is exact. *)
  Lemma gate_exact n cs (m : mat2 K) psi spec r : gate_result n false cs m psi spec r -> exists psi', r = Ok (Some psi') /\ eqv n psi' spec.
  Proof.
    intros [psi' [ph [-> [H [-> | [? _]]]]]]; [|discriminate]. exists psi'. split; auto. intros x Hx. rewrite (H x Hx). ring.
  Qed.
  Lemma apply2x2_null n o1 o2 (m : mat2 K) qps r : Apply2x2 c n o1 o2 m qps None r -> r = Ok None.
  Proof. auto. Qed.
  Lemma mtrx_null rgp n (m : mat2 K) t r : Mtrx c rgp n m t None r -> r = Ok None.
  Proof. unfold Mtrx. destruct (is_identity _ _ _); auto. Qed.
  Lemma uc_null rgp n cs (m : mat2 K) t p r : UCMtrx c rgp n cs m t p None r -> r = Ok None.
  Proof. unfold UCMtrx. destruct cs. apply mtrx_null. destruct (is_identity _ _ _); auto. Qed.
  Lemma either_null rgp anti n cs (m : mat2 K) t r : EitherMtrx c rgp anti n cs m t None r -> r = Ok None.
  Proof. unfold EitherMtrx. destruct cs. apply mtrx_null. destruct (is_identity _ _ _); auto. destruct anti; auto. Qed.

  Lemma op_mtrx q (m : mat2 K) t : fits c q -> t < q -> op_ok q (Mtrx c false q m t) (gate1 always t m).
  Proof.
    intros Hf Ht v. split. now apply mtrx_any. intros r H. destruct v as [psi|].
    - apply mtrx_ok in H; auto. apply gate_exact in H. destruct H as [psi' [-> E]]. exists (Some psi'). auto.
    - apply mtrx_null in H. subst. exists None. split; auto. intros x _. cbn [vread]. now rewrite gate1_zero.
  Qed.
  Lemma op_uc q cs (m : mat2 K) t p : fits c q -> NoDup (cs ++ [t]) -> (forall x, In x (cs ++ [t]) -> x < q) ->
    op_ok q (UCMtrx c false q cs m t p) (gate1 (match_perm 0 cs p) t m).
  Proof.
    intros Hf ND Hin v. split. now apply uc_any. intros r H. destruct v as [psi|].
    - apply uc_ok in H; auto. apply gate_exact in H. destruct H as [psi' [-> E]]. exists (Some psi'). auto.
    - apply uc_null in H. subst. exists None. split; auto. intros x _. cbn [vread]. now rewrite gate1_zero.
  Qed.
  Lemma op_either q anti cs (m : mat2 K) t : fits c q -> NoDup (cs ++ [t]) -> (forall x, In x (cs ++ [t]) -> x < q) ->
    op_ok q (EitherMtrx c false anti q cs m t) (gate1 (if anti then all_clear cs else all_set cs) t m).
  Proof.
    intros Hf ND Hin v. split. now apply either_any. intros r H. destruct v as [psi|].
    - apply either_ok in H; auto. apply gate_exact in H. destruct H as [psi' [-> E]]. exists (Some psi'). auto.
    - apply either_null in H. subst. exists None. split; auto. intros x _. cbn [vread]. now rewrite gate1_zero.
  Qed.
  Lemma op_phase q (a b : K) t : fits c q -> t < q -> op_ok q (Phase c false q a b t) (gate1 always t (mkMat a 0%amp 0%amp b)).
  Proof.
    intros Hf Ht v. unfold Phase. cbn [orb]. destruct (eqb_spec K (1 - a)%amp 0%amp) as [E1|E1]; cbn [andb].
    2: now apply op_mtrx. destruct (eqb_spec K (a - b)%amp 0%amp) as [E2|E2]. 2: now apply op_mtrx.
    assert (Ea : a = 1%amp). { replace a with (1 - (1 - a))%amp by ring. rewrite E1. ring. }
    assert (Eb : b = 1%amp). { replace b with (a - (a - b))%amp by ring. rewrite E2, Ea. ring. }
    subst. split. eexists; reflexivity. intros r ->. exists v. split; auto. intros x _. now rewrite gate1_one.
  Qed.
  (** Phase(f, f, 0): the whole page is multiplied. *)
  Lemma op_scale q (f : K) : fits c q -> 0 < q -> op_ok q (Phase c false q f f 0) (fun a x => (f * a x)%amp).
  Proof.
    intros Hf Hq v. eapply every_run_weaken. apply op_phase; auto. intros r [v' [-> H]]. exists v'. split; auto.
    intros x Hx. rewrite (H x Hx). now apply gate1_scalar.
  Qed.
  Lemma op_ext q f (G G' : V -> V) : op_ok q f G -> (forall a, eqv q (G a) (G' a)) -> op_ok q f G'.
  Proof. intros H E v. eapply every_run_weaken. apply H. intros r [v' [-> Hv]]. exists v'. split; auto. intros x Hx. rewrite (Hv x Hx). now apply E. Qed.

  (** ** Pairs *)
  Lemma op2_special q inv (top bottom : K) : fits c q -> 0 < q ->
    op2_ok q (special_op c q inv top bottom) (fun a b => if inv then (fun x => (top * b x)%amp, fun x => (bottom * a x)%amp) else (fun x => (top * a x)%amp, fun x => (bottom * b x)%amp)).
  Proof.
    intros Hf Hq v w. set (a := if inv then w else v). set (b := if inv then v else w).
    assert (S : forall (f : K) (u : option V), every_run (fun ru => if sr_eqb (1 - f)%amp 0%amp then ru = Ok u else Phase c false q f f 0 u ru)
      (fun r => exists v', r = Ok v' /\ eqv q (vread v') (fun x => f * vread u x)%amp)).
    { intros f u. destruct (eqb_spec K (1 - f)%amp 0%amp) as [E|E].
      - split. eexists; reflexivity. intros r ->. exists u. split; auto. intros x _.
        assert (Ef : f = 1%amp). { replace f with (1 - (1 - f))%amp by ring. rewrite E. ring. } subst. ring.
      - now apply op_scale. }
    destruct (S top a) as [[ra HA] A]. destruct (S bottom b) as [[rb HB] B]. split.
    - eexists. exists ra, rb. split; [exact HA|]. split; [exact HB|]. reflexivity.
    - intros r [ra' [rb' [HA' [HB' ->]]]]. destruct (A ra' HA') as [a' [-> Ea]]. destruct (B rb' HB') as [b' [-> Eb]].
      exists a', b'. split; auto. unfold a, b in *. destruct inv; auto.
  Qed.

  Lemma cleared_any n (v : option V) : fits c n -> exists m, cleared c n v m.
  Proof. intros Hf. destruct v as [psi|]. exists psi. reflexivity. destruct (fill_exists c n (2 ^ n) (fun _ => 0%amp : K) (fun _ => 0%amp) Hf) as [m H]. lia. exists m. cbn. eauto. Qed.
  Lemma shuffle_any n (va vb : option V) : fits c n -> exists va' vb', ShuffleBuffers c n va vb va' vb'.
  Proof.
    intros Hf. unfold ShuffleBuffers.
    assert (G : exists va' vb', exists a b m', cleared c n va a /\ cleared c n vb b /\
        loop_for c (N.shiftr (2 ^ n) 1) (shuffle_body (N.shiftr (2 ^ n) 1)) (pair_mem a b) m' /\
        va' = Some (fun x => m' (2 * x)) /\ vb' = Some (fun x => m' (2 * x + 1))).
    { destruct (cleared_any n va Hf) as [a Ha]. destruct (cleared_any n vb Hf) as [b Hb].
      destruct (loop_for_exists c n (N.shiftr (2 ^ n) 1) (shuffle_body (N.shiftr (2 ^ n) 1)) (pair_mem a b) Hf) as [m' H].
      rewrite N.shiftr_div_pow2. apply N.div_le_upper_bound. discriminate. lia.
      eexists _, _, a, b, m'. repeat split; eauto. }
    destruct va, vb; auto. exists None, None. auto.
  Qed.

  (** The gate between two pages: exchange of the halves, the gate at the top qubit of one or both pages, exchange back. *)
  Definition pair_gate (m : mat2 K) (C : N -> bool) (a b : V) : V * V :=
    (fun o => if C o then (m00 m * a o + m01 m * b o)%amp else a o, fun o => if C o then (m10 m * a o + m11 m * b o)%amp else b o).
  Lemma top_set q o : 0 < q -> o < 2 ^ q -> N.testbit o (q - 1) = false -> o + 2 ^ (q - 1) = N.setbit o (q - 1) /\ o < 2 ^ (q - 1).
  Proof.
    intros Hq Ho Hb. assert (L : o < 2 ^ (q - 1)).
    { apply lt_pow2_bits. intros m Hm. destruct (N.eq_dec m (q - 1)) as [->|]; auto. apply (tb_high o q); auto. lia. }
    split; auto. apply N.bits_inj. intros m. rewrite N.add_comm. replace (2 ^ (q - 1) + o) with (o + 1 * 2 ^ (q - 1)) by lia. rewrite tb_cat by auto. rewrite tb_setbit.
    destruct (N.ltb_spec m (q - 1)), (N.eqb_spec (q - 1) m); cbn [orb]; auto; try lia.
    - subst. now rewrite N.sub_diag.
    - rewrite (tb_high o (q - 1)) by (auto; lia). rewrite <- (N.pow_0_r 2). rewrite N.pow2_bits_false; auto. lia.
  Qed.
  Lemma top_clear q o : 0 < q -> o < 2 ^ q -> N.testbit o (q - 1) = true -> o - 2 ^ (q - 1) = N.clearbit o (q - 1) /\ 2 ^ (q - 1) <= o.
  Proof.
    intros Hq Ho Hb. assert (C : N.testbit (N.clearbit o (q - 1)) (q - 1) = false) by (rewrite tb_clearbit, N.eqb_refl, andb_false_r; auto).
    assert (L : N.clearbit o (q - 1) < 2 ^ q) by now apply clearbit_lt.
    destruct (top_set q _ Hq L C) as [E1 E2].
    assert (E3 : N.setbit (N.clearbit o (q - 1)) (q - 1) = o).
    { apply N.bits_inj. intros m. rewrite tb_setbit, tb_clearbit. destruct (N.eqb_spec (q - 1) m); subst; cbn; auto. now rewrite andb_true_r. }
    rewrite E3 in E1. lia.
  Qed.
  Lemma op2_shuffle q (fn : page_fn) (m : mat2 K) (P : N -> bool) sqi anti : fits c q -> 0 < q -> q < 256 ->
    op_ok q (fn (q - 1)) (gate1 P (q - 1) m) -> (forall o, P (N.setbit o (q - 1)) = P o) -> (forall o, P (N.clearbit o (q - 1)) = P o) ->
    op2_ok q (shuffle_op c q fn sqi anti) (pair_gate m (fun o => P o && (if sqi : bool then Bool.eqb (N.testbit o (q - 1)) (negb anti) else true))).
  Proof.
    intros Hf Hq Hq8 Hfn Ps Pc va vb.
    assert (Ew : w8 (q + 255) = q - 1). { unfold w8. replace (q + 255) with (q - 1 + 1 * 256) by lia. change (2 ^ 8) with 256. rewrite N.mod_add by discriminate. apply N.mod_small. lia. }
    unfold shuffle_op. rewrite Ew.
    set (g1 := negb sqi || anti). set (g2 := negb sqi || negb anti).
    assert (S : forall (g : bool) (u : option V), every_run (fun ru => if g then fn (q - 1) u ru else ru = Ok u) (fun r => exists v', r = Ok v' /\ eqv q (vread v') (if g then gate1 P (q - 1) m (vread u) else vread u))).
    { intros g u. destruct g. apply Hfn. split. eexists; reflexivity. intros r ->. exists u. split; auto. intros x _; auto. }
    destruct (shuffle_any q va vb Hf) as [a1 [b1 HS]]. split.
    - destruct (S g1 a1) as [[ra HA] A]. destruct (S g2 b1) as [[rb HB] B].
      destruct (A ra HA) as [a2 [-> _]]. destruct (B rb HB) as [b2 [-> _]]. destruct (shuffle_any q a2 b2 Hf) as [a3 [b3 HS3]].
      exists (Ok (a3, b3)), a1, b1, (Ok a2), (Ok b2). repeat split; auto. exists a3, b3. auto.
    - clear a1 b1 HS. intros r [a1 [b1 [ra [rb [HS [HA [HB HR]]]]]]].
      destruct (S g1 a1) as [_ A]. destruct (S g2 b1) as [_ B].
      destruct (A ra HA) as [a2 [-> EA]]. destruct (B rb HB) as [b2 [-> EB]]. destruct HR as [a3 [b3 [HS3 ->]]]. exists a3, b3. split; auto.
      apply shuffle_ok in HS; auto. apply shuffle_ok in HS3; auto. destruct HS as [A1 B1]. destruct HS3 as [A3 B3].
      clear HA HB A B S.
      set (a := vread va) in *. set (b := vread vb) in *. cbn [pair_gate fst snd].
      (* the two engines in between, at an offset with top bit clear / set *)
      assert (A2lo : forall o, o < 2 ^ q -> N.testbit o (q - 1) = false -> vread a2 o = if g1 && P o then (m00 m * a o + m01 m * b o)%amp else a o).
      { intros o Ho Hb. destruct (top_set q o Hq Ho Hb) as [E1 E2]. assert (Ls : N.setbit o (q - 1) < 2 ^ q) by (apply setbit_lt; auto; lia).
        assert (Ts : N.testbit (N.setbit o (q - 1)) (q - 1) = true) by (rewrite tb_setbit, N.eqb_refl; auto).
        rewrite (EA o Ho). destruct g1; cbn [andb].
        - unfold gate1. rewrite Hb. rewrite (A1 o Ho), (A1 _ Ls), Hb, Ts. rewrite <- E1. replace (o + 2 ^ (q - 1) - 2 ^ (q - 1)) with o by lia. reflexivity.
        - rewrite (A1 o Ho), Hb. reflexivity. }
      assert (A2hi : forall o, o < 2 ^ q -> N.testbit o (q - 1) = true -> vread a2 o = let o' := N.clearbit o (q - 1) in if g1 && P o then (m10 m * a o' + m11 m * b o')%amp else b o').
      { intros o Ho Hb. destruct (top_clear q o Hq Ho Hb) as [E1 E2]. assert (Ls : N.clearbit o (q - 1) < 2 ^ q) by now apply clearbit_lt.
        assert (Ts : N.testbit (N.clearbit o (q - 1)) (q - 1) = false) by (rewrite tb_clearbit, N.eqb_refl, andb_false_r; auto).
        cbv zeta. rewrite (EA o Ho). destruct g1; cbn [andb].
        - unfold gate1. rewrite Hb. rewrite (A1 o Ho), (A1 _ Ls), Hb, Ts. rewrite E1. reflexivity.
        - rewrite (A1 o Ho), Hb, E1. reflexivity. }
      assert (B2lo : forall o, o < 2 ^ q -> N.testbit o (q - 1) = false -> vread b2 o = let o' := N.setbit o (q - 1) in if g2 && P o then (m00 m * a o' + m01 m * b o')%amp else a o').
      { intros o Ho Hb. destruct (top_set q o Hq Ho Hb) as [E1 E2]. assert (Ls : N.setbit o (q - 1) < 2 ^ q) by (apply setbit_lt; auto; lia).
        assert (Ts : N.testbit (N.setbit o (q - 1)) (q - 1) = true) by (rewrite tb_setbit, N.eqb_refl; auto).
        cbv zeta. rewrite (EB o Ho). destruct g2; cbn [andb].
        - unfold gate1. rewrite Hb. rewrite (B1 o Ho), (B1 _ Ls), Hb, Ts. rewrite <- E1. reflexivity.
        - rewrite (B1 o Ho), Hb, E1. reflexivity. }
      assert (B2hi : forall o, o < 2 ^ q -> N.testbit o (q - 1) = true -> vread b2 o = if g2 && P o then (m10 m * a o + m11 m * b o)%amp else b o).
      { intros o Ho Hb. destruct (top_clear q o Hq Ho Hb) as [E1 E2]. assert (Ls : N.clearbit o (q - 1) < 2 ^ q) by now apply clearbit_lt.
        assert (Ts : N.testbit (N.clearbit o (q - 1)) (q - 1) = false) by (rewrite tb_clearbit, N.eqb_refl, andb_false_r; auto).
        rewrite (EB o Ho). destruct g2; cbn [andb].
        - unfold gate1. rewrite Hb. rewrite (B1 o Ho), (B1 _ Ls), Hb, Ts. rewrite <- E1. replace (o - 2 ^ (q - 1) + 2 ^ (q - 1)) with o by lia. reflexivity.
        - rewrite (B1 o Ho), Hb. reflexivity. }
      assert (G1 : forall o, N.testbit o (q - 1) = false -> (if sqi then Bool.eqb (N.testbit o (q - 1)) (negb anti) else true) = g1).
      { intros o ->. unfold g1. destruct sqi, anti; reflexivity. }
      assert (G2 : forall o, N.testbit o (q - 1) = true -> (if sqi then Bool.eqb (N.testbit o (q - 1)) (negb anti) else true) = g2).
      { intros o ->. unfold g2. destruct sqi, anti; reflexivity. }
      assert (SC : forall o, N.testbit o (q - 1) = true -> N.setbit (N.clearbit o (q - 1)) (q - 1) = o).
      { intros o Hb. apply N.bits_inj. intros k. rewrite tb_setbit, tb_clearbit. destruct (N.eqb_spec (q - 1) k); subst; cbn; auto. now rewrite andb_true_r. }
      assert (CS : forall o, N.testbit o (q - 1) = false -> N.clearbit (N.setbit o (q - 1)) (q - 1) = o).
      { intros o Hb. apply N.bits_inj. intros k. rewrite tb_clearbit, tb_setbit. destruct (N.eqb_spec (q - 1) k) as [<-|]; cbn [negb orb]; rewrite ?andb_false_r, ?andb_true_r; auto. }
      split; intros o Ho; destruct (N.testbit o (q - 1)) eqn:Hb.
      + rewrite (A3 o Ho), Hb. destruct (top_clear q o Hq Ho Hb) as [E1 E2]. rewrite E1. rewrite B2lo.
        2: now apply clearbit_lt. 2: rewrite tb_clearbit, N.eqb_refl, andb_false_r; auto.
        cbv zeta. rewrite SC, Pc by auto. specialize (G2 o Hb). rewrite Hb in G2. rewrite G2. rewrite (andb_comm (P o)). reflexivity.
      + rewrite (A3 o Ho), Hb. rewrite A2lo by auto. specialize (G1 o Hb). rewrite Hb in G1. rewrite G1. rewrite (andb_comm (P o)). reflexivity.
      + rewrite (B3 o Ho), Hb. rewrite B2hi by auto. specialize (G2 o Hb). rewrite Hb in G2. rewrite G2. rewrite (andb_comm (P o)). reflexivity.
      + rewrite (B3 o Ho), Hb. destruct (top_set q o Hq Ho Hb) as [E1 E2]. rewrite E1. rewrite A2hi.
        2: apply setbit_lt; auto; lia. 2: rewrite tb_setbit, N.eqb_refl; auto.
        cbv zeta. rewrite CS, Ps by auto. specialize (G1 o Hb). rewrite Hb in G1. rewrite G1. rewrite (andb_comm (P o)). reflexivity.
  Qed.
End Ops.
