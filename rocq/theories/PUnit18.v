(** Proofs for QUnit: the Hadamard gate. *)
From Coq Require Import Arith NArith List Bool Lia Ring.
From Verif Require Import Bits MFunctions SpecFunctions PFunctions MKernel PKernel Amp PAmp SpecState PApply PCompose PGates PGates2 PProb PQCirc2 PQCirc3 PEngine MShard SpecShard MUnit SpecUnit PShard1 PShard2 PShard3 PShard4 PShard5 PShard6 PShard7 PShard9 PUnit1 PUnit2 PUnit3 PUnit4 PUnit5 PUnit6 PUnit7 PUnit8 PUnit9 PUnit10 PUnit11 PUnit12 PUnit13 PUnit14 PUnit15 PUnit16 PUnit17.
Import ListNotations.
Local Open Scope N_scope.

Section P.
  Context {K : StarRing} (cx : Cplx K) (D : definite (K := K)).
  Add Ring KrCG : (sr_ring K).
  Local Notation vec := (N -> K).
  Local Notation M2 := (mat2 K).
  Local Notation unit1 x := (anorm x = 1%amp).
  Local Notation qu := (qunit K).
  Local Notation po := (cx_po cx).
  Local Notation framed := (framed cx).
  Local Notation meaning := (meaning cx).
  Local Notation good := (good cx).
  Local Notation keeps := (keeps cx).
  Local Notation flushed := (flushed cx).
  Local Notation R2 := (RevertBasis2Qb cx).
  Implicit Types (L : N -> N -> Prop) (U V X : qu) (psi phi : vec) (s : shards K) (cs l : list (N * bool)).

  (** ** Turning a buffer controlled by the qubit round *)
  Definition cz (b : PhaseShard K) : Prop := isInvert b = false /\ (cmplxDiff b = 1%amp /\ cmplxSame b = (- (1))%amp \/ cmplxDiff b = (- (1))%amp /\ cmplxSame b = 1%amp).
  Definition h_safe (q : N) U : Prop := forall a p b, buffer_of (u_buf U) a q p = Some b -> cz b -> two_sided p (meaning U).
  Lemma cz_turn (a : bool) q p b psi : q <> p -> cz b -> let a' := if sr_eqb (cmplxDiff b) 1%amp then a else negb a in
    same_state (gate1 (fires a q) p (matrix_of a b) psi) (gate1 (fires a' p) q (matrix_of a' (mkPS (cmplxDiff b) (cmplxSame b) false)) psi).
  Proof.
    intros Hqp [Ib H]. cbn zeta. destruct b as [d m i]. cbn [isInvert cmplxDiff cmplxSame] in *. subst i.
    assert (H' : (sr_eqb d 1%amp = true /\ d = 1 /\ m = - (1))%amp \/ (sr_eqb d 1%amp = false /\ d = - (1) /\ m = 1)%amp \/ (sr_eqb d 1%amp = true /\ d = 1 /\ m = 1 /\ (- (1) = 1 :> K))%amp).
    { destruct H as [[-> ->]|[-> ->]]; [left; rewrite eqb_refl; auto|]. destruct (eqb_spec K (- (1))%amp 1%amp) as [E|E]; [right; right; auto|right; left; auto]. }
    intros x. rewrite !gate1_at. unfold matrix_of, fires, dia, off. cbn [isInvert cmplxDiff cmplxSame].
    destruct H' as [(-> & -> & ->)|[(-> & -> & ->)|(-> & -> & -> & E)]]; destruct a; cbn [negb m00 m01 m10 m11]; destruct (N.testbit x p), (N.testbit x q); cbn [negb m00 m01 m10 m11]; ring.
  Qed.
  Lemma one_opp : unit1 (- (1) : K)%amp.
  Proof. apply unit_opp, one_unit. Qed.
  Lemma cz_units b : cz b -> unit1 (cmplxDiff b) /\ unit1 (cmplxSame b).
  Proof. intros [_ [[-> ->]|[-> ->]]]; split; try apply one_unit; apply one_opp. Qed.
  Definition same_bases U V : Prop := forall p, bas_of V p = bas_of U p.
  Local Notation stays L := (done cx L (fun psi => psi)).
  Lemma stays_two L U V q : stays L U V -> two_sided q (meaning V) <-> two_sided q (meaning U).
  Proof. intros [_ E _ _]. split; apply two_like; [apply like_sym|]; exact E. Qed.
  Lemma stays_trans L U V X : stays L U V -> stays L V X -> stays L U X.
  Proof.
    intros [A1 A2 A3 A4] [B1 B2 B3 B4]. split; [exact B1|eapply like_trans; eassumption|eapply held_trans; eassumption|]. intros c t H. destruct (B4 c t H) as [H'|H']; [apply A4, H'|right; exact H'].
  Qed.
  (** What remains of the buffers controlled by the qubit. *)
  Definition fewer (q : N) U V : Prop := forall a p b, buffer_of (u_buf V) a q p = Some b -> buffer_of (u_buf U) a q p = Some b.
  Lemma fewer_safe L q U V : stays L U V -> fewer q U V -> h_safe q U -> h_safe q V.
  Proof. intros KV F H a p b E Z. apply (stays_two L U V p KV), (H a p b (F _ _ _ E) Z). Qed.
  Lemma turn_one L a q p b U : good U -> buffer_of (u_buf U) a q p = Some b -> cz b -> two_sided p (meaning U) -> L p q -> let a' := if sr_eqb (cmplxDiff b) 1%amp then a else negb a in
    forall s1, changed a q p None (u_buf U) s1 -> let V := set_shbuf (AddAnglesT po a' q p (cmplxDiff b) (cmplxSame b) s1) U in
    stays L U V /\ fewer q U V /\ (forall a0 t0, t0 <> p -> sh_map (u_buf V) (tsel a0) t0 q = sh_map (u_buf U) (tsel a0) t0 q).
  Proof.
    intros G E Z T HL. cbn zeta. intros s1 Ch. destruct (gd_tidy cx U G) as (C & Es & Xs). pose proof (tidy_commuting _ _ (gd_tidy cx U G)) as HC.
    destruct (key_range _ _ _ _ _ C E) as (Hq & Hp & Hqp). destruct (cz_units b Z) as [Ud Um]. assert (Ib : isInvert b = false) by apply Z.
    set (a' := if sr_eqb (cmplxDiff b) 1%amp then a else negb a). set (U1 := set_shbuf s1 U). pose proof (changed_below _ _ _ _ _ Ch) as B1. assert (Es1 : sh_size s1 = sh_size (u_buf U)) by apply Ch. assert (C1 : consistent s1) by apply Ch.
    assert (PP : same_state (meaning U) (gate1 (fires a q) p (matrix_of a b) (meaning U1))) by (apply (pending_front a q p b (u_buf U) s1 (framed U) C HC E Ch)).
    assert (DM : diag (matrix_of a b)) by (apply diag_of, Ib). assert (UM : unitary2 (matrix_of a b)) by (destruct b as [d m i]; apply ps_unitary; assumption).
    assert (TW : forall c, two_sided c (meaning U) -> two_sided c (meaning U1)).
    { intros c TT. apply (two_like c _ _ (like_ss _ _ (ss_sym _ _ PP))) in TT. destruct (N.eq_dec c p) as [->|Hn]; [apply two_diag in TT|apply two_apart in TT]; auto; apply fires_indep; exact Hqp. }
    assert (G1 : good U1).
    { split; [apply wf_buf, G|apply neat_buf, G| | |apply (gd_ub cx U G)].
      - split; [exact C1|]. split; [cbn [U1 u_buf u_n set_shbuf]; congruence|apply (below_exclusive _ _ B1 Xs)].
      - intros a0 c0 t0 b0 E0. destruct (B1 _ _ _ _ E0) as (b2 & E2 & _). apply TW, (gd_live cx U G _ _ _ _ E2). }
    destruct (add_angles po a' p q (cmplxDiff b) (cmplxSame b) s1 C1) as (_ & _ & MM & VV); auto; try congruence.
    assert (A : done cx L (gate1 (fires a' p) q (matrix_of a' (mkPS (cmplxDiff b) (cmplxSame b) false))) U1 (set_shbuf (added_to cx a' p q (cmplxDiff b) (cmplxSame b) false (u_buf U1)) U1)).
    { apply add_done; auto; try congruence; try (cbn [U1 u_n set_shbuf]; congruence); try discriminate.
      - intros a0 c0 b0 E0. destruct (B1 _ _ _ _ E0) as (b2 & E2 & I2). destruct (isInvert b0) eqn:I0; [|reflexivity]. pose proof (Xs _ _ _ _ E2 I2 _ _ _ _ E (or_intror eq_refl)) as Q. injection Q as -> ->. congruence.
      - intros a0 c0 b0 E0 I0. destruct (B1 _ _ _ _ E0) as (b2 & E2 & I2). rewrite I0 in I2. pose proof (Xs _ _ _ _ E2 I2 _ _ _ _ E (or_introl eq_refl)) as Q. injection Q as Q1 Q2 Q3. congruence. }
    unfold added_to in A. change (u_buf U1) with s1 in A. change (set_shbuf ?x U1) with (set_shbuf x U) in A. set (s2 := AddAnglesT po a' q p (cmplxDiff b) (cmplxSame b) s1) in *.
    split; [|split].
    - destruct A as [A1 A2 A3 A4]. split; [exact A1| |apply held_buf|].
      + eapply like_trans; [exact A2|]. apply like_ss, ss_sym. eapply ss_trans; [exact PP|]. apply (cz_turn a q p b (meaning U1) Hqp Z).
      + intros c t0 H. destruct (A4 c t0 H) as [(a0 & b0 & E0)|H']; [left|right; exact H']. destruct (B1 _ _ _ _ E0) as (b2 & E2 & _). exists a0, b2. exact E2.
    - intros a0 t0 b0 E0. cbn [u_buf set_shbuf] in E0. rewrite VV, keq_false in E0 by congruence. destruct Ch as (_ & _ & _ & V0). rewrite V0 in E0. destruct (keq a q p a0 q t0); [discriminate|exact E0].
    - intros a0 t0 Ht0. cbn [u_buf set_shbuf]. rewrite MM by congruence. destruct Ch as (_ & _ & M0 & _). apply M0. congruence.
  Qed.
  Lemma controls_entries L a q : forall es U, good U -> NoDup (map fst es) -> (forall p b, In (p, b) es -> sh_map (u_buf U) (tsel a) p q = Some b) -> h_safe q U ->
    (forall a0 p b, buffer_of (u_buf U) a0 q p = Some b -> L p q) ->
    let V := fold_left (fun V e =>
        let '(p, b) := e in
        let ps := sh_heap (u_buf V) b in
        if isInvert ps then V
        else if IS_ARG_0 (cmplxDiff ps) && IS_ARG_PI (cmplxSame ps) then
          if a : bool then onbuf (AddAntiPhaseAngles po q p 1 (- (1)))%amp (onbuf (RemoveAntiTarget q p) V)
          else onbuf (AddPhaseAngles po q p 1 (- (1)))%amp (onbuf (RemoveTarget q p) V)
        else if IS_ARG_PI (cmplxDiff ps) && IS_ARG_0 (cmplxSame ps) then
          if a then onbuf (AddPhaseAngles po q p (- (1)) 1)%amp (onbuf (RemoveAntiTarget q p) V)
          else onbuf (AddAntiPhaseAngles po q p (- (1)) 1)%amp (onbuf (RemoveTarget q p) V)
        else V) es U in stays L U V /\ fewer q U V /\ same_bases U V.
  Proof.
    induction es as [|[p b] es IH]; intros U G ND HE HS HL; cbn zeta; cbn [fold_left].
    - split; [apply done_keeps, keeps_refl, G|]. split; [intros a0 p b E; exact E|intros p; reflexivity].
    - cbn [map fst] in ND. apply NoDup_cons_iff in ND. destruct ND as [Hn ND]. pose proof (HE p b (or_introl eq_refl)) as Ep. pose proof (map_buffer _ _ _ _ _ Ep) as Eb. set (ps := sh_heap (u_buf U) b) in *.
      assert (HE' : forall p0 b0, In (p0, b0) es -> sh_map (u_buf U) (tsel a) p0 q = Some b0) by (intros p0 b0 Hin; apply HE; right; exact Hin).
      destruct (gd_tidy cx U G) as (C & _). pose proof (rem_changed false a q p (u_buf U) C) as Ch. cbn [kc kt] in Ch.
      assert (GO : forall a', cz ps -> a' = (if sr_eqb (cmplxDiff ps) 1%amp then a else negb a) -> forall U', U' = set_shbuf (AddAnglesT po a' q p (cmplxDiff ps) (cmplxSame ps) (rem_of false a q p (u_buf U))) U ->
         stays L U U' /\ fewer q U U' /\ same_bases U U' /\ good U' /\ h_safe q U' /\ (forall p0 b0, In (p0, b0) es -> sh_map (u_buf U') (tsel a) p0 q = Some b0) /\ (forall a0 p0 b0, buffer_of (u_buf U') a0 q p0 = Some b0 -> L p0 q)).
      { intros a' Z Ea U' ->. destruct (turn_one L a q p ps U G Eb Z (HS _ _ _ Eb Z) (HL _ _ _ Eb) _ Ch) as (S1 & F1 & M1). rewrite <- Ea in S1, F1, M1.
        set (U' := set_shbuf (AddAnglesT po a' q p (cmplxDiff ps) (cmplxSame ps) (rem_of false a q p (u_buf U))) U) in *.
        split; [exact S1|]. split; [exact F1|]. split; [intros p0; reflexivity|]. split; [apply S1|]. split; [apply (fewer_safe L q U U' S1 F1 HS)|]. split.
        - intros p0 b0 Hin. rewrite M1; [apply (HE' p0 b0 Hin)|]. intros ->. apply Hn. apply in_map_iff. exists (p, b0). auto.
        - intros a0 p0 b0 E0. apply (HL a0 p0 b0), F1, E0. }
      assert (NEXT : forall U', stays L U U' /\ fewer q U U' /\ same_bases U U' /\ good U' /\ h_safe q U' /\ (forall p0 b0, In (p0, b0) es -> sh_map (u_buf U') (tsel a) p0 q = Some b0) /\ (forall a0 p0 b0, buffer_of (u_buf U') a0 q p0 = Some b0 -> L p0 q) ->
         forall V, stays L U' V /\ fewer q U' V /\ same_bases U' V -> stays L U V /\ fewer q U V /\ same_bases U V).
      { intros U' (A1 & A2 & A3 & _) V (B1 & B2 & B3). split; [eapply stays_trans; eassumption|]. split; [intros a0 p0 b0 E0; apply A2, B2, E0|]. intros p0. rewrite B3. apply A3. }
      assert (SK : stays L U U /\ fewer q U U /\ same_bases U U /\ good U /\ h_safe q U /\ (forall p0 b0, In (p0, b0) es -> sh_map (u_buf U) (tsel a) p0 q = Some b0) /\ (forall a0 p0 b0, buffer_of (u_buf U) a0 q p0 = Some b0 -> L p0 q)).
      { split; [apply done_keeps, keeps_refl, G|]. split; [intros a0 p0 b0 E0; exact E0|]. split; [intros p0; reflexivity|]. auto. }
      assert (IHU : forall U', stays L U U' /\ fewer q U U' /\ same_bases U U' /\ good U' /\ h_safe q U' /\ (forall p0 b0, In (p0, b0) es -> sh_map (u_buf U') (tsel a) p0 q = Some b0) /\ (forall a0 p0 b0, buffer_of (u_buf U') a0 q p0 = Some b0 -> L p0 q) ->
        let V := fold_left (fun V e =>
        let '(p, b) := e in
        let ps := sh_heap (u_buf V) b in
        if isInvert ps then V
        else if IS_ARG_0 (cmplxDiff ps) && IS_ARG_PI (cmplxSame ps) then
          if a : bool then onbuf (AddAntiPhaseAngles po q p 1 (- (1)))%amp (onbuf (RemoveAntiTarget q p) V)
          else onbuf (AddPhaseAngles po q p 1 (- (1)))%amp (onbuf (RemoveTarget q p) V)
        else if IS_ARG_PI (cmplxDiff ps) && IS_ARG_0 (cmplxSame ps) then
          if a then onbuf (AddPhaseAngles po q p (- (1)) 1)%amp (onbuf (RemoveAntiTarget q p) V)
          else onbuf (AddAntiPhaseAngles po q p (- (1)) 1)%amp (onbuf (RemoveTarget q p) V)
        else V) es U' in stays L U V /\ fewer q U V /\ same_bases U V).
      { intros U' H. cbn zeta. apply (NEXT U' H). destruct H as (_ & _ & _ & H4 & H5 & H6 & H7). apply (IH U' H4 ND H6 H5 H7). }
      clear IH NEXT. cbn zeta in IHU. cbn zeta. fold ps. destruct (isInvert ps) eqn:Ib; [apply (IHU U SK)|].
      destruct (IS_ARG_0 (cmplxDiff ps) && IS_ARG_PI (cmplxSame ps)) eqn:Z1; [|destruct (IS_ARG_PI (cmplxDiff ps) && IS_ARG_0 (cmplxSame ps)) eqn:Z2; [|apply (IHU U SK)]].
      + apply andb_prop in Z1. destruct Z1 as [Z1 Z2]. unfold IS_ARG_0, IS_SAME in Z1. unfold IS_ARG_PI, IS_OPPOSITE in Z2.
        destruct (eqb_spec K (cmplxDiff ps) 1%amp) as [Ed|]; [|discriminate]. destruct (eqb_spec K (cmplxSame ps + 1)%amp 0%amp) as [Em|]; [|discriminate].
        assert (Em' : cmplxSame ps = (- (1))%amp) by (apply add_zero; rewrite <- Em; ring).
        assert (Z : cz ps) by (split; auto). apply IHU. apply (GO a Z); [rewrite ?Ed, ?eqb_refl; reflexivity|]. rewrite Ed, Em'. destruct a; reflexivity.
      + apply andb_prop in Z2. destruct Z2 as [Z2 Z3]. unfold IS_ARG_0, IS_SAME in Z3, Z1. unfold IS_ARG_PI, IS_OPPOSITE in Z2, Z1.
        destruct (eqb_spec K (cmplxSame ps) 1%amp) as [Em|]; [|discriminate]. destruct (eqb_spec K (cmplxDiff ps + 1)%amp 0%amp) as [Ed|]; [|discriminate].
        assert (Ed' : cmplxDiff ps = (- (1))%amp) by (apply add_zero; rewrite <- Ed; ring).
        assert (Z : cz ps) by (split; auto). apply IHU. apply (GO (negb a) Z); [|rewrite Ed', Em; destruct a; reflexivity].
        destruct (sr_eqb (cmplxDiff ps) 1%amp) eqn:E1; [|reflexivity]. exfalso. cbn [andb] in Z1. destruct (eqb_spec K (cmplxDiff ps) 1%amp) as [E2|]; [|discriminate].
        destruct (eqb_spec K (cmplxSame ps + 1)%amp 0%amp) as [|Ne]; [discriminate|]. apply Ne. rewrite Em. rewrite E2 in Ed. exact Ed.
  Qed.
  Lemma controls_ok L a q U : good U -> h_safe q U -> (forall a0 p b, buffer_of (u_buf U) a0 q p = Some b -> L p q) -> let V := commute_controls cx q a U in stays L U V /\ fewer q U V /\ same_bases U V.
  Proof.
    intros G HS HL. apply (controls_entries L a q); auto; [apply entries_nodup|]. destruct (gd_tidy cx U G) as (C & _). intros p b Hin. apply entries_in in Hin. cbn [fst snd] in Hin.
    pose proof (msel_map false a q p (u_buf U) C) as Q. cbn [kc kt] in Q. rewrite <- Q. destruct a; apply Hin.
  Qed.

  (** ** The buffers of which the qubit is the target *)
  Definition h_fine (b : PhaseShard K) : Prop := cmplxDiff b = cmplxSame b \/ (isInvert b = true /\ cmplxDiff b = (- cmplxSame b)%amp).
  Definition sub U V : Prop := forall a c t b, buffer_of (u_buf V) a c t = Some b -> buffer_of (u_buf U) a c t = Some b.
  Definition target_step (q : N) (a : bool) : qu -> N * N -> qu := fun V e =>
        let '(p, b) := e in
        let ps := sh_heap (u_buf V) b in
        if IS_SAME (cmplxDiff ps) (cmplxSame ps) then V
        else if isInvert ps && IS_OPPOSITE (cmplxDiff ps) (cmplxSame ps) then V
        else ApplyBuffer cx ps p q a (onbuf (if a then RemoveAntiControl q p else RemoveControl q p) V).
  Lemma targets_entries a q : forall es U, good U -> NoDup (map fst es) -> (forall p b, In (p, b) es -> sh_map (u_buf U) (tsel a) q p = Some b) ->
    let V := fold_left (target_step q a) es U in flushed U V /\ sub U V /\ (forall p b, In p (map fst es) -> buffer_of (u_buf V) a p q = Some b -> h_fine b).
  Proof.
    induction es as [|[p b] es IH]; intros U G ND HE; cbn zeta; cbn [fold_left].
    - split; [apply flushed_refl, G|]. split; [intros a0 c0 t0 b0 E0; exact E0|intros p b []].
    - cbn [map fst] in ND. apply NoDup_cons_iff in ND. destruct ND as [Hn ND]. pose proof (HE p b (or_introl eq_refl)) as Ep. pose proof (map_buffer _ _ _ _ _ Ep) as Eb.
      assert (HE' : forall p0 b0, In (p0, b0) es -> sh_map (u_buf U) (tsel a) q p0 = Some b0) by (intros p0 b0 Hin; apply HE; right; exact Hin).
      set (ps := sh_heap (u_buf U) b) in *. destruct (gd_tidy cx U G) as (C & _).
      assert (SK : h_fine ps -> let V := fold_left (target_step q a) es U in flushed U V /\ sub U V /\ (forall p0 b0, In p0 (map fst ((p, b) :: es)) -> buffer_of (u_buf V) a p0 q = Some b0 -> h_fine b0)).
      { intros Hf. cbn zeta. destruct (IH U G ND HE') as (F1 & S1 & H1). split; [exact F1|]. split; [exact S1|]. intros p0 b0 [Hp|Hp] E0; [|apply (H1 p0 b0 Hp E0)]. cbn [fst] in Hp. subst p0.
        apply S1 in E0. rewrite Eb in E0. injection E0 as <-. exact Hf. }
      cbn zeta in SK. unfold target_step at 2 4 6. fold ps. cbn zeta.
      destruct (IS_SAME (cmplxDiff ps) (cmplxSame ps)) eqn:I1; [apply SK; left; unfold IS_SAME in I1; destruct (eqb_spec K (cmplxDiff ps) (cmplxSame ps)); [assumption|discriminate]|].
      destruct (isInvert ps && IS_OPPOSITE (cmplxDiff ps) (cmplxSame ps)) eqn:I2.
      { apply SK. right. apply andb_prop in I2. destruct I2 as [I2 I3]. split; [exact I2|]. unfold IS_OPPOSITE in I3. destruct (eqb_spec K (cmplxDiff ps + cmplxSame ps)%amp 0%amp) as [E|]; [|discriminate]. apply add_zero. rewrite <- E. ring. }
      clear SK. pose proof (rem_one a p q (u_buf U) C) as Ch. destruct (flush_one cx D a p q ps _ U G Eb Ch) as [F1 EB].
      set (U1 := ApplyBuffer cx ps p q a (onbuf (if a then RemoveAntiControl q p else RemoveControl q p) U)) in *.
      change (set_shbuf ((if a then RemoveAntiControl q p else RemoveControl q p) (u_buf U)) U) with (onbuf (if a then RemoveAntiControl q p else RemoveControl q p) U) in *. fold U1 in F1, EB.
      set (s1 := (if a then RemoveAntiControl q p else RemoveControl q p) (u_buf U)) in *. destruct Ch as (_ & _ & M & V).
      destruct (IH U1 (flushed_good cx _ _ F1) ND) as (F2 & S2 & H2).
      { intros p0 b0 Hin. rewrite EB, M; [apply (HE' p0 b0 Hin)|]. intros Ek. apply Hn. apply in_map_iff. exists (p0, b0). split; [cbn [fst]; congruence|exact Hin]. }
      assert (SU : sub U U1) by (intros a0 c0 t0 b0 E0; rewrite EB, V in E0; destruct (keq a p q a0 c0 t0); [discriminate|exact E0]).
      split; [eapply flushed_trans; eassumption|]. split; [intros a0 c0 t0 b0 E0; apply SU, S2, E0|]. intros p0 b0 [Hp|Hp] E0; [|apply (H2 p0 b0 Hp E0)]. cbn [fst] in Hp. subst p0.
      apply S2 in E0. rewrite EB, V, keq_refl in E0. discriminate.
  Qed.
  Lemma targets_ok a q U : good U -> let V := commute_targets cx q a U in flushed U V /\ sub U V /\ (forall p b, buffer_of (u_buf V) a p q = Some b -> h_fine b).
  Proof.
    intros G. cbn zeta. destruct (gd_tidy cx U G) as (C & _).
    destruct (targets_entries a q (entries (u_buf U) (msel true a) q) U G (entries_nodup _ _ _)) as (F & S & H).
    - intros p b Hin. apply entries_in in Hin. cbn [fst snd] in Hin. pose proof (msel_map true a q p (u_buf U) C) as Q. cbn [kc kt] in Q. rewrite <- Q. apply Hin.
    - change (commute_targets cx q a U) with (fold_left (target_step q a) (entries (u_buf U) (if a then antiTargetOfShards else targetOfShards) q) U).
      replace (if a then antiTargetOfShards else targetOfShards) with (msel true a) by (destruct a; reflexivity).
      split; [exact F|]. split; [exact S|]. intros p b E. apply (H p b); [|exact E]. apply S in E.
      apply buffer_some in E. destruct E as (j & Ej & _). apply in_map_iff. exists (p, j). split; [reflexivity|]. apply entries_in. cbn [fst snd].
      pose proof (msel_map true a q p (u_buf U) C) as Q. cbn [kc kt] in Q. rewrite Q. split; [|exact Ej]. apply (cons_ok _ C _ _ _ _ Ej).
  Qed.

  (** ** CommuteH *)
  Lemma hmat_unitary : unitary2 (mH cx).
  Proof. apply (bmat_unitary cx PauliX). Qed.
  Lemma untouched_carried q (m : M2) s : consistent s -> commuting s -> (forall a p, buffer_of s a p q = None /\ buffer_of s a q p = None) -> carried q m s s.
  Proof.
    intros C HC HQ. split; [exact C|]. split; [reflexivity|]. split; [exact HC|]. intros psi.
    unfold pending. induction (all_pairs (sh_size s)) as [|[[a c] t] l0 IH]; cbn [fold_right]; [apply ss_refl|]. eapply ss_trans; [apply gate_at_proper, IH|]. unfold gate_at. destruct (buffer_of s a c t) as [b|] eqn:E; [|apply ss_refl].
    assert (Q1 : t <> q) by (intros ->; destruct (HQ a c) as [Q _]; congruence). assert (Q2 : c <> q) by (intros ->; destruct (HQ a t) as [_ Q]; congruence).
    apply gates_commute; [exact Q1|apply indep_always|left; apply fires_indep; exact Q2].
  Qed.
  (** The last two steps: the buffers, and the tag of the basis. *)
  Lemma h_end L q s' U : good U -> q < u_n U -> bas_of U q <> PauliY -> carried q (mH cx) (u_buf U) s' -> (forall a t, buffer_of s' a q t = None) ->
    (forall a c t b', buffer_of s' a c t = Some b' -> exists b, buffer_of (u_buf U) a c t = Some b /\ (isInvert b' = true -> isInvert b = true)) ->
    done cx L (gate1 always q (mH cx)) U (on_sh q (fun d => w_bas (match s_bas d with PauliZ => PauliX | _ => PauliZ end) d) (set_shbuf s' U)).
  Proof.
    intros G Hq HY (C1 & C2 & C3 & C4) HN HK. set (U1 := set_shbuf s' U). set (b := match bas_of U q with PauliZ => PauliX | _ => PauliZ end).
    assert (EV : on_sh q (fun d => w_bas (match s_bas d with PauliZ => PauliX | _ => PauliZ end) d) U1 = on_sh q (w_bas b) U1) by reflexivity. rewrite EV. clear EV.
    destruct (rebase_ok cx b q (mH cx) U1) as ([A1 A2 A3 A4 A5] & _); [apply wf_buf, G|apply neat_buf, G|exact Hq| |].
    { unfold b. change (bas_of U1 q) with (bas_of U q). destruct (bas_of U q) eqn:Eq; [| |exfalso; apply HY; reflexivity]; cbn [bmat]; symmetry; [apply mmul_1_r|apply hh_ok]. }
    set (V := on_sh q (w_bas b) U1) in *. assert (K2 : u_n V = u_n U) by reflexivity. assert (K4 : u_buf V = s') by reflexivity. assert (K7 : u_ub V = u_ub U) by reflexivity.
    assert (LL : like (meaning V) (gate1 always q (mH cx) (meaning U))).
    { unfold PUnit10.meaning. rewrite K4. eapply like_trans; [apply like_pending, A3|]. apply like_ss. unfold U1. rewrite framed_buf. apply C4. }
    destruct (gd_tidy cx U G) as (_ & Es & Xs).
    split; [|exact LL|repeat split; reflexivity|].
    - split; auto.
      + rewrite K2, K4. split; [exact C1|]. split; [congruence|]. intros a1 c1 t1 b1 E1 I1 a2 c2 t2 b2 E2 H. destruct (HK _ _ _ _ E1) as (d1 & F1 & J1). destruct (HK _ _ _ _ E2) as (d2 & F2 & _). apply (Xs _ _ _ _ F1 (J1 I1) _ _ _ _ F2 H).
      + intros a c t b0 E. rewrite K4 in E. apply (two_like c _ _ LL). destruct (N.eq_dec c q) as [->|Hc]; [rewrite HN in E; discriminate|]. apply two_apart; [exact Hc|apply indep_always|apply hmat_unitary|].
        destruct (HK _ _ _ _ E) as (d & F & _). apply (gd_live cx U G _ _ _ _ F).
      + rewrite K7. apply (gd_ub cx U G).
    - intros c t (a & b0 & E). rewrite K4 in E. destruct (HK _ _ _ _ E) as (d & F & _). left. exists a, d. exact F.
  Qed.
  Lemma reverty_keeps q U : good U -> q < u_n U -> let V := RevertBasisY cx (SeparateBit cx) q U in keeps U V /\ bas_of V q <> PauliY /\ u_buf V = u_buf U.
  Proof.
    intros G Hq. cbn zeta. destruct (reverty_ok cx (SeparateBit cx) q U (gd_wf cx U G) Hq) as (A & B & C & E & F).
    - destruct (s_unit (u_sh U q)) as [u|] eqn:Eu; [intros _; apply (nt_fd U (gd_neat cx U G) q u Hq Eu)|congruence].
    - set (V := RevertBasisY cx (SeparateBit cx) q U) in *. split; [|split; [exact E|apply C]]. apply sound_keeps; [exact G|]. destruct (F) as (F1 & F2 & F3 & _). split; auto; [|apply like_ss, B].
      apply (neat_shape U V q (gd_neat cx U G)); [apply C|exact F].
  Qed.
  Lemma mono_y U V q : mono U V -> bas_of U q <> PauliY -> bas_of V q <> PauliY.
  Proof. intros M H. destruct (M q) as [->| ->]; [exact H|discriminate]. Qed.
  Definition turned U (q : N) : N -> N -> Prop := fun c t => t = q /\ links U q c.
  Lemma gateh_ok q U : good U -> q < u_n U -> h_safe q U -> done cx (turned U q) (gate1 always q (mH cx)) U (GateH cx q U).
  Proof.
    intros G Hq HS. unfold GateH. destruct (reverty_keeps q U G Hq) as (K0 & Y0 & E0). set (U0 := RevertBasisY cx (SeparateBit cx) q U) in *. pose proof (keeps_n cx _ _ K0) as N0.
    eapply done_after; [exact K0|intros psi phi; apply like_gate|]. pose proof (kp_good cx _ _ K0) as G0. rewrite <- N0 in Hq.
    assert (HS0 : h_safe q U0) by (intros a p b E Z; apply (keeps_two cx U U0 p K0); rewrite E0 in E; apply (HS a p b E Z)).
    assert (HL0 : forall a p b, buffer_of (u_buf U0) a q p = Some b -> turned U q p q) by (intros a p b E; rewrite E0 in E; split; [reflexivity|exists a, b; exact E]).
    generalize (turned U q), HL0. clear HL0 HS E0 K0 N0 G. intros L HL. clearbody U0. clear U. rename U0 into U, G0 into G, HS0 into HS, Y0 into HY.
    destruct (gd_tidy cx U G) as (C & _). unfold QCommuteH. destruct (negb (QUEUED_PHASE q U)) eqn:Qp.
    - apply negb_true_iff in Qp. pose proof (proj1 (queued_iff U q C) Qp) as Qn.
      change (done cx L (gate1 always q (mH cx)) U (on_sh q (fun d => w_bas (match s_bas d with PauliZ => PauliX | _ => PauliZ end) d) (set_shbuf (u_buf U) U))).
      apply h_end; auto.
      + apply untouched_carried; auto. apply (tidy_commuting _ _ (gd_tidy cx U G)).
      + intros a t. apply Qn.
      + intros a c t b' E. exists b'. auto.
    - clear Qp. cbn zeta. destruct (controls_ok L false q U G HS HL) as (S1 & F1 & B1). set (U1 := commute_controls cx q false U) in *.
      destruct (controls_ok L true q U1 (dn_good cx _ _ _ _ S1) (fewer_safe L q U U1 S1 F1 HS)) as (S2 & F2 & B2); [intros a p b E; apply (HL a p b), F1, E|]. set (U2 := commute_controls cx q true U1) in *.
      pose proof (stays_trans L _ _ _ S1 S2) as S12. pose proof (dn_good cx _ _ _ _ S12) as G2.
      destruct (revert2_ok cx D q INVERT_AND_PHASE ONLY_CONTROLS CTRL_AND_ANTI [] [] true U2 G2 (or_introl eq_refl)) as [F3 [R3 _]]. set (U3 := R2 q INVERT_AND_PHASE ONLY_CONTROLS CTRL_AND_ANTI [] [] true U2) in *.
      destruct R3 as [R3 R3']; [discriminate|]. specialize (R3 ltac:(discriminate)). specialize (R3' ltac:(discriminate)).
      assert (Z3 : forall a t, buffer_of (u_buf U3) a q t = None).
      { intros a t. destruct (buffer_of (u_buf U3) a q t) as [b|] eqn:E; [|reflexivity]. destruct a; [destruct (R3' t b E)|destruct (R3 t b E)]; discriminate. }
      destruct (targets_ok false q U3 (flushed_good cx _ _ F3)) as (F4 & S4 & H4). set (U4 := commute_targets cx q false U3) in *.
      destruct (targets_ok true q U4 (flushed_good cx _ _ F4)) as (F5 & S5 & H5). set (U5 := commute_targets cx q true U4) in *.
      pose proof (flushed_trans cx _ _ _ F3 (flushed_trans cx _ _ _ F4 F5)) as F35. pose proof (flushed_good cx _ _ F35) as G5.
      assert (Z5 : forall a t, buffer_of (u_buf U5) a q t = None).
      { intros a t. destruct (buffer_of (u_buf U5) a q t) as [b|] eqn:E; [|reflexivity]. apply S5, S4 in E. rewrite Z3 in E. discriminate. }
      assert (H5' : forall a c b, buffer_of (u_buf U5) a c q = Some b -> h_fine b) by (intros a c b E; destruct a; [apply (H5 c b E)|apply (H4 c b), S5, E]).
      assert (S5' : stays L U U5) by (eapply done_before; [exact S12|apply (fl_keeps cx _ _ F35)]).
      assert (E5 : done cx L (gate1 always q (mH cx)) U5 (on_sh q (fun d => w_bas (match s_bas d with PauliZ => PauliX | _ => PauliZ end) d) (set_shbuf (CommuteH po q (u_buf U5)) U5))).
      { destruct (gd_tidy cx U5 G5) as (C5 & _). destruct (commute_h_view po q (u_buf U5) C5) as (_ & _ & V5). apply h_end; auto.
        - rewrite (flushed_n cx _ _ F35). replace (u_n U2) with (u_n U); [exact Hq|]. symmetry. apply (dn_held cx _ _ _ _ S12).
        - apply (mono_y U5 U5 q); [apply mono_refl|]. apply (mono_y U2 U5 q (fl_mono cx _ _ F35)). rewrite B2, B1. exact HY.
        - apply (commute_h_carried po q (cx_h cx)); [exact C5|apply (tidy_commuting _ _ (gd_tidy cx U5 G5))| |apply cx_h_sq].
          split; [exact Z5|]. intros a c b E. destruct (H5' a c b E) as [H|[_ H]]; auto.
        - intros a t. rewrite V5. rewrite Z5. destruct (t =? q); reflexivity.
        - intros a c t b' E. rewrite V5 in E. destruct (N.eqb_spec t q) as [->|Ht]; [|exists b'; auto].
          destruct (buffer_of (u_buf U5) a c q) as [b|] eqn:Eb; [|discriminate]. cbn [obind] in E. unfold h_drop in E. destruct (negb (isInvert (h_buf po a b)) && IS_ARG_0 (cmplxDiff (h_buf po a b)) && IS_ARG_0 (cmplxSame (h_buf po a b))); [discriminate|].
          injection E as <-. exists b. split; [reflexivity|]. intros Hi. destruct (H5' a c b Eb) as [Hd|[Hi' _]]; [|exact Hi'].
          unfold h_buf in Hi. replace (cmplxDiff b - cmplxSame b)%amp with (0%amp : K) in Hi by (rewrite Hd; ring). rewrite (po_lt1_0 K po) in Hi. destruct (isInvert b) eqn:Ib; [reflexivity|]. congruence. }
      destruct S5' as [A1 A2 A3 A4]. destruct E5 as [Q1 Q2 Q3 Q4]. split; [exact Q1|eapply like_trans; [exact Q2|apply like_gate, A2]|eapply held_trans; eassumption|].
      intros c t H. destruct (Q4 c t H) as [H'|H']; [apply A4, H'|right; exact H'].
  Qed.
  (** A qubit whose buffers all have targets in superpositions. *)
  Definition open_at q U : Prop := forall p, links U q p -> two_sided p (meaning U).
  Lemma open_safe q U : open_at q U -> h_safe q U.
  Proof. intros H a p b E _. apply H. exists a, b. exact E. Qed.
  Lemma gateh_open q U : good U -> q < u_n U -> open_at q U -> done cx (turned U q) (gate1 always q (mH cx)) U (GateH cx q U).
  Proof. intros G Hq H. apply gateh_ok; auto. apply open_safe, H. Qed.
End P.
