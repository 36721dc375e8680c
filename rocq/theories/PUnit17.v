(** Proofs for QUnit: controlled gates. *)
From Coq Require Import Arith NArith List Bool Lia Ring.
From Verif Require Import Bits MFunctions SpecFunctions PFunctions MKernel PKernel Amp PAmp SpecState PApply PCompose PGates PGates2 PProb PQCirc2 PQCirc3 PEngine MShard SpecShard MUnit SpecUnit PShard1 PShard2 PShard3 PShard4 PShard5 PShard6 PShard7 PShard9 PUnit1 PUnit2 PUnit3 PUnit4 PUnit5 PUnit6 PUnit7 PUnit8 PUnit9 PUnit10 PUnit11 PUnit12 PUnit13 PUnit14 PUnit15 PUnit16.
Import ListNotations.
Local Open Scope N_scope.

Section P.
  Context {K : StarRing} (cx : Cplx K) (D : definite (K := K)) (L : N -> N -> Prop).
  Add Ring KrCF : (sr_ring K).
  Local Notation vec := (N -> K).
  Local Notation M2 := (mat2 K).
  Local Notation unit1 x := (anorm x = 1%amp).
  Local Notation qu := (qunit K).
  Local Notation po := (cx_po cx).
  Local Notation framed := (framed cx).
  Local Notation meaning := (meaning cx).
  Local Notation good := (good cx).
  Local Notation keeps := (keeps cx).
  Local Notation flushed := (flushed cx).
  Local Notation done := (done cx L).
  Local Notation R2 := (RevertBasis2Qb cx).
  Implicit Types (U V X : qu) (psi phi : vec) (s : shards K) (cs l : list (N * bool)).

  (** ** Adding to a buffer *)
  Definition added_to (a : bool) (c t : N) (d m : K) (inv : bool) s : shards K := if inv then AddInvT po a t c d m s else AddAnglesT po a t c d m s.
  Lemma ps_unitary a (d m : K) inv : unit1 d -> unit1 m -> unitary2 (matrix_of a (mkPS d m inv)).
  Proof. intros Hd Hm. unfold matrix_of. cbn [isInvert cmplxDiff cmplxSame]. destruct inv, a; (apply anti_unitary || apply diag_unitary); assumption. Qed.
  Lemma add_done a c t d m (inv : bool) U : L c t -> good U -> c < u_n U -> t < u_n U -> c <> t -> unit1 d -> unit1 m -> two_sided c (meaning U) -> not_inverted (u_buf U) c ->
    (forall a' c' t' b, buffer_of (u_buf U) a' c' t' = Some b -> inv = true -> c' = t \/ t' = t -> (a', c', t') = (a, c, t)) ->
    (forall a' c' b, buffer_of (u_buf U) a' c' t = Some b -> isInvert b = true -> (a', c') = (a, c)) ->
    done (gate1 (fires a c) t (matrix_of a (mkPS d m inv))) U (set_shbuf (added_to a c t d m inv (u_buf U)) U).
  Proof.
    intros HL G Hc Ht Hct Ud Um T HN H1 H2. destruct (gd_tidy cx U G) as (C & Es & Xs). pose proof (tidy_commuting _ _ (gd_tidy cx U G)) as HC. set (s := u_buf U) in *. set (M := matrix_of a (mkPS d m inv)).
    assert (CB : commutes_but s (a, c, t) (gate1 (fires a c) t M)).
    { intros [[a' c'] t'] psi Hk. unfold gate_at. destruct (buffer_of s a' c' t') as [b|] eqn:E; [|apply ss_refl]. destruct (key_range _ _ _ _ _ C E) as (_ & _ & Hct').
      destruct inv.
      - assert (Q1 : c' <> t) by (intros ->; apply Hk, (H1 _ _ _ _ E eq_refl); auto). assert (Q2 : t' <> t) by (intros ->; apply Hk, (H1 _ _ _ _ E eq_refl); auto).
        apply gates_commute; [congruence|apply fires_indep; exact Q1|]. destruct (N.eq_dec c t') as [->|Hn]; [right; apply diag_of, (HN a' c' b E)|left; apply fires_indep; exact Hn].
      - assert (DM : diag M) by (apply diag_of; reflexivity). destruct (isInvert b) eqn:Ib.
        + assert (Q1 : t' <> t) by (intros ->; apply Hk; pose proof (H2 _ _ _ E Ib) as Q; injection Q as -> ->; reflexivity).
          assert (Q2 : t' <> c) by (intros ->; rewrite (HN a' c' b E) in Ib; discriminate).
          apply ss_sym, gates_commute; [exact Q1|apply fires_indep; congruence|right; exact DM].
        + rewrite (diag_eta _ DM), (diag_eta _ (diag_of a' b Ib)). apply diag_gates. }
    assert (Hc' : c < sh_size s) by congruence. assert (Ht' : t < sh_size s) by congruence.
    destruct (add_result po a c t d m inv s C HC Hc' Ht' Hct Ud Um CB) as (C1 & E1 & _ & P1).
    assert (VV : exists o, forall a' c' t', buffer_of (added_to a c t d m inv s) a' c' t' = if keq a c t a' c' t' then keep o else buffer_of s a' c' t').
    { unfold added_to. destruct inv; [destruct (add_inv po a c t d m s C Hc' Ht' Hct Ud Um) as (_ & _ & _ & V)|destruct (add_angles po a c t d m s C Hc' Ht' Hct Ud Um) as (_ & _ & _ & V)]; eexists; exact V. }
    assert (NI : inv = false -> forall b, buffer_of (added_to a c t d m inv s) a c t = Some b -> isInvert b = true -> exists b', buffer_of s a c t = Some b' /\ isInvert b' = true).
    { intros -> b E Ib. unfold added_to in E. destruct (add_angles po a c t d m s C Hc' Ht' Hct Ud Um) as (_ & _ & _ & V). rewrite V, keq_refl in E. apply keep_some in E. subst b. unfold plus_angles, buf_or_new in Ib. cbn [isInvert] in Ib.
      destruct (buffer_of s a c t) as [b'|]; [exists b'; auto|discriminate]. }
    change (if inv then AddInvT po a t c d m s else AddAnglesT po a t c d m s) with (added_to a c t d m inv s) in *. set (s' := added_to a c t d m inv s) in *. destruct VV as [o VV].
    assert (LL : like (meaning (set_shbuf s' U)) (gate1 (fires a c) t M (meaning U))) by (apply like_ss, P1).
    split; [|exact LL|apply held_buf|intros c2 t2 (a2 & b2 & E2); cbn [u_buf set_shbuf] in E2; destruct (keq a c t a2 c2 t2) eqn:Q; [apply keq_spec in Q; injection Q as <- <- <-; right; exact HL|left; exists a2, b2; rewrite VV, Q in E2; exact E2]]. split; [apply wf_buf, G|apply neat_buf, G| | |apply (gd_ub cx U G)].
    - split; [exact C1|]. split; [cbn [u_buf u_n set_shbuf]; congruence|]. intros a1 c1 t1 b1 F1 I1 a2 c2 t2 b2 F2 Hh. cbn [u_buf set_shbuf] in F1, F2.
      destruct (keq a c t a1 c1 t1) eqn:Q1; destruct (keq a c t a2 c2 t2) eqn:Q2.
      + apply keq_spec in Q1, Q2. congruence.
      + apply keq_spec in Q1. injection Q1 as -> -> ->. pose proof F2 as F2'. rewrite VV, Q2 in F2'. destruct inv; [apply (H1 _ _ _ _ F2' eq_refl Hh)|].
        destruct (NI eq_refl b1 F1 I1) as (b' & Eb & Ib). apply (Xs _ _ _ _ Eb Ib _ _ _ _ F2' Hh).
      + apply keq_spec in Q2. injection Q2 as -> -> ->. pose proof F1 as F1'. rewrite VV, Q1 in F1'. destruct Hh as [<-|<-].
        * rewrite (HN a1 c1 b1 F1') in I1. discriminate.
        * pose proof (H2 _ _ _ F1' I1) as Q. injection Q as -> ->. reflexivity.
      + rewrite VV, Q1 in F1. rewrite VV, Q2 in F2. apply (Xs _ _ _ _ F1 I1 _ _ _ _ F2 Hh).
    - intros a2 c2 t2 b2 F2. cbn [u_buf set_shbuf] in F2. apply (two_like c2 _ _ LL). pose proof (ps_unitary a d m inv Ud Um) as UM.
      assert (Ti : two_sided c2 (meaning U) /\ (c2 = t -> diag M)).
      { destruct (keq a c t a2 c2 t2) eqn:Q2.
        - apply keq_spec in Q2. injection Q2 as <- <- <-. split; [exact T|congruence].
        - rewrite VV, Q2 in F2. split; [apply (gd_live cx U G _ _ _ _ F2)|]. intros ->. destruct inv; [|apply diag_of; reflexivity]. pose proof (H1 _ _ _ _ F2 eq_refl (or_introl eq_refl)). congruence. }
      destruct Ti as [Ti Td]. destruct (N.eq_dec c2 t) as [->|Hn]; [apply two_diag; auto; apply fires_indep; exact Hct|apply two_apart; auto; apply fires_indep; exact Hct].
  Qed.

  (** ** OptimizePairBuffers *)
  Lemma pending_front a c t b s s1 psi : consistent s -> commuting s -> buffer_of s a c t = Some b -> changed a c t None s s1 ->
    same_state (pending s psi) (gate1 (fires a c) t (matrix_of a b) (pending s1 psi)).
  Proof.
    intros C HC E Ch. destruct (lost_commuting a c t s s1 HC Ch) as [C1 Hg]. destruct (key_range s a c t b C E) as (H1 & H2 & _). assert (Es : sh_size s1 = sh_size s) by apply Ch.
    assert (Eg : forall phi, gate_at s (a, c, t) phi = gate1 (fires a c) t (matrix_of a b) phi) by (intros phi; rewrite gate_at_eq, E; reflexivity). rewrite <- Eg.
    apply (pending_gain (gate_at s (a, c, t)) a c t s1 s psi); [apply gate_at_proper|congruence|congruence|apply gains_back, Ch|]. intros k' phi _. apply Hg.
  Qed.
  Lemma rem_one a c t s : consistent s -> changed a c t None s ((if a then RemoveAntiControl t c else RemoveControl t c) s).
  Proof. intros C. pose proof (rem_changed true a t c s C) as R. destruct a; exact R. Qed.
  Lemma drop_trivial a c t b U : good U -> buffer_of (u_buf U) a c t = Some b -> isInvert b = false -> cmplxDiff b = 1%amp -> cmplxSame b = 1%amp ->
    keeps U (onbuf (if a then RemoveAntiControl t c else RemoveControl t c) U).
  Proof.
    intros G E Ib Ed Em. destruct (gd_tidy cx U G) as (C & Es & Xs). pose proof (rem_one a c t (u_buf U) C) as Ch. set (s1 := (if a then RemoveAntiControl t c else RemoveControl t c) (u_buf U)) in *.
    change (keeps U (set_shbuf s1 U)). apply (fl_keeps cx), buf_flushed; [exact G|apply Ch|apply Ch|apply (changed_below a c t), Ch|].
    apply like_ss, ss_sym. eapply ss_trans; [apply (pending_front a c t b (u_buf U) s1 _ C (tidy_commuting _ _ (gd_tidy cx U G)) E Ch)|].
    assert (EM : matrix_of a b = midn) by (unfold matrix_of; rewrite Ib, Ed, Em; destruct a; reflexivity). rewrite EM. intros x. apply gate1_one.
  Qed.
  Lemma both_sides c t (m : M2) psi : c <> t -> same_state (gate1 (fires false c) t m (gate1 (fires true c) t m psi)) (gate1 always t m psi).
  Proof.
    intros Hct x. assert (F : forall y a, fires a c (fx t y) = fires a c y) by (intros y a; unfold fires; rewrite tb_fx_neq by congruence; reflexivity).
    rewrite (gate1_at (fires false c)), (gate1_at (fires true c)), (gate1_at (fires true c)), (gate1_at always), !F. unfold always, fires. destruct (N.testbit x c); cbn [negb]; ring.
  Qed.
  Lemma opb_ok c t a U : good U -> keeps U (OptimizePairBuffers cx c t a U).
  Proof.
    intros G. destruct (gd_tidy cx U G) as (C & Es & Xs). unfold OptimizePairBuffers. change (if a then antiTargetOfShards else targetOfShards) with (tsel a).
    assert (E0 : (if a then targetOfShards else antiTargetOfShards) = tsel (negb a)) by (destruct a; reflexivity). rewrite E0. clear E0.
    destruct (sh_map (u_buf U) (tsel a) t c) as [j|] eqn:Ej; [|apply keeps_refl, G]. pose proof (map_buffer _ _ _ _ _ Ej) as Eb. destruct (key_range _ _ _ _ _ C Eb) as (Hc & Ht & Hct). destruct (buffer_units _ _ _ _ _ C Eb) as [Ud Um].
    set (ps := sh_heap (u_buf U) j) in *.
    destruct (negb (isInvert ps) && sr_eqb (cmplxDiff ps) 1%amp && sr_eqb (cmplxSame ps) 1%amp) eqn:Tr.
    - apply andb_prop in Tr. destruct Tr as [Tr T3]. apply andb_prop in Tr. destruct Tr as [T1 T2]. apply negb_true_iff in T1. destruct (eqb_spec K (cmplxDiff ps) 1%amp) as [Ed|]; [|discriminate]. destruct (eqb_spec K (cmplxSame ps) 1%amp) as [Em|]; [|discriminate].
      apply (drop_trivial a c t ps U); assumption.
    - destruct (negb (isInvert ps) && IS_SAME_UNIT c t U) eqn:Su.
      + destruct (flush_one cx D a c t ps _ U G Eb (rem_one a c t (u_buf U) C)) as [F _]. apply (fl_keeps cx), F.
      + destruct (sh_map (u_buf U) (tsel (negb a)) t c) as [k|] eqn:Ek; [|apply keeps_refl, G]. pose proof (map_buffer _ _ _ _ _ Ek) as Eb2. set (qs := sh_heap (u_buf U) k) in *.
        destruct (negb (eqb (isInvert ps) (isInvert qs))) eqn:Ei; [apply keeps_refl, G|]. apply negb_false_iff, eqb_prop in Ei.
        assert (Ip : isInvert ps = false).
        { destruct (isInvert ps) eqn:Ip; [|reflexivity]. pose proof (Xs _ _ _ _ Eb Ip _ _ _ _ Eb2 (or_intror eq_refl)) as Q. injection Q as Q. destruct a; discriminate. }
        rewrite Ip. assert (Iq : isInvert qs = false) by congruence.
        assert (HH : exists jb ja, (if a then (k, j) else (j, k)) = (jb, ja) /\ buffer_of (u_buf U) false c t = Some (sh_heap (u_buf U) jb) /\ buffer_of (u_buf U) true c t = Some (sh_heap (u_buf U) ja) /\ isInvert (sh_heap (u_buf U) jb) = false /\ isInvert (sh_heap (u_buf U) ja) = false).
        { destruct a; eexists; eexists; (split; [reflexivity|]); auto. }
        destruct HH as (jb & ja & -> & Fb & Fa & Ib & Ia). clear Ej Ek Eb Eb2 Ei Ip Iq Tr Su Ud Um ps qs j k. set (pb := sh_heap (u_buf U) jb) in *. set (pa := sh_heap (u_buf U) ja) in *.
        destruct (sr_eqb (cmplxDiff pb) (cmplxSame pa) && sr_eqb (cmplxSame pb) (cmplxDiff pa)) eqn:Sw; [|apply keeps_refl, G].
        apply andb_prop in Sw. destruct Sw as [S1 S2]. destruct (eqb_spec K (cmplxDiff pb) (cmplxSame pa)) as [Q1|]; [|discriminate]. destruct (eqb_spec K (cmplxSame pb) (cmplxDiff pa)) as [Q2|]; [|discriminate].
        destruct (buffer_units _ _ _ _ _ C Fb) as [Ud Um]. pose proof (rem_one false c t (u_buf U) C) as Ch1. cbn beta iota in Ch1. set (s1 := RemoveControl t c (u_buf U)) in *.
        assert (C1 : consistent s1) by apply Ch1. pose proof (rem_one true c t s1 C1) as Ch2. cbn beta iota in Ch2. set (s2 := RemoveAntiControl t c s1) in *.
        change (onbuf (RemoveAntiControl t c) (onbuf (RemoveControl t c) U)) with (set_shbuf s2 U).
        assert (Fa1 : buffer_of s1 true c t = Some pa) by (destruct Ch1 as (_ & _ & _ & V); rewrite V, keq_false; [exact Fa|discriminate]).
        pose proof (tidy_commuting _ _ (gd_tidy cx U G)) as HC. destruct (lost_commuting _ _ _ _ _ HC Ch1) as [HC1 _].
        assert (PP : same_state (meaning U) (gate1 always t (phaseM (cmplxDiff pb) (cmplxSame pb)) (pending s2 (framed U)))).
        { eapply ss_trans; [apply (pending_front _ _ _ _ _ _ _ C HC Fb Ch1)|]. eapply ss_trans; [apply gate1_proper, (pending_front _ _ _ _ _ _ _ C1 HC1 Fa1 Ch2)|].
          assert (M1 : matrix_of false pb = phaseM (cmplxDiff pb) (cmplxSame pb)) by (unfold matrix_of; rewrite Ib; reflexivity).
          assert (M2 : matrix_of true pa = phaseM (cmplxDiff pb) (cmplxSame pb)) by (unfold matrix_of; rewrite Ia, Q1, Q2; reflexivity). rewrite M1, M2. apply both_sides, Hct. }
        pose proof (below_trans _ _ _ (changed_below _ _ _ _ _ Ch1) (changed_below _ _ _ _ _ Ch2)) as B2.
        assert (G2 : good (set_shbuf s2 U)).
        { split; [apply wf_buf, G|apply neat_buf, G| | |apply (gd_ub cx U G)].
          - split; [apply Ch2|]. split; [|apply (below_exclusive _ _ B2 Xs)]. destruct Ch1 as (_ & X1 & _). destruct Ch2 as (_ & X2 & _). cbn [u_buf u_n set_shbuf]. congruence.
          - intros a' c' t' b' E'. destruct (B2 _ _ _ _ E') as (b0 & E0 & _). pose proof (gd_live cx U G _ _ _ _ E0) as LL. apply (two_like c' _ _ (like_ss _ _ (ss_sym _ _ PP))) in LL.
            destruct (N.eq_dec c' t) as [->|Hn]; [apply two_diag in LL|apply two_apart in LL]; auto; try apply indep_always; try (apply diag_unitary; assumption). split; reflexivity. }
        assert (Ht2 : t < u_n (set_shbuf s2 U)) by (cbn [u_n set_shbuf]; congruence).
        destruct (phase_ok cx D (cmplxDiff pb) (cmplxSame pb) t (set_shbuf s2 U) G2 Ht2 Ud Um) as [A1 A2 A3 A4]. split; [exact A1| |eapply held_trans; [apply (held_buf s2)|exact A3]|eapply ctls_trans; [apply (below_ctls U (set_shbuf s2 U)), B2|exact A4]].
        eapply like_trans; [exact A2|]. apply like_ss, ss_sym. exact PP.
  Qed.

  (** ** ApplyEitherControlled *)
  Lemma fold_perm cs : forall U, good U -> (forall c v, In (c, v) cs -> c < u_n U) -> let V := fold_left (fun V c => ToPermBasisProb cx R2 (fst c) V) cs U in
    keeps U V /\ mono U V /\ (forall c v, In (c, v) cs -> bas_of V c = PauliZ).
  Proof.
    induction cs as [|[c v] cs IH]; intros U G HR; cbn zeta; cbn [fold_left fst].
    - split; [apply keeps_refl, G|]. split; [apply mono_refl|intros c v []].
    - assert (Hc : c < u_n U) by (apply (HR c v); left; reflexivity). destruct (perm_prob_ok cx D c U G Hc) as (K1 & B1 & _ & M1 & _). set (U1 := ToPermBasisProb cx R2 c U) in *.
      destruct (IH U1 (kp_good cx _ _ K1)) as (K2 & M2 & B2); [apply (below_range cx cs U U1 K1); intros c' v' Hin; apply (HR c' v'); right; exact Hin|].
      split; [eapply keeps_trans; eassumption|]. split; [eapply mono_trans; eassumption|]. intros c' v' [[= <- <-]|Hin]; [destruct (M2 c) as [E|E]; congruence|apply (B2 c' v' Hin)].
  Qed.
  Lemma fold_flush (l0 : list N) : forall U, good U -> let V := fold_left (fun V i => R2 i INVERT_AND_PHASE CONTROLS_AND_TARGETS CTRL_AND_ANTI [] [] false V) l0 U in
    flushed U V /\ (forall a p i, In i l0 -> buffer_of (u_buf V) a i p = None).
  Proof.
    induction l0 as [|i l0 IH]; intros U G; cbn zeta; cbn [fold_left].
    - split; [apply flushed_refl, G|intros a p i []].
    - destruct (revert2_clear cx D i U G) as [F1 H1]. destruct (IH _ (flushed_good cx _ _ F1)) as [F2 H2]. split; [apply (flushed_trans cx _ _ _ F1 F2)|].
      intros a p i' [<-|Hin]; [apply (below_none _ _ _ _ _ (fl_below cx _ _ F2)), H1|apply H2, Hin].
  Qed.
  Lemma pending_empty s psi : (forall a c t, buffer_of s a c t = None) -> same_state (pending s psi) psi.
  Proof.
    intros H. unfold pending. induction (all_pairs (sh_size s)) as [|[[a c] t] l0 IH]; cbn [fold_right]; [apply ss_refl|]. rewrite gate_at_eq, H. exact IH.
  Qed.
  (** No buffers: the engines hold the whole state. *)
  Definition empty U : Prop := forall a c t, buffer_of (u_buf U) a c t = None.
  Lemma flush_everything U : good U -> let V := fold_left (fun V i => R2 i INVERT_AND_PHASE CONTROLS_AND_TARGETS CTRL_AND_ANTI [] [] false V) (order U) U in
    flushed U V /\ empty V.
  Proof.
    intros G. cbn zeta. destruct (fold_flush (order U) U G) as [F H]. split; [exact F|]. intros a c t. destruct (buffer_of _ a c t) as [b|] eqn:E; [|reflexivity].
    destruct (fl_below cx _ _ F _ _ _ _ E) as (b' & E' & _). destruct (gd_tidy cx U G) as (C & Es & _). destruct (key_range _ _ _ _ _ C E') as (Hc & _). rewrite Es in Hc.
    rewrite H in E; [discriminate|]. apply (order_in U c (gd_wf cx U G)), Hc.
  Qed.
  Lemma acted_done G U V : good U -> empty U -> acted cx G U V -> (forall psi phi, like psi phi -> like (G psi) (G phi)) -> done G U V /\ empty V.
  Proof.
    intros Gu Em [A1 A2 A3 (K1 & K2 & K3 & K4 & K5 & K6 & K7)] HG. assert (Em' : empty V) by (intros a c t; rewrite K4; apply Em). split; [|exact Em'].
    split; [|eapply like_trans; [apply like_ss, pending_empty, Em'|]; eapply like_trans; [exact A3|]; apply HG, like_ss, ss_sym, pending_empty, Em|repeat split; assumption|intros c t (a & b & E); rewrite Em' in E; discriminate].
    split; [exact A1|exact A2|rewrite K2, K4; apply (gd_tidy cx U Gu)| |rewrite K7; apply (gd_ub cx U Gu)]. intros a c t b E. rewrite Em' in E. discriminate.
  Qed.
  Lemma order_held U V : held U V -> order V = order U.
  Proof. intros (_ & E1 & E2 & _). unfold order. rewrite E1, E2. reflexivity. Qed.
  Lemma aec_ok cs t isPhase trns (M : M2) U : good U -> t < u_n U -> cs <> [] -> ctl cs t = false -> (forall c v, In (c, v) cs -> c < u_n U) -> unitary2 M -> (forall b, in_basis cx b M (trns b)) -> (isPhase = true -> diag (trns PauliZ)) ->
    let V := ApplyEitherControlled cx R2 cs t isPhase trns U in done (gate1 (holds cs) t M) U V /\ empty V.
  Proof.
    intros G Ht Hcs Hct HR Um EB HD. cbn zeta. unfold ApplyEitherControlled. destruct (fold_perm cs U G HR) as (K1 & M1 & B1). set (U1 := fold_left (fun V c => ToPermBasisProb cx R2 (fst c) V) cs U) in *.
    assert (F2 : flushed U1 (if isPhase then R2 t ONLY_INVERT ONLY_TARGETS CTRL_AND_ANTI [] [] false U1 else R2 t INVERT_AND_PHASE CONTROLS_AND_TARGETS CTRL_AND_ANTI [] [] false U1)).
    { destruct isPhase; [apply revert2_calm|apply revert2_clear]; auto; apply K1. }
    set (U2 := if isPhase then R2 t ONLY_INVERT ONLY_TARGETS CTRL_AND_ANTI [] [] false U1 else R2 t INVERT_AND_PHASE CONTROLS_AND_TARGETS CTRL_AND_ANTI [] [] false U1) in *.
    unfold EntangleInCurrentBasis. destruct (flush_everything U2 (flushed_good cx _ _ F2)) as [F3 Em]. cbn zeta in F3, Em.
    set (U3 := fold_left (fun V i => R2 i INVERT_AND_PHASE CONTROLS_AND_TARGETS CTRL_AND_ANTI [] [] false V) (order U2) U2) in *.
    pose proof (flushed_trans cx _ _ _ F2 F3) as F23. pose proof (keeps_trans cx _ _ _ K1 (fl_keeps cx _ _ F23)) as KK. pose proof (kp_good cx _ _ KK) as G3. pose proof (keeps_n cx _ _ KK) as En.
    rewrite <- (order_held U2 U3 (kp_held cx _ _ (fl_keeps cx _ _ F3))).
    change (let V := joint cs t isPhase trns (gathered (filter (fun p => (p =? t)%N || existsb (fun c => (p =? fst c)%N) cs) (order U3)) U3) in done (gate1 (holds cs) t M) U V /\ empty V). cbn zeta.
    destruct (tail_ok cx D cs t isPhase trns M U3 (gd_wf cx _ G3) (gd_neat cx _ G3)) as [A _]; auto.
    - rewrite En. exact Ht.
    - intros p Hp. apply ctl_iff in Hp. destruct Hp as (v & Hin). split; [rewrite En; apply (HR p v Hin)|]. destruct (fl_mono cx _ _ F23 p) as [E|E]; [rewrite E; apply (B1 p v Hin)|exact E].
    - apply (in_basis_unitary cx (bas_of U3 t) M); [exact Um|apply EB].
    - destruct (acted_done _ U3 _ G3 Em A) as [A1 A2]; [intros psi phi; apply like_gate|]. split; [|exact A2]. eapply done_after; [exact KK|intros psi phi; apply like_gate|exact A1].
  Qed.

  (** ** Gates with trimmed controls *)
  Definition with_trim cs (k : option (list (N * bool)) -> qu -> qu) U : qu := let '(r, V) := TrimControls cx R2 cs U in k r V.
  Lemma ctl_sub l cs t : incl l cs -> ctl cs t = false -> ctl l t = false.
  Proof. intros HI H. destruct (ctl l t) eqn:E; [|reflexivity]. apply ctl_iff in E. destruct E as (v & Hin). assert (ctl cs t = true) by (apply ctl_iff; exists v; apply HI, Hin). congruence. Qed.
  Lemma after_trim cs t (m : M2) k U : good U -> ctl cs t = false -> (forall c v, In (c, v) cs -> c < u_n U) -> (forall c v, In (c, v) cs -> L c t) -> (forall V, k None V = V) ->
    (forall l V, good V -> u_n V = u_n U -> ctl l t = false -> (forall c v, In (c, v) l -> c < u_n V /\ two_sided c (meaning V)) -> (forall c v, In (c, v) l -> L c t) -> done (gate1 (holds l) t m) V (k (Some l) V)) ->
    done (gate1 (holds cs) t m) U (with_trim cs k U).
  Proof.
    intros G Hct HR HL Hn Hs. unfold with_trim. destruct (trim_ok cx D cs U G HR) as [K1 T1]. destruct (TrimControls cx R2 cs U) as [r V]. cbn [fst snd] in *. destruct r as [l|].
    - destruct T1 as (A1 & _ & A3 & A4). pose proof (keeps_n cx _ _ K1) as En. assert (Hl : done (gate1 (holds l) t m) V (k (Some l) V)).
      { apply Hs; [apply K1|exact En|apply (ctl_sub l cs t A1 Hct)|intros c v Hin; split; [rewrite En; apply (HR c v), A1, Hin|apply (keeps_two cx U V c K1), (A4 c v Hin)]|intros c v Hin; apply (HL c v), A1, Hin]. }
      eapply done_like; [eapply done_after; [exact K1|intros psi phi; apply like_gate|exact Hl]|]. apply like_ss, ss_sym, holds_some; assumption.
    - rewrite Hn. destruct T1 as (c & v & Hin & S). apply (done_like cx L (fun psi => psi)); [apply done_keeps, K1|]. apply like_ss, ss_sym, (holds_none cs t m _ c v Hin); [|exact S].
      intros ->. assert (ctl cs t = true) by (apply ctl_iff; exists v; exact Hin). congruence.
  Qed.
  Lemma one_control c v l t : ctl ((c, v) :: l) t = false -> c <> t.
  Proof. unfold ctl. cbn [existsb fst]. intros H. apply orb_false_iff in H. destruct H as [H _]. apply N.eqb_neq in H. congruence. Qed.
  Lemma fires_gate c v t (m : M2) psi : same_state (gate1 (fires (negb v) c) t m psi) (gate1 (holds [(c, v)]) t m psi).
  Proof. intros x. unfold gate1. rewrite <- holds_fires, negb_involutive. reflexivity. Qed.

  Lemma opb_phase_eq (v : bool) c t tl br U2 : (if v then OptimizePairBuffers cx c t false (onbuf (AddPhaseAngles po t c tl br) U2) else OptimizePairBuffers cx c t true (onbuf (AddAntiPhaseAngles po t c br tl) U2)) =
    OptimizePairBuffers cx c t (negb v) (set_shbuf (added_to (negb v) c t (if v then tl else br) (if v then br else tl) false (u_buf U2)) U2).
  Proof. destruct v; reflexivity. Qed.
  Lemma opb_invert_eq (v : bool) c t tr bl U2 : (if v then OptimizePairBuffers cx c t false (onbuf (AddInversionAngles po t c tr bl) U2) else OptimizePairBuffers cx c t true (onbuf (AddAntiInversionAngles po t c bl tr) U2)) =
    OptimizePairBuffers cx c t (negb v) (set_shbuf (added_to (negb v) c t (if v then tr else bl) (if v then bl else tr) true (u_buf U2)) U2).
  Proof. unfold added_to, onbuf. destruct v; cbn [negb]; [rewrite add_inv_eq|rewrite add_anti_inv_eq]; reflexivity. Qed.

  (** ** UCPhase *)
  Definition phase_tail (tl br : K) (t : N) (r : option (list (N * bool))) U : qu :=
    match r with
    | None => U
    | Some [] => Phase cx tl br t U
    | Some [(c, v)] =>
        if is0 (tl - br)%amp then (if v : bool then Phase cx 1%amp br c U else Phase cx tl 1%amp c U)
        else
          let U1 := R2 c ONLY_INVERT ONLY_TARGETS CTRL_AND_ANTI [] [] false U in
          let U2 := if v then R2 t ONLY_INVERT ONLY_TARGETS ONLY_CTRL [] [c] false (R2 t ONLY_INVERT ONLY_TARGETS ONLY_ANTI [] [] false U1)
                    else R2 t ONLY_INVERT ONLY_TARGETS ONLY_ANTI [] [c] false (R2 t ONLY_INVERT ONLY_TARGETS ONLY_CTRL [] [] false U1) in
          if negb (IS_SAME_UNIT c t U2) then
            if v then OptimizePairBuffers cx c t false (onbuf (AddPhaseAngles po t c tl br) U2)
            else OptimizePairBuffers cx c t true (onbuf (AddAntiPhaseAngles po t c br tl) U2)
          else ApplyEitherControlled cx R2 [(c, v)] t true (trnsPhase cx tl br) U2
    | Some cs => ApplyEitherControlled cx R2 cs t true (trnsPhase cx tl br) U
    end.
  Lemma QUCPhase_eq cs tl br t U : QUCPhase cx cs tl br t U = if sr_eqb tl 1%amp && sr_eqb br 1%amp then U else with_trim cs (phase_tail tl br t) U.
  Proof. reflexivity. Qed.
  (** The two calls of RevertBasis2Qb for the target, with the control's buffer spared. *)
  Definition spare (e : RevertExclusivity) (c0 : RevertControl) (v : bool) (c t : N) U : qu :=
    if v then R2 t e c0 ONLY_CTRL [] [c] false (R2 t e c0 ONLY_ANTI [] [] false U) else R2 t e c0 ONLY_ANTI [] [c] false (R2 t e c0 ONLY_CTRL [] [] false U).
  Lemma spare_targets e c0 v c t U : good U -> plain c0 e false -> c0 <> ONLY_CONTROLS -> flushed U (spare e c0 v c t U) /\
    (forall a' c' b, buffer_of (u_buf (spare e c0 v c t U)) a' c' t = Some b -> skips e (isInvert b) = true \/ (a', c') = (negb v, c)) /\
    (c0 <> ONLY_TARGETS -> forall a' t' b, buffer_of (u_buf (spare e c0 v c t U)) a' t t' = Some b -> skips e (isInvert b) = true).
  Proof.
    intros G Pl Hc0. assert (Z : forall p ex, existsb (N.eqb p) ex = true -> In p ex) by (intros p ex H; apply existsb_exists in H; destruct H as (x & H1 & H2); apply N.eqb_eq in H2; subst; exact H1).
    unfold spare. destruct v; cbn [negb].
    - destruct (revert2_ok cx D t e c0 ONLY_ANTI [] [] false U G Pl) as [F1 [Rc1 Rt1]]. set (U1 := R2 t e c0 ONLY_ANTI [] [] false U) in *.
      destruct (revert2_ok cx D t e c0 ONLY_CTRL [] [c] false U1 (flushed_good cx _ _ F1) Pl) as [F2 [Rc2 Rt2]]. set (U2 := R2 t e c0 ONLY_CTRL [] [c] false U1) in *. split; [apply (flushed_trans cx _ _ _ F1 F2)|].
      destruct (Rt1 Hc0) as [_ Q1]. specialize (Q1 ltac:(discriminate)). destruct (Rt2 Hc0) as [Q2 _]. specialize (Q2 ltac:(discriminate)).
      apply (cleared_below _ _ _ _ _ _ _ (fl_below cx _ _ F2)) in Q1. split.
      + intros a' c' b E. destruct a'; [destruct (Q1 c' b E) as [H|H]; [left; exact H|discriminate]|]. destruct (Q2 c' b E) as [H|H]; [left; exact H|]. apply Z in H. destruct H as [->|[]]. right. reflexivity.
      + intros Hc1 a' t' b E. destruct (Rc1 Hc1) as [_ P1]. specialize (P1 ltac:(discriminate)). destruct (Rc2 Hc1) as [P2 _]. specialize (P2 ltac:(discriminate)). apply (cleared_below _ _ _ _ _ _ _ (fl_below cx _ _ F2)) in P1.
        destruct a'; [destruct (P1 t' b E) as [H|H]|destruct (P2 t' b E) as [H|H]]; try exact H; discriminate.
    - destruct (revert2_ok cx D t e c0 ONLY_CTRL [] [] false U G Pl) as [F1 [Rc1 Rt1]]. set (U1 := R2 t e c0 ONLY_CTRL [] [] false U) in *.
      destruct (revert2_ok cx D t e c0 ONLY_ANTI [] [c] false U1 (flushed_good cx _ _ F1) Pl) as [F2 [Rc2 Rt2]]. set (U2 := R2 t e c0 ONLY_ANTI [] [c] false U1) in *. split; [apply (flushed_trans cx _ _ _ F1 F2)|].
      destruct (Rt1 Hc0) as [Q1 _]. specialize (Q1 ltac:(discriminate)). destruct (Rt2 Hc0) as [_ Q2]. specialize (Q2 ltac:(discriminate)).
      apply (cleared_below _ _ _ _ _ _ _ (fl_below cx _ _ F2)) in Q1. split.
      + intros a' c' b E. destruct a'; [|destruct (Q1 c' b E) as [H|H]; [left; exact H|discriminate]]. destruct (Q2 c' b E) as [H|H]; [left; exact H|]. apply Z in H. destruct H as [->|[]]. right. reflexivity.
      + intros Hc1 a' t' b E. destruct (Rc1 Hc1) as [P1 _]. specialize (P1 ltac:(discriminate)). destruct (Rc2 Hc1) as [_ P2]. specialize (P2 ltac:(discriminate)). apply (cleared_below _ _ _ _ _ _ _ (fl_below cx _ _ F2)) in P1.
        destruct a'; [destruct (P2 t' b E) as [H|H]|destruct (P1 t' b E) as [H|H]]; try exact H; discriminate.
  Qed.
  Lemma ucphase_ok cs tl br t U : good U -> t < u_n U -> ctl cs t = false -> (forall c v, In (c, v) cs -> c < u_n U) -> (forall c v, In (c, v) cs -> L c t) -> unit1 tl -> unit1 br -> done (gate1 (holds cs) t (phaseM tl br)) U (QUCPhase cx cs tl br t U).
  Proof.
    intros G Ht Hct HR HLL Utl Ubr. rewrite QUCPhase_eq. destruct (sr_eqb tl 1%amp && sr_eqb br 1%amp) eqn:I1.
    - apply andb_prop in I1. destruct I1 as [E1 E2]. destruct (eqb_spec K tl 1%amp) as [->|]; [|discriminate]. destruct (eqb_spec K br 1%amp) as [->|]; [|discriminate].
      apply (done_like cx L (fun psi => psi)); [apply done_keeps, keeps_refl, G|]. apply like_ss, ss_sym. intros x. apply gate1_one.
    - clear I1. apply after_trim; auto. clear G HR HLL Hct. intros l V G En Hct HL HLL. rewrite <- En in Ht. clear En U.
      pose proof (diag_unitary tl br Utl Ubr) as UM. assert (AE : forall W l', keeps V W -> l' <> [] -> ctl l' t = false -> (forall c v, In (c, v) l' -> c < u_n V) -> done (gate1 (holds l') t (phaseM tl br)) V (ApplyEitherControlled cx R2 l' t true (trnsPhase cx tl br) W)).
      { intros W l' KW Hl Hc' HR'. pose proof (keeps_n cx _ _ KW) as EW. eapply done_after; [exact KW|intros psi phi; apply like_gate|]. apply aec_ok; auto; [apply KW|rewrite EW; exact Ht|intros c v Hin; rewrite EW; apply (HR' c v Hin)|intros b; apply trns_phase|]. intros _. split; reflexivity. }
      destruct l as [|[c v] [|cv l]].
      + cbn [phase_tail]. eapply done_like; [apply does_done, phase_ok; auto|]. apply like_ss. intros x. reflexivity.
      + cbn [phase_tail]. pose proof (one_control _ _ _ _ Hct) as Hn. destruct (HL c v (or_introl eq_refl)) as [Hc T]. destruct (is0 (tl - br)%amp) eqn:I2.
        * apply is0_iff, sub_zero in I2. subst br. assert (A : done (gate1 always c (if v then phaseM 1 tl else phaseM tl 1)%amp) V (if v then Phase cx 1%amp tl c V else Phase cx tl 1%amp c V)) by (destruct v; apply does_done, phase_ok; auto; apply one_unit).
          eapply done_like; [exact A|]. apply like_ss, ss_sym, kick, Hn.
        * destruct (revert2_calm cx D c V G) as [F1 N1]. cbn zeta in F1, N1. set (U1 := R2 c ONLY_INVERT ONLY_TARGETS CTRL_AND_ANTI [] [] false V) in *.
          destruct (spare_targets ONLY_INVERT ONLY_TARGETS v c t U1 (flushed_good cx _ _ F1) (or_intror eq_refl) ltac:(discriminate)) as (F2 & H2 & _). unfold spare in F2, H2. cbn zeta.
          set (U2 := if v then R2 t ONLY_INVERT ONLY_TARGETS ONLY_CTRL [] [c] false (R2 t ONLY_INVERT ONLY_TARGETS ONLY_ANTI [] [] false U1) else R2 t ONLY_INVERT ONLY_TARGETS ONLY_ANTI [] [c] false (R2 t ONLY_INVERT ONLY_TARGETS ONLY_CTRL [] [] false U1)) in *.
          pose proof (flushed_trans cx _ _ _ F1 F2) as F12. pose proof (fl_keeps cx _ _ F12) as K2. pose proof (keeps_n cx _ _ K2) as En2. destruct (negb (IS_SAME_UNIT c t U2)).
          -- assert (A : done (gate1 (fires (negb v) c) t (matrix_of (negb v) (mkPS (if v then tl else br) (if v then br else tl) false))) U2 (set_shbuf (added_to (negb v) c t (if v then tl else br) (if v then br else tl) false (u_buf U2)) U2)).
             { apply add_done; try (rewrite En2; assumption); [apply (HLL c v); left; reflexivity|apply K2|exact Hn|destruct v; assumption|destruct v; assumption|apply (keeps_two cx V U2 c K2), T|apply (below_calm _ _ _ (fl_below cx _ _ F2)), N1|discriminate|].
               intros a' c' b E Ib. destruct (H2 a' c' b E) as [H|H]; [|exact H]. cbn [skips] in H. rewrite Ib in H. discriminate. }
             assert (Emm : matrix_of (negb v) (mkPS (if v then tl else br) (if v then br else tl) false) = phaseM tl br) by (destruct v; reflexivity). rewrite Emm in A.
             eapply done_after; [exact K2|intros psi phi; apply like_gate|].
             assert (A' : done (gate1 (holds [(c, v)]) t (phaseM tl br)) U2 (set_shbuf (added_to (negb v) c t (if v then tl else br) (if v then br else tl) false (u_buf U2)) U2)) by (eapply done_like; [exact A|]; apply like_ss, fires_gate).
             assert (EQ : (if v then OptimizePairBuffers cx c t false (onbuf (AddPhaseAngles po t c tl br) U2) else OptimizePairBuffers cx c t true (onbuf (AddAntiPhaseAngles po t c br tl) U2)) = OptimizePairBuffers cx c t (negb v) (set_shbuf (added_to (negb v) c t (if v then tl else br) (if v then br else tl) false (u_buf U2)) U2)) by apply opb_phase_eq.
             rewrite EQ. eapply done_before; [exact A'|apply opb_ok, A'].
          -- apply AE; [exact K2|discriminate|exact Hct|]. intros c' v' Hin. apply (HL c' v' Hin).
      + cbn [phase_tail]. destruct v; apply AE; auto; try discriminate; try (apply keeps_refl, G); intros c' v' Hin; apply (HL c' v' Hin).
  Qed.

  (** ** UCInvert *)
  Definition invert_tail (tr bl : K) (t : N) (r : option (list (N * bool))) U : qu :=
    match r with
    | None => U
    | Some [] => Invert cx tr bl t U
    | Some [(c, v)] =>
        let U1 := R2 c ONLY_INVERT ONLY_TARGETS CTRL_AND_ANTI [] [] false U in
        let U2 := if v : bool then R2 t INVERT_AND_PHASE CONTROLS_AND_TARGETS ONLY_CTRL [] [c] false (R2 t INVERT_AND_PHASE CONTROLS_AND_TARGETS ONLY_ANTI [] [] false U1)
                  else R2 t INVERT_AND_PHASE CONTROLS_AND_TARGETS ONLY_ANTI [] [c] false (R2 t INVERT_AND_PHASE CONTROLS_AND_TARGETS ONLY_CTRL [] [] false U1) in
        if negb (IS_SAME_UNIT c t U2) then
          if v then OptimizePairBuffers cx c t false (onbuf (AddInversionAngles po t c tr bl) U2)
          else OptimizePairBuffers cx c t true (onbuf (AddAntiInversionAngles po t c bl tr) U2)
        else ApplyEitherControlled cx R2 [(c, v)] t false (trnsInvert cx tr bl) U2
    | Some cs => ApplyEitherControlled cx R2 cs t false (trnsInvert cx tr bl) U
    end.
  Lemma QUCInvert_eq cs tr bl t U : QUCInvert cx cs tr bl t U =
    (let '(plus, U0) := if sr_eqb tr 1%amp && sr_eqb bl 1%amp then CACHED_PLUS cx t U else (false, U) in if plus then U0 else with_trim cs (invert_tail tr bl t) U0).
  Proof. reflexivity. Qed.
  (** A symmetry under X of a qubit without buffers. *)
  Lemma pending_symmetric s t psi : consistent s -> (forall a p, buffer_of s a p t = None /\ buffer_of s a t p = None) -> same_state (gate1 always t (invertM 1 1)%amp psi) psi ->
    same_state (gate1 always t (invertM 1 1)%amp (pending s psi)) (pending s psi).
  Proof.
    intros C HQ HS. unfold pending. induction (all_pairs (sh_size s)) as [|[[a c] t'] l0 IH]; cbn [fold_right]; [exact HS|]. rewrite gate_at_eq. destruct (buffer_of s a c t') as [b|] eqn:E; [|exact IH].
    assert (Q1 : t <> t') by (intros <-; destruct (HQ a c) as [Q _]; congruence). assert (Q2 : c <> t) by (intros ->; destruct (HQ a t') as [_ Q]; congruence).
    eapply ss_trans; [apply gates_commute; [exact Q1|apply fires_indep; exact Q2|left; apply indep_always]|]. apply gate1_proper, IH.
  Qed.
  Lemma symmetric_any P t psi : same_state (gate1 always t (invertM 1 1)%amp psi) psi -> same_state (gate1 P t (invertM 1 1)%amp psi) psi.
  Proof. intros H x. specialize (H x). unfold gate1, always in H. unfold gate1. destruct (P x); [exact H|reflexivity]. Qed.
  Lemma ucinvert_ok cs tr bl t U : good U -> t < u_n U -> ctl cs t = false -> (forall c v, In (c, v) cs -> c < u_n U) -> (forall c v, In (c, v) cs -> L c t) -> unit1 tr -> unit1 bl -> done (gate1 (holds cs) t (invertM tr bl)) U (QUCInvert cx cs tr bl t U).
  Proof.
    intros G Ht Hct HR HLL Utr Ubl. rewrite QUCInvert_eq.
    assert (P0 : exists b V0, (if sr_eqb tr 1%amp && sr_eqb bl 1%amp then CACHED_PLUS cx t U else (false, U)) = (b, V0) /\ keeps U V0 /\ (b = true -> same_state (gate1 (holds cs) t (invertM tr bl) (meaning U)) (meaning U))).
    { destruct (sr_eqb tr 1%amp && sr_eqb bl 1%amp) eqn:I1.
      - apply andb_prop in I1. destruct I1 as [E1 E2]. destruct (eqb_spec K tr 1%amp) as [->|]; [|discriminate]. destruct (eqb_spec K bl 1%amp) as [->|]; [|discriminate].
        destruct (cached_plus cx D t U (gd_wf cx U G) (gd_neat cx U G) Ht) as (b & V0 & E & S & B & F). exists b, V0. split; [exact E|]. split; [apply sound_keeps; assumption|]. intros Hb. destruct (F Hb) as [Q H].
        apply symmetric_any, pending_symmetric; [apply (gd_tidy cx U G)|apply (queued_iff U t (proj1 (gd_tidy cx U G))), Q|apply H, indep_always].
      - exists false, U. split; [reflexivity|]. split; [apply keeps_refl, G|discriminate]. }
    destruct P0 as (b & V0 & -> & K0 & F0). destruct b.
    - apply (done_like cx L (fun psi => psi)); [apply done_keeps, K0|]. apply like_ss, ss_sym, F0. reflexivity.
    - clear F0. pose proof (keeps_n cx _ _ K0) as En0. eapply done_after; [exact K0|intros psi phi; apply like_gate|]. pose proof (kp_good cx _ _ K0) as G0. rewrite <- En0 in Ht.
      assert (HR0 : forall c v, In (c, v) cs -> c < u_n V0) by (intros c v Hin; rewrite En0; apply (HR c v Hin)). clear K0 En0 G HR. apply after_trim; auto. clear HR0 HLL Hct. intros l V G En Hct HL HLL. rewrite <- En in Ht. clear En G0 U V0.
      pose proof (anti_unitary tr bl Utr Ubl) as UM. assert (AE : forall W l', keeps V W -> l' <> [] -> ctl l' t = false -> (forall c v, In (c, v) l' -> c < u_n V) -> done (gate1 (holds l') t (invertM tr bl)) V (ApplyEitherControlled cx R2 l' t false (trnsInvert cx tr bl) W)).
      { intros W l' KW Hl Hc' HR'. pose proof (keeps_n cx _ _ KW) as EW. eapply done_after; [exact KW|intros psi phi; apply like_gate|]. apply aec_ok; auto; [apply KW|rewrite EW; exact Ht|intros c v Hin; rewrite EW; apply (HR' c v Hin)|intros b; apply trns_invert|discriminate]. }
      destruct l as [|[c v] [|cv l]].
      + cbn [invert_tail]. eapply done_like; [apply does_done, invert_ok; auto|]. apply like_ss. intros x. reflexivity.
      + cbn [invert_tail]. pose proof (one_control _ _ _ _ Hct) as Hn. destruct (HL c v (or_introl eq_refl)) as [Hc T].
        destruct (revert2_calm cx D c V G) as [F1 N1]. cbn zeta in F1, N1. set (U1 := R2 c ONLY_INVERT ONLY_TARGETS CTRL_AND_ANTI [] [] false V) in *.
        destruct (spare_targets INVERT_AND_PHASE CONTROLS_AND_TARGETS v c t U1 (flushed_good cx _ _ F1) I ltac:(discriminate)) as (F2 & H2 & H3). specialize (H3 ltac:(discriminate)). unfold spare in F2, H2, H3. cbn zeta.
        set (U2 := if v then R2 t INVERT_AND_PHASE CONTROLS_AND_TARGETS ONLY_CTRL [] [c] false (R2 t INVERT_AND_PHASE CONTROLS_AND_TARGETS ONLY_ANTI [] [] false U1) else R2 t INVERT_AND_PHASE CONTROLS_AND_TARGETS ONLY_ANTI [] [c] false (R2 t INVERT_AND_PHASE CONTROLS_AND_TARGETS ONLY_CTRL [] [] false U1)) in *.
        pose proof (flushed_trans cx _ _ _ F1 F2) as F12. pose proof (fl_keeps cx _ _ F12) as K2. pose proof (keeps_n cx _ _ K2) as En2. destruct (negb (IS_SAME_UNIT c t U2)).
        * assert (A : done (gate1 (fires (negb v) c) t (matrix_of (negb v) (mkPS (if v then tr else bl) (if v then bl else tr) true))) U2 (set_shbuf (added_to (negb v) c t (if v then tr else bl) (if v then bl else tr) true (u_buf U2)) U2)).
          { apply add_done; try (rewrite En2; assumption); [apply (HLL c v); left; reflexivity|apply K2|exact Hn|destruct v; assumption|destruct v; assumption|apply (keeps_two cx V U2 c K2), T|apply (below_calm _ _ _ (fl_below cx _ _ F2)), N1| |].
            - intros a' c' t' b E _ [->| ->]; [pose proof (H3 a' t' b E); discriminate|]. destruct (H2 a' c' b E) as [H|H]; [discriminate|congruence].
            - intros a' c' b E Ib. destruct (H2 a' c' b E) as [H|H]; [discriminate|exact H]. }
          assert (Emm : matrix_of (negb v) (mkPS (if v then tr else bl) (if v then bl else tr) true) = invertM tr bl) by (destruct v; reflexivity). rewrite Emm in A.
          eapply done_after; [exact K2|intros psi phi; apply like_gate|].
          assert (A' : done (gate1 (holds [(c, v)]) t (invertM tr bl)) U2 (set_shbuf (added_to (negb v) c t (if v then tr else bl) (if v then bl else tr) true (u_buf U2)) U2)) by (eapply done_like; [exact A|]; apply like_ss, fires_gate).
          assert (EQ : (if v then OptimizePairBuffers cx c t false (onbuf (AddInversionAngles po t c tr bl) U2) else OptimizePairBuffers cx c t true (onbuf (AddAntiInversionAngles po t c bl tr) U2)) = OptimizePairBuffers cx c t (negb v) (set_shbuf (added_to (negb v) c t (if v then tr else bl) (if v then bl else tr) true (u_buf U2)) U2)) by apply opb_invert_eq.
          rewrite EQ. eapply done_before; [exact A'|apply opb_ok, A'].
        * apply AE; [exact K2|discriminate|exact Hct|]. intros c' v' Hin. apply (HL c' v' Hin).
      + cbn [invert_tail]. destruct v; apply AE; auto; try discriminate; try (apply keeps_refl, G); intros c' v' Hin; apply (HL c' v' Hin).
  Qed.
End P.
