(** Proofs for QUnit: flushing the buffers of an eigenstate. *)
From Coq Require Import Arith NArith List Bool Lia Ring.
From Verif Require Import Bits MFunctions SpecFunctions PFunctions MKernel PKernel Amp PAmp SpecState PApply PCompose PGates PGates2 PProb PQCirc2 PQCirc3 PEngine MShard SpecShard MUnit SpecUnit PShard1 PShard2 PShard3 PShard4 PShard5 PShard6 PShard7 PShard9 PUnit1 PUnit2 PUnit3 PUnit4 PUnit5 PUnit6 PUnit7 PUnit8 PUnit9 PUnit10 PUnit11 PUnit12 PUnit13 PUnit14.
Import ListNotations.
Local Open Scope N_scope.

Section P.
  Context {K : StarRing} (cx : Cplx K) (D : definite (K := K)).
  Add Ring KrCD : (sr_ring K).
  Local Notation vec := (N -> K).
  Local Notation unit1 x := (anorm x = 1%amp).
  Local Notation qu := (qunit K).
  Local Notation po := (cx_po cx).
  Local Notation framed := (framed cx).
  Local Notation meaning := (meaning cx).
  Local Notation good := (good cx).
  Local Notation flushed := (flushed cx).
  Implicit Types (U V X : qu) (psi phi : vec) (s : shards K).

  (** The buffers of [s] at shard [i] come from buffers of [s0] with target [i], in either direction. *)
  Record turned (i : N) s0 s : Prop := mkTurned {
    tu_cons : consistent s;
    tu_size : sh_size s = sh_size s0;
    tu_off : forall a c t, c <> i -> t <> i -> buffer_of s a c t = buffer_of s0 a c t;
    tu_ctl : forall a t b, buffer_of s a i t = Some b -> isInvert b = false /\ cmplxDiff b = 1%amp /\ exists b', buffer_of s0 a t i = Some b';
    tu_tgt : forall a c b, buffer_of s a c i = Some b -> isInvert b = false /\ exists b', buffer_of s0 a c i = Some b'
  }.
  Lemma turned_refl i s0 : consistent s0 -> not_inverted s0 i -> (forall a t, buffer_of s0 a i t = None) -> turned i s0 s0.
  Proof.
    intros C HN HC. split; auto.
    - intros a t b E. rewrite HC in E. discriminate.
    - intros a c b E. split; [apply (HN a c b E)|exists b; exact E].
  Qed.
  Lemma turned_calm i s0 s : turned i s0 s -> not_inverted s i.
  Proof. intros T a c b E. apply (tu_tgt i s0 s T a c b E). Qed.
  Lemma turned_below i s0 s : turned i s0 s -> not_inverted s0 i -> (forall a t, buffer_of s a i t = None) -> below s0 s.
  Proof.
    intros T HN HC a c t b E. destruct (N.eq_dec c i) as [->|Hc]; [rewrite HC in E; discriminate|]. destruct (N.eq_dec t i) as [->|Ht].
    - destruct (tu_tgt i s0 s T a c b E) as (I1 & b' & E'). exists b'. split; [exact E'|]. rewrite I1. apply (HN a c b' E').
    - rewrite (tu_off i s0 s T a c t Hc Ht) in E. exists b. auto.
  Qed.
  Lemma turned_rewrites i a f s0 s s' : (forall b, f b = None \/ f b = Some b) -> turned i s0 s -> rewrites false a i f s s' -> turned i s0 s'.
  Proof.
    intros Hf T (C & E & V). assert (G : forall a' c t b, buffer_of s' a' c t = Some b -> buffer_of s a' c t = Some b).
    { intros a' c t b Eb. rewrite V in Eb. destruct touch; [|exact Eb]. destruct (buffer_of s a' c t) as [d|]; [|discriminate]. cbn [obind] in Eb. destruct (Hf d) as [Fd|Fd]; rewrite Fd in Eb; [discriminate|exact Eb]. }
    split.
    - exact C.
    - rewrite E. apply T.
    - intros a' c t Hc Ht. rewrite <- (tu_off i s0 s T a' c t Hc Ht), V. unfold touch. destruct (N.eqb_spec c i); [contradiction|]. rewrite andb_false_r. reflexivity.
    - intros a' t b Eb. apply (tu_ctl i s0 s T a' t b), G, Eb.
    - intros a' c b Eb. apply (tu_tgt i s0 s T a' c b), G, Eb.
  Qed.
  (** Reversing the direction of one buffer. *)
  Lemma turn i s0 a c t j s s1 : turned i s0 s -> sh_map s (tsel a) t c = Some j -> isInvert (sh_heap s j) = false -> cmplxDiff (sh_heap s j) = 1%amp -> c = i \/ t = i -> erased a c t s s1 ->
    let s2 := AddAnglesT po a c t 1%amp (cmplxSame (sh_heap s j)) s1 in
    turned i s0 s2 /\ buffer_of s2 a c t = None /\ (forall a' c' t', (a', c', t') <> (a, t, c) -> buffer_of s2 a' c' t' <> None -> buffer_of s a' c' t' <> None) /\ (forall a' c' t', a' <> a -> buffer_of s2 a' c' t' = buffer_of s a' c' t') /\
    (forall a0 c0 t0, (a0, c0, t0) <> (a, c, t) -> (a0, c0, t0) <> (a, t, c) -> sh_map s2 (tsel a0) t0 c0 = sh_map s (tsel a0) t0 c0).
  Proof.
    intros T Ej Ij Dj Hi Er. cbn zeta. pose proof (tu_cons i s0 s T) as C. destruct (cons_ok s C _ _ _ _ Ej) as (Hc & Ht & Hct & _ & Ud & Us).
    assert (R : changed a c t None s s1) by (apply removed_changed; destruct Er as [->| ->]; apply removed_two, C). assert (C1 : consistent s1) by apply R. assert (E1 : sh_size s1 = sh_size s) by apply R.
    destruct (add_angles po a t c 1%amp (cmplxSame (sh_heap s j)) s1 C1) as (C2 & E2 & M2 & V2); try (rewrite E1); auto; [apply one_unit|]. destruct R as (_ & _ & M1 & V1).
    set (s2 := AddAnglesT po a c t 1%amp (cmplxSame (sh_heap s j)) s1) in *.
    assert (VV : forall a' c' t', buffer_of s2 a' c' t' = if keq a t c a' c' t' then keep (plus_angles 1%amp (cmplxSame (sh_heap s j)) (buf_or_new s a t c)) else if keq a c t a' c' t' then None else buffer_of s a' c' t').
    { intros a' c' t'. rewrite V2, V1. destruct (keq a t c a' c' t'); [|reflexivity]. f_equal. f_equal. unfold buf_or_new. rewrite V1, keq_false; [reflexivity|congruence]. }
    clear V2. pose proof (map_buffer s a c t j Ej) as Eb.
    assert (N1 : isInvert (buf_or_new s a t c) = false /\ (t = i -> cmplxDiff (buf_or_new s a t c) = 1%amp)).
    { unfold buf_or_new. destruct (buffer_of s a t c) as [d|] eqn:Ed; [|split; reflexivity]. destruct Hi as [->| ->].
      - split; [apply (tu_tgt i s0 s T a t d Ed)|congruence].
      - destruct (tu_ctl i s0 s T a c d Ed) as (I1 & I2 & _). auto. }
    split; [|split; [|split; [|split]]].
    - split.
      + exact C2.
      + rewrite E2, E1. apply T.
      + intros a' c' t' Hc' Ht'. rewrite VV, !keq_false; [apply (tu_off i s0 s T a' c' t' Hc' Ht')|intros [= -> -> ->]; destruct Hi; contradiction|intros [= -> -> ->]; destruct Hi; contradiction].
      + intros a' t' b E. rewrite VV in E. destruct (keq a t c a' i t') eqn:Ek.
        * apply keq_spec in Ek. injection Ek as Ea Et Ec. subst a' t'. apply keep_some in E. subst b. unfold plus_angles. cbn [isInvert cmplxDiff]. destruct N1 as [I1 I2]. split; [exact I1|]. split; [rewrite (I2 (eq_sym Et)); ring|]. rewrite <- Et in Eb. apply (tu_tgt i s0 s T a c _ Eb).
        * destruct (keq a c t a' i t'); [discriminate|]. apply (tu_ctl i s0 s T a' t' b E).
      + intros a' c' b E. rewrite VV in E. destruct (keq a t c a' c' i) eqn:Ek.
        * apply keq_spec in Ek. injection Ek as Ea Et Ec. subst a' c'. apply keep_some in E. subst b. unfold plus_angles. cbn [isInvert cmplxDiff]. destruct N1 as [I1 I2]. split; [exact I1|]. rewrite <- Ec in Eb. apply (tu_ctl i s0 s T a t _ Eb).
        * destruct (keq a c t a' c' i); [discriminate|]. apply (tu_tgt i s0 s T a' c' b E).
    - rewrite VV, keq_false, keq_refl; [reflexivity|congruence].
    - intros a' c' t' Hk. rewrite VV, keq_false by exact Hk. destruct (keq a c t a' c' t'); congruence.
    - intros a' c' t' Ha. rewrite VV, !keq_false; congruence.
    - intros a0 c0 t0 Hk1 Hk2. rewrite M2, M1; congruence.
  Qed.
  Lemma turn_targets i a s0 s1 : turned i s0 s1 -> let s' := OptimizeBuffer (tsel a) (csel a) (AddAnglesT po a) true i s1 in
    turned i s0 s' /\ (forall a' c' t', a' <> a -> buffer_of s' a' c' t' = buffer_of s1 a' c' t').
  Proof.
    intros T. cbn zeta. unfold OptimizeBuffer. apply (loop_inv _ (fun s => turned i s0 s /\ (forall a' c' t', a' <> a -> buffer_of s a' c' t' = buffer_of s1 a' c' t')) (fun s e => sh_map s (tsel a) i (fst e) = Some (snd e)) fst).
    - intros s e [Hs HO] He. destruct (isInvert (sh_heap s (snd e)) || negb (IS_ARG_0 (cmplxDiff (sh_heap s (snd e))))) eqn:Eb; [split; [split; [exact Hs|exact HO]|auto]|].
      apply orb_false_iff in Eb. destruct Eb as [Ei Ed]. apply negb_false_iff in Ed. apply arg0 in Ed.
      destruct (turn i s0 a (fst e) i (snd e) s _ Hs He Ei Ed (or_intror eq_refl) (or_introl eq_refl)) as (T2 & _ & _ & O2 & M2). split; [split; [exact T2|]|].
      + intros a' c' t' Ha. rewrite O2 by exact Ha. apply HO, Ha.
      + intros e' Hn He'. destruct (cons_ok s (tu_cons _ _ _ Hs) _ _ _ _ He') as (_ & _ & Hct' & _). rewrite M2; [exact He'|congruence|congruence].
    - apply entries_nodup.
    - split; [exact T|reflexivity].
    - intros e He. apply entries_in in He. apply He.
  Qed.
  Lemma turn_controls i a s0 : forall es s, turned i s0 s -> NoDup (map fst es) -> (forall e, In e es -> sh_map s (tsel a) (fst e) i = Some (snd e)) -> (forall t, buffer_of s a i t <> None -> In t (map fst es)) ->
    let s' := fold_left (fun s e =>
      let partner := fst e in
      let buffer := sh_heap s (snd e) in
      if isInvert buffer || negb (IS_ARG_0 (cmplxDiff buffer)) then s
      else
        let s1 := erase (csel a) i partner (erase (tsel a) partner i s) in
        if false then AddAnglesT po a partner i 1%amp (cmplxSame buffer) s1
        else AddAnglesT po a i partner 1%amp (cmplxSame buffer) s1) es s in
    turned i s0 s' /\ (forall t, buffer_of s' a i t = None) /\ (forall a' c' t', a' <> a -> buffer_of s' a' c' t' = buffer_of s a' c' t').
  Proof.
    induction es as [|e es IH]; intros s T ND HE HA; cbn zeta; cbn [fold_left].
    - split; [exact T|]. split; [|reflexivity]. intros t. destruct (buffer_of s a i t) as [b|] eqn:E; [|reflexivity]. destruct (HA t). rewrite E. discriminate.
    - cbn [map] in ND. apply NoDup_cons_iff in ND. destruct ND as [Hn ND]. pose proof (HE e (or_introl eq_refl)) as He. destruct (tu_ctl i s0 s T a (fst e) _ (map_buffer _ _ _ _ _ He)) as (Ei & Ed & _).
      assert (EA : IS_ARG_0 (cmplxDiff (sh_heap s (snd e))) = true) by (rewrite Ed; apply (eqb_refl K)). rewrite Ei, EA. cbn [orb negb].
      destruct (turn i s0 a i (fst e) (snd e) s _ T He Ei Ed (or_introl eq_refl) (or_intror eq_refl)) as (T2 & N2 & S2 & O2 & M2).
      set (s2 := AddAnglesT po a i (fst e) 1%amp (cmplxSame (sh_heap s (snd e))) (erase (csel a) i (fst e) (erase (tsel a) (fst e) i s))) in *.
      destruct (IH s2 T2 ND) as (A1 & A2 & A3).
      + intros e' He'. pose proof (HE e' (or_intror He')) as H'. destruct (cons_ok s (tu_cons _ _ _ T) _ _ _ _ H') as (_ & _ & Hct' & _). rewrite M2; [exact H'| |congruence]. intros [=]. apply Hn. replace (fst e) with (fst e') by congruence. apply in_map, He'.
      + intros t Ht. destruct (N.eq_dec t (fst e)) as [->|Hte]; [congruence|]. destruct (N.eq_dec i (fst e)) as [Eq|Hie]; [destruct (cons_ok s (tu_cons _ _ _ T) _ _ _ _ He) as (_ & _ & H' & _); congruence|].
        assert (Hin : In t (map fst (e :: es))) by (apply HA, S2; [congruence|exact Ht]). destruct Hin as [Eq|Hin]; [congruence|exact Hin].
      + split; [exact A1|]. split; [exact A2|]. intros a' c' t' Ha. rewrite A3 by exact Ha. apply O2, Ha.
  Qed.
  Lemma turn_combine i a s0 s1 : turned i s0 s1 -> turned i s0 (CombineBuffers (tsel a) (csel a) (AddAnglesT po a) i s1).
  Proof.
    intros T0. unfold CombineBuffers.
    apply (loop_inv _ (turned i s0) (fun s e => sh_map s (tsel a) (fst e) i = Some (snd e) /\ sh_map s (tsel a) i (fst e) = sh_map s1 (tsel a) i (fst e)) fst).
    - intros s e Hs [He He2]. pose proof (tu_cons _ _ _ Hs) as C. destruct (cons_ok s C _ _ _ _ He) as (Hc & Ht & Hct & _).
      destruct (sh_map s1 (tsel a) i (fst e)) as [b2|] eqn:E2; [|split; [exact Hs|intros e' _ [R1 R2]; auto]].
      destruct (negb (isInvert (sh_heap s (snd e))) && IS_ARG_0 (cmplxDiff (sh_heap s (snd e)))) eqn:Eb;
        [|destruct (negb (isInvert (sh_heap s b2)) && IS_ARG_0 (cmplxDiff (sh_heap s b2))) eqn:Eb2; [|split; [exact Hs|intros e' _ [R1 R2]; auto]]].
      + apply andb_true_iff in Eb. destruct Eb as [Ei Ed]. apply negb_true_iff in Ei. apply arg0 in Ed.
        destruct (turn i s0 a i (fst e) (snd e) s _ Hs He Ei Ed (or_introl eq_refl) (or_intror eq_refl)) as (T2 & _ & _ & _ & M2). split; [exact T2|].
        intros e' Hn [R1 R2]. destruct (cons_ok s C _ _ _ _ R1) as (_ & _ & Hct' & _). rewrite !M2; [split; assumption| | | |]; congruence.
      + apply andb_true_iff in Eb2. destruct Eb2 as [Ei Ed]. apply negb_true_iff in Ei. apply arg0 in Ed.
        destruct (turn i s0 a (fst e) i b2 s _ Hs He2 Ei Ed (or_intror eq_refl) (or_introl eq_refl)) as (T2 & _ & _ & _ & M2). split; [exact T2|].
        intros e' Hn [R1 R2]. destruct (cons_ok s C _ _ _ _ R1) as (_ & _ & Hct' & _). rewrite !M2; [split; assumption| | | |]; congruence.
    - apply entries_nodup.
    - exact T0.
    - intros e He. apply entries_in in He. rewrite <- (cons_mirror s1 (tu_cons _ _ _ T0)). split; [apply He|reflexivity].
  Qed.

  (** ** Flush0Eigenstate, Flush1Eigenstate *)
  Definition FlushE (a : bool) (i : N) (U : qu) : qu :=
    if a then Flush1Eigenstate cx (RevertBasis2Qb cx) i U else Flush0Eigenstate cx (RevertBasis2Qb cx) i U.
  Definition OptC (a : bool) (i : N) : shards K -> shards K := OptimizeBuffer (csel a) (tsel a) (AddAnglesT po a) false i.
  Lemma flush_eq a i U : FlushE a i U =
    (let W := set_shbuf (if u_rgp U then DumpST po (negb a) i (DumpT po a i (u_buf U)) else DumpT po a i (u_buf U)) U in
    if QUEUED_PHASE i W then ApplyBufferMap cx i (csel (negb a)) INVERT_AND_PHASE true (negb a) [] (onbuf (OptC (negb a) i) (onbuf (CombineGates po i) W)) else W).
  Proof.
    unfold FlushE, Flush0Eigenstate, Flush1Eigenstate, RevertBasis2Qb, onbuf. destruct a, (u_rgp U); cbn zeta.
    all: match goal with |- (if negb ?q then _ else _) = (if ?q' then _ else _) => change q' with q; destruct q; reflexivity end.
  Qed.
  Lemma like_unit (u : K) psi phi : unit1 u -> same_state psi (fun x => u * phi x)%amp -> like phi psi.
  Proof. intros Hu E. apply like_sym. apply (like_c u); [exact Hu|exact E]. Qed.
  Lemma flush_ok a i U : good U -> i < u_n U -> not_inverted (u_buf U) i -> supported i a (meaning U) -> flushed U (FlushE a i U).
  Proof.
    intros G Hi HN HS. destruct (gd_tidy cx U G) as (C0 & E0 & X0). pose proof (tidy_commuting _ _ (gd_tidy cx U G)) as HC0. set (s0 := u_buf U) in *.
    assert (HSf : supported i a (framed U)) by (apply (sup_pending s0 i a (framed U) C0 HN); exact HS).
    assert (NC : forall a' t, buffer_of s0 a' i t = None).
    { intros a' t. destruct (buffer_of s0 a' i t) as [b|] eqn:E; [|reflexivity]. destruct (gd_live cx U G a' i t b E) as [L1 L2]. destruct a; contradiction. }
    pose proof (turned_refl i s0 C0 HN NC) as T0.
    (* dropping the idle buffers *)
    assert (A1 : turned i s0 (DumpT po a i s0)).
    { unfold DumpT, DumpBuffer. destruct (turn_targets i a s0 s0 T0) as [T1 _]. refine (turned_rewrites i a (fun _ => None) s0 _ _ _ T1 (dump_all_ok false a i _ (tu_cons _ _ _ T1))). auto. }
    destruct (dump_control_ok po a i s0 C0 HC0 HN) as (C1 & E1 & HC1 & N1 & P1). set (s1 := DumpT po a i s0) in *.
    (* and the buffers with one phase *)
    assert (A2 : exists s2, (if u_rgp U then DumpST po (negb a) i s1 else s1) = s2 /\ turned i s0 s2 /\ commuting s2 /\ (forall t, buffer_of s2 a i t = None) /\ like (pending s2 (framed U)) (pending s1 (framed U))).
    { destruct (u_rgp U).
      - exists (DumpST po (negb a) i s1). split; [reflexivity|]. destruct (dump_same_ok po (negb a) i s1 C1 HC1 (turned_calm _ _ _ A1)) as (C2 & E2 & HC2 & _ & u & Hu & P2).
        unfold DumpST, DumpSamePhaseBuffer in *. destruct (turn_targets i (negb a) s0 s1 A1) as [T1 O1].
        pose proof (same_all_ok false (negb a) i _ (tu_cons _ _ _ T1)) as R. cbn [msel rsel] in R.
        split; [refine (turned_rewrites i (negb a) _ s0 _ _ _ T1 R); intros b; destruct (negb (isInvert b) && IS_SAME (cmplxDiff b) (cmplxSame b)); auto|]. split; [exact HC2|]. split.
        + intros t. destruct R as (_ & _ & V). rewrite V. unfold touch. assert (Ea : Bool.eqb a (negb a) = false) by (destruct a; reflexivity). rewrite Ea. cbn [andb]. rewrite O1; [apply N1|destruct a; discriminate].
        + apply (like_unit u); [exact Hu|]. apply P2. rewrite negb_involutive. exact HSf.
      - exists s1. split; [reflexivity|]. split; [exact A1|]. split; [exact HC1|]. split; [exact N1|apply like_refl]. }
    destruct A2 as (s2 & Es2 & T2 & HC2 & N2 & L2). rewrite flush_eq. cbn zeta. fold s0. fold s1. rewrite Es2. clear Es2.
    assert (L20 : like (pending s2 (framed U)) (meaning U)) by (eapply like_trans; [exact L2|apply like_ss, P1, HSf]).
    assert (FIN : forall s', turned i s0 s' -> (forall a' t, buffer_of s' a' i t = None) -> like (pending s' (framed U)) (meaning U) -> flushed U (set_shbuf s' U)).
    { intros s' T' N' L'. apply buf_flushed; [exact G|apply T'|apply T'|apply (turned_below i s0 s' T' HN N')|exact L']. }
    destruct (QUEUED_PHASE i (set_shbuf s2 U)) eqn:Q.
    - pose proof (turn_combine i true s0 _ (turn_combine i false s0 s2 T2)) as T3. change (turned i s0 (CombineGates po i s2)) in T3.
      destruct (combine_gates po i s2 (tu_cons _ _ _ T2)) as (C3 & E3 & H3). destruct (H3 HC2) as [HC3 P3]. pose proof (combine_below cx i s2 (tu_cons _ _ _ T2)) as B3.
      set (s3 := CombineGates po i s2) in *.
      destruct (turn_controls i (negb a) s0 (entries s3 (csel (negb a)) i) s3 T3 (entries_nodup _ _ _)) as (T4 & N4 & O4).
      { intros e He. apply entries_in in He. rewrite <- (cons_mirror s3 C3). apply He. }
      { intros t Ht. destruct (buffer_of s3 (negb a) i t) as [b|] eqn:E; [|congruence]. apply buffer_some in E. destruct E as (j & Ej & _). apply in_map_iff. exists (t, j). split; [reflexivity|]. apply (ctl_entries s3 (negb a) i t j C3), Ej. }
      change (turned i s0 (OptC (negb a) i s3)) in T4. change (forall t, buffer_of (OptC (negb a) i s3) (negb a) i t = None) in N4. change (forall a' c' t', a' <> negb a -> buffer_of (OptC (negb a) i s3) a' c' t' = buffer_of s3 a' c' t') in O4.
      destruct (optimize_controls po (negb a) i s3 C3) as (C4 & E4 & H4). destruct (H4 HC3) as [HC4 P4]. change (forall psi, same_state (pending (OptC (negb a) i s3) psi) (pending s3 psi)) in P4.
      change (onbuf (OptC (negb a) i) (onbuf (CombineGates po i) (set_shbuf s2 U))) with (set_shbuf (OptC (negb a) i s3) U). set (s4 := OptC (negb a) i s3) in *. clearbody s4.
      assert (N5 : forall a' t, buffer_of s4 a' i t = None).
      { intros a' t. destruct (Bool.bool_dec a' (negb a)) as [->|Ha]; [apply N4|]. rewrite O4 by exact Ha. assert (Ea : a' = a) by (destruct a, a'; try reflexivity; destruct Ha; reflexivity). subst a'. apply (below_none _ _ _ _ _ B3), N2. }
      assert (EE : entries s4 (csel (negb a)) i = []).
      { destruct (entries s4 (csel (negb a)) i) as [|[p j] l] eqn:E; [reflexivity|]. assert (Hin : In (p, j) (entries s4 (csel (negb a)) i)) by (rewrite E; left; reflexivity).
        apply (ctl_entries s4 (negb a) i p j (tu_cons _ _ _ T4)) in Hin. pose proof (map_buffer _ _ _ _ _ Hin) as Eb. rewrite N5 in Eb. discriminate. }
      unfold ApplyBufferMap. change (u_buf (set_shbuf s4 U)) with s4. rewrite EE. cbn [apply_entries]. apply FIN; [exact T4|exact N5|].
      eapply like_trans; [|exact L20]. apply like_ss. eapply ss_trans; [apply P4|apply P3].
    - apply FIN; [exact T2| |exact L20]. intros a' t. apply (proj1 (queued_iff (set_shbuf s2 U) i (tu_cons _ _ _ T2)) Q).
  Qed.
  Lemma flush_bases a i U : good U -> i < u_n U -> not_inverted (u_buf U) i -> supported i a (meaning U) -> mono U (FlushE a i U).
  Proof. intros G Hi HN HS. apply (fl_mono cx), flush_ok; assumption. Qed.
End P.
