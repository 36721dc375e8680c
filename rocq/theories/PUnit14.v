(** Proofs for QUnit: flushing the buffers of a shard. *)
From Coq Require Import Arith NArith List Bool Lia Ring.
From Verif Require Import Bits MFunctions SpecFunctions PFunctions MKernel PKernel Amp PAmp SpecState PApply PCompose PGates PGates2 PProb PQCirc2 PQCirc3 PEngine MShard SpecShard MUnit SpecUnit PShard1 PShard2 PShard3 PShard4 PShard5 PShard6 PShard7 PShard9 PUnit1 PUnit2 PUnit3 PUnit4 PUnit5 PUnit6 PUnit7 PUnit8 PUnit9 PUnit10 PUnit11 PUnit12 PUnit13.
Import ListNotations.
Local Open Scope N_scope.
Local Notation up n := (upto (N.to_nat n)).

Section P.
  Context {K : StarRing} (cx : Cplx K) (D : definite (K := K)).
  Add Ring KrCC : (sr_ring K).
  Local Notation vec := (N -> K).
  Local Notation unit1 x := (anorm x = 1%amp).
  Local Notation M2 := (mat2 K).
  Local Notation qu := (qunit K).
  Local Notation po := (cx_po cx).
  Local Notation framed := (framed cx).
  Local Notation meaning := (meaning cx).
  Local Notation good := (good cx).
  Implicit Types (U V X : qu) (psi phi : vec) (s : shards K).

  (** Every buffer of [s'] is one of [s], perhaps with other phases. *)
  Definition below s s' : Prop := forall a c t b, buffer_of s' a c t = Some b -> exists b', buffer_of s a c t = Some b' /\ isInvert b' = isInvert b.
  Lemma below_refl s : below s s. Proof. intros a c t b E. exists b. auto. Qed.
  Lemma below_trans s1 s2 s3 : below s1 s2 -> below s2 s3 -> below s1 s3.
  Proof. intros A B a c t b E. destruct (B a c t b E) as (b' & E' & I'). destruct (A a c t b' E') as (b'' & E'' & I''). exists b''. split; [exact E''|congruence]. Qed.
  Lemma below_exclusive s s' : below s s' -> exclusive s -> exclusive s'.
  Proof.
    intros A X a c t b E Ib a' c' t' b' E' H. destruct (A a c t b E) as (d & Ed & Id). destruct (A a' c' t' b' E') as (d' & Ed' & _).
    apply (X a c t d Ed (eq_trans Id Ib) a' c' t' d' Ed' H).
  Qed.
  Lemma below_calm s s' q : below s s' -> not_inverted s q -> not_inverted s' q.
  Proof. intros A H a c b E. destruct (A a c q b E) as (d & Ed & Id). rewrite <- Id. apply (H a c d Ed). Qed.
  Lemma below_none s s' a c t : below s s' -> buffer_of s a c t = None -> buffer_of s' a c t = None.
  Proof. intros A H. destruct (buffer_of s' a c t) as [b|] eqn:E; [|reflexivity]. destruct (A a c t b E) as (d & Ed & _). congruence. Qed.
  Lemma changed_below a c t s s' : changed a c t None s s' -> below s s'.
  Proof. intros (_ & _ & _ & V) a' c' t' b E. rewrite V in E. destruct keq; [discriminate|]. exists b. auto. Qed.
  Lemma keep_some (b d : PhaseShard K) : keep b = Some d -> d = b.
  Proof. unfold keep. destruct (trivial b); [discriminate|intros [= <-]; reflexivity]. Qed.

  (** ** CombineGates *)
  Lemma combine_step_below a c t s s1 m : consistent s -> buffer_of s a c t <> None -> erased a c t s s1 -> buffer_of s a t c <> None -> unit1 m ->
    below s (AddAnglesT po a c t 1%amp m s1).
  Proof.
    intros C Hk Er Hr Hm. assert (R : changed a c t None s s1) by (apply removed_changed; destruct Er as [->| ->]; apply removed_two, C).
    destruct (buffer_of s a t c) as [b2|] eqn:E2; [|congruence]. destruct (buffer_bounds s a t c b2 C E2) as (H1 & H2 & H3).
    assert (C1 : consistent s1) by apply R. assert (Es : sh_size s1 = sh_size s) by apply R. destruct R as (_ & _ & _ & V1).
    destruct (add_angles po a t c 1%amp m s1 C1) as (_ & _ & _ & V2); try (rewrite Es); auto; [apply one_unit|].
    assert (E1 : buffer_of s1 a t c = Some b2) by (rewrite V1, keq_false; [exact E2|congruence]).
    intros a' c' t' b E. rewrite V2 in E. destruct (keq a t c a' c' t') eqn:Ek.
    - apply keq_spec in Ek. injection Ek as -> -> ->. apply keep_some in E. subst b. exists b2. split; [exact E2|]. unfold buf_or_new. rewrite E1. reflexivity.
    - rewrite V1 in E. destruct (keq a c t a' c' t'); [discriminate|]. exists b. auto.
  Qed.
  Lemma map_buffer s a c t i : sh_map s (tsel a) t c = Some i -> buffer_of (K := K) s a c t = Some (sh_heap s i).
  Proof. intros E. apply buffer_some. exists i. auto. Qed.
  Lemma combine_buffers_below a this s0 : consistent s0 -> below s0 (CombineBuffers (tsel a) (csel a) (AddAnglesT po a) this s0).
  Proof.
    intros C0. unfold CombineBuffers.
    match goal with |- below s0 (fold_left ?f ?l s0) => enough (G : (consistent (fold_left f l s0) /\ sh_size (fold_left f l s0) = sh_size s0) /\ below s0 (fold_left f l s0)) by apply G end.
    apply (loop_inv _ (fun s => (consistent s /\ sh_size s = sh_size s0) /\ below s0 s) (fun s e => sh_map s (tsel a) (fst e) this = Some (snd e) /\ sh_map s (tsel a) this (fst e) = sh_map s0 (tsel a) this (fst e)) fst).
    - intros s e [[C Es] Hs] [He He2]. destruct (cons_ok s C _ _ _ _ He) as (Hc & Ht & Hct & Hb & Ud & Us).
      destruct (sh_map s0 (tsel a) this (fst e)) as [b2|] eqn:E2; [|split; [auto|intros e' _ [R1 R2]; auto]].
      destruct (cons_ok s C _ _ _ _ He2) as (_ & _ & _ & Hb2 & Ud2 & Us2).
      destruct (negb (isInvert (sh_heap s (snd e))) && IS_ARG_0 (cmplxDiff (sh_heap s (snd e)))) eqn:Eb;
        [|destruct (negb (isInvert (sh_heap s b2)) && IS_ARG_0 (cmplxDiff (sh_heap s b2))) eqn:Eb2; [|split; [auto|intros e' _ [R1 R2]; auto]]].
      + apply andb_true_iff in Eb. destruct Eb as [Ei Ed]. apply negb_true_iff in Ei. apply arg0 in Ed.
        destruct (move_step po a this (fst e) (snd e) a (fst e) this 1%amp (cmplxSame (sh_heap s (snd e))) s
          (erase (csel a) this (fst e) (erase (tsel a) (fst e) this s)) C He (or_intror eq_refl)) as [H1 H2]; try assumption; try apply one_unit; try congruence.
        { intros psi. rewrite (buf_eta (sh_heap s (snd e))) at 1. rewrite Ed, Ei. apply swap_gate, Hct. }
        split; [split|].
        * destruct H1 as (A & B & _). split; [exact A|congruence].
        * eapply below_trans; [exact Hs|]. apply combine_step_below; auto; [rewrite (map_buffer _ _ _ _ _ He); discriminate|right; reflexivity|rewrite (map_buffer _ _ _ _ _ He2); discriminate].
        * intros e' Hn [R1 R2]. destruct (cons_ok s C _ _ _ _ R1) as (_ & _ & Hct' & _). rewrite !H2; [split; assumption| | | |]; congruence.
      + apply andb_true_iff in Eb2. destruct Eb2 as [Ei Ed]. apply negb_true_iff in Ei. apply arg0 in Ed.
        destruct (move_step po a (fst e) this b2 a this (fst e) 1%amp (cmplxSame (sh_heap s b2)) s
          (erase (tsel a) this (fst e) (erase (csel a) (fst e) this s)) C He2 (or_introl eq_refl)) as [H1 H2]; try assumption; try apply one_unit; try congruence.
        { intros psi. rewrite (buf_eta (sh_heap s b2)) at 1. rewrite Ed, Ei. apply swap_gate; congruence. }
        split; [split|].
        * destruct H1 as (A & B & _). split; [exact A|congruence].
        * eapply below_trans; [exact Hs|]. apply combine_step_below; auto; [rewrite (map_buffer _ _ _ _ _ He2); discriminate|left; reflexivity|rewrite (map_buffer _ _ _ _ _ He); discriminate].
        * intros e' Hn [R1 R2]. destruct (cons_ok s C _ _ _ _ R1) as (_ & _ & Hct' & _). rewrite !H2; [split; assumption| | | |]; congruence.
    - apply entries_nodup.
    - split; [auto|apply below_refl].
    - intros e He. apply entries_in in He. rewrite <- (cons_mirror s0 C0). split; [apply He|reflexivity].
  Qed.
  Lemma combine_below this s0 : consistent s0 -> below s0 (CombineGates po this s0).
  Proof.
    intros C0. destruct (combine_buffers po false this s0 C0) as (C1 & _).
    eapply below_trans; [apply (combine_buffers_below false this s0 C0)|]. apply (combine_buffers_below true this _ C1).
  Qed.

  (** ** Simulators that mean the same *)
  Record keeps U V : Prop := mkKeeps { kp_good : good V; kp_like : like (meaning V) (meaning U); kp_held : held U V; kp_ctl : ctls U V }.
  Lemma keeps_refl U : good U -> keeps U U.
  Proof. intros G. split; [exact G|apply like_refl|apply held_refl|apply ctls_refl]. Qed.
  Lemma keeps_trans U V X : keeps U V -> keeps V X -> keeps U X.
  Proof. intros [A1 A2 A3 A4] [B1 B2 B3 B4]. split; [exact B1|eapply like_trans; eassumption|eapply held_trans; eassumption|eapply ctls_trans; eassumption]. Qed.
  Lemma keeps_n U V : keeps U V -> u_n V = u_n U.
  Proof. intros [_ _ (_ & E & _) _]. exact E. Qed.
  Record flushed U V : Prop := mkFl { fl_keeps : keeps U V; fl_mono : mono U V; fl_below : below (u_buf U) (u_buf V) }.
  Lemma flushed_refl U : good U -> flushed U U.
  Proof. intros G. split; [apply keeps_refl, G|apply mono_refl|apply below_refl]. Qed.
  Lemma flushed_trans U V X : flushed U V -> flushed V X -> flushed U X.
  Proof. intros [A1 A2 A3] [B1 B2 B3]. split; [eapply keeps_trans; eassumption|eapply mono_trans; eassumption|eapply below_trans; eassumption]. Qed.
  Lemma flushed_n U V : flushed U V -> u_n V = u_n U.
  Proof. intros F. apply keeps_n, (fl_keeps U V F). Qed.
  Lemma flushed_good U V : flushed U V -> good V.
  Proof. intros F. apply (kp_good U V (fl_keeps U V F)). Qed.
  (** A change of shards and engines that keeps the buffers. *)
  Lemma sound_keeps U V : good U -> sound cx U V -> keeps U V.
  Proof.
    intros G S. destruct (so_kept cx U V S) as (K1 & K2 & K3 & K4 & K5 & K6 & K7).
    assert (L : like (meaning V) (meaning U)) by (unfold PUnit10.meaning; rewrite K4; apply like_pending, (so_like cx U V S)).
    split; [|exact L|repeat split; assumption|unfold ctls, links; rewrite K4; auto]. split; [apply S|apply S|rewrite K2, K4; apply (gd_tidy cx U G)| |rewrite K7; apply (gd_ub cx U G)].
    intros a c t b E. rewrite K4 in E. apply (two_like c _ _ L). apply (gd_live cx U G a c t b E).
  Qed.
  (** A change of the buffers alone. *)
  Lemma buf_keeps s' U : good U -> tidy (u_n U) s' -> (forall a c t b, buffer_of s' a c t = Some b -> two_sided c (meaning U)) -> ctls U (set_shbuf s' U) -> like (pending s' (framed U)) (meaning U) ->
    keeps U (set_shbuf s' U).
  Proof.
    intros G T HL HC L. assert (L' : like (meaning (set_shbuf s' U)) (meaning U)) by exact L.
    split; [|exact L'|apply held_buf|exact HC]. split; [apply wf_buf, G|apply neat_buf, G|exact T| |apply (gd_ub cx U G)].
    intros a c t b E. apply (two_like c _ _ L'). apply (HL a c t b E).
  Qed.
  Lemma below_ctls U V : below (u_buf U) (u_buf V) -> ctls U V.
  Proof. intros B c t (a & b & E). destruct (B a c t b E) as (b' & E' & _). exists a, b'. exact E'. Qed.
  Lemma buf_flushed s' U : good U -> consistent s' -> sh_size s' = sh_size (u_buf U) -> below (u_buf U) s' -> like (pending s' (framed U)) (meaning U) -> flushed U (set_shbuf s' U).
  Proof.
    intros G C E B L. destruct (gd_tidy cx U G) as (T1 & T2 & T3). split; [|intros p; left; reflexivity|exact B].
    apply buf_keeps; auto.
    - split; [exact C|]. split; [congruence|]. apply (below_exclusive _ _ B T3).
    - intros a c t b Eb. destruct (B a c t b Eb) as (b' & E' & _). apply (gd_live cx U G a c t b' E').
    - apply below_ctls, B.
  Qed.
  Lemma combine_flushed i U : good U -> flushed U (onbuf (CombineGates po i) U).
  Proof.
    intros G. destruct (gd_tidy cx U G) as (C & E & Xs). destruct (combine_gates po i (u_buf U) C) as (C1 & E1 & H). destruct (H (tidy_commuting _ _ (gd_tidy cx U G))) as [_ H2].
    apply buf_flushed; auto; [apply combine_below, C|apply like_ss, H2].
  Qed.

  (** ** One buffer *)
  Lemma pending_lost a c t b s s1 psi : consistent s -> commuting s -> buffer_of s a c t = Some b -> changed a c t None s s1 ->
    same_state (pending s psi) (pending s1 (gate1 (fires a c) t (matrix_of a b) psi)).
  Proof.
    intros C HC E Ch. destruct (lost_commuting a c t s s1 HC Ch) as [C1 Hg]. destruct (buffer_bounds s a c t b C E) as (H1 & H2 & _). assert (Es : sh_size s1 = sh_size s) by apply Ch.
    assert (Eg : forall phi, gate_at s (a, c, t) phi = gate1 (fires a c) t (matrix_of a b) phi) by (intros phi; rewrite gate_at_eq, E; reflexivity).
    assert (Pg : forall f h : vec, same_state f h -> same_state (gate_at s (a, c, t) f) (gate_at s (a, c, t) h)) by (intros f h H; apply gate_at_proper, H).
    apply ss_trans with (gate_at s (a, c, t) (pending s1 psi)).
    - apply (pending_gain (gate_at s (a, c, t)) a c t s1 s psi); rewrite ?Es; auto; [apply gains_back, Ch|]. intros j phi _. apply Hg.
    - rewrite <- Eg. unfold pending. induction (all_pairs (sh_size s1)) as [|k l IH]; cbn [fold_right]; [apply ss_refl|].
      eapply ss_trans; [apply Hg|]. apply gate_at_proper, IH.
  Qed.
  Lemma flush_one a c t b s1 U : good U -> buffer_of (u_buf U) a c t = Some b -> changed a c t None (u_buf U) s1 ->
    let V := ApplyBuffer cx b c t a (set_shbuf s1 U) in flushed U V /\ u_buf V = s1.
  Proof.
    intros G E Ch. cbn zeta. destruct (gd_tidy cx U G) as (C & Es & Xs). destruct (buffer_bounds _ a c t b C E) as (Hc & Ht & Hct). rewrite Es in Hc, Ht.
    destruct (buffer_units _ a c t b C E) as [Ud Us]. pose proof (changed_below _ _ _ _ _ Ch) as B1.
    destruct (apply_buffer_ok cx D b c t a (set_shbuf s1 U)) as [A M]; auto.
    - apply wf_buf, G.
    - apply neat_buf, G.
    - rewrite framed_buf. apply (live_framed cx U a c t b G E).
    - cbn [u_buf set_shbuf]. apply (below_calm _ _ c B1). apply (control_calm _ a c t b C Xs E).
    - set (V := ApplyBuffer cx b c t a (set_shbuf s1 U)) in *. destruct A as [A1 A2 A3 A4]. destruct A4 as (K1 & K2 & K3 & K4 & K5 & K6 & K7). cbn in K1, K2, K3, K4, K5, K6, K7. split; [|exact K4].
      assert (L : like (meaning V) (meaning U)).
      { unfold PUnit10.meaning. rewrite K4. eapply like_trans; [apply like_pending, A3|]. apply like_ss, ss_sym. rewrite framed_buf.
        apply (pending_lost a c t b (u_buf U) s1 _ C (tidy_commuting _ _ (gd_tidy cx U G)) E Ch). }
      split; [|exact M|rewrite K4; exact B1]. split; [|exact L|repeat split; assumption|apply below_ctls; rewrite K4; exact B1].
      split; auto.
      + rewrite K2, K4. destruct Ch as (C1 & E1 & _). split; [exact C1|]. split; [congruence|]. apply (below_exclusive _ _ B1 Xs).
      + intros a' c' t' b' E'. rewrite K4 in E'. destruct (B1 a' c' t' b' E') as (d & Ed & _). apply (two_like c' _ _ L). apply (gd_live cx U G a' c' t' d Ed).
      + rewrite K7. apply (gd_ub cx U G).
  Qed.

  (** ** The buffers of one map *)
  Definition cleared (e : RevertExclusivity) (ex : list N) (dir a : bool) (i : N) s : Prop :=
    forall p b, buffer_of s a (kc dir i p) (kt dir i p) = Some b -> skips e (isInvert b) = true \/ existsb (N.eqb p) ex = true.
  Lemma cleared_below e ex dir a i s s' : below s s' -> cleared e ex dir a i s -> cleared e ex dir a i s'.
  Proof. intros B H p b E. destruct (B _ _ _ b E) as (d & Ed & Id). rewrite <- Id. apply (H p d Ed). Qed.
  Definition rem_of (dir a : bool) (i p : N) : shards K -> shards K :=
    match negb dir, a with true, true => RemoveAntiTarget i p | true, false => RemoveTarget i p | false, true => RemoveAntiControl i p | false, false => RemoveControl i p end.
  Lemma rem_changed dir a i p s : consistent s -> changed a (kc dir i p) (kt dir i p) None s (rem_of dir a i p s).
  Proof.
    intros C. apply removed_changed. destruct dir.
    - cbn [kc kt]. assert (E : rem_of true a i p s = RemoveBuffer (tsel a) (csel a) i p s) by (destruct a; reflexivity). rewrite E. apply remove_t, C.
    - cbn [kc kt]. assert (E : rem_of false a i p s = RemoveBuffer (csel a) (tsel a) i p s) by (destruct a; reflexivity). rewrite E. apply remove_c, C.
  Qed.
  Lemma entries_flush dir a i e ex : forall es U, good U -> NoDup (map fst es) -> (forall p b, In (p, b) es -> sh_map (u_buf U) (tsel a) (kt dir i p) (kc dir i p) = Some b) ->
    let V := apply_entries cx i es e (negb dir) a ex U in flushed U V /\
    (forall p b, In p (map fst es) -> buffer_of (u_buf V) a (kc dir i p) (kt dir i p) = Some b -> skips e (isInvert b) = true \/ existsb (N.eqb p) ex = true).
  Proof.
    induction es as [|[p b] es IH]; intros U G ND HE; cbn zeta.
    - split; [apply flushed_refl, G|]. intros p b [].
    - cbn [map fst] in ND. apply NoDup_cons_iff in ND. destruct ND as [Hn ND]. pose proof (HE p b (or_introl eq_refl)) as Ep.
      assert (HE' : forall q j, In (q, j) es -> sh_map (u_buf U) (tsel a) (kt dir i q) (kc dir i q) = Some j) by (intros q j Hq; apply HE; right; exact Hq).
      assert (SK : forall V, V = apply_entries cx i es e (negb dir) a ex U -> skips e (isInvert (sh_heap (u_buf U) b)) = true \/ existsb (N.eqb p) ex = true ->
         flushed U V /\ (forall q j, In q (map fst ((p, b) :: es)) -> buffer_of (u_buf V) a (kc dir i q) (kt dir i q) = Some j -> skips e (isInvert j) = true \/ existsb (N.eqb q) ex = true)).
      { intros V -> S. destruct (IH U G ND HE') as [F H]. split; [exact F|]. intros q j [Hq|Hq] Ej; [|apply (H q j Hq Ej)]. cbn [fst] in Hq. subst q.
        destruct (fl_below _ _ F _ _ _ _ Ej) as (d & Ed & Id). rewrite (map_buffer _ _ _ _ _ Ep) in Ed. injection Ed as <-. rewrite <- Id. exact S. }
      cbn [apply_entries]. destruct (skips e (isInvert (sh_heap (u_buf U) b))) eqn:S1; [apply SK; auto|]. destruct (existsb (N.eqb p) ex) eqn:S2; [apply SK; auto|]. clear SK.
      fold (rem_of dir a i p). destruct (gd_tidy cx U G) as (C & _). pose proof (rem_changed dir a i p (u_buf U) C) as Ch.
      destruct (flush_one a _ _ _ _ U G (map_buffer _ _ _ _ _ Ep) Ch) as [F1 EB].
      set (U1 := if negb dir then ApplyBuffer cx (sh_heap (u_buf U) b) i p a (onbuf (rem_of dir a i p) U) else ApplyBuffer cx (sh_heap (u_buf U) b) p i a (onbuf (rem_of dir a i p) U)).
      assert (E1 : U1 = ApplyBuffer cx (sh_heap (u_buf U) b) (kc dir i p) (kt dir i p) a (set_shbuf (rem_of dir a i p (u_buf U)) U)) by (unfold U1, onbuf; destruct dir; reflexivity).
      rewrite <- E1 in F1, EB. destruct Ch as (_ & _ & M & V).
      destruct (IH U1 (flushed_good _ _ F1) ND) as [F2 H].
      { intros q j Hq. rewrite EB, M; [apply (HE' q j Hq)|]. intros Ek. apply Hn. replace p with q; [apply in_map_iff; exists (q, j); auto|]. destruct dir; cbn [kc kt] in Ek; congruence. }
      split; [eapply flushed_trans; eassumption|]. intros q j [Hq|Hq] Ej; [|apply (H q j Hq Ej)]. cbn [fst] in Hq. subst q.
      destruct (fl_below _ _ F2 _ _ _ _ Ej) as (d & Ed & _). rewrite EB, V, keq_refl in Ed. discriminate.
  Qed.
  Lemma map_flush dir a i e ex U : good U -> let V := ApplyBufferMap cx i (msel dir a) e (negb dir) a ex U in flushed U V /\ cleared e ex dir a i (u_buf V).
  Proof.
    intros G. cbn zeta. destruct (gd_tidy cx U G) as (C & _). unfold ApplyBufferMap.
    destruct (entries_flush dir a i e ex (entries (u_buf U) (msel dir a) i) U G (entries_nodup _ _ _)) as [F H].
    - intros p b Hin. apply entries_in in Hin. cbn [fst snd] in Hin. rewrite <- (msel_map dir a i p _ C). apply Hin.
    - split; [exact F|]. intros p b E. apply (H p b); [|exact E]. destruct (fl_below _ _ F _ _ _ _ E) as (d & Ed & _).
      apply buffer_some in Ed. destruct Ed as (j & Ej & _). apply in_map_iff. exists (p, j). split; [reflexivity|]. apply entries_in. cbn [fst snd]. rewrite (msel_map dir a i p _ C). split; [|exact Ej].
      destruct (cons_ok _ C _ _ _ _ Ej) as (H1 & H2 & _). destruct dir; assumption.
  Qed.

  (** ** RevertBasis2Qb without OptimizeBuffer *)
  Definition plain (c : RevertControl) (e : RevertExclusivity) (skip : bool) : Prop :=
    match c with CONTROLS_AND_TARGETS => True | _ => skip = true \/ e = ONLY_INVERT end.
  Definition reverted (i : N) (e : RevertExclusivity) (c : RevertControl) (an : RevertAnti) (ec et : list N) s : Prop :=
    (c <> ONLY_TARGETS -> (an <> ONLY_ANTI -> cleared e ec false false i s) /\ (an <> ONLY_CTRL -> cleared e ec false true i s)) /\
    (c <> ONLY_CONTROLS -> (an <> ONLY_ANTI -> cleared e et true false i s) /\ (an <> ONLY_CTRL -> cleared e et true true i s)).
  Definition both_maps (dir : bool) (i : N) (e : RevertExclusivity) (an : RevertAnti) (ex : list N) (U : qu) : qu :=
    let V := match an with ONLY_ANTI => U | _ => ApplyBufferMap cx i (msel dir false) e (negb dir) false ex U end in
    match an with ONLY_CTRL => V | _ => ApplyBufferMap cx i (msel dir true) e (negb dir) true ex V end.
  Lemma both_flush dir i e an ex U : good U -> let V := both_maps dir i e an ex U in flushed U V /\ (an <> ONLY_ANTI -> cleared e ex dir false i (u_buf V)) /\ (an <> ONLY_CTRL -> cleared e ex dir true i (u_buf V)).
  Proof.
    intros G. cbn zeta. unfold both_maps. destruct (map_flush dir false i e ex U G) as [F1 H1]. destruct (map_flush dir true i e ex U G) as [F2 H2].
    destruct (map_flush dir true i e ex _ (flushed_good _ _ F1)) as [F3 H3]. destruct an.
    - split; [apply (flushed_trans _ _ _ F1 F3)|]. split; [intros _; apply (cleared_below _ _ _ _ _ _ _ (fl_below _ _ F3) H1)|intros _; exact H3].
    - split; [exact F1|]. split; [intros _; exact H1|congruence].
    - split; [exact F2|]. split; [congruence|intros _; exact H2].
  Qed.
  Lemma cleared_idle e ex dir a i U : consistent (u_buf U) -> QUEUED_PHASE i U = false -> cleared e ex dir a i (u_buf U).
  Proof.
    intros C Q p b E. pose proof (proj1 (queued_iff U i C) Q) as H. destruct dir; cbn [kc kt] in E; [rewrite (proj1 (H a p)) in E|rewrite (proj2 (H a p)) in E]; discriminate.
  Qed.
  Lemma revert2_eq i e c an ec et skip U : plain c e skip -> RevertBasis2Qb cx i e c an ec et skip U = if QUEUED_PHASE i U then
    match c with
    | CONTROLS_AND_TARGETS => both_maps true i e an et (both_maps false i e an ec (onbuf (CombineGates po i) U))
    | ONLY_CONTROLS => both_maps false i e an ec (onbuf (CombineGates po i) U)
    | ONLY_TARGETS => both_maps true i e an et (onbuf (CombineGates po i) U)
    end else U.
  Proof.
    intros Pl. unfold RevertBasis2Qb. destruct (QUEUED_PHASE i U); [|reflexivity]. cbn [negb].
    destruct c; [reflexivity| |]; (destruct Pl as [->| ->]; [reflexivity|destruct skip; reflexivity]).
  Qed.
  Lemma revert2_ok i e c an ec et skip U : good U -> plain c e skip -> let V := RevertBasis2Qb cx i e c an ec et skip U in flushed U V /\ reverted i e c an ec et (u_buf V).
  Proof.
    intros G Pl. cbn zeta. rewrite revert2_eq by exact Pl. destruct (gd_tidy cx U G) as (C & _). destruct (QUEUED_PHASE i U) eqn:Q.
    - pose proof (combine_flushed i U G) as F1. set (U1 := onbuf (CombineGates po i) U) in *.
      destruct (both_flush false i e an ec U1 (flushed_good _ _ F1)) as (F2 & H2).
      destruct (both_flush true i e an et U1 (flushed_good _ _ F1)) as (F3 & H3).
      destruct (both_flush true i e an et _ (flushed_good _ _ F2)) as (F4 & H4 & H4').
      destruct c.
      + split; [eapply flushed_trans; [exact F1|]; eapply flushed_trans; [exact F2|exact F4]|]. split; intros _; [|split; [exact H4|exact H4']].
        split; intros Hn; apply (cleared_below _ _ _ _ _ _ _ (fl_below _ _ F4)); apply H2, Hn.
      + split; [eapply flushed_trans; [exact F1|exact F2]|]. split; [intros _; exact H2|congruence].
      + split; [eapply flushed_trans; [exact F1|exact F3]|]. split; [congruence|intros _; exact H3].
    - split; [apply flushed_refl, G|]. split; intros _; (split; intros _); apply cleared_idle; assumption.
  Qed.
  (** The calls that are made. *)
  Lemma revert2_calm i U : good U -> let V := RevertBasis2Qb cx i ONLY_INVERT ONLY_TARGETS CTRL_AND_ANTI [] [] false U in flushed U V /\ not_inverted (u_buf V) i.
  Proof.
    intros G. cbn zeta. destruct (revert2_ok i ONLY_INVERT ONLY_TARGETS CTRL_AND_ANTI [] [] false U G (or_intror eq_refl)) as [F [_ R]]. split; [exact F|].
    destruct R as [R1 R2]; [discriminate|]. specialize (R1 ltac:(discriminate)). specialize (R2 ltac:(discriminate)). intros a c b E.
    assert (H : skips ONLY_INVERT (isInvert b) = true \/ existsb (N.eqb c) [] = true) by (destruct a; [apply (R2 c b E)|apply (R1 c b E)]).
    destruct H as [H|H]; [apply negb_true_iff in H; exact H|discriminate].
  Qed.
  Lemma revert2_clear i U : good U -> let V := RevertBasis2Qb cx i INVERT_AND_PHASE CONTROLS_AND_TARGETS CTRL_AND_ANTI [] [] false U in
    flushed U V /\ (forall a p, buffer_of (u_buf V) a p i = None /\ buffer_of (u_buf V) a i p = None).
  Proof.
    intros G. cbn zeta. destruct (revert2_ok i INVERT_AND_PHASE CONTROLS_AND_TARGETS CTRL_AND_ANTI [] [] false U G I) as [F [Rc Rt]]. split; [exact F|].
    destruct Rc as [Rc1 Rc2]; [discriminate|]. destruct Rt as [Rt1 Rt2]; [discriminate|]. specialize (Rc1 ltac:(discriminate)). specialize (Rc2 ltac:(discriminate)). specialize (Rt1 ltac:(discriminate)). specialize (Rt2 ltac:(discriminate)).
    set (s := u_buf (RevertBasis2Qb cx i INVERT_AND_PHASE CONTROLS_AND_TARGETS CTRL_AND_ANTI [] [] false U)) in *.
    assert (G0 : forall dir a p, cleared INVERT_AND_PHASE [] dir a i s -> buffer_of s a (kc dir i p) (kt dir i p) = None).
    { intros dir a p H. destruct (buffer_of s a (kc dir i p) (kt dir i p)) as [b|] eqn:E; [|reflexivity]. destruct (H p b E); discriminate. }
    intros a p. split; [apply (G0 true a p)|apply (G0 false a p)]; destruct a; assumption.
  Qed.
End P.
