(** Proofs for QUnit: the state with its buffers, and the gates S, IS, Phase and Invert on it. *)
From Coq Require Import Arith NArith List Bool Lia Ring.
From Verif Require Import Bits MFunctions SpecFunctions PFunctions MKernel PKernel Amp PAmp SpecState PApply PCompose PGates PGates2 PProb PQCirc2 PQCirc3 PEngine MShard SpecShard MUnit PShard1 PShard2 PShard5 PShard6 PShard7 PShard9 PUnit1 PUnit2 PUnit3 PUnit4 PUnit5 PUnit6 PUnit7 PUnit8 PUnit9.
Import ListNotations.
Local Open Scope N_scope.
Local Notation up n := (upto (N.to_nat n)).

Section P.
  Context {K : StarRing} (cx : Cplx K) (D : definite (K := K)).
  Add Ring KrBY : (sr_ring K).
  Local Notation wf := (wf cx).
  Local Notation vec := (N -> K).
  Local Notation unit1 x := (anorm x = 1%amp).
  Local Notation M2 := (mat2 K).
  Local Notation qu := (qunit K).
  Local Notation framed := (framed cx).
  Local Notation ii := (cx_i cx).
  Local Notation hh := (cx_h cx).
  Local Notation acts := (acts cx).
  Implicit Types (U V X : qu) (psi phi : vec) (s : shards K).

  Definition meaning U : vec := pending (u_buf U) (framed U).
  Definition live U : Prop := forall a c t b, buffer_of (u_buf U) a c t = Some b -> two_sided c (meaning U).
  Definition held U V : Prop := u_rgp V = u_rgp U /\ u_n V = u_n U /\ u_sw V = u_sw U /\ u_ph V = u_ph U /\ u_rnd V = u_rnd U /\ u_ub V = u_ub U.
  Lemma held_refl U : held U U. Proof. repeat split. Qed.
  Lemma held_trans U V X : held U V -> held V X -> held U X.
  Proof. unfold held. intuition congruence. Qed.
  Lemma kept_held U V : kept U V -> held U V.
  Proof. unfold kept, held. intuition. Qed.
  Record good U : Prop := mkGood {
    gd_wf : wf U;
    gd_neat : neat U;
    gd_tidy : tidy (u_n U) (u_buf U);
    gd_live : live U;
    gd_ub : u_ub U = false
  }.
  (** The same simulator with other buffers. *)
  Lemma wf_buf s U : wf U -> wf (set_shbuf s U).
  Proof. intros [W1 W2 W3 W4 W5 W6]. split; assumption. Qed.
  Lemma neat_buf s U : neat U -> neat (set_shbuf s U).
  Proof. intros [N1 N2]. split; assumption. Qed.
  Lemma framed_buf s U : framed (set_shbuf s U) = framed U. Proof. reflexivity. Qed.
  Lemma held_buf s U : held U (set_shbuf s U). Proof. repeat split. Qed.
  Lemma kept_buf U : kept U (set_shbuf (u_buf U) U). Proof. repeat split. Qed.

  (** Supports and buffers that do not invert. *)
  Lemma two_gate_at s c k psi : consistent s -> not_inverted s c -> two_sided c (gate_at s k psi) <-> two_sided c psi.
  Proof.
    intros C HN. destruct k as [[a d] t]. unfold gate_at. destruct (buffer_of s a d t) as [b|] eqn:E; [|reflexivity].
    destruct (key_range _ _ _ _ _ C E) as (_ & _ & Hdt). pose proof (unitary_of s a d t b C E) as Um.
    destruct (N.eq_dec c t) as [->|Hct].
    - apply two_diag; [apply diag_of, (HN a d b E)|apply fires_indep; exact Hdt|exact Um].
    - apply two_apart; [exact Hct|apply fires_indep; exact Hdt|exact Um].
  Qed.
  Lemma two_pending s c psi : consistent s -> not_inverted s c -> two_sided c (pending s psi) <-> two_sided c psi.
  Proof.
    intros C HN. unfold pending. induction (all_pairs (sh_size s)) as [|k l IH]; cbn [fold_right]; [reflexivity|].
    rewrite (two_gate_at s c k _ C HN). exact IH.
  Qed.
  Lemma sup_gate_at s c v k psi : consistent s -> not_inverted s c -> supported c v (gate_at s k psi) <-> supported c v psi.
  Proof.
    intros C HN. destruct k as [[a d] t]. unfold gate_at. destruct (buffer_of s a d t) as [b|] eqn:E; [|reflexivity].
    destruct (key_range _ _ _ _ _ C E) as (_ & _ & Hdt). pose proof (unitary_of s a d t b C E) as Um.
    destruct (N.eq_dec c t) as [->|Hct].
    - apply supported_diag_iff; [apply diag_of, (HN a d b E)|apply fires_indep; exact Hdt|exact Um].
    - apply supported_apart_iff; [exact Hct|apply fires_indep; exact Hdt|exact Um].
  Qed.
  Lemma sup_pending s c v psi : consistent s -> not_inverted s c -> supported c v (pending s psi) <-> supported c v psi.
  Proof.
    intros C HN. unfold pending. induction (all_pairs (sh_size s)) as [|k l IH]; cbn [fold_right]; [reflexivity|].
    rewrite (sup_gate_at s c v k _ C HN). exact IH.
  Qed.
  Lemma control_calm s a c t b : consistent s -> exclusive s -> buffer_of s a c t = Some b -> not_inverted s c.
  Proof.
    intros C Xs E a' c' b' E'. destruct (isInvert b') eqn:Ib; [|reflexivity]. pose proof (Xs _ _ _ _ E' Ib _ _ _ _ E (or_introl eq_refl)) as Ek.
    injection Ek as -> -> ->. destruct (key_range _ _ _ _ _ C E') as (_ & _ & H). contradiction.
  Qed.
  Lemma live_framed U a c t b : good U -> buffer_of (u_buf U) a c t = Some b -> two_sided c (framed U).
  Proof.
    intros G E. destruct (gd_tidy U G) as (C & _ & Xs). apply (two_pending (u_buf U) c (framed U) C (control_calm _ _ _ _ _ C Xs E)). apply (gd_live U G a c t b E).
  Qed.

  (** ** Gates on one qubit *)
  (** The qubits that control some buffer of V control some buffer of U. *)
  Definition links U (c t : N) : Prop := exists a b, buffer_of (u_buf U) a c t = Some b.
  Definition ctls U V : Prop := forall c t, links V c t -> links U c t.
  Lemma ctls_refl U : ctls U U. Proof. intros c t H. exact H. Qed.
  Lemma ctls_trans U V X : ctls U V -> ctls V X -> ctls U X. Proof. intros A B c t H. apply A, B, H. Qed.
  Record does (q : N) (M : M2) U V : Prop := mkDoes {
    do_good : good V;
    do_like : like (meaning V) (gate1 always q M (meaning U));
    do_held : held U V;
    do_ctl : ctls U V
  }.
  Lemma does_id q U : good U -> does q midn U U.
  Proof. intros G. split; [exact G|apply like_ss, ss_sym; intros x; apply gate1_one|apply held_refl|apply ctls_refl]. Qed.
  Lemma does_then q M1 M2' U V X : does q M1 U V -> does q M2' V X -> does q (mmul M2' M1) U X.
  Proof.
    intros [A1 A2 A3 A4] [B1 B2 B3 B4]. split; [exact B1| |eapply held_trans; eassumption|eapply ctls_trans; eassumption].
    eapply like_trans; [exact B2|]. eapply like_trans; [apply like_gate, A2|]. apply like_ss. intros x. rewrite gate1_compose by apply indep_always. reflexivity.
  Qed.
  Lemma does_scalar q (c : K) (M M' : M2) U V : does q M U V -> unit1 c -> M' = mmul (phaseM c c) M -> does q M' U V.
  Proof.
    intros [A1 A2 A3 A4] Hc ->. split; [exact A1| |exact A3|exact A4]. eapply like_trans; [exact A2|]. apply like_sym.
    apply (like_c c); [exact Hc|]. intros x. rewrite <- (gate_scalar c q (gate1 always q M (meaning U)) x).
    change (mkMat c 0%amp 0%amp c) with (phaseM c c). rewrite gate1_compose by apply indep_always. reflexivity.
  Qed.
  Lemma lift_acts q M s' U V : good U -> q < u_n U -> unitary2 M -> diag M \/ anti M -> carried q M (u_buf U) s' -> tidy (u_n U) s' ->
    (forall a c t b, buffer_of s' a c t = Some b -> exists a' b', buffer_of (u_buf U) a' c t = Some b') -> acts q M (set_shbuf s' U) V -> does q M U V.
  Proof.
    intros G Hq Um HM (C1 & C2 & C3 & C4) T HK [A1 A2 A3 A4 A5]. destruct A4 as (K1 & K2 & K3 & K4 & K5 & K6 & K7). cbn in K1, K2, K3, K4, K5, K6, K7.
    assert (L : like (meaning V) (gate1 always q M (meaning U))).
    { unfold meaning. rewrite K4. eapply like_trans; [apply like_pending, A3|]. apply like_ss. rewrite framed_buf. apply C4. }
    split; [|exact L|repeat split; assumption|intros c t (a & b & E); rewrite K4 in E; destruct (HK a c t b E) as (a' & b' & E'); exists a', b'; exact E']. split; auto.
    - rewrite K2, K4. exact T.
    - intros a c t b E. rewrite K4 in E. destruct (HK a c t b E) as (a' & b' & E'). apply (two_like c _ _ L). pose proof (gd_live U G a' c t b' E') as T2.
      destruct (N.eq_dec c q) as [->|Hc]; [destruct HM as [HM|HM]; [apply two_diag|apply two_anti]; auto; apply indep_always|].
      apply two_apart; auto. apply indep_always.
    - rewrite K7. apply (gd_ub U G).
  Qed.
  Lemma alike_keys s s' : alike s s' -> forall a c t b, buffer_of s' a c t = Some b -> exists a' b', buffer_of s a' c t = Some b'.
  Proof. intros A a c t b E. destruct (alike_some _ _ _ _ _ _ A E) as (d & Ed & _). exists a, d. exact Ed. Qed.

  Lemma gates_ok q U : good U -> q < u_n U -> does q (phaseM 1 ii)%amp U (GateS cx q U).
  Proof.
    intros G Hq. rewrite GateS_eq. destruct (commute_phase_tidy cx (u_n U) q 1%amp ii (u_buf U) (gd_tidy U G) one_unit (i_u cx)) as (T & A & Ca).
    apply (lift_acts q _ _ U _ G Hq (diag_unitary _ _ one_unit (i_u cx)) (or_introl (conj eq_refl eq_refl)) Ca T (alike_keys _ _ A)).
    apply core_S_ok; [apply wf_buf, (gd_wf U G)|apply neat_buf, (gd_neat U G)|exact Hq].
  Qed.
  Lemma gateis_ok q U : good U -> q < u_n U -> does q (phaseM 1 (- ii))%amp U (GateIS cx q U).
  Proof.
    intros G Hq. rewrite GateIS_eq. destruct (commute_phase_tidy cx (u_n U) q 1%amp (- ii)%amp (u_buf U) (gd_tidy U G) one_unit (ni_u cx)) as (T & A & Ca).
    apply (lift_acts q _ _ U _ G Hq (diag_unitary _ _ one_unit (ni_u cx)) (or_introl (conj eq_refl eq_refl)) Ca T (alike_keys _ _ A)).
    apply core_IS_ok; [apply wf_buf, (gd_wf U G)|apply neat_buf, (gd_neat U G)|exact Hq].
  Qed.
  Lemma Phase_eq tl br q U : Phase cx tl br q U =
    (let short := u_rgp U || sr_eqb tl 1%amp in
    if short && is0 (tl - br)%amp then U
    else if short && is0 (ii * tl - br)%amp then GateS cx q U
    else if short && is0 (ii * tl + br)%amp then GateIS cx q U
    else core_phase cx tl br q (onbuf (CommutePhase (cx_po cx) q tl br) U)).
  Proof. reflexivity. Qed.
  Lemma sub_zero (x y : K) : (x - y = 0)%amp -> y = x.
  Proof. intros E. transitivity (x - (x - y))%amp; [ring|]. rewrite E. ring. Qed.
  Lemma add_zero (x y : K) : (x + y = 0)%amp -> y = (- x)%amp.
  Proof. intros E. transitivity ((x + y) - x)%amp; [ring|]. rewrite E. ring. Qed.
  Lemma phase_ok tl br q U : good U -> q < u_n U -> unit1 tl -> unit1 br -> does q (phaseM tl br) U (Phase cx tl br q U).
  Proof.
    intros G Hq Ht Hb. rewrite Phase_eq. cbn zeta. set (short := u_rgp U || sr_eqb tl 1%amp).
    destruct (short && is0 (tl - br)%amp) eqn:E1; [|destruct (short && is0 (ii * tl - br)%amp) eqn:E2; [|destruct (short && is0 (ii * tl + br)%amp) eqn:E3]].
    - apply andb_prop in E1. destruct E1 as [_ E1]. apply is0_iff, sub_zero in E1. subst br. apply (does_scalar q tl midn _ U U (does_id q U G) Ht). rewrite mmul_1_r. reflexivity.
    - apply andb_prop in E2. destruct E2 as [_ E2]. apply is0_iff, sub_zero in E2. subst br. apply (does_scalar q tl _ _ U _ (gates_ok q U G Hq) Ht).
      apply mat2_eq; unfold phaseM, mmul; cbn [m00 m01 m10 m11]; ring.
    - apply andb_prop in E3. destruct E3 as [_ E3]. apply is0_iff, add_zero in E3. subst br. apply (does_scalar q tl _ _ U _ (gateis_ok q U G Hq) Ht).
      apply mat2_eq; unfold phaseM, mmul; cbn [m00 m01 m10 m11]; ring.
    - destruct (commute_phase_tidy cx (u_n U) q tl br (u_buf U) (gd_tidy U G) Ht Hb) as (T & A & Ca).
      apply (lift_acts q _ _ U _ G Hq (diag_unitary _ _ Ht Hb) (or_introl (conj eq_refl eq_refl)) Ca T (alike_keys _ _ A)).
      apply (core_phase_ok cx D tl br q (onbuf (CommutePhase (cx_po cx) q tl br) U)); [apply wf_buf, (gd_wf U G)|apply neat_buf, (gd_neat U G)|exact Hq|exact Ht|exact Hb].
  Qed.
  Lemma carried_then q M1 M2' s s1 s2 : carried q M1 s s1 -> carried q M2' s1 s2 -> carried q (mmul M2' M1) s s2.
  Proof.
    intros (A1 & A2 & A3 & A4) (B1 & B2 & B3 & B4). split; [exact B1|]. split; [congruence|]. split; [exact B3|]. intros psi.
    assert (E : forall f, same_state (gate1 always q (mmul M2' M1) f) (gate1 always q M2' (gate1 always q M1 f))) by (intros f x; symmetry; apply gate1_compose, indep_always).
    eapply ss_trans; [apply (proj1 (linear_pending s2)), E|]. eapply ss_trans; [apply B4|]. eapply ss_trans; [apply gate1_proper, A4|]. apply ss_sym, E.
  Qed.
  Lemma invert_ok tr bl q U : good U -> q < u_n U -> unit1 tr -> unit1 bl -> does q (invertM tr bl) U (Invert cx tr bl q U).
  Proof.
    intros G Hq Ht Hb. unfold Invert. destruct (flip_tidy (u_n U) q (u_buf U) (gd_tidy U G)) as (s1 & F & T1 & Fl & Ca1). rewrite F.
    destruct (commute_phase_tidy cx (u_n U) q tr bl s1 T1 Ht Hb) as (T & A & Ca).
    set (s2 := CommutePhase (cx_po cx) q tr bl s1) in *. change (onbuf (CommutePhase (cx_po cx) q tr bl) (set_shbuf s1 U)) with (set_shbuf s2 U).
    assert (EM : invertM tr bl = mmul (phaseM tr bl) (invertM 1 1)%amp) by (apply mat2_eq; unfold phaseM, invertM, mmul; cbn [m00 m01 m10 m11]; ring).
    apply (lift_acts q (invertM tr bl) s2 U _ G Hq (anti_unitary _ _ Ht Hb) (or_intror (conj eq_refl eq_refl))).
    - rewrite EM. apply (carried_then q _ _ _ s1 s2 Ca1 Ca).
    - exact T.
    - intros a c t b E. destruct (alike_some _ _ _ _ _ _ A E) as (d & Ed & _). pose proof (Fl a c t) as H. rewrite Ed in H. cbn [option_map] in H.
      destruct (buffer_of (u_buf U) (if c =? q then negb a else a) c t) as [d'|] eqn:Ed'; [|discriminate]. exists (if c =? q then negb a else a), d'. exact Ed'.
    - apply (core_invert_ok cx D tr bl q (set_shbuf s2 U)); [apply wf_buf, (gd_wf U G)|apply neat_buf, (gd_neat U G)|exact Hq|exact Ht|exact Hb].
  Qed.
  (** Phases on a qubit in the Z basis that no buffer inverts: the buffers stay as they are. *)
  Lemma phase_calm tl br q U : wf U -> neat U -> q < u_n U -> unit1 tl -> unit1 br -> bas_of U q = PauliZ -> not_inverted (u_buf U) q ->
    let V := Phase cx tl br q U in acts q (phaseM tl br) U V /\ (forall p, bas_of V p = bas_of U p).
  Proof.
    intros W N0 Hq Ht Hb Bz HN. cbn zeta. rewrite Phase_eq. cbn zeta. set (short := u_rgp U || sr_eqb tl 1%amp).
    assert (L : forall M V s', s' = u_buf U -> acts q M (set_shbuf s' U) V -> acts q M U V).
    { intros M V s' -> [A1 A2 A3 A4 A5]. split; auto. }
    assert (W' : forall s, wf (set_shbuf s U)) by (intros s; apply wf_buf, W). assert (N' : forall s, neat (set_shbuf s U)) by (intros s; apply neat_buf, N0).
    destruct (short && is0 (tl - br)%amp) eqn:E1; [|destruct (short && is0 (ii * tl - br)%amp) eqn:E2; [|destruct (short && is0 (ii * tl + br)%amp) eqn:E3]].
    - apply andb_prop in E1. destruct E1 as [_ E1]. apply is0_iff, sub_zero in E1. subst br. split; [|reflexivity].
      apply (acts_scalar cx q tl midn _ U U (acts_id cx q U W N0) Ht). rewrite mmul_1_r. reflexivity.
    - apply andb_prop in E2. destruct E2 as [_ E2]. apply is0_iff, sub_zero in E2. subst br.
      rewrite GateS_eq. destruct (core_S_ok cx q (onbuf (CommutePhase (cx_po cx) q 1%amp ii) U)) as (A & B & C); [apply W'|apply N'|exact Hq|].
      split.
      + apply (acts_scalar cx q tl (phaseM 1 ii)%amp _ U _ (L _ _ _ (commute_phase_none (cx_po cx) q 1%amp ii (u_buf U) HN) A) Ht). apply mat2_eq; unfold phaseM, mmul; cbn [m00 m01 m10 m11]; ring.
      + intros p. destruct (N.eq_dec p q) as [->|Hp]; [|apply (B p Hp)]. rewrite Bz. apply C, Bz.
    - apply andb_prop in E3. destruct E3 as [_ E3]. apply is0_iff, add_zero in E3. subst br.
      rewrite GateIS_eq. destruct (core_IS_ok cx q (onbuf (CommutePhase (cx_po cx) q 1%amp (- ii)%amp) U)) as (A & B & C); [apply W'|apply N'|exact Hq|].
      split.
      + apply (acts_scalar cx q tl (phaseM 1 (- ii))%amp _ U _ (L _ _ _ (commute_phase_none (cx_po cx) q 1%amp (- ii)%amp (u_buf U) HN) A) Ht). apply mat2_eq; unfold phaseM, mmul; cbn [m00 m01 m10 m11]; ring.
      + intros p. destruct (N.eq_dec p q) as [->|Hp]; [|apply (B p Hp)]. rewrite Bz. apply C, Bz.
    - destruct (core_phase_ok cx D tl br q (onbuf (CommutePhase (cx_po cx) q tl br) U)) as (A & B); [apply W'|apply N'|exact Hq|exact Ht|exact Hb|].
      split; [exact (L _ _ _ (commute_phase_none (cx_po cx) q tl br (u_buf U) HN) A)|exact (B Bz)].
  Qed.
End P.
Arguments wf_buf {K cx}.
