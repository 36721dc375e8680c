(** Proofs for QUnit: SeparateBit, ClampShard and ProbBase. *)
From Coq Require Import Arith NArith List Bool Lia Ring.
From Verif Require Import Bits MFunctions SpecFunctions PFunctions MKernel PKernel Amp PAmp SpecState PApply PCompose PGates PGates2 PProb PQCirc2 PQCirc3 PEngine MShard SpecShard MUnit PShard1 PShard2 PShard5 PUnit1 PUnit2 PUnit3 PUnit4 PUnit5 PUnit6.
Import ListNotations.
Local Open Scope N_scope.
Local Notation up n := (upto (N.to_nat n)).

Section P.
  Context {K : StarRing} (cx : Cplx K) (D : definite (K := K)).
  Add Ring KrBV : (sr_ring K).
  Local Notation faithful := (faithful cx).
  Local Notation wf := (wf cx).
  Local Notation vec := (N -> K).
  Local Notation unit1 x := (anorm x = 1%amp).
  Local Notation M2 := (mat2 K).
  Local Notation qu := (qunit K).
  Local Notation framed := (framed cx).
  Implicit Types (U V : qu) (psi phi : vec).

  Lemma order_in U p : wf U -> In p (order U) <-> p < u_n U.
  Proof.
    intros W. unfold order. rewrite in_map_iff. destruct (wf_sw U W) as (S1 & S2 & S3). split.
    - intros (i & <- & Hi). apply S1, up_in, Hi.
    - intros Hp. destruct (S3 p Hp) as (i & Hi & Ei). exists i. split; [exact Ei|apply up_in, Hi].
  Qed.
  Lemma wf_loc U : wf U -> forall p, p < u_n U -> s_unit (u_sh U p) = None -> (anorm (s_a0 (u_sh U p)) + anorm (s_a1 (u_sh U p)) = 1)%amp.
  Proof. intros W p Hp E. apply (wf_none U W p Hp E). Qed.
  Definition sup_unit U q (b : bool) : Prop :=
    match s_unit (u_sh U q) with
    | Some u => esup (fst (u_eng U u)) (s_map (u_sh U q)) b (snd (u_eng U u))
    | None => (if b then s_a0 (u_sh U q) else s_a1 (u_sh U q)) = 0%amp
    end.
  Lemma sup_base U q b : wf U -> q < u_n U -> supported q b (base U) <-> sup_unit U q b.
  Proof.
    intros W Hq. unfold sup_unit. destruct (s_unit (u_sh U q)) as [u|] eqn:E.
    - apply (support_unit _ _ _ _ D (wf_placed U W) (wf_norm U W) (wf_loc U W) q u b Hq E).
    - etransitivity; [apply (support_none _ _ _ _ D (wf_placed U W) (wf_norm U W) (wf_loc U W) q b Hq E)|]. unfold loc. rewrite E. destruct b; reflexivity.
  Qed.
  Lemma sup_amps U q : wf U -> q < u_n U -> s_pd (u_sh U q) = false ->
    (s_a1 (u_sh U q) = 0%amp <-> supported q false (base U)) /\ (s_a0 (u_sh U q) = 0%amp <-> supported q true (base U)).
  Proof.
    intros W Hq Pd. rewrite !sup_base by assumption. unfold sup_unit. destruct (s_unit (u_sh U q)) as [u|] eqn:E; [|split; reflexivity].
    apply (wf_faith U W q u Hq E Pd).
  Qed.
  Lemma not_both U q : wf U -> q < u_n U -> supported q false (base U) -> supported q true (base U) -> False.
  Proof.
    intros W Hq H1 H2. rewrite sup_base in H1, H2 by assumption. unfold sup_unit in *. destruct (s_unit (u_sh U q)) as [u|] eqn:E.
    - apply (not_both_unit _ _ _ _ D (wf_placed U W) (wf_norm U W) q u Hq E). auto.
    - pose proof (wf_loc U W q Hq E) as L. rewrite H1, H2, anorm_0 in L. destruct D as [D1 _]. apply D1. rewrite <- L. ring.
  Qed.

  (** ** SeparateBit *)
  Definition neat_but U q : Prop := (forall p u, p < u_n U -> p <> q -> s_unit (u_sh U p) = Some u -> s_fd (u_sh U p) = true) /\ (forall u, u < u_next U -> fst (u_eng U u) <> 1).
  Lemma neat_neat_but U q : neat U -> neat_but U q.
  Proof. intros [N1 N2]. split; [intros p u Hp _ E; apply (N1 p u Hp E)|exact N2]. Qed.
  (** What separation and the functions built on it do not change. *)
  Record sound U V : Prop := mkSound {
    so_wf : wf V;
    so_neat : neat V;
    so_like : like (framed V) (framed U);
    so_kept : kept U V;
    so_next : u_next V = u_next U
  }.
  Lemma sound_refl U : wf U -> neat U -> sound U U.
  Proof. intros W N0. split; auto; [apply like_refl|apply kept_refl]. Qed.
  Lemma sound_trans U V X : sound U V -> sound V X -> sound U X.
  Proof.
    intros [A1 A2 A3 A4 A5] [B1 B2 B3 B4 B5]. split; auto; [eapply like_trans; eassumption|eapply kept_trans; eassumption|congruence].
  Qed.
  Lemma sound_n U V : sound U V -> u_n V = u_n U.
  Proof. intros S. apply (so_kept U V S). Qed.

  Lemma sep_core_none value q U : wf U -> neat_but U q -> q < u_n U -> s_unit (u_sh U q) = None -> sup_unit U q value ->
    let V := sep_core value q U in sound U V /\ s_unit (u_sh V q) = None /\ (forall p, bas_of V p = bas_of U p).
  Proof.
    intros W N0 Hq E HS. unfold sep_core. destruct (draw_ok U W) as (ph & d & Ed & Hph). rewrite Ed. cbn zeta.
    set (f := fun s : qshard K => mkQS None 0 false false (if value then 0%amp else ph) (if value then ph else 0%amp) (s_bas s)).
    set (V := on_sh q f (set_draw d U)). unfold sup_unit in HS. rewrite E in HS. destruct (wf_none U W q Hq E) as (L1 & L2 & L3 & L4).
    set (a := if value then s_a1 (u_sh U q) else s_a0 (u_sh U q)).
    assert (Ha : unit1 a) by (unfold a; destruct value; rewrite HS, anorm_0 in L4; rewrite <- L4; ring).
    set (c := (ph * sr_conj a)%amp). assert (Hc : unit1 c) by (apply unit_mul; [exact Hph|apply unit_conj, Ha]).
    assert (Ec : (c * a = ph)%amp) by (unfold c; transitivity (ph * anorm a)%amp; [unfold anorm; ring|rewrite Ha; ring]).
    assert (Um : unitary2 (mkMat c 0 0 c)%amp) by (apply diag_unitary; exact Hc).
    assert (SV : forall p, u_sh V p = if p =? q then f (u_sh U q) else u_sh U p) by reflexivity.
    destruct (op1 U V q f (mkMat c 0 0 c)%amp W Hq Um) as (WV & BV & GV); try (repeat split; reflexivity); try reflexivity.
    - intros w. rewrite eng_gate_none by exact E. reflexivity.
    - cbn. symmetry. exact E.
    - cbn. symmetry. exact L1.
    - intros _. cbn [f s_pd s_fd s_a0 s_a1 m00 m01 m10 m11]. unfold a in Ec. split; [reflexivity|split; [reflexivity|]]. destruct value.
      + split; [rewrite HS; ring|]. rewrite <- Ec. ring.
      + split; [|rewrite HS; ring]. rewrite <- Ec. ring.
    - intros _ F. congruence.
    - assert (BA : forall p, bas_of V p = bas_of U p) by (intros p; unfold bas_of; rewrite SV; destruct (N.eqb_spec p q) as [->|]; reflexivity).
      split; [|split; [rewrite SV, N.eqb_refl; reflexivity|exact BA]]. split; try reflexivity; [exact WV| | |repeat split; reflexivity].
      + destruct N0 as [N1 N2]. split; [|exact N2]. change (u_n V) with (u_n U). intros p u Hp Ep. rewrite SV in *. destruct (N.eqb_spec p q); [discriminate|]. apply (N1 p u); assumption.
      + apply framed_like; [reflexivity|intros p _; apply BA|]. apply (like_c c); [exact Hc|]. eapply ss_trans; [exact BV|apply gate_scalar].
  Qed.
  Lemma separate_ok value q U : wf U -> neat_but U q -> q < u_n U -> sup_unit U q value ->
    let V := SeparateBit cx value q U in sound U V /\ s_unit (u_sh V q) = None /\ bas_of V q = bas_of U q /\ (s_unit (u_sh U q) = None -> forall p, bas_of V p = bas_of U p).
  Proof.
    intros W N0 Hq HS. unfold SeparateBit. destruct (s_unit (u_sh U q)) as [u|] eqn:E.
    2:{ destruct (sep_core_none value q U W N0 Hq E HS) as (S1 & S2 & S3). cbn zeta. auto. }
    destruct (pl_in _ _ _ _ (wf_placed U W) q u Hq E) as [Hu Hm]. pose proof (proj2 N0 u Hu) as H1.
    destruct (u_eng U u) as [n v] eqn:Eu. cbn [fst] in H1, Hm. destruct (N.eqb_spec n 1) as [F|_]; [congruence|].
    unfold sep_core. destruct (draw_ok U W) as (ph & d & Ed & Hph). rewrite Ed. unfold sup_unit in HS. rewrite E, Eu in HS. cbn [fst snd] in HS.
    set (m := s_map (u_sh U q)) in *. set (U2 := put_eng u (n - 1) _ _).
    set (U3 := set_sh _ U2). cbn zeta.
    set (sq := mkQS None 0 false false (if value then 0%amp else ph) (if value then ph else 0%amp) (s_bas (u_sh U q))).
    assert (E3 : forall w, u_eng U3 w = if w =? u then (n - 1, tab (n - 1) (slice m 1 (if value then 1 else 0) v)) else u_eng U w) by reflexivity.
    assert (S2 : forall p, u_sh U2 p = if p =? q then sq else u_sh U p) by reflexivity.
    assert (S3 : forall p, u_sh U3 p = match s_unit (u_sh U2 p) with Some w => if (w =? u) && (m <? s_map (u_sh U2 p)) then w_unit (Some w) (s_map (u_sh U2 p) - 1) (u_sh U2 p) else u_sh U2 p | None => u_sh U2 p end) by reflexivity.
    assert (S3q : u_sh U3 q = sq) by (rewrite S3, S2, N.eqb_refl; reflexivity).
    assert (HSm : forall p, p < u_n U -> s_unit (u_sh U p) <> Some u -> u_sh U3 p = u_sh U p).
    { intros p Hp Ep. rewrite S3, S2. destruct (N.eqb_spec p q) as [->|Hpq]; [congruence|]. destruct (s_unit (u_sh U p)) as [w|] eqn:Ew; [|reflexivity]. destruct (N.eqb_spec w u); [congruence|reflexivity]. }
    assert (HC : forall p, p < u_n U -> p <> q -> s_unit (u_sh U p) = Some u -> s_unit (u_sh U3 p) = Some u /\ s_map (u_sh U3 p) = (if m <? s_map (u_sh U p) then s_map (u_sh U p) - 1 else s_map (u_sh U p)) /\
      s_pd (u_sh U3 p) = s_pd (u_sh U p) /\ s_fd (u_sh U3 p) = s_fd (u_sh U p) /\ s_a0 (u_sh U3 p) = s_a0 (u_sh U p) /\ s_a1 (u_sh U3 p) = s_a1 (u_sh U p)).
    { intros p Hp Hpq Ep. rewrite S3, S2. destruct (N.eqb_spec p q); [congruence|]. rewrite Ep, N.eqb_refl. cbn [andb]. destruct (m <? s_map (u_sh U p)); repeat split; assumption. }
    assert (B3 : forall p, p < u_n U -> bas_of U3 p = bas_of U p).
    { intros p Hp. unfold bas_of. rewrite S3, S2. destruct (N.eqb_spec p q) as [->|Hpq]; [reflexivity|]. destruct (s_unit (u_sh U p)) as [w|]; [|reflexivity]. destruct ((w =? u) && (m <? s_map (u_sh U p))); reflexivity. }
    assert (HE : forall w, w < u_next U -> w <> u -> u_eng U3 w = u_eng U w) by (intros w _ Hw; rewrite E3; destruct (N.eqb_spec w u); [congruence|reflexivity]).
    assert (HF : fst (u_eng U3 u) = fst (u_eng U u) - 1) by (rewrite E3, N.eqb_refl, Eu; reflexivity).
    assert (HU : s_unit (u_sh U3 q) = None) by (rewrite S3q; reflexivity).
    assert (HC2 : forall p, p < u_n U -> p <> q -> s_unit (u_sh U p) = Some u -> s_unit (u_sh U3 p) = Some u /\ s_map (u_sh U3 p) = (if m <? s_map (u_sh U p) then s_map (u_sh U p) - 1 else s_map (u_sh U p))).
    { intros p Hp Hpq Ep. destruct (HC p Hp Hpq Ep) as (C1 & C2 & _). auto. }
    assert (L3 : placed (u_n U) (u_next U) (u_sh U3) (u_eng U3)) by (apply (sep_placed _ _ _ _ (wf_placed U W) q u Hq E); assumption).
    assert (HZ : esup (fst (u_eng U u)) (s_map (u_sh U q)) value (snd (u_eng U u))) by (rewrite Eu; exact HS).
    assert (W3 : wf U3).
    { split; change (u_n U3) with (u_n U); change (u_next U3) with (u_next U).
      - exact L3.
      - intros w Hw. destruct (N.eq_dec w u) as [->|Hwu]; [|rewrite HE by assumption; apply (wf_norm U W), Hw].
        rewrite E3, N.eqb_refl. cbn [fst snd]. rewrite norm_tab, norm_slice by assumption. pose proof (wf_norm U W u Hu) as G. rewrite Eu in G. exact G.
      - intros p Hp Ep. destruct (N.eq_dec p q) as [->|Hpq].
        + rewrite S3q. unfold local_ok, sq. cbn [s_map s_pd s_fd s_a0 s_a1]. repeat split. destruct value; rewrite anorm_0, Hph; ring.
        + destruct (s_unit (u_sh U p)) as [w|] eqn:Ew; [destruct (N.eq_dec w u) as [->|Hwu]|].
          * destruct (HC p Hp Hpq Ew) as (C1 & _). congruence.
          * rewrite HSm in * by congruence. apply (wf_none U W); assumption.
          * rewrite HSm in * by congruence. apply (wf_none U W); assumption.
      - intros p w Hp Ep. destruct (N.eq_dec p q) as [->|Hpq]; [congruence|].
        assert (Hw : s_unit (u_sh U p) = Some w).
        { destruct (s_unit (u_sh U p)) as [x|] eqn:Ex; [destruct (N.eq_dec x u) as [->|Hxu]|].
          - destruct (HC p Hp Hpq Ex) as (C1 & _). congruence.
          - rewrite HSm in Ep by congruence. congruence.
          - rewrite HSm in Ep by congruence. congruence. }
        destruct (N.eq_dec w u) as [->|Hwu].
        + destruct (HC p Hp Hpq Hw) as (C1 & C2 & C3 & C4 & C5 & C6). rewrite E3, N.eqb_refl. cbn [fst snd]. unfold faithful. rewrite C2, C3, C5, C6. intros Pd.
          destruct (wf_faith U W p u Hp Hw Pd) as [[F1 F2] F3]. rewrite Eu in F1, F2, F3. cbn [fst snd] in F1, F2, F3.
          destruct (pl_in _ _ _ _ (wf_placed U W) p u Hp Hw) as [_ Hmp]. rewrite Eu in Hmp. cbn [fst] in Hmp.
          assert (Hne : s_map (u_sh U p) <> m) by (intros F; apply Hpq, (pl_inj _ _ _ _ (wf_placed U W) p q u Hp Hq Hw E F)).
          split; [rewrite F1, F2; split; symmetry; (etransitivity; [apply esup_eqv; intros y Hy; apply tab_ok, Hy|]); apply esup_slice; assumption|].
          eapply (exact_eqv cx); [intros y Hy; apply tab_ok, Hy|]. intros R. destruct (F3 R) as [-> ->]. split; symmetry; apply wt_slice; assumption.
        + rewrite HSm by congruence. rewrite HE; [apply (wf_faith U W); assumption|apply (pl_in _ _ _ _ (wf_placed U W) p w Hp Hw)|exact Hwu].
      - apply (wf_ph U W).
      - apply (wf_sw U W). }
    assert (LK : like (framed U3) (framed U)).
    { apply framed_like; [reflexivity|exact B3|]. apply (like_c ph); [exact Hph|]. unfold base. change (u_n U3) with (u_n U). change (u_next U3) with (u_next U).
      apply (base_separate _ _ _ _ (wf_placed U W) q u Hq E _ _ HU HSm HC2 HE HF value ph); [|exact HZ|rewrite S3q; reflexivity|rewrite S3q; reflexivity].
      intros y Hy. rewrite E3, N.eqb_refl, Eu. cbn [snd]. apply tab_ok. rewrite E3, N.eqb_refl in Hy. exact Hy. }
    assert (FD : forall p w, p < u_n U -> p <> q -> s_unit (u_sh U3 p) = Some w -> s_fd (u_sh U3 p) = true).
    { intros p w Hp Hpq Ep. destruct N0 as [N1 _]. destruct (s_unit (u_sh U p)) as [x|] eqn:Ex; [destruct (N.eq_dec x u) as [->|Hxu]|].
      - destruct (HC p Hp Hpq Ex) as (C1 & C2 & C3 & C4 & _). rewrite C4. apply (N1 p u Hp Hpq Ex).
      - rewrite HSm by congruence. apply (N1 p x Hp Hpq Ex).
      - rewrite HSm in Ep by congruence. congruence. }
    assert (NONE : forall V, (Some u = None -> forall p, bas_of V p = bas_of U p)) by (intros V F; discriminate).
    destruct (N.eqb_spec (n - 1) 1) as [En|En]; cbn [negb].
    - destruct (find _ (order U3)) as [p|] eqn:Ef.
      + apply find_some in Ef. destruct Ef as [Hin Hpu]. apply (order_in U3 p W3) in Hin. change (u_n U3) with (u_n U) in Hin.
        destruct (s_unit (u_sh U3 p)) as [w|] eqn:Ep; [|discriminate]. apply N.eqb_eq in Hpu. subst w.
        assert (Hpq : p <> q) by (intros ->; congruence).
        assert (Es : fst (u_eng U3 u) = 1) by (rewrite E3, N.eqb_refl; exact En).
        destruct (single_ok cx p u U3 W3 Hin Ep Es (FD p u Hin Hpq Ep)) as (V1 & V2 & V3 & V4 & V5 & V6 & V7). set (V := prob_single cx p U3) in *.
        assert (KN : u_n V = u_n U) by apply V3.
        split; [|split; [rewrite V6 by congruence; exact HU|split; [unfold bas_of; rewrite V6 by congruence; rewrite S3q; reflexivity|apply NONE]]].
        split; [exact V1| | |eapply kept_trans; [|exact V3]; repeat split; reflexivity|exact V4].
        * split.
          -- rewrite KN. intros r w Hr Er. destruct (N.eq_dec r p) as [->|Hrp]; [congruence|]. rewrite V6 in * by exact Hrp. apply (FD r w Hr); [intros ->; congruence|exact Er].
          -- rewrite V4. intros w Hw. rewrite V7. destruct (N.eqb_spec w u); [lia|]. rewrite HE by assumption. apply (proj2 N0), Hw.
        * eapply like_trans; [|exact LK]. apply like_ss. exact V2.
      + exfalso. destruct (pl_cov _ _ _ _ L3 u 0 Hu) as (p & Hp & Ep & _); [rewrite E3, N.eqb_refl; cbn [fst]; lia|].
        pose proof (find_none _ _ Ef p) as F. cbn beta in F. rewrite Ep, N.eqb_refl in F. discriminate F. apply (order_in U3 p W3). exact Hp.
    - split; [|split; [exact HU|split; [apply B3, Hq|apply NONE]]]. split; try reflexivity; [exact W3| |exact LK|repeat split; reflexivity].
      split; change (u_n U3) with (u_n U); change (u_next U3) with (u_next U).
      + intros p w Hp Ep. apply (FD p w Hp); [intros ->; congruence|exact Ep].
      + intros w Hw. destruct (N.eq_dec w u) as [->|Hwu]; [rewrite E3, N.eqb_refl; exact En|rewrite HE by assumption; apply (proj2 N0), Hw].
  Qed.

  (** ** ClampShard *)
  Lemma put_same q s U : wf U -> q < u_n U -> s_unit s = s_unit (u_sh U q) -> s_map s = s_map (u_sh U q) -> s_bas s = s_bas (u_sh U q) ->
    (s_unit (u_sh U q) = None -> s_pd s = false /\ s_fd s = false /\ s_a0 s = s_a0 (u_sh U q) /\ s_a1 s = s_a1 (u_sh U q)) ->
    (forall u, s_unit (u_sh U q) = Some u -> faithful (fst (u_eng U u)) s (snd (u_eng U u))) ->
    let V := put_sh q s U in wf V /\ same_state (base V) (base U) /\ kept U V /\ (forall p, bas_of V p = bas_of U p).
  Proof.
    intros W Hq E1 E2 E3 HN HS. set (V := put_sh q s U). cbn zeta. assert (SV : forall p, u_sh V p = if p =? q then s else u_sh U p) by reflexivity.
    assert (KV : kept U V) by (repeat split; reflexivity).
    destruct (step1 U V q midn W Hq (unitary_1) KV) as [WV BV]; try reflexivity; rewrite ?SV, ?N.eqb_refl; try assumption.
    - intros p _ Hp. rewrite SV. destruct (N.eqb_spec p q); [congruence|reflexivity].
    - intros E. destruct (HN E) as (H1 & H2 & H3 & H4). rewrite H1, H2, H3, H4. unfold midn. cbn [m00 m01 m10 m11]. repeat split; ring.
    - intros u E. split; [reflexivity|]. split; [reflexivity|]. split; [intros y Hy; symmetry; apply gate_midn|].
      intros Pd. destruct (HS u E Pd) as [[F1 F2] F3]. split; [rewrite F1, F2, E2; split; symmetry; apply esup_eqv; intros y Hy; apply gate_midn|].
      rewrite <- E2. eapply (exact_eqv cx); [intros y Hy; apply gate_midn|exact F3].
    - split; [exact WV|]. split; [eapply ss_trans; [exact BV|apply gate_midn]|]. split; [exact KV|].
      intros p. unfold bas_of. rewrite SV. destruct (N.eqb_spec p q) as [->|]; [exact E3|reflexivity].
  Qed.
  Lemma clamp_ok q U : wf U -> neat U -> q < u_n U ->
    let V := ClampShard cx (SeparateBit cx) q U in sound U V /\ bas_of V q = bas_of U q /\
      (s_unit (u_sh U q) = None \/ two_sided q (base U) -> forall p, bas_of V p = bas_of U p) /\
      (s_pd (u_sh U q) = false -> s_pd (u_sh V q) = false) /\
      (s_unit (u_sh U q) = None -> u_sh V q = u_sh U q).
  Proof.
    intros W N0 Hq. unfold ClampShard. destruct (ClampAmps cx (u_sh U q)) as [c s] eqn:Ec. cbn zeta.
    destruct (s_unit (u_sh U q)) as [u|] eqn:E.
    - assert (CA : (c = false /\ s = u_sh U q) \/
                   (c = true /\ s_pd (u_sh U q) = false /\ s_a0 (u_sh U q) = 0%amp /\ s = w_fd false (w_amps 0%amp (po_unit (cx_po cx) (s_a1 (u_sh U q))) (u_sh U q))) \/
                   (c = true /\ s_pd (u_sh U q) = false /\ s_a1 (u_sh U q) = 0%amp /\ s_a0 (u_sh U q) <> 0%amp /\ s = w_fd false (w_amps (po_unit (cx_po cx) (s_a0 (u_sh U q))) 0%amp (u_sh U q)))).
      { unfold ClampAmps in Ec. destruct (s_pd (u_sh U q)); [injection Ec as <- <-; auto|]. destruct (is0 (s_a0 (u_sh U q))) eqn:E0; [injection Ec as <- <-; apply is0_iff in E0; right; left; auto|].
        destruct (is0 (s_a1 (u_sh U q))) eqn:E1; injection Ec as <- <-; apply is0_false in E0; [|auto]. apply is0_iff in E1. right. right. auto. }
      destruct CA as [(-> & ->)|[(-> & Pd & A0 & ->)|(-> & Pd & A1 & A0 & ->)]].
      + rewrite E. cbn [negb]. destruct (put_same q (u_sh U q) U W Hq) as (V1 & V2 & V3 & V4); try reflexivity.
        * intros F. destruct (wf_none U W q Hq F) as (_ & -> & -> & _). auto.
        * intros w F. apply (wf_faith U W q w Hq F).
        * split; [|split; [apply V4|split; [intros _; exact V4|split; [|discriminate]]]].
          -- split; auto; [|apply framed_like; [apply V3|intros p _; apply V4|apply like_ss, V2]].
             apply (neat_same U _ N0); try reflexivity. intros p _. cbn. destruct (N.eqb_spec p q) as [->|]; auto.
          -- cbn. rewrite N.eqb_refl. auto.
      + assert (NZ : s_a1 (u_sh U q) <> 0%amp).
        { intros F. destruct (sup_amps U q W Hq Pd) as [G1 G2]. apply (not_both U q W Hq); [apply G1, F|apply G2, A0]. }
        assert (NZ' : po_unit (cx_po cx) (s_a1 (u_sh U q)) <> 0%amp) by (intros F; apply NZ, (cx_unit_0 K cx), F).
        set (s := w_fd false (w_amps 0%amp (po_unit (cx_po cx) (s_a1 (u_sh U q))) (u_sh U q))). assert (Eun : s_unit s = Some u) by exact E. rewrite Eun. cbn [negb].
        assert (E1 : is0 (s_a1 s) = false) by (apply is0_false; exact NZ'). assert (E0 : is0 (s_a0 s) = true) by (apply is0_iff; reflexivity). rewrite E1, E0.
        destruct (put_same q s U W Hq) as (V1 & V2 & V3 & V4); try reflexivity.
        { intros F. congruence. }
        { intros w F Pd'. destruct (wf_faith U W q w Hq F Pd) as [[F1 F2] F3]. unfold s. cbn [w_fd w_amps s_a0 s_a1 s_map]. split; [split; [rewrite <- F1; tauto|rewrite <- F2; split; auto]|].
          intros R. destruct (F3 R) as [G1 G2]. assert (H1 : anorm (s_a1 (u_sh U q)) = 1%amp) by (rewrite G1, (wt_esup _ _ _ _ (proj1 F2 A0)); apply (wf_norm U W), (pl_in _ _ _ _ (wf_placed U W) q w Hq F)).
          rewrite (po_unit_ok K (cx_po cx)) by exact H1. rewrite <- A0. split; assumption. }
        set (U1 := put_sh q s U) in *. assert (N1 : u_n U1 = u_n U) by reflexivity. assert (S1 : u_sh U1 q = s) by (unfold U1; cbn; rewrite N.eqb_refl; reflexivity).
        assert (SU : sup_unit U1 q true) by (apply (sup_base U1 q true V1 Hq); intros x Hx; rewrite V2; apply (proj1 (proj2 (sup_amps U q W Hq Pd)) A0 x Hx)).
        assert (NB : neat_but U1 q).
        { destruct N0 as [M1 M2']. split; [|exact M2']. intros p w Hp Hpq Ep. unfold U1 in *. cbn in *. destruct (N.eqb_spec p q); [congruence|]. apply (M1 p w); assumption. }
        destruct (separate_ok true q U1 V1 NB Hq SU) as (T1 & T2 & T3 & T4). set (V := SeparateBit cx true q U1) in *.
        split; [|split; [rewrite T3; apply V4|split; [|split]]].
        * destruct T1 as [B1 B2 B3 B4 B5]. split; auto. eapply like_trans; [exact B3|]. apply framed_like; [reflexivity|intros p _; apply V4|apply like_ss, V2].
        * intros [F|F]; [discriminate|]. destruct F as [_ F]. destruct F. apply (proj1 (proj2 (sup_amps U q W Hq Pd)) A0).
        * intros _. apply (wf_none V (so_wf _ _ T1)); [rewrite (sound_n _ _ T1); exact Hq|exact T2].
        * discriminate.
      + assert (NZ' : po_unit (cx_po cx) (s_a0 (u_sh U q)) <> 0%amp) by (intros F; apply A0, (cx_unit_0 K cx), F).
        set (s := w_fd false (w_amps (po_unit (cx_po cx) (s_a0 (u_sh U q))) 0%amp (u_sh U q))). assert (Eun : s_unit s = Some u) by exact E. rewrite Eun. cbn [negb].
        assert (E1 : is0 (s_a1 s) = true) by (apply is0_iff; reflexivity). rewrite E1.
        destruct (put_same q s U W Hq) as (V1 & V2 & V3 & V4); try reflexivity.
        { intros F. congruence. }
        { intros w F Pd'. destruct (wf_faith U W q w Hq F Pd) as [[F1 F2] F3]. unfold s. cbn [w_fd w_amps s_a0 s_a1 s_map]. split; [split; [rewrite <- F1; split; auto|rewrite <- F2; tauto]|].
          intros R. destruct (F3 R) as [G1 G2]. assert (H1 : anorm (s_a0 (u_sh U q)) = 1%amp) by (rewrite G2, (wt_esup _ _ _ _ (proj1 F1 A1)); apply (wf_norm U W), (pl_in _ _ _ _ (wf_placed U W) q w Hq F)).
          rewrite (po_unit_ok K (cx_po cx)) by exact H1. rewrite <- A1. split; assumption. }
        set (U1 := put_sh q s U) in *. assert (N1 : u_n U1 = u_n U) by reflexivity. assert (S1 : u_sh U1 q = s) by (unfold U1; cbn; rewrite N.eqb_refl; reflexivity).
        assert (SU : sup_unit U1 q false) by (apply (sup_base U1 q false V1 Hq); intros x Hx; rewrite V2; apply (proj1 (proj1 (sup_amps U q W Hq Pd)) A1 x Hx)).
        assert (NB : neat_but U1 q).
        { destruct N0 as [M1 M2']. split; [|exact M2']. intros p w Hp Hpq Ep. unfold U1 in *. cbn in *. destruct (N.eqb_spec p q); [congruence|]. apply (M1 p w); assumption. }
        destruct (separate_ok false q U1 V1 NB Hq SU) as (T1 & T2 & T3 & T4). set (V := SeparateBit cx false q U1) in *.
        split; [|split; [rewrite T3; apply V4|split; [|split]]].
        * destruct T1 as [B1 B2 B3 B4 B5]. split; auto. eapply like_trans; [exact B3|]. apply framed_like; [reflexivity|intros p _; apply V4|apply like_ss, V2].
        * intros [F|F]; [discriminate|]. destruct F as [F _]. destruct F. apply (proj1 (proj1 (sup_amps U q W Hq Pd)) A1).
        * intros _. apply (wf_none V (so_wf _ _ T1)); [rewrite (sound_n _ _ T1); exact Hq|exact T2].
        * discriminate.
    - assert (Es : s = u_sh U q) by (rewrite <- (local_clamp cx _ (wf_none U W q Hq E)), Ec; reflexivity). subst s. rewrite E.
      destruct (put_same q (u_sh U q) U W Hq) as (V1 & V2 & V3 & V4); try reflexivity.
      + intros F. destruct (wf_none U W q Hq F) as (_ & -> & -> & _). auto.
      + intros w F. congruence.
      + split; [|split; [apply V4|split; [intros _; exact V4|split]]].
        * split; auto; [|apply framed_like; [apply V3|intros p _; apply V4|apply like_ss, V2]].
          apply (neat_same U _ N0); try reflexivity. intros p _. cbn. destruct (N.eqb_spec p q) as [->|]; auto.
        * cbn. rewrite N.eqb_refl. auto.
        * intros _. cbn. rewrite N.eqb_refl. reflexivity.
  Qed.

  (** ** ProbBase *)
  Lemma fr_unlike l bas psi phi : like (fr cx l bas psi) (fr cx l bas phi) -> like psi phi.
  Proof.
    revert psi phi. induction l as [|p l IH]; intros psi phi H; [exact H|]. cbn [fr fold_right] in H. unfold fr in IH. apply IH.
    assert (G : forall f : vec, same_state (gate1 always p (mdag (bmat cx (bas p))) (gate1 always p (bmat cx (bas p)) f)) f).
    { intros f x. apply gate1_inverse; [apply indep_always|apply bmat_unitary]. }
    eapply like_trans; [apply like_sym, like_ss, G|]. eapply like_trans; [|apply like_ss, G]. apply like_gate, H.
  Qed.
  Lemma eng_prob_zero U u m : wf U -> u < u_next U -> (eng_prob u m U = 0%amp <-> esup (fst (u_eng U u)) m false (snd (u_eng U u))) /\
    ((1 - eng_prob u m U = 0)%amp <-> esup (fst (u_eng U u)) m true (snd (u_eng U u))).
  Proof.
    intros W Hu. unfold eng_prob. pose proof (wf_norm U W u Hu) as HN. destruct (u_eng U u) as [n v]. cbn [fst snd] in *. split.
    - etransitivity; [apply (weight_zero D)|]. unfold esup. split; intros H y Hy Hb; apply H; try assumption; [destruct (N.testbit y m); congruence|]. rewrite Hb. discriminate.
    - assert (E : (1 - weight_of n (fun x => N.testbit x m) v = weight_of n (fun x => negb (N.testbit x m)) v)%amp) by (rewrite <- HN, (weight_split n (fun x => N.testbit x m) v); ring).
      rewrite E. etransitivity; [apply (weight_zero D)|]. unfold esup. split; intros H y Hy Hb; apply H; try assumption.
      + destruct (N.testbit y m); [congruence|reflexivity].
      + destruct (N.testbit y m); [discriminate|congruence].
  Qed.
  Lemma eng_prob_exact U u m : wf U -> u < u_next U -> exact cx (fst (u_eng U u)) m (cx_sqrt cx (1 - eng_prob u m U)%amp) (cx_sqrt cx (eng_prob u m U)) (snd (u_eng U u)).
  Proof.
    intros W Hu R. unfold eng_prob. pose proof (wf_norm U W u Hu) as HN. destruct (u_eng U u) as [n v]. cbn [fst snd] in *. rewrite <- wt_true.
    replace (1 - wt n m true v)%amp with (wt n m false v) by (rewrite <- HN, <- (wt_split n m v); ring). unfold wt, norm2. split; apply R.
  Qed.
  Lemma probbase_ok q U : wf U -> neat U -> q < u_n U -> exists V, ProbBase cx q U = (anorm (s_a1 (u_sh V q)), V) /\
    sound U V /\ bas_of V q = bas_of U q /\ (s_unit (u_sh U q) = None \/ two_sided q (base U) -> forall p, bas_of V p = bas_of U p) /\ s_pd (u_sh V q) = false /\
    (s_unit (u_sh U q) = None -> s_unit (u_sh V q) = None).
  Proof.
    intros W N0 Hq. unfold ProbBase.
    assert (ONE : match s_unit (u_sh U q) with Some u => fst (u_eng U u) =? 1 | None => false end = false).
    { destruct (s_unit (u_sh U q)) as [u|] eqn:E; [|reflexivity]. apply N.eqb_neq, (nt_size U N0), (pl_in _ _ _ _ (wf_placed U W) q u Hq E). }
    rewrite ONE. set (U1 := match s_unit (u_sh U q) with Some _ => _ | None => U end).
    assert (A : sound U U1 /\ bas_of U1 q = bas_of U q /\ (s_unit (u_sh U q) = None \/ two_sided q (base U) -> forall p, bas_of U1 p = bas_of U p) /\ s_pd (u_sh U1 q) = false /\
      (s_unit (u_sh U q) = None -> s_unit (u_sh U1 q) = None)).
    { unfold U1. clear U1. destruct (s_unit (u_sh U q)) as [u|] eqn:E.
      - destruct (s_pd (u_sh U q)) eqn:Pd; [|split; [apply sound_refl; assumption|repeat split; auto; discriminate]].
        set (p := eng_prob u (s_map (u_sh U q)) U). set (s := w_amps (cx_sqrt cx (1 - p)%amp) (cx_sqrt cx p) (w_pd false (u_sh U q))).
        destruct (pl_in _ _ _ _ (wf_placed U W) q u Hq E) as [Hu _]. destruct (eng_prob_zero U u (s_map (u_sh U q)) W Hu) as [G1 G2]. fold p in G1, G2.
        destruct (put_same q s U W Hq) as (V1 & V2 & V3 & V4); try reflexivity.
        { intros F. congruence. }
        { intros w F _. rewrite E in F. injection F as <-. unfold s. cbn [w_amps w_pd s_a0 s_a1 s_map]. rewrite !(cx_sqrt_0 K cx). split; [auto|]. apply (eng_prob_exact U u (s_map (u_sh U q)) W Hu). }
        change (on_sh q (fun s0 => w_amps (cx_sqrt cx (1 - p)%amp) (cx_sqrt cx p) (w_pd false s0)) U) with (put_sh q s U).
        set (X := put_sh q s U) in *. assert (SX : u_sh X q = s) by (unfold X; cbn; rewrite N.eqb_refl; reflexivity).
        assert (NX : neat X) by (apply (neat_same U _ N0); try reflexivity; intros r _; unfold X; cbn; destruct (N.eqb_spec r q) as [->|]; auto).
        assert (SO : sound U X) by (split; auto; apply framed_like; [apply V3|intros r _; apply V4|apply like_ss, V2]).
        destruct (clamp_ok q X V1 NX Hq) as (T1 & T2 & T3 & T4 & T5). split; [eapply sound_trans; eassumption|]. split; [rewrite T2; apply V4|].
        split; [intros [F|F] r; [discriminate|rewrite T3; [apply V4|right]]|].
        + destruct F as [F1 F2]. split; intros F; [apply F1|apply F2]; intros x Hx; rewrite <- V2; apply F, Hx.
        + split; [apply T4; rewrite SX; reflexivity|discriminate].
      - split; [apply sound_refl; assumption|]. split; [reflexivity|]. split; [reflexivity|]. split; [apply (wf_none U W q Hq E)|intros _; exact E]. }
    destruct A as (A1 & A2 & A3 & A4 & A5). clearbody U1. destruct A1 as [B1 B2 B3 B4 B5]. assert (N1 : u_n U1 = u_n U) by apply B4. assert (Hq1 : q < u_n U1) by (rewrite N1; exact Hq).
    destruct (sup_amps U1 q B1 Hq1 A4) as [G1 G2]. cbn zeta.
    assert (TS : two_sided q (base U) -> (forall p, bas_of U1 p = bas_of U p) -> two_sided q (base U1)).
    { intros T HB. assert (L : like (framed U1) (framed U)) by exact B3. unfold PUnit5.framed in L. rewrite N1 in L. rewrite (fr_bas cx (up (u_n U)) (bas_of U) (bas_of U1)) in L by (intros p _; apply HB).
      apply fr_unlike in L. apply (two_like q _ _ L). exact T. }
    assert (S0 : s_unit (u_sh U q) = None \/ two_sided q (base U) -> forall p, bas_of U1 p = bas_of U p) by exact A3.
    destruct (is0 (s_a1 (u_sh U1 q))) eqn:E1; [|destruct (is0 (s_a0 (u_sh U1 q))) eqn:E0].
    - apply is0_iff in E1. destruct (separate_ok false q U1 B1 (neat_neat_but U1 q B2) Hq1) as (T1 & T2 & T3 & T4); [apply (sup_base U1 q false B1 Hq1), G1, E1|].
      set (V := SeparateBit cx false q U1) in *. exists V. split; [reflexivity|]. split; [eapply sound_trans; [|exact T1]; split; assumption|]. split; [rewrite T3; exact A2|].
      split; [|split; [apply (wf_none V (so_wf _ _ T1)); [rewrite (sound_n _ _ T1); exact Hq1|exact T2]|intros _; exact T2]].
      intros H p. assert (HB : forall p, bas_of U1 p = bas_of U p) by (apply S0, H). rewrite <- HB. destruct H as [H|H]; [apply T4, A5, H|].
      destruct (TS H HB) as [F _]. destruct F. apply G1, E1.
    - apply is0_iff in E0. destruct (separate_ok true q U1 B1 (neat_neat_but U1 q B2) Hq1) as (T1 & T2 & T3 & T4); [apply (sup_base U1 q true B1 Hq1), G2, E0|].
      set (V := SeparateBit cx true q U1) in *. exists V. split; [reflexivity|]. split; [eapply sound_trans; [|exact T1]; split; assumption|]. split; [rewrite T3; exact A2|].
      split; [|split; [apply (wf_none V (so_wf _ _ T1)); [rewrite (sound_n _ _ T1); exact Hq1|exact T2]|intros _; exact T2]].
      intros H p. assert (HB : forall p, bas_of U1 p = bas_of U p) by (apply S0, H). rewrite <- HB. destruct H as [H|H]; [apply T4, A5, H|].
      destruct (TS H HB) as [_ F]. destruct F. apply G2, E0.
    - exists U1. split; [reflexivity|]. split; [split; assumption|]. auto.
  Qed.
End P.
Arguments order_in {K cx}.
Arguments wf_loc {K cx}.
Arguments sup_base {K cx}.
Arguments sup_amps {K cx}.
Arguments not_both {K cx}.
Arguments put_same {K cx}.
Arguments eng_prob_zero {K cx}.
