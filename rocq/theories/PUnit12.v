(** Proofs for QUnit: a controlled gate on a joint engine. *)
From Coq Require Import Arith NArith List Bool Lia Ring.
From Verif Require Import Bits MFunctions SpecFunctions PFunctions MKernel PKernel Amp PAmp SpecState PApply PCompose PGates PGates2 PProb PQCirc2 PQCirc3 PEngine MShard SpecShard MUnit SpecUnit PShard1 PShard2 PShard5 PShard6 PShard7 PShard9 PUnit1 PUnit2 PUnit3 PUnit4 PUnit5 PUnit6 PUnit7 PUnit8 PUnit9 PUnit10 PUnit11.
Import ListNotations.
Local Open Scope N_scope.
Local Notation up n := (upto (N.to_nat n)).

Section P.
  Context {K : StarRing} (cx : Cplx K) (D : definite (K := K)).
  Add Ring KrCA : (sr_ring K).
  Local Notation wf := (wf cx).
  Local Notation vec := (N -> K).
  Local Notation unit1 x := (anorm x = 1%amp).
  Local Notation M2 := (mat2 K).
  Local Notation qu := (qunit K).
  Local Notation framed := (framed cx).
  Implicit Types (U V X : qu) (psi phi : vec).

  Definition ctl (cs : list (N * bool)) (p : N) : bool := existsb (fun c => p =? fst c) cs.
  Lemma ctl_iff cs p : ctl cs p = true <-> exists v, In (p, v) cs.
  Proof.
    unfold ctl. rewrite existsb_exists. split.
    - intros ([c v] & H & E). apply N.eqb_eq in E. cbn [fst] in E. subst. exists v. exact H.
    - intros (v & H). exists (p, v). split; [exact H|apply N.eqb_refl].
  Qed.
  Lemma holds_ext cs x y : (forall p v, In (p, v) cs -> N.testbit x p = N.testbit y p) -> holds cs x = holds cs y.
  Proof. intros H. unfold holds. induction cs as [|[c v] cs IH]; [reflexivity|]. cbn [forallb fst snd]. rewrite (H c v (or_introl eq_refl)), IH; [reflexivity|]. intros p w Hp. apply (H p w). right. exact Hp. Qed.
  Lemma holds_indep cs t : ctl cs t = false -> indep (holds cs) t.
  Proof.
    intros H x. split; apply holds_ext; intros p v Hp; [rewrite tb_setbit|rewrite tb_clearbit]; destruct (N.eqb_spec t p) as [->|].
    - exfalso. assert (ctl cs p = true) by (apply ctl_iff; exists v; exact Hp). congruence.
    - reflexivity.
    - exfalso. assert (ctl cs p = true) by (apply ctl_iff; exists v; exact Hp). congruence.
    - apply andb_true_r.
  Qed.

  Lemma mapped_ext cs U V x : (forall p, s_map (u_sh V p) = s_map (u_sh U p)) -> mapped_cond cs V x = mapped_cond cs U x.
  Proof. intros H. unfold mapped_cond. induction cs as [|[c v] l IH]; [reflexivity|]. cbn [forallb fst snd]. rewrite IH, H. reflexivity. Qed.
  (** A gate of the engine shared by the controls and the target. *)
  Lemma joint_ok cs t u (m M : M2) U V : wf U -> t < u_n U -> ctl cs t = false -> (forall p, ctl cs p = true -> p < u_n U /\ s_unit (u_sh U p) = Some u /\ bas_of U p = PauliZ) -> s_unit (u_sh U t) = Some u ->
    unitary2 m -> in_basis cx (bas_of U t) M m -> kept U V -> u_next V = u_next U ->
    (forall p, s_unit (u_sh V p) = s_unit (u_sh U p) /\ s_map (u_sh V p) = s_map (u_sh U p) /\ s_a0 (u_sh V p) = s_a0 (u_sh U p) /\ s_a1 (u_sh V p) = s_a1 (u_sh U p) /\ s_bas (u_sh V p) = s_bas (u_sh U p)) ->
    (forall p, s_unit (u_sh U p) = None -> s_fd (u_sh V p) = s_fd (u_sh U p)) ->
    (forall p, p <> t -> s_pd (u_sh V p) = s_pd (u_sh U p)) -> (s_pd (u_sh V t) = false -> s_pd (u_sh U t) = false /\ diag m) ->
    (forall w, w <> u -> u_eng V w = u_eng U w) -> fst (u_eng V u) = fst (u_eng U u) ->
    (forall y, y < 2 ^ fst (u_eng U u) -> snd (u_eng V u) y = gate1 (mapped_cond cs U) (s_map (u_sh U t)) m (snd (u_eng U u)) y) ->
    wf V /\ like (framed V) (gate1 (holds cs) t M (framed U)).
  Proof.
    intros W Ht Hct HC Et Um EB (_ & KN & KS & _ & KP & _ & _) HX HS HL HPd HPt HE HF HV.
    destruct (pl_in _ _ _ _ (wf_placed U W) t u Ht Et) as [Hu Hmt].
    assert (IP : indep (mapped_cond cs U) (s_map (u_sh U t))).
    { assert (Q : forall x y, (forall p, ctl cs p = true -> N.testbit x (s_map (u_sh U p)) = N.testbit y (s_map (u_sh U p))) -> mapped_cond cs U x = mapped_cond cs U y).
      { intros x y H. unfold mapped_cond. clear - H. induction cs as [|[c v] l IH]; [reflexivity|]. cbn [forallb fst snd]. rewrite IH, (H c); [reflexivity| |].
        - apply ctl_iff. exists v. left. reflexivity.
        - intros p Hp. apply H. apply ctl_iff in Hp. destruct Hp as (w & Hp). apply ctl_iff. exists w. right. exact Hp. }
      assert (NE : forall p, ctl cs p = true -> s_map (u_sh U t) <> s_map (u_sh U p)).
      { intros p Hp F. destruct (HC p Hp) as (Hpn & Ep & _). pose proof (pl_inj _ _ _ _ (wf_placed U W) t p u Ht Hpn Et Ep F) as ->. congruence. }
      intros x. split; apply Q; intros p Hp; pose proof (NE p Hp) as Hn; [rewrite tb_setbit|rewrite tb_clearbit]; destruct (N.eqb_spec (s_map (u_sh U t)) (s_map (u_sh U p))); try contradiction; [reflexivity|apply andb_true_r]. }
    assert (EF : forall w, fst (u_eng V w) = fst (u_eng U w)) by (intros w; destruct (N.eq_dec w u) as [->|Hwu]; [exact HF|rewrite HE by exact Hwu; reflexivity]).
    assert (BV : same_state (base V) (gate1 (holds cs) t m (base U))).
    { unfold base. rewrite KN, HX. eapply ss_trans.
      - apply (base_ext (u_n U) (u_next U) (u_sh U) (u_eng V) (u_sh V) (u_eng V)); [intros p _; apply HS|intros p w _ _; apply HS| |reflexivity].
        intros p _ _. destruct (HS p) as (_ & _ & S3 & S4 & _). split; assumption.
      - eapply ss_trans; [apply (base_eng (u_n U) (u_next U) (u_sh U) (u_eng U) (wf_placed U W) (u_eng V) t u (mapped_cond cs U) m Ht Et); [intros w _; apply HE|exact HV]|].
        intros x. unfold gate1. assert (Ec : mapped_cond cs U (gather (u_n U) (u_sh U) u x) = holds cs x); [|rewrite Ec; reflexivity].
        unfold mapped_cond, holds. clear - HC W. induction cs as [|[c v] l IH]; [reflexivity|]. cbn [forallb fst snd].
        assert (Hc : ctl ((c, v) :: l) c = true) by (apply ctl_iff; exists v; left; reflexivity). destruct (HC c Hc) as (Hn & Ec & _).
        rewrite (gather_bit (u_n U) (u_next U) (u_sh U) (u_eng U) (wf_placed U W) u x c Hn Ec). rewrite IH; [reflexivity|].
        intros p Hp. apply HC. apply ctl_iff in Hp. destruct Hp as (w & Hp). apply ctl_iff. exists w. right. exact Hp. }
    split.
    - split; rewrite ?KN, ?HX, ?KS, ?KP.
      + apply (placed_ext _ _ _ _ _ _ (wf_placed U W)); [intros p _; apply HS|intros p w _ _; apply HS|intros w _; apply EF].
      + intros w Hw. rewrite <- (wf_norm U W w Hw), EF. destruct (N.eq_dec w u) as [->|Hwu]; [|rewrite HE by exact Hwu; reflexivity]. rewrite (norm2_eqv _ _ _ HV). apply gate1_norm; assumption.
      + intros p Hp E. destruct (HS p) as (S1 & S2 & S3 & S4 & S5). rewrite S1 in E. destruct (wf_none U W p Hp E) as (L1 & L2 & L3 & L4).
        assert (p <> t) by congruence. unfold local_ok. rewrite S2, (HPd p), (HL p E), S3, S4 by assumption. auto.
      + intros p w Hp E. destruct (HS p) as (S1 & S2 & S3 & S4 & S5). rewrite S1 in E. intros Pd. rewrite S2, S3, S4, EF.
        destruct (pl_in _ _ _ _ (wf_placed U W) p w Hp E) as [Hw Hm].
        destruct (N.eq_dec w u) as [->|Hwu].
        * destruct (N.eq_dec p t) as [->|Hpt].
          -- destruct (HPt Pd) as [P0 Dm]. destruct (wf_faith U W t u Hp E P0) as [[F1 F2] F3]. split.
             2:{ intros R. destruct (F3 R) as [-> ->]. rewrite !(wt_eqv _ _ _ _ _ HV). split; symmetry; apply wt_diag; assumption. }
             split; [rewrite F1|rewrite F2]; symmetry; (etransitivity; [apply esup_eqv; exact HV|]); apply esup_diag_iff; assumption.
          -- rewrite (HPd p Hpt) in Pd. destruct (wf_faith U W p u Hp E Pd) as [[F1 F2] F3].
             assert (Hj : s_map (u_sh U p) <> s_map (u_sh U t)) by (intros F; apply Hpt, (pl_inj _ _ _ _ (wf_placed U W) p t u Hp Ht E Et F)). split.
             2:{ intros R. destruct (F3 R) as [-> ->]. rewrite !(wt_eqv _ _ _ _ _ HV). split; symmetry; apply wt_apart; assumption. }
             split; [rewrite F1|rewrite F2]; symmetry; (etransitivity; [apply esup_eqv; exact HV|]); apply esup_apart_iff; assumption.
        * rewrite (HE w Hwu). assert (p <> t) by congruence. rewrite (HPd p) in Pd by assumption. apply (wf_faith U W p w Hp E Pd).
      + apply (wf_ph U W).
      + apply (wf_sw U W).
    - apply like_ss. unfold PUnit5.framed. rewrite KN. eapply ss_trans; [|apply (fr_ctrl cx (up (u_n U)) (bas_of U) (holds cs) t M m)].
      + eapply ss_trans; [apply fr_proper, BV|]. intros x. rewrite (fr_bas cx _ (bas_of U) (bas_of V)) by (intros p _; apply HS). reflexivity.
      + apply upto_nodup.
      + apply up_in, Ht.
      + apply holds_indep, Hct.
      + intros p Hp. destruct (ctl cs p) eqn:Ec; [right; left; apply (HC p Ec)|right; right; apply holds_indep, Ec].
      + exact EB.
  Qed.

  (** What ApplyEitherControlled does after the buffers. *)
  Definition marked (cs : list (N * bool)) U : qu := fold_left (fun V c => on_sh (fst c) (w_fd true) V) cs U.
  Lemma marked_ok cs : forall U, let V := marked cs U in kept U V /\ u_next V = u_next U /\ (forall w, u_eng V w = u_eng U w) /\ (forall p, u_sh V p = if ctl cs p then w_fd true (u_sh U p) else u_sh U p).
  Proof.
    induction cs as [|[c v] l IH]; intros U; cbn zeta; unfold marked; cbn [fold_left].
    - repeat split.
    - destruct (IH (on_sh c (w_fd true) U)) as (I1 & I2 & I3 & I4). fold (marked l (on_sh c (w_fd true) U)) in *. cbn [fst]. split; [eapply kept_trans; [|exact I1]; repeat split|]. split; [exact I2|]. split; [exact I3|].
      intros p. rewrite I4. rewrite sh_on. unfold ctl. cbn [existsb fst]. destruct (N.eqb_spec p c) as [->|]; cbn [orb]; [destruct (existsb _ l); reflexivity|reflexivity].
  Qed.
  Definition joint (cs : list (N * bool)) (t : N) (isPhase : bool) (trns : pauli -> M2) (U3 : qu) : qu :=
    let U4 := marked cs U3 in
    let U5 := on_sh t (fun s => w_pd (s_pd s || negb (pauli_eqb (s_bas s) PauliZ) || negb isPhase) (w_fd true s)) U4 in
    match s_unit (u_sh U5 t) with
    | Some u => eng_gate u (mapped_cond cs U5) (s_map (u_sh U5 t)) (trns (s_bas (u_sh U5 t))) U5
    | None => U5
    end.
  Record acted (G : vec -> vec) U V : Prop := mkActed {
    ad_wf : wf V;
    ad_neat : neat V;
    ad_like : like (framed V) (G (framed U));
    ad_kept : kept U V
  }.
  Lemma tail_ok cs t isPhase trns (M : M2) U : wf U -> neat U -> t < u_n U -> cs <> [] -> ctl cs t = false -> (forall p, ctl cs p = true -> p < u_n U /\ bas_of U p = PauliZ) ->
    unitary2 (trns (bas_of U t)) -> in_basis cx (bas_of U t) M (trns (bas_of U t)) -> (isPhase = true -> bas_of U t = PauliZ -> diag (trns PauliZ)) ->
    let bits := filter (fun p => (p =? t)%N || existsb (fun c => (p =? fst c)%N) cs) (order U) in
    let V := joint cs t isPhase trns (gathered bits U) in acted (gate1 (holds cs) t M) U V /\ (forall p, bas_of V p = bas_of U p).
  Proof.
    intros W N0 Ht Hcs Hct HC Um EB HD. set (bits := filter _ (order U)). cbn zeta.
    assert (Hb : forall p, In p bits <-> p < u_n U /\ (p = t \/ ctl cs p = true)).
    { intros p. unfold bits. rewrite filter_In, (order_in U p W), orb_true_iff, N.eqb_eq. reflexivity. }
    destruct (gathered_ok D bits U W N0) as (M3 & S3 & G3); [intros q Hq; apply Hb, Hq|]. set (U3 := gathered bits U) in *. pose proof (moved_n U U3 M3) as En.
    assert (It : In t bits) by (apply Hb; auto). destruct (G3 t t It It) as [_ Et]. destruct (s_unit (u_sh U3 t)) as [u|] eqn:Eu; [clear Et|contradiction].
    assert (HC3 : forall p, ctl cs p = true -> p < u_n U3 /\ s_unit (u_sh U3 p) = Some u /\ bas_of U3 p = PauliZ).
    { intros p Hp. destruct (HC p Hp) as [H1 H2]. rewrite En. split; [exact H1|]. assert (Ip : In p bits) by (apply Hb; auto). split; [rewrite <- Eu; apply (G3 p t Ip It)|]. rewrite (moved_bas U U3 p M3). exact H2. }
    unfold joint. destruct (marked_ok cs U3) as (K4 & X4 & E4 & S4). set (U4 := marked cs U3) in *. set (f := fun s : qshard K => w_pd (s_pd s || negb (pauli_eqb (s_bas s) PauliZ) || negb isPhase) (w_fd true s)). set (U5 := on_sh t f U4).
    assert (S5 : forall p, u_sh U5 p = if p =? t then f (u_sh U3 p) else if ctl cs p then w_fd true (u_sh U3 p) else u_sh U3 p).
    { intros p. unfold U5. rewrite sh_on, !S4. destruct (N.eqb_spec p t) as [->|]; [rewrite Hct; reflexivity|reflexivity]. }
    assert (F5 : forall p, s_unit (u_sh U5 p) = s_unit (u_sh U3 p) /\ s_map (u_sh U5 p) = s_map (u_sh U3 p) /\ s_a0 (u_sh U5 p) = s_a0 (u_sh U3 p) /\ s_a1 (u_sh U5 p) = s_a1 (u_sh U3 p) /\ s_bas (u_sh U5 p) = s_bas (u_sh U3 p)).
    { intros p. rewrite S5. destruct (p =? t); [|destruct (ctl cs p)]; repeat split. }
    destruct (F5 t) as (F51 & F52 & _ & _ & F55). rewrite F51, Eu, F52, F55. set (m := trns (s_bas (u_sh U3 t))).
    assert (BT : s_bas (u_sh U3 t) = bas_of U t) by (apply (moved_bas U U3 t M3)).
    assert (MC : forall x, mapped_cond cs U5 x = mapped_cond cs U3 x).
    { intros x. apply mapped_ext. intros p. apply F5. }
    set (V := eng_gate u (mapped_cond cs U5) (s_map (u_sh U3 t)) m U5).
    assert (EV : forall w, u_eng V w = if w =? u then (fst (u_eng U3 u), tab (fst (u_eng U3 u)) (gate1 (mapped_cond cs U5) (s_map (u_sh U3 t)) m (snd (u_eng U3 u)))) else u_eng U3 w).
    { intros w. rewrite <- !E4. unfold V, eng_gate. change (u_eng U5 u) with (u_eng U4 u). destruct (u_eng U4 u) as [a v]. cbn [fst snd]. destruct (N.eqb_spec w u) as [->|Hw]; [unfold put_eng; cbn; rewrite N.eqb_refl; reflexivity|]. unfold put_eng. cbn. destruct (N.eqb_spec w u); [contradiction|reflexivity]. }
    assert (SV : u_sh V = u_sh U5) by (unfold V, eng_gate; destruct (u_eng U5 u); reflexivity).
    assert (KV : kept U3 V) by (unfold V, eng_gate; destruct (u_eng U5 u); eapply kept_trans; [exact K4|]; repeat split).
    assert (XV : u_next V = u_next U3) by (unfold V, eng_gate; destruct (u_eng U5 u); exact X4).
    destruct (joint_ok cs t u m M U3 V) as [R1 R2].
    - apply (mv_wf _ _ M3).
    - rewrite En. exact Ht.
    - exact Hct.
    - exact HC3.
    - exact Eu.
    - unfold m. rewrite BT. exact Um.
    - unfold m. change (bas_of U3 t) with (s_bas (u_sh U3 t)). rewrite BT. exact EB.
    - exact KV.
    - exact XV.
    - intros p. rewrite SV. apply F5.
    - intros p Ep. rewrite SV, S5. destruct (N.eqb_spec p t) as [->|]; [congruence|]. destruct (ctl cs p) eqn:Ec; [|reflexivity]. destruct (HC3 p Ec) as (_ & F & _). congruence.
    - intros p Hp. rewrite SV, S5. destruct (N.eqb_spec p t); [congruence|]. destruct (ctl cs p); reflexivity.
    - rewrite SV, S5, N.eqb_refl. unfold f. cbn [w_pd w_fd s_pd]. intros F. apply orb_false_iff in F. destruct F as [F F3]. apply orb_false_iff in F. destruct F as [F1 F2]. split; [exact F1|].
      apply negb_false_iff in F2, F3. assert (BZ : s_bas (u_sh U3 t) = PauliZ) by (destruct (s_bas (u_sh U3 t)); [reflexivity|discriminate|discriminate]). unfold m. rewrite BZ. apply HD; [exact F3|congruence].
    - intros w Hw. rewrite EV. destruct (N.eqb_spec w u); [contradiction|reflexivity].
    - rewrite EV, N.eqb_refl. reflexivity.
    - intros y Hy. rewrite EV, N.eqb_refl. cbn [snd]. rewrite tab_ok by exact Hy. unfold gate1. rewrite MC. reflexivity.
    - split; [split|].
      + exact R1.
      + destruct S3 as [S31 S32]. pose proof (mv_wf _ _ M3) as W3. split.
        * intros p w Hp E. rewrite SV in *. assert (Hp3 : p < u_n U3) by (replace (u_n U3) with (u_n V) by apply KV; exact Hp). destruct (F5 p) as (F1 & _). rewrite F1 in E. rewrite S5.
          destruct (N.eqb_spec p t) as [->|Hpt]; [reflexivity|]. destruct (ctl cs p) eqn:Ec; [reflexivity|]. destruct (S31 p w Hp3 E) as [Ib|H]; [|exact H]. apply Hb in Ib. destruct Ib as [_ [Ib|Ib]]; congruence.
        * intros w Hw F. rewrite XV in Hw. assert (F3 : fst (u_eng U3 w) = 1) by (rewrite <- F, EV; destruct (N.eqb_spec w u) as [->|]; reflexivity).
          destruct (S32 w Hw F3) as (p & Hp & Ib & Ep). destruct (G3 p t Ib It) as [Eq _]. rewrite Eu, Ep in Eq. injection Eq as ->.
          destruct cs as [|[c v] l]; [contradiction|]. assert (Hc : ctl ((c, v) :: l) c = true) by (apply ctl_iff; exists v; left; reflexivity). destruct (HC3 c Hc) as (Hcn & Ecu & _).
          rewrite <- En in Ht. destruct (pl_in _ _ _ _ (wf_placed U3 W3) t u Ht Eu) as [_ Ht1]. destruct (pl_in _ _ _ _ (wf_placed U3 W3) c u Hcn Ecu) as [_ Hc1]. rewrite F3 in Ht1, Hc1.
          assert (Etc : s_map (u_sh U3 t) = s_map (u_sh U3 c)) by lia. pose proof (pl_inj _ _ _ _ (wf_placed U3 W3) t c u Ht Hcn Eu Ecu Etc) as ->. congruence.
      + eapply like_trans; [exact R2|]. apply like_gate, (moved_framed cx U U3 M3).
      + eapply kept_trans; [apply (mv_kept _ _ M3)|exact KV].
      + intros p. unfold bas_of. rewrite SV. destruct (F5 p) as (_ & _ & _ & _ & ->). apply (moved_bas U U3 p M3).
  Qed.
End P.
