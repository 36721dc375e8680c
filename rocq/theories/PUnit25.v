(** Proofs for QUnit: measurements. *)
From Coq Require Import Arith NArith List Bool Lia Ring Permutation.
From Verif Require Import Bits MFunctions SpecFunctions PFunctions MKernel PKernel Amp PAmp SpecState PApply PCompose PGates PGates2 PProb PQCirc2 PQCirc3 PEngine MShard SpecShard MUnit SpecUnit PShard1 PShard2 PShard3 PShard4 PShard5 PShard6 PShard7 PShard8 PShard9 PUnit1 PUnit2 PUnit3 PUnit4 PUnitW PUnit5 PUnit6 PUnit7 PUnit8 PUnit9 PUnit10 PUnit11 PUnit12 PUnit13 PUnit14 PUnit15 PUnit16 PUnit17 PUnit18 SpecUnit2 SpecUnit3 PUnit19 PUnit20 PUnit21 PUnit22 PUnit23 PUnit24.
Import ListNotations.
Local Open Scope N_scope.
Local Notation up n := (upto (N.to_nat n)).

Section P.
  Context {K : StarRing} (cx : Cplx K) (D : definite (K := K)).
  Add Ring KrCO : (sr_ring K).
  Local Notation vec := (N -> K).
  Local Notation unit1 x := (anorm x = 1%amp).
  Local Notation M2 := (mat2 K).
  Local Notation qu := (qunit K).
  Local Notation wf := (wf cx).
  Local Notation framed := (framed cx).
  Local Notation meaning := (meaning cx).
  Local Notation good := (good cx).
  Local Notation keeps := (keeps cx).
  Local Notation logical := (logical cx).
  Implicit Types (U V : qu) (psi phi : vec) (s : shards K) (R : N -> N -> Prop).

  (** ** Projections *)
  Definition pjm (r : bool) (z : K) : M2 := (if r then mkMat 0 0 0 z else mkMat z 0 0 0)%amp.
  Definition cut (q : N) (r : bool) (z : K) psi : vec := fun x => if eqb (N.testbit x q) r then (z * psi x)%amp else 0%amp.
  Lemma pjm_gate q r z psi : same_state (gate1 always q (pjm r z) psi) (cut q r z psi).
  Proof.
    intros x. unfold gate1, always, cut, pjm. destruct (N.testbit x q) eqn:E, r; cbn [m00 m01 m10 m11 eqb]; ring.
  Qed.
  Lemma pjm_diag r z : exists a b, pjm r z = mkMat a 0%amp 0%amp b.
  Proof. destruct r; [exists 0%amp, z|exists z, 0%amp]; reflexivity. Qed.
  Lemma pending_cut s q r z psi : consistent s -> not_inverted s q -> same_state (pending s (gate1 always q (pjm r z) psi)) (gate1 always q (pjm r z) (pending s psi)).
  Proof.
    intros C HN. apply conj_pending; [reflexivity|]. intros a c t phi. unfold gate_at. destruct (buffer_of s a c t) as [b|] eqn:E; [|apply ss_refl].
    destruct (pjm_diag r z) as (x & y & ->). destruct (N.eq_dec t q) as [->|Htq]; [|apply diag_fires; exact Htq].
    destruct (diag_matrix a b (HN a c b E)) as (x' & y' & ->). apply diag_gates.
  Qed.
  Lemma cut_like q r z c psi : unit1 c -> like (cut q r (c * z)%amp psi) (cut q r z psi).
  Proof. intros Hc. exists c. split; [exact Hc|]. intros x. unfold cut. destruct (eqb _ _); ring. Qed.
  Lemma like_cut q r z psi phi : like psi phi -> like (cut q r z psi) (cut q r z phi).
  Proof. intros (c & Hc & E). exists c. split; [exact Hc|]. intros x. unfold cut. rewrite E. destruct (eqb _ _); ring. Qed.
  Lemma cut_sup q r z psi : supported q r (cut q r z psi).
  Proof. intros x Hx. unfold cut. destruct (eqb (N.testbit x q) r) eqn:E; [apply eqb_prop in E; contradiction|reflexivity]. Qed.
  Lemma meaning_cut U V q r z : kept U V -> good U -> not_inverted (u_buf U) q -> like (framed V) (cut q r z (framed U)) -> like (meaning V) (cut q r z (meaning U)).
  Proof.
    intros (_ & _ & _ & HB & _) G HN HL. destruct (gd_tidy cx U G) as (C & _). unfold PUnit10.meaning. rewrite HB. eapply like_trans; [apply like_pending, HL|].
    eapply like_trans; [apply like_pending, like_ss, ss_sym, pjm_gate|]. eapply like_trans; [apply like_ss, pending_cut; assumption|]. apply like_ss, pjm_gate.
  Qed.
  Lemma framed_cut U V q r z : q < u_n U -> u_n V = u_n U -> (forall p, p < u_n U -> bas_of V p = bas_of U p) -> bas_of U q = PauliZ -> same_state (base V) (gate1 always q (pjm r z) (base U)) -> same_state (framed V) (cut q r z (framed U)).
  Proof.
    intros Hq HN HB HZ E. unfold PUnit5.framed. rewrite HN. eapply ss_trans; [apply fr_proper, E|]. eapply ss_trans; [|apply pjm_gate].
    apply (fr_change cx (up (u_n U)) (bas_of U) (bas_of V) q (pjm r z) (pjm r z)); [apply upto_nodup|apply up_in, Hq| |].
    - intros p Hp _. apply HB, up_in, Hp.
    - rewrite (HB q Hq), HZ. cbn [bmat]. destruct (pjm_diag r z) as (x & y & ->). unfold mmul, midn. cbn [m00 m01 m10 m11]. f_equal; ring.
  Qed.
  Lemma anorm_conj (x : K) : anorm (sr_conj x) = anorm x.
  Proof. unfold anorm. rewrite sr_conj_invol. ring. Qed.
  Lemma cut_norm n q r z v : norm2 n (cut q r z v) = (anorm z * wt n q r v)%amp.
  Proof.
    unfold wt, norm2. rewrite <- asum_scale. apply asum_ext. intros x _. unfold cut, mask. destruct (eqb _ _); [apply anorm_mul|rewrite anorm_0; ring].
  Qed.

  (** ** A qubit without an engine *)
  Lemma meas_none q (r : bool) ph d g U : wf U -> neat U -> q < u_n U -> s_unit (u_sh U q) = None -> unit1 ph -> (anorm g * anorm (if r then s_a1 (u_sh U q) else s_a0 (u_sh U q)) = 1)%amp ->
    let V := on_sh q (fun s : qshard K => mkQS (s_unit s) (s_map s) false false (if r then 0%amp else ph) (if r then ph else 0%amp) (s_bas s)) (set_draw d U) in
    wf V /\ neat V /\ kept U V /\ u_next V = u_next U /\ (forall p, bas_of V p = bas_of U p) /\ exists c, unit1 c /\ same_state (base V) (gate1 always q (pjm r (c * g)) (base U)).
  Proof.
    intros W N0 Hq E Hph Hg V. set (a := if r then s_a1 (u_sh U q) else s_a0 (u_sh U q)) in *.
    assert (SV : forall p, u_sh V p = if p =? q then mkQS (s_unit (u_sh U q)) (s_map (u_sh U q)) false false (if r then 0%amp else ph) (if r then ph else 0%amp) (s_bas (u_sh U q)) else u_sh U p) by reflexivity.
    assert (KV : kept U V) by (repeat split; reflexivity).
    assert (EU : forall p, s_unit (u_sh V p) = s_unit (u_sh U p) /\ s_map (u_sh V p) = s_map (u_sh U p)) by (intros p; rewrite SV; destruct (N.eqb_spec p q) as [->|]; auto).
    split; [|split; [|split; [exact KV|split; [reflexivity|split; [intros p; unfold bas_of; rewrite SV; destruct (N.eqb_spec p q) as [->|]; reflexivity|]]]]].
    - split; change (u_n V) with (u_n U); change (u_next V) with (u_next U); change (u_eng V) with (u_eng U); change (u_sw V) with (u_sw U); change (u_ph V) with (u_ph U); try apply W.
      + apply (placed_ext _ _ _ _ _ _ (wf_placed U W)); [intros p _; apply EU|intros p u _ _; apply EU|reflexivity].
      + intros p Hp F. rewrite SV in *. destruct (N.eqb_spec p q) as [->|]; [|apply (wf_none U W); assumption]. destruct (wf_none U W q Hq E) as (L1 & _).
        split; [exact L1|]. split; [reflexivity|]. split; [reflexivity|]. cbn [s_a0 s_a1]. destruct r; rewrite Hph, anorm_0; ring.
      + intros p u Hp F. rewrite SV in *. destruct (N.eqb_spec p q) as [->|]; [cbn [s_unit] in F; congruence|]. apply (wf_faith U W); assumption.
    - destruct N0 as [N1 N2]. split; [|exact N2]. change (u_n V) with (u_n U). intros p u Hp F. rewrite SV in *. destruct (N.eqb_spec p q) as [->|]; [cbn [s_unit] in F; congruence|]. apply (N1 p u); assumption.
    - set (c := (ph * sr_conj a * sr_conj g)%amp). assert (Ec : (c * g * a = ph)%amp).
      { unfold c. transitivity (ph * (anorm g * anorm a))%amp; [unfold anorm; ring|rewrite Hg; ring]. }
      exists c. split.
      + unfold c. rewrite !anorm_mul, !anorm_conj, Hph. transitivity (anorm g * anorm a)%amp; [ring|exact Hg].
      + unfold base. change (u_n V) with (u_n U). change (u_next V) with (u_next U). change (u_eng V) with (u_eng U). apply base_loc; try assumption.
        * intros p _ Hp. rewrite SV. destruct (N.eqb_spec p q); [congruence|reflexivity].
        * rewrite SV, N.eqb_refl. exact E.
        * rewrite SV, N.eqb_refl. unfold a in Ec. unfold pjm. cbn [s_a0]. destruct r; cbn [m00 m01]; [ring|]. rewrite <- Ec. ring.
        * rewrite SV, N.eqb_refl. unfold a in Ec. unfold pjm. cbn [s_a1]. destruct r; cbn [m10 m11]; [|ring]. rewrite <- Ec. ring.
  Qed.

  (** ** A qubit in an engine *)
  Lemma meas_some q (r : bool) u ph g U V : wf U -> neat U -> q < u_n U -> s_unit (u_sh U q) = Some u -> unit1 ph -> (anorm g * wt (fst (u_eng U u)) (s_map (u_sh U q)) r (snd (u_eng U u)) = 1)%amp ->
    kept U V -> u_next V = u_next U -> u_sh V q = mkQS (Some u) (s_map (u_sh U q)) false false (if r then 0%amp else ph) (if r then ph else 0%amp) (s_bas (u_sh U q)) ->
    (forall p, p <> q -> u_sh V p = match s_unit (u_sh U p) with Some w => if w =? u then w_pd true (w_fd true (u_sh U p)) else u_sh U p | None => u_sh U p end) ->
    (forall w, w <> u -> u_eng V w = u_eng U w) -> fst (u_eng V u) = fst (u_eng U u) -> (forall y, y < 2 ^ fst (u_eng U u) -> snd (u_eng V u) y = cut (s_map (u_sh U q)) r g (snd (u_eng U u)) y) ->
    wf V /\ neat_but V q /\ (forall p, bas_of V p = bas_of U p) /\ same_state (base V) (gate1 always q (pjm r g) (base U)) /\ sup_unit V q r.
  Proof.
    intros W N0 Hq E Hph Hg KV NV SQ SP EW EF EV. pose proof KV as (_ & KN & KS & _ & KP & _ & _). destruct (pl_in _ _ _ _ (wf_placed U W) q u Hq E) as [Hu Hm].
    set (a := fst (u_eng U u)) in *. set (m := s_map (u_sh U q)) in *. set (v := snd (u_eng U u)) in *.
    assert (EU : forall p, s_unit (u_sh V p) = s_unit (u_sh U p) /\ s_map (u_sh V p) = s_map (u_sh U p) /\ bas_of V p = bas_of U p).
    { intros p. unfold bas_of. destruct (N.eq_dec p q) as [->|Hp]; [rewrite SQ; cbn [s_unit s_map s_bas]; auto|]. rewrite (SP p Hp). destruct (s_unit (u_sh U p)) as [w|] eqn:Ew; [|auto]. destruct (w =? u); cbn; auto. }
    assert (SU : esup a m r (snd (u_eng V u))).
    { intros y Hy Hb. rewrite EV by exact Hy. unfold cut. destruct (eqb (N.testbit y m) r) eqn:F; [apply eqb_prop in F; contradiction|reflexivity]. }
    assert (NN : norm2 a (snd (u_eng V u)) = 1%amp) by (rewrite (norm2_eqv a _ _ EV), cut_norm; exact Hg).
    assert (EFF : forall w, fst (u_eng V w) = fst (u_eng U w)) by (intros w; destruct (N.eq_dec w u) as [->|Hw]; [exact EF|rewrite EW by exact Hw; reflexivity]).
    split; [|split; [|split; [intros p; apply EU|split]]].
    - split; rewrite ?KN, ?NV, ?KS.
      + apply (placed_ext _ _ _ _ _ _ (wf_placed U W)); [intros p _; apply EU|intros p w _ _; apply EU|intros w _; apply EFF].
      + intros w Hw. destruct (N.eq_dec w u) as [->|Hwu]; [rewrite EF; exact NN|rewrite EW by exact Hwu; apply (wf_norm U W), Hw].
      + intros p Hp F. destruct (N.eq_dec p q) as [->|Hpq]; [rewrite SQ in F; discriminate|]. rewrite (proj1 (EU p)) in F. rewrite (SP p Hpq), F. apply (wf_none U W); assumption.
      + intros p w Hp F. destruct (N.eq_dec p q) as [->|Hpq].
        * rewrite SQ in *. cbn [s_unit] in F. injection F as <-. rewrite EF. fold a. intros _. cbn [s_map s_a0 s_a1].
          assert (Z : forall b, esup a m b (snd (u_eng V u)) <-> b = r).
          { intros b. split; [|intros ->; exact SU]. intros B. destruct (Bool.bool_dec b r) as [|Hb]; [assumption|exfalso]. destruct D as (D1 & _). apply D1. rewrite <- NN, <- (wt_esup a m b _ B).
            apply wt_esup_0. assert (Er : negb b = r) by (clear - Hb; destruct b, r; auto; destruct Hb; reflexivity). rewrite Er. exact SU. }
          assert (P0 : ph <> 0%amp) by (intros F; rewrite F, anorm_0 in Hph; destruct D as (D1 & _); apply D1; symmetry; exact Hph).
          split; [split; rewrite Z; destruct r; split; intros F; congruence|]. intros _. assert (W1 : wt a m r (snd (u_eng V u)) = 1%amp) by (rewrite (wt_esup a m r _ SU); exact NN).
          assert (W0 : wt a m (negb r) (snd (u_eng V u)) = 0%amp) by (apply wt_esup_0; rewrite negb_involutive; exact SU).
          destruct r; cbn [negb] in *; rewrite W0, W1, anorm_0; auto.
        * rewrite (proj1 (EU p)) in F. rewrite (SP p Hpq), F. destruct (N.eqb_spec w u) as [->|Hwu]; [intros Pd; discriminate Pd|]. rewrite EW by exact Hwu. apply (wf_faith U W); assumption.
      + intros k. rewrite KP. apply (wf_ph U W).
      + apply (wf_sw U W).
    - destruct N0 as [N1 N2]. split; [|intros w Hw; rewrite EFF; apply N2; rewrite <- NV; exact Hw]. rewrite KN. intros p w Hp Hpq F. rewrite (proj1 (EU p)) in F. rewrite (SP p Hpq), F. destruct (w =? u); [reflexivity|]. apply (N1 p w); assumption.
    - unfold base. rewrite KN, NV. eapply ss_trans.
      + apply (base_ext (u_n U) (u_next U) (u_sh U) (u_eng V) (u_sh V) (u_eng V)); [intros p _; apply EU|intros p w _ _; apply EU| |reflexivity].
        intros p Hp F. destruct (N.eq_dec p q) as [->|Hpq]; [congruence|]. rewrite (SP p Hpq), F. auto.
      + change (gate1 always q (pjm r g) (base_of (u_n U) (u_next U) (u_sh U) (u_eng U))) with (gate1 (fun x => always (gather (u_n U) (u_sh U) u x)) q (pjm r g) (base_of (u_n U) (u_next U) (u_sh U) (u_eng U))).
        apply (base_eng (u_n U) (u_next U) (u_sh U) (u_eng U) (wf_placed U W) (u_eng V) q u always (pjm r g) Hq E); [intros w _ Hw; apply EW, Hw|].
        intros y Hy. rewrite EV by exact Hy. symmetry. apply pjm_gate.
    - unfold sup_unit. rewrite SQ. cbn [s_unit s_map]. rewrite EF. exact SU.
  Qed.

  (** ** ForceM *)
  Lemma outcome_ok p res (f : bool) U : exists r d, outcome p res f U = (r, set_draw d U) /\ (f = true -> r = res) /\ (f = false -> chosen (u_rnd U) p r).
  Proof.
    unfold outcome. assert (E : U = set_draw (u_draw U) U) by (destruct U; reflexivity). destruct f; [exists res, (u_draw U); rewrite <- E; split; [reflexivity|split; auto; discriminate]|].
    destruct (is0 (1 - p)%amp) eqn:E1; [|destruct (is0 p) eqn:E0].
    - exists true, (u_draw U). rewrite <- E. split; [reflexivity|]. split; [discriminate|]. intros _. left. apply is0_iff in E1. split; [|reflexivity]. transitivity (1 - (1 - p))%amp; [ring|rewrite E1; ring].
    - exists false, (u_draw U). rewrite <- E. split; [reflexivity|]. split; [discriminate|]. intros _. right. left. apply is0_iff in E0. auto.
    - exists (u_rnd U (u_draw U) p), (u_draw U + 1). split; [reflexivity|]. split; [discriminate|]. intros _. right. right. apply is0_false in E1, E0. split; [intros ->; apply E1; ring|]. split; [exact E0|]. exists (u_draw U). reflexivity.
  Qed.
  Lemma wt_other n q (r : bool) psi : norm2 n psi = 1%amp -> (if r then wt n q true psi else 1 - wt n q true psi)%amp = wt n q r psi.
  Proof. intros E. destruct r; [reflexivity|]. rewrite <- E, <- (wt_split n q psi). ring. Qed.
  Lemma chosen_weight rnd n q r psi : norm2 n psi = 1%amp -> chosen rnd (wt n q true psi) r -> wt n q r psi <> 0%amp.
  Proof.
    intros E H. rewrite <- (wt_other n q r psi E). destruct D as (D1 & _). destruct H as [[-> ->]|[[-> ->]|(H1 & H0 & _)]]; [exact D1|intros F; apply D1; rewrite <- F; ring|].
    destruct r; [exact H0|]. intros F. apply H1. transitivity (1 - (1 - wt n q true psi))%amp; [ring|rewrite F; ring].
  Qed.
  (** The factors used are right for the two outcomes of qubit [q]. *)
  Definition nrm_ok (nrm : K -> K) (n q : N) psi : Prop := forall b, wt n q b psi <> 0%amp -> (anorm (nrm (wt n q b psi)) * wt n q b psi = 1)%amp.

  Lemma outcome_sh p res f U : u_sh (snd (outcome p res f U)) = u_sh U.
  Proof. destruct (outcome_ok p res f U) as (r & d & -> & _). reflexivity. Qed.

  Record measured (q : N) (r : bool) U V : Prop := mkMeas {
    ms_good : good V;
    ms_held : held U V;
    ms_ctls : ctls U V;
    ms_like : exists g, (anorm g * wt (u_n U) q r (meaning U) = 1)%amp /\ like (meaning V) (cut q r g (meaning U))
  }.
  (** A state in which the qubit has been projected, and the end of ForceM. *)
  Lemma meas_end q (r : bool) g U X : good U -> q < u_n U -> not_inverted (u_buf U) q -> kept U X -> wf X -> neat X -> like (framed X) (cut q r g (framed U)) ->
    (forall c t, links U c t -> two_sided c (mask q r (meaning U))) -> (anorm g * wt (u_n U) q r (meaning U) = 1)%amp ->
    measured q r U (if r then Flush1Eigenstate cx (RevertBasis2Qb cx) q X else Flush0Eigenstate cx (RevertBasis2Qb cx) q X).
  Proof.
    intros G Hq HN KX WX NX HL HT Hg. pose proof (meaning_cut U X q r g KX G HN HL) as HM. pose proof KX as (K1 & K2 & K3 & K4 & K5 & K6 & K7).
    assert (G0 : g <> 0%amp) by (intros F; rewrite F, anorm_0 in Hg; destruct D as (D1 & _); apply D1; rewrite <- Hg; ring).
    assert (LV : live cx X).
    { intros a c t b E. apply (two_like c _ _ HM). rewrite K4 in E. destruct (HT c t (ex_intro _ a (ex_intro _ b E))) as [T1 T2].
      assert (Z : forall v, supported c v (cut q r g (meaning U)) -> supported c v (mask q r (meaning U))).
      { intros v S x Hx. specialize (S x Hx). unfold cut, mask in *. destruct (eqb (N.testbit x q) r); [|reflexivity]. destruct D as (_ & D2 & _). destruct (D2 _ _ S); [contradiction|assumption]. }
      split; intros S; [apply T1|apply T2]; apply Z, S. }
    assert (GX : good X). { split; [exact WX|exact NX|rewrite K2, K4; apply (gd_tidy cx U G)|exact LV|rewrite K7; apply (gd_ub cx U G)]. }
    assert (SX : supported q r (meaning X)) by (apply (supported_like q r _ _ HM), cut_sup).
    assert (F : flushed cx X (FlushE cx r q X)) by (apply (flush_ok cx); [exact GX|rewrite K2; exact Hq|rewrite K4; exact HN|exact SX]).
    assert (EF : (if r then Flush1Eigenstate cx (RevertBasis2Qb cx) q X else Flush0Eigenstate cx (RevertBasis2Qb cx) q X) = FlushE cx r q X) by (destruct r; reflexivity).
    rewrite EF. destruct F as [[F1 F2 F3 F4] _ _]. split; [exact F1| | |exists g; split; [exact Hg|eapply like_trans; [exact F2|exact HM]]].
    - eapply held_trans; [apply (kept_held U X KX)|exact F3].
    - intros c t H. apply F4 in H. destruct H as (a & b & E). exists a, b. rewrite <- K4. exact E.
  Qed.
  Lemma mask_like q r psi phi : like psi phi -> like (mask q r psi) (mask q r phi).
  Proof. intros (c & Hc & E). exists c. split; [exact Hc|]. intros x. unfold mask. rewrite E. destruct (eqb _ _); ring. Qed.
  Lemma measured_keeps q r U U1 V : keeps U U1 -> measured q r U1 V -> measured q r U V.
  Proof.
    intros [A1 A2 A3 A4] [B1 B2 B3 (g & B4 & B5)]. split; [exact B1|eapply held_trans; eassumption|eapply ctls_trans; eassumption|]. exists g.
    assert (En : u_n U1 = u_n U) by apply A3. rewrite En in B4. split; [rewrite <- B4; f_equal; symmetry; apply like_wt, A2|]. eapply like_trans; [exact B5|apply like_cut, A2].
  Qed.

  Lemma force_ok nrm q res (f : bool) U : good U -> q < u_n U -> nrm_ok nrm (u_n U) q (meaning U) -> (f = true -> wt (u_n U) q res (meaning U) <> 0%amp) ->
    exists r V, ForceM cx nrm q res f true U = (r, V) /\ wt (u_n U) q r (meaning U) <> 0%amp /\ (f = true -> r = res) /\ (f = false -> chosen (u_rnd U) (wt (u_n U) q true (meaning U)) r) /\
      ((forall c t, links U c t -> two_sided c (mask q r (meaning U))) -> measured q r U V).
  Proof.
    intros G Hq HR HP. unfold ForceM. cbn [negb]. destruct (perm_prob_ok cx D q U G Hq) as (K1 & B1 & HN & _ & BL). set (U1 := ToPermBasisProb cx (RevertBasis2Qb cx) q U) in *. clearbody U1.
    pose proof (kp_good cx _ _ K1) as G1. pose proof (keeps_n cx _ _ K1) as E1. pose proof (gd_wf cx U1 G1) as W1. pose proof (gd_neat cx U1 G1) as N1. assert (Hq1 : q < u_n U1) by (rewrite E1; exact Hq).
    assert (WT : forall b, wt (u_n U) q b (meaning U) = wt (u_n U1) q b (base U1)).
    { intros b. rewrite <- (meaning_wt cx U1 q b G1 Hq1 B1 HN), E1. symmetry. apply like_wt, (kp_like cx _ _ K1). }
    pose proof (meaning_norm cx U G) as NU. set (p := wt (u_n U) q true (meaning U)) in *.
    assert (RN : u_rnd U1 = u_rnd U) by apply (kp_held cx _ _ K1).
    assert (POS : forall r, (f = true -> r = res) -> (f = false -> chosen (u_rnd U) p r) -> wt (u_n U) q r (meaning U) <> 0%amp).
    { intros r H1 H2. destruct f; [rewrite H1 by reflexivity; apply HP; reflexivity|]. apply (chosen_weight (u_rnd U)); [exact NU|apply H2; reflexivity]. }
    assert (TWO : forall r, (forall c t, links U c t -> two_sided c (mask q r (meaning U))) -> forall c t, links U1 c t -> two_sided c (mask q r (meaning U1))).
    { intros r H c t L. apply (two_like c _ _ (mask_like q r _ _ (kp_like cx _ _ K1))). apply (H c t), (kp_ctl cx _ _ K1), L. }
    destruct (s_unit (u_sh U1 q)) as [u|] eqn:E.
    - (* in an engine *)
      destruct (pl_in _ _ _ _ (wf_placed U1 W1) q u Hq1 E) as [Hu Hm]. assert (EP : eng_prob u (s_map (u_sh U1 q)) U1 = p).
      { unfold eng_prob, p. rewrite WT. unfold base. rewrite (unit_wt (u_n U1) (u_next U1) (u_sh U1) (u_eng U1) (wf_placed U1 W1) (wf_norm U1 W1) (fun p Hp H => proj2 (proj2 (proj2 (wf_none U1 W1 p Hp H)))) q u true Hq1 E). destruct (u_eng U1 u). cbn [fst snd]. symmetry. apply wt_true. }
      unfold eng_measure. rewrite EP. destruct (outcome_ok p res f U1) as (r & d & Eo & R1 & R2). rewrite Eo. rewrite RN in R2.
      change (if r then p else (1 - p)%amp) with (if r then wt (u_n U) q true (meaning U) else (1 - wt (u_n U) q true (meaning U))%amp). rewrite (wt_other (u_n U) q r (meaning U) NU).
      set (pr := wt (u_n U) q r (meaning U)) in *. assert (PR : pr <> 0%amp) by (apply POS; assumption).
      set (g := if is0 (1 - pr)%amp then 1%amp else nrm pr).
      assert (Hg : (anorm g * pr = 1)%amp).
      { unfold g. destruct (is0 (1 - pr)%amp) eqn:E0; [|apply HR; exact PR]. apply is0_iff in E0. rewrite unit_one. transitivity (1 - (1 - pr))%amp; [ring|rewrite E0; ring]. }
      set (a := fst (u_eng U1 u)) in *. set (m := s_map (u_sh U1 q)) in *. set (v := snd (u_eng U1 u)) in *.
      assert (PW : pr = wt a m r v).
      { unfold pr. rewrite WT. unfold base. apply (unit_wt (u_n U1) (u_next U1) (u_sh U1) (u_eng U1) (wf_placed U1 W1) (wf_norm U1 W1) (fun p Hp H => proj2 (proj2 (proj2 (wf_none U1 W1 p Hp H)))) q u r Hq1 E). }
      set (U2 := if true && negb (is0 (1 - pr)%amp) then _ else _).
      assert (A2 : kept U1 U2 /\ u_next U2 = u_next U1 /\ u_sh U2 = u_sh U1 /\ (forall w, w <> u -> u_eng U2 w = u_eng U1 w) /\ fst (u_eng U2 u) = a /\ (forall y, y < 2 ^ a -> snd (u_eng U2 u) y = cut m r g v y)).
      { unfold U2, g. cbn [andb]. destruct (is0 (1 - pr)%amp) eqn:E0; cbn [negb].
        - split; [repeat split; reflexivity|]. split; [reflexivity|]. split; [reflexivity|]. split; [reflexivity|]. split; [reflexivity|]. intros y Hy. cbn [u_eng set_draw]. fold v. unfold cut.
          destruct (eqb (N.testbit y m) r) eqn:Eb; [ring|]. apply is0_iff in E0.
          assert (ZR : weight_of a (fun y => eqb (N.testbit y m) (negb r)) v = 0%amp).
          { rewrite <- wt_weight. transitivity (1 - pr)%amp; [|exact E0]. rewrite PW, <- (wf_norm U1 W1 u Hu). fold a v. rewrite <- (wt_split a m v). destruct r; cbn [negb]; ring. }
          apply (weight_zero D) with (y := y) in ZR; [exact ZR|exact Hy|]. destruct (N.testbit y m), r; cbn in *; congruence.
        - split; [repeat split; reflexivity|]. split; [reflexivity|]. split; [reflexivity|]. cbn [u_eng put_eng set_eng set_draw]. split; [intros w Hw; destruct (N.eqb_spec w u); [contradiction|reflexivity]|]. rewrite N.eqb_refl. cbn [fst snd]. split; [reflexivity|].
          intros y Hy. rewrite tab_ok by exact Hy. unfold project, cut. fold v. destruct (eqb _ _); reflexivity. }
      clearbody U2. destruct A2 as (KU2 & NX2 & SH2 & EW2 & EF2 & EV2).
      destruct (draw U2) as [ph U2'] eqn:Ed. assert (DR : exists d', U2' = set_draw d' U2 /\ unit1 ph).
      { unfold draw in Ed. destruct (u_rgp U2); injection Ed as <- <-; [exists (u_draw U2 + 1)|exists (u_draw U2)]; (split; [destruct U2; reflexivity|]); [|apply unit_one]. destruct KU2 as (_ & _ & _ & _ & -> & _). apply (wf_ph U1 W1). }
      destruct DR as (d' & -> & Hph).
      set (U3 := on_sh q _ (set_draw d' U2)). assert (S3 : u_sh U3 q = mkQS (Some u) m false false (if r then 0%amp else ph) (if r then ph else 0%amp) (s_bas (u_sh U1 q))).
      { unfold U3. cbn [u_sh on_sh put_sh set_sh set_draw]. rewrite N.eqb_refl, SH2, E. reflexivity. }
      assert (P3 : forall p, p <> q -> u_sh U3 p = u_sh U1 p) by (intros p' Hp; unfold U3; cbn [u_sh on_sh put_sh set_sh set_draw]; destruct (N.eqb_spec p' q); [contradiction|]; rewrite SH2; reflexivity).
      rewrite S3. cbn [s_unit]. assert (F3 : fst (u_eng U3 u) = a) by exact EF2. rewrite F3. destruct (N.eqb_spec a 1) as [Ea|_]; [destruct (nt_size U1 N1 u Hu Ea)|].
      set (U4 := set_sh _ U3). exists r, (if r then Flush1Eigenstate cx (RevertBasis2Qb cx) q (SeparateBit cx r q U4) else Flush0Eigenstate cx (RevertBasis2Qb cx) q (SeparateBit cx r q U4)).
      split; [destruct r; reflexivity|]. split; [exact PR|]. split; [exact R1|]. split; [exact R2|]. intros HT.
      destruct (meas_some q r u ph g U1 U4 W1 N1 Hq1 E Hph) as (W4 & N4 & B4 & BS4 & SU4).
      + fold a m v. rewrite <- PW. exact Hg.
      + destruct KU2 as (C1 & C2 & C3 & C4 & C5 & C6 & C7). repeat split; assumption.
      + exact NX2.
      + unfold U4. cbn [u_sh set_sh]. rewrite N.eqb_refl. exact S3.
      + intros p' Hp. unfold U4. cbn [u_sh set_sh]. destruct (N.eqb_spec p' q); [contradiction|]. rewrite (P3 p' Hp). destruct (s_unit (u_sh U1 p')) as [w|]; reflexivity.
      + exact EW2.
      + exact EF2.
      + exact EV2.
      + assert (K4 : kept U1 U4) by (destruct KU2 as (C1 & C2 & C3 & C4 & C5 & C6 & C7); repeat split; assumption).
        assert (n4 : u_n U4 = u_n U1) by apply K4.
        destruct (separate_ok cx r q U4 W4 N4) as (S5 & _); [rewrite n4; exact Hq1|exact SU4|]. apply (measured_keeps q r U U1); [exact K1|].
        apply (meas_end q r g U1); [exact G1|exact Hq1|exact HN|eapply kept_trans; [exact K4|apply S5]|apply S5|apply S5| |apply TWO, HT|].
        * eapply like_trans; [apply S5|]. apply like_ss, framed_cut; [exact Hq1|exact n4|intros p' _; apply B4|exact B1|exact BS4].
        * rewrite E1. rewrite <- Hg. f_equal. apply like_wt, (kp_like cx _ _ K1).
    - (* not in an engine *)
      assert (EA : forall b : bool, wt (u_n U) q b (meaning U) = anorm (if b then s_a1 (u_sh U1 q) else s_a0 (u_sh U1 q))).
      { intros b. rewrite WT. unfold base. apply (local_wt (u_n U1) (u_next U1) (u_sh U1) (u_eng U1) (wf_placed U1 W1) (wf_norm U1 W1) (fun p Hp H => proj2 (proj2 (proj2 (wf_none U1 W1 p Hp H)))) q b Hq1 E). }
      rewrite <- (EA true). fold p. destruct (outcome_ok p res f U1) as (r & d & -> & R1 & R2). rewrite RN in R2. assert (PR : wt (u_n U) q r (meaning U) <> 0%amp) by (apply POS; assumption).
      destruct (draw (set_draw d U1)) as [ph U2'] eqn:Ed. assert (DR : exists d', U2' = set_draw d' U1 /\ unit1 ph).
      { unfold draw in Ed. cbn [u_rgp set_draw u_ph u_draw] in Ed. destruct (u_rgp U1); injection Ed as <- <-; [exists (d + 1)|exists d]; (split; [reflexivity|]); [apply (wf_ph U1 W1)|apply unit_one]. }
      destruct DR as (d' & -> & Hph).
      destruct (meas_none q r ph d' (nrm (wt (u_n U) q r (meaning U))) U1 W1 N1 Hq1 E Hph) as (WV & NV & KV & NX & BV & c & Hc & BS); [rewrite <- (EA r); apply HR; exact PR|].
      set (X := on_sh q _ (set_draw d' U1)) in *. assert (EX : s_unit (u_sh X q) = None) by (unfold X; cbn [u_sh on_sh put_sh set_sh set_draw]; rewrite N.eqb_refl; exact E). rewrite EX.
      exists r, (if r then Flush1Eigenstate cx (RevertBasis2Qb cx) q X else Flush0Eigenstate cx (RevertBasis2Qb cx) q X). split; [destruct r; reflexivity|]. split; [exact PR|]. split; [exact R1|]. split; [exact R2|].
      intros HT. apply (measured_keeps q r U U1); [exact K1|]. apply (meas_end q r (nrm (wt (u_n U) q r (meaning U))) U1); [exact G1|exact Hq1|exact HN|exact KV|exact WV|exact NV| |apply TWO, HT|].
      + eapply like_trans; [apply like_ss, (framed_cut U1 X q r (c * nrm (wt (u_n U) q r (meaning U)))%amp)|apply cut_like, Hc]; [exact Hq1|apply KV|intros p' _; apply BV|exact B1|exact BS].
      + rewrite E1. rewrite <- (HR r PR). f_equal. apply like_wt, (kp_like cx _ _ K1).
  Qed.
End P.
