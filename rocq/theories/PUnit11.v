(** Proofs for QUnit: engines for single qubits, joining of engines, controlled gates on a joint engine. *)
From Coq Require Import Arith NArith List Bool Lia Ring.
From Verif Require Import Bits MFunctions SpecFunctions PFunctions MKernel PKernel Amp PAmp SpecState PApply PCompose PGates PGates2 PProb PQCirc2 PQCirc3 PEngine MShard SpecShard MUnit SpecUnit PShard1 PShard2 PShard5 PShard6 PShard7 PShard9 PUnit1 PUnit2 PUnit3 PUnit4 PUnitW PUnit5 PUnit6 PUnit7 PUnit8 PUnit9 PUnit10.
Import ListNotations.
Local Open Scope N_scope.
Local Notation up n := (upto (N.to_nat n)).

Section P.
  Context {K : StarRing} (cx : Cplx K) (D : definite (K := K)).
  Add Ring KrBZ : (sr_ring K).
  Local Notation wf := (wf cx).
  Local Notation vec := (N -> K).
  Local Notation unit1 x := (anorm x = 1%amp).
  Local Notation M2 := (mat2 K).
  Local Notation qu := (qunit K).
  Local Notation framed := (framed cx).
  Implicit Types (U V X : qu) (psi phi : vec).

  Lemma like_wt n j b psi phi : like psi phi -> wt n j b psi = wt n j b phi.
  Proof.
    intros (c & Hc & E). unfold wt, norm2. apply asum_ext. intros x _. unfold mask. destruct (eqb (N.testbit x j) b); [|reflexivity]. rewrite E, anorm_mul, Hc. ring.
  Qed.
  (** The cached amplitudes have the right magnitudes for the joint state. *)
  Lemma base_exact U q : wf U -> q < u_n U -> s_pd (u_sh U q) = false -> exact cx (u_n U) q (s_a0 (u_sh U q)) (s_a1 (u_sh U q)) (base U).
  Proof.
    intros W Hq Pd R. assert (NL : forall p, p < u_n U -> s_unit (u_sh U p) = None -> (anorm (s_a0 (u_sh U p)) + anorm (s_a1 (u_sh U p)) = 1)%amp) by (intros p Hp E; apply (wf_none U W p Hp E)).
    unfold base. destruct (s_unit (u_sh U q)) as [u|] eqn:E.
    - rewrite !(unit_wt _ _ _ _ (wf_placed U W) (wf_norm U W) NL q u) by assumption. apply (wf_faith U W q u Hq E Pd), R.
    - rewrite !(local_wt _ _ _ _ (wf_placed U W) (wf_norm U W) NL q) by assumption. auto.
  Qed.
  (** The cached values follow from those of a simulator with the same base state. *)
  Lemma wf_by_base U V : wf U -> kept U V -> placed (u_n V) (u_next V) (u_sh V) (u_eng V) -> (forall u, u < u_next V -> norm2 (fst (u_eng V u)) (snd (u_eng V u)) = 1%amp) ->
    (forall p, p < u_n V -> s_unit (u_sh V p) = None -> local_ok (u_sh V p)) -> like (base V) (base U) ->
    (forall p, p < u_n V -> s_pd (u_sh V p) = s_pd (u_sh U p) /\ s_a0 (u_sh V p) = s_a0 (u_sh U p) /\ s_a1 (u_sh V p) = s_a1 (u_sh U p)) -> wf V.
  Proof.
    intros W HK PV NV LV BV HA. destruct HK as (K1 & K2 & K3 & K4 & K5 & K6 & K7). split; auto.
    - intros p u Hp E. intros Pd. destruct (HA p Hp) as (A1 & A2 & A3). rewrite A1 in Pd. rewrite K2 in Hp. destruct (sup_amps D U p W Hp Pd) as [S1 S2].
      assert (NL : forall p, p < u_n V -> s_unit (u_sh V p) = None -> (anorm (s_a0 (u_sh V p)) + anorm (s_a1 (u_sh V p)) = 1)%amp) by (intros p' Hp' E'; apply (LV p' Hp' E')).
      assert (EX := base_exact U p W Hp Pd). rewrite <- K2 in Hp. rewrite A2, A3. split.
      2:{ intros R. destruct (EX R) as [-> ->]. rewrite <- K2, <- !(like_wt _ _ _ _ _ BV). unfold base. rewrite !(unit_wt _ _ _ _ PV NV NL p u) by assumption. auto. }
      rewrite S1, S2. split; (etransitivity; [|apply (support_unit _ _ _ _ D PV NV NL p u _ Hp E)]); split; intros H; (eapply supported_like; [|exact H]); [exact BV|apply like_sym, BV|exact BV|apply like_sym, BV].
    - rewrite K5. apply (wf_ph U W).
    - rewrite K2, K3. apply (wf_sw U W).
  Qed.
  (** Everything of a shard but where it is kept. *)
  Definition face (s : qshard K) : qshard K := w_unit None 0 s.
  Lemma face_fields s s' : face s' = face s -> s_pd s' = s_pd s /\ s_fd s' = s_fd s /\ s_a0 s' = s_a0 s /\ s_a1 s' = s_a1 s /\ s_bas s' = s_bas s.
  Proof. unfold face, w_unit. intros [=]. auto. Qed.
  Record moved U V : Prop := mkMoved {
    mv_wf : wf V;
    mv_base : like (base V) (base U);
    mv_kept : kept U V;
    mv_face : forall p, face (u_sh V p) = face (u_sh U p)
  }.
  Lemma moved_refl U : wf U -> moved U U.
  Proof. intros W. split; auto; [apply like_refl|apply kept_refl]. Qed.
  Lemma moved_trans U V X : moved U V -> moved V X -> moved U X.
  Proof. intros [A1 A2 A3 A4] [B1 B2 B3 B4]. split; auto; [eapply like_trans; eassumption|eapply kept_trans; eassumption|intros p; rewrite B4; apply A4]. Qed.
  Lemma moved_bas U V p : moved U V -> bas_of V p = bas_of U p.
  Proof. intros H. apply (face_fields _ _ (mv_face U V H p)). Qed.
  Lemma moved_framed U V : moved U V -> like (framed V) (framed U).
  Proof. intros H. apply framed_like; [apply (mv_kept U V H)|intros p _; apply (moved_bas U V p H)|apply (mv_base U V H)]. Qed.
  Lemma moved_n U V : moved U V -> u_n V = u_n U.
  Proof. intros H. apply (mv_kept U V H). Qed.

  (** ** EndEmulation *)
  Lemma emulate_ok q U : wf U -> q < u_n U -> let V := EndEmulation q U in moved U V /\ s_unit (u_sh V q) <> None /\ (forall p, p <> q -> u_sh V p = u_sh U p) /\
    u_next U <= u_next V /\ (forall w, w < u_next U -> u_eng V w = u_eng U w) /\ (forall w, u_next U <= w -> w < u_next V -> s_unit (u_sh V q) = Some w) /\ (s_unit (u_sh U q) <> None -> V = U).
  Proof.
    intros W Hq. cbn zeta. unfold EndEmulation. destruct (s_unit (u_sh U q)) as [u|] eqn:E.
    { split; [apply moved_refl, W|]. split; [congruence|]. repeat split; auto; try lia. }
    destruct (wf_none U W q Hq E) as (L1 & L2 & L3 & L4). set (s := u_sh U q) in *.
    assert (Sel : exists c (v : vec) d, unit1 c /\ v 0 = (c * s_a0 s)%amp /\ v 1 = (c * s_a1 s)%amp /\
      (if is0 (s_a1 s) then let '(ph, U1) := draw U in ((fun x => if x =? 0 then ph else 0%amp), U1)
       else if is0 (s_a0 s) then let '(ph, U1) := draw U in ((fun x => if x =? 1 then ph else 0%amp), U1)
       else ((fun x => if x =? 0 then s_a0 s else s_a1 s), U)) = (v, set_draw d U)).
    { destruct (draw_ok U W) as (ph & d & Ed & Hph). rewrite Ed.
      assert (UA : forall a, unit1 a -> unit1 (ph * sr_conj a)%amp /\ (ph * sr_conj a * a = ph)%amp).
      { intros a Ha. split; [apply unit_mul; [exact Hph|apply unit_conj, Ha]|]. transitivity (ph * anorm a)%amp; [unfold anorm; ring|rewrite Ha; ring]. }
      destruct (is0 (s_a1 s)) eqn:Z1; [|destruct (is0 (s_a0 s)) eqn:Z0].
      - apply is0_iff in Z1. rewrite Z1, anorm_0 in L4. destruct (UA (s_a0 s)) as [C1 C2]; [rewrite <- L4; ring|].
        exists (ph * sr_conj (s_a0 s))%amp, (fun x => if x =? 0 then ph else 0%amp), d. rewrite Z1. repeat split; auto. cbn. ring.
      - apply is0_iff in Z0. rewrite Z0, anorm_0 in L4. destruct (UA (s_a1 s)) as [C1 C2]; [rewrite <- L4; ring|].
        exists (ph * sr_conj (s_a1 s))%amp, (fun x => if x =? 1 then ph else 0%amp), d. rewrite Z0. repeat split; auto. cbn. ring.
      - exists 1%amp, (fun x => if x =? 0 then s_a0 s else s_a1 s), (u_draw U). split; [apply one_unit|]. cbn. split; [ring|]. split; [ring|]. destruct U; reflexivity. }
    destruct Sel as (c & v & d & Hc & V0 & V1 & Esel). rewrite Esel. set (u := u_next (set_draw d U)). change (u_next U) with u. cbn zeta. set (V := put_sh q _ _).
    assert (SV : forall p, u_sh V p = if p =? q then w_unit (Some u) (s_map s) s else u_sh U p) by reflexivity.
    assert (EV : forall w, u_eng V w = if w =? u then (1, tab 1 v) else u_eng U w) by reflexivity.
    assert (NV : u_next V = u + 1) by reflexivity.
    assert (VQ : u_sh V q = w_unit (Some u) (s_map s) s) by (rewrite SV, N.eqb_refl; reflexivity).
    assert (VP : forall p, p <> q -> u_sh V p = u_sh U p) by (intros p Hp; rewrite SV; destruct (N.eqb_spec p q); [congruence|reflexivity]).
    assert (EO : forall w, w < u -> u_eng V w = u_eng U w) by (intros w Hw; rewrite EV; destruct (N.eqb_spec w u); [lia|reflexivity]).
    assert (EU : u_eng V u = (1, tab 1 v)) by (rewrite EV, N.eqb_refl; reflexivity).
    assert (T0 : tab 1 v 0 = (c * s_a0 s)%amp) by (rewrite tab_ok by (cbn; lia); exact V0).
    assert (T1 : tab 1 v 1 = (c * s_a1 s)%amp) by (rewrite tab_ok by (cbn; lia); exact V1).
    pose proof (wf_placed U W) as PU. change (u_next U) with u in PU.
    assert (FV : forall p, face (u_sh V p) = face (u_sh U p)) by (intros p; rewrite SV; destruct (N.eqb_spec p q) as [->|]; reflexivity).
    assert (BV : like (base V) (base U)).
    { apply (like_c c); [exact Hc|]. apply (base_emulate (u_n U) u (u_sh U) (u_eng U) (u_sh V) (u_eng V) q c Hq PU E).
      - intros p _ Hp. apply VP, Hp.
      - rewrite VQ. reflexivity.
      - rewrite VQ. exact L1.
      - exact EO.
      - rewrite EU. exact T0.
      - rewrite EU. exact T1. }
    assert (PV : placed (u_n V) (u_next V) (u_sh V) (u_eng V)).
    { rewrite NV. change (u_n V) with (u_n U). split.
      - intros p w Hp Ep. destruct (N.eq_dec p q) as [->|Hpq].
        + rewrite VQ in *. cbn [w_unit s_unit s_map] in *. injection Ep as <-. rewrite EU, L1. cbn [fst]. lia.
        + rewrite (VP p Hpq) in *. destruct (pl_in _ _ _ _ PU p w Hp Ep) as [H1 H2]. rewrite (EO w H1). split; [lia|exact H2].
      - intros p p' w Hp Hp' Ep Ep' M. destruct (N.eq_dec p q) as [->|Hpq], (N.eq_dec p' q) as [->|Hpq']; [reflexivity| | |].
        + rewrite VQ in Ep. injection Ep as <-. rewrite (VP p' Hpq') in Ep'. destruct (pl_in _ _ _ _ PU p' u Hp' Ep'). lia.
        + rewrite VQ in Ep'. injection Ep' as <-. rewrite (VP p Hpq) in Ep. destruct (pl_in _ _ _ _ PU p u Hp Ep). lia.
        + rewrite (VP p Hpq), (VP p' Hpq') in *. apply (pl_inj _ _ _ _ PU p p' w); assumption.
      - intros w j Hw Hj. destruct (N.eq_dec w u) as [->|Hwu].
        + rewrite EU in Hj. cbn [fst] in Hj. exists q. rewrite VQ. split; [exact Hq|]. split; [reflexivity|]. cbn [w_unit s_map]. rewrite L1. lia.
        + assert (Hw' : w < u) by lia. rewrite (EO w Hw') in Hj. destruct (pl_cov _ _ _ _ PU w j Hw' Hj) as (p & Hp & Ep & M). exists p.
          assert (p <> q) by (intros ->; unfold s in *; congruence). rewrite (VP p) by assumption. auto. }
    split; [split; auto|].
    - apply (wf_by_base U V W); auto.
      + repeat split.
      + intros w Hw. rewrite NV in Hw. destruct (N.eq_dec w u) as [->|Hwu].
        * rewrite EU. cbn [fst snd]. rewrite norm_one, T0, T1, !anorm_mul, Hc. transitivity (anorm (s_a0 s) + anorm (s_a1 s))%amp; [ring|exact L4].
        * assert (Hw' : w < u) by lia. rewrite (EO w Hw'). apply (wf_norm U W w Hw').
      + change (u_n V) with (u_n U). intros p Hp Ep. destruct (N.eq_dec p q) as [->|Hpq]; [rewrite VQ in Ep; discriminate|]. rewrite (VP p Hpq) in *. apply (wf_none U W p Hp Ep).
      + intros p _. destruct (face_fields _ _ (FV p)) as (F1 & F2 & F3 & F4 & F5). auto.
    - repeat split.
    - rewrite VQ. repeat split; auto; try discriminate; try lia.
      + intros w H1 H2. rewrite NV in H2. cbn [w_unit s_unit]. f_equal. lia.
      + congruence.
  Qed.
  Lemma unit_kept_emulate q U p : wf U -> q < u_n U -> s_unit (u_sh U p) <> None -> s_unit (u_sh (EndEmulation q U) p) <> None.
  Proof.
    intros W Hq Hp. destruct (emulate_ok q U W Hq) as (M & A & B & _). destruct (N.eq_dec p q) as [->|Hpq]; [exact A|]. rewrite B by exact Hpq. exact Hp.
  Qed.
  (** Neat but for the shards [bits] and their engines. *)
  Definition semi (bits : list N) U : Prop := (forall p u, p < u_n U -> s_unit (u_sh U p) = Some u -> In p bits \/ s_fd (u_sh U p) = true) /\
    (forall u, u < u_next U -> fst (u_eng U u) = 1 -> exists p, p < u_n U /\ In p bits /\ s_unit (u_sh U p) = Some u).
  Lemma neat_semi bits U : neat U -> semi bits U.
  Proof. intros [N1 N2]. split; [intros p u Hp E; right; apply (N1 p u Hp E)|intros u Hu H; destruct (N2 u Hu H)]. Qed.
  Lemma emulate_semi bits q U : wf U -> q < u_n U -> In q bits -> semi bits U -> semi bits (EndEmulation q U).
  Proof.
    intros W Hq Hin [S1 S2]. destruct (emulate_ok q U W Hq) as (M & A & B & C1 & C2 & C3 & C4). set (V := EndEmulation q U) in *. pose proof (moved_n U V M) as En. split.
    - intros p u Hp E. rewrite En in Hp. destruct (N.eq_dec p q) as [->|Hpq]; [left; exact Hin|]. rewrite (B p Hpq) in *. apply (S1 p u Hp E).
    - intros u Hu H. rewrite En. destruct (N.lt_ge_cases u (u_next U)) as [Hlt|Hge].
      + rewrite (C2 u Hlt) in H. destruct (S2 u Hlt H) as (p & Hp & Hb & Ep). exists p. split; [exact Hp|]. split; [exact Hb|].
        destruct (N.eq_dec p q) as [->|Hpq]; [|rewrite (B p Hpq); exact Ep]. rewrite C4 by congruence. exact Ep.
      + exists q. split; [exact Hq|]. split; [exact Hin|]. apply (C3 u Hge Hu).
  Qed.
  Lemma emulate_all bits : forall l U, wf U -> (forall q, In q l -> q < u_n U /\ In q bits) -> semi bits U ->
    let V := fold_left (fun V b => EndEmulation b V) l U in moved U V /\ semi bits V /\ (forall q, In q l \/ s_unit (u_sh U q) <> None -> s_unit (u_sh V q) <> None).
  Proof.
    induction l as [|q l IH]; intros U W Hl S; cbn [fold_left].
    - cbn zeta. split; [apply moved_refl, W|]. split; [exact S|]. intros q [[]|H]; exact H.
    - destruct (Hl q (or_introl eq_refl)) as [Hq Hb]. destruct (emulate_ok q U W Hq) as (M & A & B & _). set (U1 := EndEmulation q U) in *.
      destruct (IH U1 (mv_wf U U1 M)) as (I1 & I2 & I3).
      + intros p Hp. rewrite (moved_n U U1 M). apply Hl. right. exact Hp.
      + apply emulate_semi; assumption.
      + cbn zeta. split; [eapply moved_trans; eassumption|]. split; [exact I2|]. intros p Hp. apply I3. destruct Hp as [[->|Hp]|Hp]; [right; exact A|left; exact Hp|right; apply unit_kept_emulate; assumption].
  Qed.

  (** ** Joining *)
  Lemma join_ok r c U : wf U -> r < u_next U -> c < u_next U -> r <> c -> let V := join r c U in
    moved U V /\ u_next V = u_next U /\ (forall p, s_unit (u_sh V p) = match s_unit (u_sh U p) with Some w => Some (if w =? c then r else w) | None => None end) /\
    fst (u_eng V r) = fst (u_eng U r) + fst (u_eng U c) /\ fst (u_eng V c) = 0 /\ (forall w, w <> r -> w <> c -> u_eng V w = u_eng U w).
  Proof.
    intros W Hr Hc Hrc. cbn zeta. unfold join. destruct (u_eng U r) as [nr vr] eqn:Er. destruct (u_eng U c) as [nc vc] eqn:Ec. set (U1 := free_eng c _). set (V := set_sh _ U1).
    assert (EV : forall w, u_eng V w = if w =? c then (0, tab 0 (fun _ => 1%amp)) else if w =? r then (nr + nc, tab (nr + nc) (tensor nr vr vc)) else u_eng U w) by reflexivity.
    assert (SV : forall p, u_sh V p = match s_unit (u_sh U p) with Some w => if w =? c then w_unit (Some r) (s_map (u_sh U p) + nr) (u_sh U p) else u_sh U p | None => u_sh U p end) by reflexivity.
    assert (ER : u_eng V r = (nr + nc, tab (nr + nc) (tensor nr vr vc))) by (rewrite EV, N.eqb_refl; destruct (N.eqb_spec r c); [contradiction|reflexivity]).
    assert (EC : u_eng V c = (0, tab 0 (fun _ => 1%amp))) by (rewrite EV, N.eqb_refl; reflexivity).
    assert (EO : forall w, w <> r -> w <> c -> u_eng V w = u_eng U w) by (intros w H1 H2; rewrite EV; destruct (N.eqb_spec w c); [contradiction|]; destruct (N.eqb_spec w r); [contradiction|reflexivity]).
    assert (FV : forall p, face (u_sh V p) = face (u_sh U p)) by (intros p; rewrite SV; destruct (s_unit (u_sh U p)); [destruct (_ =? c)|]; reflexivity).
    assert (HS : forall p, p < u_n U -> s_unit (u_sh U p) <> Some c -> u_sh V p = u_sh U p).
    { intros p _ Hp. rewrite SV. destruct (s_unit (u_sh U p)) as [w|]; [|reflexivity]. destruct (N.eqb_spec w c); [congruence|reflexivity]. }
    assert (HC : forall p, p < u_n U -> s_unit (u_sh U p) = Some c -> s_unit (u_sh V p) = Some r /\ s_map (u_sh V p) = s_map (u_sh U p) + fst (u_eng U r)).
    { intros p _ Hp. rewrite SV, Hp, N.eqb_refl, Er. split; reflexivity. }
    assert (Hnr : fst (u_eng V r) = fst (u_eng U r) + fst (u_eng U c)) by (rewrite ER, Er, Ec; reflexivity).
    assert (Hnc : fst (u_eng V c) = 0) by (rewrite EC; reflexivity).
    pose proof (join_placed (u_n U) (u_next U) (u_sh U) (u_eng U) (wf_placed U W) r c Hr Hc Hrc (u_sh V) (u_eng V) HS HC (fun w _ => EO w) Hnr Hnc) as PV.
    assert (BV : like (base V) (base U)).
    { apply like_ss. apply (base_join (u_n U) (u_next U) (u_sh U) (u_eng U) (wf_placed U W) r c Hr Hc Hrc (u_sh V) (u_eng V) HS HC (fun w _ => EO w)); auto.
      - rewrite ER, Er, Ec. cbn [fst snd]. intros y Hy. apply tab_ok, Hy.
      - rewrite EC. cbn [snd]. apply (tab_ok 0 (fun _ => 1%amp) 0). cbn. lia. }
    assert (KV : kept U V) by (repeat split).
    split; [split; auto; apply (wf_by_base U V W KV PV); auto|].
    - intros w Hw. change (u_next V) with (u_next U) in Hw. destruct (N.eq_dec w c) as [->|Hwc]; [|destruct (N.eq_dec w r) as [->|Hwr]].
      + rewrite EC. cbn [fst snd]. rewrite norm_tab, norm_zero. apply one_unit.
      + rewrite ER. cbn [fst snd]. rewrite norm_tab, norm_tensor. pose proof (wf_norm U W r Hr) as N1. pose proof (wf_norm U W c Hc) as N2. rewrite Er in N1. rewrite Ec in N2. cbn [fst snd] in N1, N2. rewrite N1, N2. ring.
      + rewrite (EO w Hwr Hwc). apply (wf_norm U W w Hw).
    - change (u_n V) with (u_n U). intros p Hp Ep. assert (F : s_unit (u_sh U p) = None). { rewrite SV in Ep. destruct (s_unit (u_sh U p)) as [w|] eqn:E; [|reflexivity]. destruct (w =? c); [discriminate|congruence]. }
      rewrite (HS p Hp) by congruence. apply (wf_none U W p Hp F).
    - intros p _. destruct (face_fields _ _ (FV p)) as (F1 & F2 & F3 & F4 & F5). auto.
    - split; [reflexivity|]. split; [|split; [rewrite ER; reflexivity|split; [exact Hnc|exact EO]]].
      intros p. rewrite SV. destruct (s_unit (u_sh U p)) as [w|] eqn:E; [|exact E]. destruct (w =? c); [reflexivity|exact E].
  Qed.
  (** The engines [us] are those of the shards [bits]. *)
  Definition owns (bits us : list N) U : Prop := NoDup us /\ (forall u, In u us -> exists p, p < u_n U /\ In p bits /\ s_unit (u_sh U p) = Some u) /\
    (forall p, In p bits -> exists u, In u us /\ s_unit (u_sh U p) = Some u).
  Lemma owns_next bits us U u : wf U -> owns bits us U -> In u us -> u < u_next U /\ 1 <= fst (u_eng U u).
  Proof. intros W (_ & O & _) H. destruct (O u H) as (p & Hp & _ & E). destruct (pl_in _ _ _ _ (wf_placed U W) p u Hp E). lia. Qed.
  Lemma join_step bits pre r c t U : wf U -> semi bits U -> owns bits (pre ++ r :: c :: t) U -> let V := join r c U in moved U V /\ semi bits V /\ owns bits (pre ++ r :: t) V.
  Proof.
    intros W [S1 S2] O. destruct (O) as (O1 & O2 & O3).
    assert (Ir : In r (pre ++ r :: c :: t)) by (apply in_or_app; right; left; reflexivity). assert (Ic : In c (pre ++ r :: c :: t)) by (apply in_or_app; right; right; left; reflexivity).
    destruct (owns_next _ _ U r W O Ir) as [Hr Nr]. destruct (owns_next _ _ U c W O Ic) as [Hc Nc].
    assert (ND : NoDup (pre ++ r :: t) /\ ~ In c (pre ++ r :: t)).
    { change (pre ++ r :: c :: t) with (pre ++ [r] ++ c :: t) in O1. rewrite app_assoc in O1. pose proof (NoDup_remove _ _ _ O1) as H. rewrite <- app_assoc in H. exact H. }
    destruct ND as [ND NI]. assert (Hrc : r <> c) by (intros ->; apply NI, in_or_app; right; left; reflexivity).
    destruct (join_ok r c U W Hr Hc Hrc) as (M & N1 & J1 & J2 & J3 & J4). set (V := join r c U) in *. cbn zeta. pose proof (moved_n U V M) as En.
    split; [exact M|]. split; [split|split; [exact ND|split]].
    - intros p w Hp E. rewrite J1 in E. rewrite En in Hp. destruct (s_unit (u_sh U p)) as [w'|] eqn:Ep; [|discriminate]. destruct (S1 p w' Hp Ep) as [H|H]; [left; exact H|right].
      destruct (face_fields _ _ (mv_face U V M p)) as (_ & F & _). rewrite F. exact H.
    - intros u Hu H1. rewrite N1 in Hu. rewrite En. destruct (N.eq_dec u c) as [->|Huc]; [lia|]. destruct (N.eq_dec u r) as [->|Hur]; [lia|]. rewrite (J4 u Hur Huc) in H1.
      destruct (S2 u Hu H1) as (p & Hp & Hb & Ep). exists p. split; [exact Hp|]. split; [exact Hb|]. rewrite J1, Ep. destruct (N.eqb_spec u c); [contradiction|reflexivity].
    - intros u Hu. assert (Huc : u <> c) by congruence. assert (Hu' : In u (pre ++ r :: c :: t)) by (apply in_app_or in Hu; apply in_or_app; cbn [In] in *; tauto).
      destruct (O2 u Hu') as (p & Hp & Hb & Ep). exists p. rewrite En. split; [exact Hp|]. split; [exact Hb|]. rewrite J1, Ep. destruct (N.eqb_spec u c); [contradiction|reflexivity].
    - intros p Hb. destruct (O3 p Hb) as (u & Hu & Ep). rewrite J1, Ep. destruct (N.eqb_spec u c) as [->|Huc].
      + exists r. split; [apply in_or_app; right; left; reflexivity|reflexivity].
      + exists u. split; [|reflexivity]. apply in_app_or in Hu. apply in_or_app. cbn [In] in *. destruct Hu as [Hu|[Hu|[Hu|Hu]]]; auto. congruence.
  Qed.
  Lemma pairs_ok bits : forall k us pre U, (length us <= k)%nat -> wf U -> semi bits U -> owns bits (pre ++ us) U ->
    let '(l, V) := join_pairs us U in moved U V /\ semi bits V /\ owns bits (pre ++ l) V /\ (length l <= length us)%nat /\ ((2 <= length us)%nat -> (length l < length us)%nat) /\ (us <> [] -> l <> []).
  Proof.
    induction k as [|k IH]; intros us pre U Hk W S O.
    - destruct us; [|cbn in Hk; lia]. cbn. split; [apply moved_refl, W|]. split; [exact S|]. split; [exact O|]. split; [lia|]. split; [lia|auto].
    - destruct us as [|r [|c t]].
      + cbn. split; [apply moved_refl, W|]. split; [exact S|]. split; [exact O|]. split; [lia|]. split; [lia|auto].
      + cbn. split; [apply moved_refl, W|]. split; [exact S|]. split; [exact O|]. split; [lia|]. split; [lia|auto].
      + cbn [join_pairs]. destruct (join_step bits pre r c t U W S O) as (M1 & S1 & O1). cbn zeta in M1, S1, O1.
        assert (Hk' : (length t <= k)%nat) by (cbn in Hk; lia). change (pre ++ r :: t) with (pre ++ [r] ++ t) in O1. rewrite app_assoc in O1.
        specialize (IH t (pre ++ [r]) (join r c U) Hk' (mv_wf _ _ M1) S1 O1). destruct (join_pairs t (join r c U)) as [l V]. destruct IH as (I1 & I2 & I3 & I4 & I5).
        split; [eapply moved_trans; eassumption|]. split; [exact I2|]. rewrite <- app_assoc in I3. split; [exact I3|]. cbn [length]. split; [lia|]. split; [lia|discriminate].
  Qed.
  Lemma join_all_ok bits : forall fuel us U, (length us <= fuel)%nat -> wf U -> semi bits U -> owns bits us U ->
    let V := join_all fuel us U in moved U V /\ semi bits V /\ exists us', (length us' <= 1)%nat /\ owns bits us' V.
  Proof.
    induction fuel as [|fuel IH]; intros us U Hk W S O; cbn zeta.
    - destruct us; [|cbn in Hk; lia]. cbn [join_all]. split; [apply moved_refl, W|]. split; [exact S|]. exists []. split; [cbn; lia|exact O].
    - cbn [join_all]. destruct us as [|r [|c t]].
      + split; [apply moved_refl, W|]. split; [exact S|]. exists []. split; [cbn; lia|exact O].
      + split; [apply moved_refl, W|]. split; [exact S|]. exists [r]. split; [cbn; lia|exact O].
      + set (us := r :: c :: t) in *. assert (Step : let '(us1, U1) := if Nat.odd (length us) then (r :: t, join r c U) else (us, U) in moved U U1 /\ semi bits U1 /\ owns bits us1 U1 /\ (length us1 <= length us)%nat /\ (length us1 < length us \/ 2 <= length us1)%nat).
        { destruct (Nat.odd (length us)).
          - destruct (join_step bits [] r c t U W S O) as (M1 & S1 & O1). split; [exact M1|]. split; [exact S1|]. split; [exact O1|]. unfold us. cbn [length]. lia.
          - split; [apply moved_refl, W|]. split; [exact S|]. split; [exact O|]. unfold us. cbn [length]. lia. }
        destruct (if Nat.odd (length us) then (r :: t, join r c U) else (us, U)) as [us1 U1]. destruct Step as (M1 & S1 & O1 & L1 & L1').
        pose proof (pairs_ok bits (length us1) us1 [] U1 (le_n _) (mv_wf _ _ M1) S1 O1) as PO. destruct (join_pairs us1 U1) as [us2 U2]. destruct PO as (M2 & S2 & O2 & L2 & L3 & _).
        destruct (IH us2 U2) as (M3 & S3 & O3); [lia|apply (mv_wf _ _ M2)|exact S2|exact O2|].
        split; [eapply moved_trans; [exact M1|eapply moved_trans; [exact M2|exact M3]]|]. split; [exact S3|exact O3].
  Qed.
  Lemma units_ok bits U : forall seen, NoDup (units_of bits U seen) /\ forall u, In u (units_of bits U seen) <-> ~ In u seen /\ exists b, In b bits /\ s_unit (u_sh U b) = Some u.
  Proof.
    induction bits as [|b t IH]; intros seen; cbn [units_of].
    - split; [constructor|]. intros u. split; [intros []|intros (_ & b & [] & _)].
    - destruct (s_unit (u_sh U b)) as [u|] eqn:E.
      + destruct (existsb (N.eqb u) seen) eqn:F.
        * apply existsb_exists in F. destruct F as (u' & Hu & F). apply N.eqb_eq in F. subst u'. destruct (IH seen) as [I1 I2]. split; [exact I1|]. intros w. rewrite I2. split.
          -- intros (H & x & Hx & Ex). split; [exact H|]. exists x. split; [right; exact Hx|exact Ex].
          -- intros (H & x & [->|Hx] & Ex); [congruence|]. split; [exact H|]. exists x. auto.
        * assert (NI : ~ In u seen). { intros H. assert (X : existsb (N.eqb u) seen = true) by (apply existsb_exists; exists u; split; [exact H|apply N.eqb_refl]). congruence. }
          destruct (IH (u :: seen)) as [I1 I2]. split.
          -- constructor; [|exact I1]. rewrite I2. intros [H _]. apply H. left. reflexivity.
          -- intros w. cbn [In]. rewrite I2. cbn [In]. split.
             ++ intros [<-|(H & x & Hx & Ex)]; [split; [exact NI|]; exists b; split; [left; reflexivity|exact E]|]. split; [tauto|]. exists x. split; [right; exact Hx|exact Ex].
             ++ intros (H & x & [->|Hx] & Ex); [left; congruence|]. destruct (N.eq_dec u w) as [->|Huw]; [left; reflexivity|right]. split; [tauto|]. exists x. auto.
      + destruct (IH seen) as [I1 I2]. split; [exact I1|]. intros w. rewrite I2. split.
        * intros (H & x & Hx & Ex). split; [exact H|]. exists x. split; [right; exact Hx|exact Ex].
        * intros (H & x & [->|Hx] & Ex); [congruence|]. split; [exact H|]. exists x. auto.
  Qed.
  (** All of [bits] on one engine. *)
  Definition gathered (bits : list N) U : qu := let U2 := fold_left (fun V b => EndEmulation b V) bits U in let us := units_of bits U2 [] in join_all (length us) us U2.
  Lemma gathered_ok bits U : wf U -> neat U -> (forall q, In q bits -> q < u_n U) -> let V := gathered bits U in moved U V /\ semi bits V /\
    (forall p q, In p bits -> In q bits -> s_unit (u_sh V p) = s_unit (u_sh V q) /\ s_unit (u_sh V p) <> None).
  Proof.
    intros W N0 Hb. unfold gathered. destruct (emulate_all bits bits U W) as (M2 & S2 & E2); [intros q Hq; split; [apply Hb, Hq|exact Hq]|apply neat_semi, N0|].
    set (U2 := fold_left _ bits U) in *. cbn zeta. destruct (units_ok bits U2 []) as [I1 I2].
    destruct (join_all_ok bits (length (units_of bits U2 [])) (units_of bits U2 []) U2 (le_n _) (mv_wf _ _ M2) S2) as (M3 & S3 & us & L & O1 & O2 & O3).
    - split; [exact I1|]. split.
      + intros u Hu. apply I2 in Hu. destruct Hu as (_ & b & Hbb & E). exists b. split; [rewrite (moved_n _ _ M2); apply Hb, Hbb|auto].
      + intros p Hp. destruct (s_unit (u_sh U2 p)) as [u|] eqn:E; [|destruct (E2 p (or_introl Hp) E)]. exists u. split; [|reflexivity]. apply I2. split; [intros []|]. exists p. auto.
    - split; [eapply moved_trans; eassumption|]. split; [exact S3|]. intros p q Hp Hq. destruct (O3 p Hp) as (u & Hu & Eu). destruct (O3 q Hq) as (w & Hw & Ew). rewrite Eu, Ew.
      split; [|discriminate]. f_equal. destruct us as [|x [|y us]]; [destruct Hu| |cbn in L; lia]. destruct Hu as [<-|[]], Hw as [<-|[]]. reflexivity.
  Qed.
End P.
Arguments wf_by_base {K cx}.
Arguments moved_refl {K cx}.
Arguments moved_trans {K cx}.
Arguments moved_bas {K cx}.
Arguments moved_n {K cx}.
Arguments emulate_ok {K cx}.
Arguments unit_kept_emulate {K cx}.
Arguments emulate_semi {K cx}.
Arguments emulate_all {K cx}.
Arguments join_ok {K cx}.
Arguments owns_next {K cx}.
Arguments join_step {K cx}.
Arguments pairs_ok {K cx}.
Arguments join_all_ok {K cx}.
Arguments gathered_ok {K cx}.
Arguments mv_wf {K cx}.
Arguments mv_base {K cx}.
Arguments mv_kept {K cx}.
Arguments mv_face {K cx}.
Arguments mkMoved {K cx}.
