(** Proofs for QUnit: well-formed simulators, changes of one shard, separation, probabilities. *)
From Coq Require Import Arith NArith List Bool Lia Ring.
From Verif Require Import Bits MFunctions SpecFunctions PFunctions MKernel PKernel Amp PAmp SpecState PApply PCompose PGates PGates2 PQCirc2 PQCirc3 PEngine MShard SpecShard MUnit PShard1 PShard2 PShard5 PUnit1 PUnit2 PUnit3 PUnit4.
Import ListNotations.
Local Open Scope N_scope.
Local Notation up n := (upto (N.to_nat n)).

Section P.
  Context {K : StarRing} (cx : Cplx K) (D : definite (K := K)).
  Add Ring KrBS : (sr_ring K).
  Local Notation vec := (N -> K).
  Local Notation unit1 x := (anorm x = 1%amp).
  Local Notation M2 := (mat2 K).
  Local Notation qu := (qunit K).
  Implicit Types (U V : qu) (psi phi : vec).

  (** The sqrt of a sum of squared magnitudes has that square. *)
  Definition roots : Prop := forall (l : list N) (f : vec), anorm (cx_sqrt cx (asum (fun x => anorm (f x)) l)) = asum (fun x => anorm (f x)) l.
  (** Cached amplitudes with the right zeros and, if square roots exist, the right magnitudes. *)
  Definition exact (a m : N) (a0 a1 : K) (v : vec) : Prop := roots -> anorm a1 = wt a m true v /\ anorm a0 = wt a m false v.
  Definition faithful (a : N) (s : qshard K) (v : vec) : Prop :=
    s_pd s = false -> ((s_a1 s = 0%amp <-> esup a (s_map s) false v) /\ (s_a0 s = 0%amp <-> esup a (s_map s) true v)) /\ exact a (s_map s) (s_a0 s) (s_a1 s) v.
  Definition scaled (x y : K) : Prop := exists c, unit1 c /\ x = (c * y)%amp.
  Lemma scaled_refl x : scaled x x. Proof. exists 1%amp. split; [apply unit_one|ring]. Qed.
  Lemma scaled_opp x : scaled (- x)%amp x. Proof. exists (- (1))%amp. split; [|ring]. unfold anorm. rewrite conj_opp, conj_1. ring. Qed.
  Lemma scaled_mul c x : unit1 c -> scaled (c * x)%amp x. Proof. intros H. exists c. auto. Qed.
  Lemma scaled_zero x y : scaled x y -> (x = 0%amp <-> y = 0%amp). Proof. intros (c & Hc & ->). apply unit_zero, Hc. Qed.
  Lemma scaled_norm x y : scaled x y -> anorm x = anorm y. Proof. intros (c & Hc & ->). rewrite anorm_mul, Hc. ring. Qed.
  Lemma exact_eqv a m a0 a1 v w : (forall y, y < 2 ^ a -> w y = v y) -> exact a m a0 a1 v -> exact a m a0 a1 w.
  Proof. intros E H R. destruct (H R) as [-> ->]. split; symmetry; apply wt_eqv, E. Qed.
  Definition local_ok (s : qshard K) : Prop := s_map s = 0 /\ s_pd s = false /\ s_fd s = false /\ (anorm (s_a0 s) + anorm (s_a1 s) = 1)%amp.
  Record wf U : Prop := mkWf {
    wf_placed : placed (u_n U) (u_next U) (u_sh U) (u_eng U);
    wf_norm : forall u, u < u_next U -> norm2 (fst (u_eng U u)) (snd (u_eng U u)) = 1%amp;
    wf_none : forall p, p < u_n U -> s_unit (u_sh U p) = None -> local_ok (u_sh U p);
    wf_faith : forall p u, p < u_n U -> s_unit (u_sh U p) = Some u -> faithful (fst (u_eng U u)) (u_sh U p) (snd (u_eng U u));
    wf_ph : forall k, unit1 (u_ph U k);
    wf_sw : (forall i, i < u_n U -> u_sw U i < u_n U) /\ (forall i j, i < u_n U -> j < u_n U -> u_sw U i = u_sw U j -> i = j) /\
            (forall p, p < u_n U -> exists i, i < u_n U /\ u_sw U i = p)
  }.
  Record neat U : Prop := mkNeat {
    nt_fd : forall p u, p < u_n U -> s_unit (u_sh U p) = Some u -> s_fd (u_sh U p) = true;
    nt_size : forall u, u < u_next U -> fst (u_eng U u) <> 1
  }.
  Definition kept U V : Prop := u_rgp V = u_rgp U /\ u_n V = u_n U /\ u_sw V = u_sw U /\ u_buf V = u_buf U /\ u_ph V = u_ph U /\ u_rnd V = u_rnd U /\ u_ub V = u_ub U.
  Lemma kept_refl U : kept U U. Proof. repeat split; reflexivity. Qed.
  Lemma kept_trans U V W : kept U V -> kept V W -> kept U W.
  Proof. intros (A1 & A2 & A3 & A4 & A5 & A6 & A7) (B1 & B2 & B3 & B4 & B5 & B6 & B7). repeat split; congruence. Qed.
  Definition bas_of U (p : N) : pauli := s_bas (u_sh U p).
  Definition framed U : vec := fr cx (up (u_n U)) (bas_of U) (base U).
  Lemma framed_like U V : u_n V = u_n U -> (forall p, p < u_n U -> bas_of V p = bas_of U p) -> like (base V) (base U) -> like (framed V) (framed U).
  Proof.
    intros HN HB HL. unfold framed. rewrite HN, (fr_bas cx (up (u_n U)) (bas_of U) (bas_of V)); [apply fr_like, HL|]. intros p Hp. apply HB, up_in, Hp.
  Qed.

  (** ** One shard with its engine *)
  Lemma step1 U V q (m : M2) : wf U -> q < u_n U -> unitary2 m -> kept U V -> u_next V = u_next U -> (forall p, p < u_n U -> p <> q -> u_sh V p = u_sh U p) ->
    s_unit (u_sh V q) = s_unit (u_sh U q) -> s_map (u_sh V q) = s_map (u_sh U q) ->
    (s_unit (u_sh U q) = None -> (forall w, w < u_next U -> u_eng V w = u_eng U w) /\ s_pd (u_sh V q) = false /\ s_fd (u_sh V q) = false /\
       s_a0 (u_sh V q) = (m00 m * s_a0 (u_sh U q) + m01 m * s_a1 (u_sh U q))%amp /\ s_a1 (u_sh V q) = (m10 m * s_a0 (u_sh U q) + m11 m * s_a1 (u_sh U q))%amp) ->
    (forall u, s_unit (u_sh U q) = Some u -> (forall w, w < u_next U -> w <> u -> u_eng V w = u_eng U w) /\ fst (u_eng V u) = fst (u_eng U u) /\
       (forall y, y < 2 ^ fst (u_eng U u) -> snd (u_eng V u) y = gate1 always (s_map (u_sh U q)) m (snd (u_eng U u)) y) /\
       faithful (fst (u_eng U u)) (u_sh V q) (gate1 always (s_map (u_sh U q)) m (snd (u_eng U u)))) ->
    wf V /\ same_state (base V) (gate1 always q m (base U)).
  Proof.
    intros W Hq Um (_ & KN & KS & _ & KP & _ & _) HX HP HU HM HN HS.
    assert (PU : forall p, p < u_n U -> s_unit (u_sh V p) = s_unit (u_sh U p)) by (intros p Hp; destruct (N.eq_dec p q) as [->|Hpq]; [exact HU|rewrite HP by assumption; reflexivity]).
    assert (PM : forall p, p < u_n U -> s_map (u_sh V p) = s_map (u_sh U p)) by (intros p Hp; destruct (N.eq_dec p q) as [->|Hpq]; [exact HM|rewrite HP by assumption; reflexivity]).
    assert (EF : forall w, w < u_next U -> fst (u_eng V w) = fst (u_eng U w)).
    { intros w Hw. destruct (s_unit (u_sh U q)) as [u|] eqn:E; [|destruct (HN eq_refl) as [HE _]; rewrite HE by exact Hw; reflexivity].
      destruct (HS u eq_refl) as (HE & HF & _). destruct (N.eq_dec w u) as [->|Hwu]; [exact HF|rewrite HE by assumption; reflexivity]. }
    split.
    - split; rewrite ?KN, ?HX, ?KS.
      + apply (placed_ext _ _ _ _ _ _ (wf_placed U W)); [exact PU|intros p u Hp _; apply PM, Hp|exact EF].
      + intros w Hw. rewrite <- (wf_norm U W w Hw). destruct (s_unit (u_sh U q)) as [u|] eqn:E; [|destruct (HN eq_refl) as [HE _]; rewrite HE by exact Hw; reflexivity].
        destruct (HS u eq_refl) as (HE & HF & HV & _). destruct (N.eq_dec w u) as [->|Hwu]; [|rewrite HE by assumption; reflexivity].
        rewrite HF. destruct (pl_in _ _ _ _ (wf_placed U W) q u Hq E) as [_ Hm]. rewrite (norm2_eqv _ _ _ HV). apply gate1_norm; [exact Hm|apply indep_always|exact Um].
      + intros p Hp E. destruct (N.eq_dec p q) as [->|Hpq].
        * rewrite HU in E. destruct (HN E) as (_ & F1 & F2 & A0 & A1). destruct (wf_none U W q Hq E) as (L1 & _ & _ & L4). repeat split; try assumption; [rewrite HM; exact L1|].
          rewrite A0, A1, unitary_pair by exact Um. exact L4.
        * rewrite HP in * by assumption. apply (wf_none U W); assumption.
      + intros p u Hp E. destruct (N.eq_dec p q) as [->|Hpq].
        * rewrite HU in E. destruct (HS u E) as (_ & HF & HV & HA). rewrite HF. intros Pd. destruct (HA Pd) as [[F1 F2] F3].
          split; [split; [rewrite F1|rewrite F2]; symmetry; apply esup_eqv; exact HV|]. eapply exact_eqv; [exact HV|exact F3].
        * rewrite HP in * by assumption. destruct (pl_in _ _ _ _ (wf_placed U W) p u Hp E) as [Hu Hm]. destruct (s_unit (u_sh U q)) as [w|] eqn:Eq.
          -- destruct (HS w eq_refl) as (HE & HF & HV & _). destruct (N.eq_dec u w) as [->|Huw]; [|rewrite HE by assumption; apply (wf_faith U W); assumption].
             rewrite HF. intros Pd. destruct (wf_faith U W p w Hp E Pd) as [[F1 F2] F3]. destruct (pl_in _ _ _ _ (wf_placed U W) q w Hq Eq) as [_ Hmq].
             assert (Hj : s_map (u_sh U p) <> s_map (u_sh U q)) by (intros F; apply Hpq, (pl_inj _ _ _ _ (wf_placed U W) p q w Hp Hq E Eq F)).
             assert (G : forall b, esup (fst (u_eng U w)) (s_map (u_sh U p)) b (snd (u_eng V w)) <-> esup (fst (u_eng U w)) (s_map (u_sh U p)) b (snd (u_eng U w))).
             { intros b. etransitivity; [apply esup_eqv; exact HV|]. apply esup_apart_iff; [exact Hmq|exact Hj|apply indep_always|exact Um]. }
             split; [split; [rewrite F1|rewrite F2]; symmetry; apply G|]. apply (exact_eqv _ _ _ _ _ _ HV). intros R. destruct (F3 R) as [-> ->]. split; symmetry; apply wt_apart; try assumption; apply indep_always.
          -- destruct (HN eq_refl) as [HE _]. rewrite HE by exact Hu. apply (wf_faith U W); assumption.
      + intros k. rewrite KP. apply (wf_ph U W).
      + apply (wf_sw U W).
    - unfold base. rewrite KN, HX. destruct (s_unit (u_sh U q)) as [u|] eqn:E.
      + destruct (HS u eq_refl) as (HE & HF & HV & _). eapply ss_trans.
        * apply (base_ext (u_n U) (u_next U) (u_sh U) (u_eng V) (u_sh V) (u_eng V)); [exact PU|intros p w Hp _; apply PM, Hp| |reflexivity].
          intros p Hp Ep. rewrite HP; [auto|exact Hp|congruence].
        * change (gate1 always q m (base_of (u_n U) (u_next U) (u_sh U) (u_eng U))) with (gate1 (fun x => always (gather (u_n U) (u_sh U) u x)) q m (base_of (u_n U) (u_next U) (u_sh U) (u_eng U))).
          apply (base_eng (u_n U) (u_next U) (u_sh U) (u_eng U) (wf_placed U W) (u_eng V) q u always m Hq E HE HV).
      + destruct (HN eq_refl) as (HE & F1 & F2 & A0 & A1). eapply ss_trans.
        * apply (base_ext (u_n U) (u_next U) (u_sh V) (u_eng U) (u_sh V) (u_eng V)); try reflexivity; auto.
        * apply (base_loc (u_n U) (u_next U) (u_sh U) (u_eng U) (u_sh V) q m Hq E HP); [rewrite HU; reflexivity|exact A0|exact A1].
  Qed.
  Lemma step1_framed U V q (m M : M2) : q < u_n U -> u_n V = u_n U -> (forall p, p < u_n U -> p <> q -> u_sh V p = u_sh U p) -> same_state (base V) (gate1 always q m (base U)) ->
    mmul (bmat cx (bas_of V q)) m = mmul M (bmat cx (bas_of U q)) -> same_state (framed V) (gate1 always q M (framed U)).
  Proof.
    intros Hq HN HP HB E. unfold framed. rewrite HN. eapply ss_trans; [apply fr_proper, HB|]. apply fr_change; [apply upto_nodup|apply up_in, Hq| |exact E].
    intros p Hp Hpq. apply up_in in Hp. unfold bas_of. rewrite HP by assumption. reflexivity.
  Qed.

  (** Fields of the results of the elementary operations. *)
  Lemma sh_on q f U p : u_sh (on_sh q f U) p = if p =? q then f (u_sh U q) else u_sh U p.
  Proof. reflexivity. Qed.
  Lemma sh_gate q m U : u_sh (unit_gate q m U) = u_sh U.
  Proof. unfold unit_gate, eng_gate. destruct (s_unit (u_sh U q)); [|reflexivity]. destruct (u_eng U n). reflexivity. Qed.
  Lemma next_gate q m U : u_next (unit_gate q m U) = u_next U.
  Proof. unfold unit_gate, eng_gate. destruct (s_unit (u_sh U q)); [|reflexivity]. destruct (u_eng U n). reflexivity. Qed.
  Lemma kept_gate q m U : kept U (unit_gate q m U).
  Proof. unfold unit_gate, eng_gate. destruct (s_unit (u_sh U q)); [|apply kept_refl]. destruct (u_eng U n). repeat split; reflexivity. Qed.
  Lemma eng_gate_some q m U u w : s_unit (u_sh U q) = Some u ->
    u_eng (unit_gate q m U) w = if w =? u then (fst (u_eng U u), tab (fst (u_eng U u)) (gate1 always (s_map (u_sh U q)) m (snd (u_eng U u)))) else u_eng U w.
  Proof. intros E. unfold unit_gate, eng_gate. rewrite E. destruct (u_eng U u) as [a v] eqn:Eu. cbn. destruct (N.eqb_spec w u); reflexivity. Qed.
  Lemma eng_gate_none q m U : s_unit (u_sh U q) = None -> unit_gate q m U = U.
  Proof. intros E. unfold unit_gate. rewrite E. reflexivity. Qed.
  (** A gate on shard [q] with an update [f] of its cached values. *)
  Lemma op1 U V q f (m : M2) : wf U -> q < u_n U -> unitary2 m -> kept U V -> u_next V = u_next U -> (forall p, u_sh V p = if p =? q then f (u_sh U q) else u_sh U p) ->
    (forall w, u_eng V w = u_eng (unit_gate q m U) w) -> let s := u_sh U q in s_unit (f s) = s_unit s -> s_map (f s) = s_map s ->
    (s_unit s = None -> s_pd (f s) = false /\ s_fd (f s) = false /\ s_a0 (f s) = (m00 m * s_a0 s + m01 m * s_a1 s)%amp /\ s_a1 (f s) = (m10 m * s_a0 s + m11 m * s_a1 s)%amp) ->
    (s_pd (f s) = false -> s_unit s <> None -> s_pd s = false /\
      ((diag m /\ scaled (s_a0 (f s)) (s_a0 s) /\ scaled (s_a1 (f s)) (s_a1 s)) \/
       (anti m /\ scaled (s_a0 (f s)) (s_a1 s) /\ scaled (s_a1 (f s)) (s_a0 s)))) ->
    wf V /\ same_state (base V) (gate1 always q m (base U)) /\ (forall w, fst (u_eng V w) = fst (u_eng U w)).
  Proof.
    intros W Hq Um HK HX HV HG s HU HM HN HF.
    assert (VQ : u_sh V q = f s) by (rewrite HV, N.eqb_refl; reflexivity).
    assert (VP : forall p, p < u_n U -> p <> q -> u_sh V p = u_sh U p) by (intros p _ Hpq; rewrite HV; destruct (N.eqb_spec p q); [congruence|reflexivity]).
    assert (R : wf V /\ same_state (base V) (gate1 always q m (base U))).
    { apply step1; try assumption; rewrite ?VQ; try assumption.
      - intros E. destruct (HN E) as (F1 & F2 & A0 & A1). repeat split; try assumption. intros w Hw. rewrite HG, eng_gate_none by exact E. reflexivity.
      - intros u E. destruct (pl_in _ _ _ _ (wf_placed U W) q u Hq E) as [Hu Hm]. split; [|split; [|split]].
        + intros w Hw Hwu. rewrite HG, (eng_gate_some q m U u w E). destruct (N.eqb_spec w u); [congruence|reflexivity].
        + rewrite HG, (eng_gate_some q m U u u E), N.eqb_refl. reflexivity.
        + intros y Hy. rewrite HG, (eng_gate_some q m U u u E), N.eqb_refl. apply tab_ok, Hy.
        + intros Pd. destruct (HF Pd) as (P0 & HF'); [subst s; rewrite E; discriminate|]. destruct (wf_faith U W q u Hq E P0) as [[F1 F2] F3].
          rewrite HM. fold s in F1, F2, F3, Hm |- *. destruct HF' as [(Dm & Z0 & Z1)|(Am & Z0 & Z1)].
          * rewrite !esup_diag_iff by (assumption || apply indep_always). rewrite (scaled_zero _ _ Z0), (scaled_zero _ _ Z1). split; [auto|]. intros R. destruct (F3 R) as [G1 G2].
            rewrite (scaled_norm _ _ Z0), (scaled_norm _ _ Z1), G1, G2. split; symmetry; apply wt_diag; try assumption; apply indep_always.
          * rewrite (scaled_zero _ _ Z0), (scaled_zero _ _ Z1). rewrite F1, F2. split; [split|].
            -- rewrite <- (esup_anti_iff _ _ true m) by assumption. reflexivity.
            -- rewrite <- (esup_anti_iff _ _ false m) by assumption. reflexivity.
            -- intros R. destruct (F3 R) as [G1 G2]. rewrite (scaled_norm _ _ Z0), (scaled_norm _ _ Z1), G1, G2. split; symmetry; [apply (wt_anti _ _ false)|apply (wt_anti _ _ true)]; assumption. }
    destruct R as [R1 R2]. split; [exact R1|split; [exact R2|]]. intros w. rewrite HG. destruct (s_unit (u_sh U q)) as [u|] eqn:E; [|rewrite eng_gate_none by exact E; reflexivity].
    rewrite (eng_gate_some q m U u w E). destruct (N.eqb_spec w u) as [->|]; reflexivity.
  Qed.
  Lemma neat_same U V : neat U -> u_n V = u_n U -> u_next V = u_next U -> (forall p, p < u_n U -> s_unit (u_sh V p) = s_unit (u_sh U p) /\ s_fd (u_sh V p) = s_fd (u_sh U p)) ->
    (forall w, w < u_next U -> fst (u_eng V w) = fst (u_eng U w)) -> neat V.
  Proof.
    intros [N1 N2] HN HX HP HE. split; rewrite ?HN, ?HX.
    - intros p u Hp E. destruct (HP p Hp) as [H1 H2]. rewrite H2. rewrite H1 in E. apply (N1 p u Hp E).
    - intros w Hw. rewrite HE by exact Hw. apply N2, Hw.
  Qed.
  Lemma local_clamp (s : qshard K) : local_ok s -> snd (ClampAmps cx s) = s.
  Proof.
    intros (L1 & L2 & L3 & L4). unfold ClampAmps. rewrite L2. unfold is0.
    destruct (eqb_spec K (s_a0 s) 0%amp) as [E|E].
    - rewrite E, anorm_0 in L4. assert (unit1 (s_a1 s)) as U1 by (rewrite <- L4; ring). rewrite (po_unit_ok K (cx_po cx)) by exact U1. destruct s; cbn in *; subst; reflexivity.
    - destruct (eqb_spec K (s_a1 s) 0%amp) as [E'|E']; [|reflexivity].
      rewrite E', anorm_0 in L4. assert (unit1 (s_a0 s)) as U1 by (rewrite <- L4; ring). rewrite (po_unit_ok K (cx_po cx)) by exact U1. destruct s; cbn in *; subst; reflexivity.
  Qed.

  (** ** Changes of basis *)
  Definition same_shape U V (q : N) : Prop := u_next V = u_next U /\ (forall w, fst (u_eng V w) = fst (u_eng U w)) /\ (forall p, p <> q -> u_sh V p = u_sh U p) /\
    s_unit (u_sh V q) = s_unit (u_sh U q) /\ s_map (u_sh V q) = s_map (u_sh U q) /\ s_fd (u_sh V q) = s_fd (u_sh U q).
  Lemma shape_refl U q : same_shape U U q. Proof. repeat split; reflexivity. Qed.
  Lemma neat_shape U V q : neat U -> u_n V = u_n U -> same_shape U V q -> neat V.
  Proof.
    intros N0 HN (H1 & H2 & H3 & H4 & H5 & H6). apply (neat_same U V N0 HN H1); [|intros w _; apply H2]. intros p _. destruct (N.eq_dec p q) as [->|Hpq]; [auto|rewrite H3 by exact Hpq; auto].
  Qed.
  Lemma convert_ok sep b (m : M2) i U : wf U -> i < u_n U -> (s_unit (u_sh U i) <> None -> s_fd (u_sh U i) = true) -> unitary2 m -> mmul (bmat cx b) m = bmat cx (bas_of U i) ->
    let V := convert cx sep b m i U in wf V /\ same_state (framed V) (framed U) /\ kept U V /\ bas_of V i = b /\ same_shape U V i.
  Proof.
    intros W Hi Hfd Um E. unfold convert. set (U1 := unit_gate i m (on_sh i (w_bas b) U)). cbn zeta.
    assert (S1 : forall p, u_sh U1 p = if p =? i then w_bas b (u_sh U i) else u_sh U p) by (intros p; unfold U1; rewrite sh_gate; apply sh_on).
    assert (S1i : u_sh U1 i = w_bas b (u_sh U i)) by (rewrite S1, N.eqb_refl; reflexivity).
    assert (K1 : kept U U1) by (unfold U1; eapply kept_trans; [|apply kept_gate]; repeat split; reflexivity).
    assert (X1 : u_next U1 = u_next U) by (unfold U1; rewrite next_gate; reflexivity).
    assert (G1 : forall w, u_eng U1 w = u_eng (unit_gate i m U) w).
    { intros w. unfold U1. destruct (s_unit (u_sh U i)) as [u|] eqn:Eu.
      - rewrite (eng_gate_some i m _ u w); [|rewrite sh_on, N.eqb_refl; exact Eu]. rewrite (eng_gate_some i m U u w Eu). rewrite sh_on, N.eqb_refl. reflexivity.
      - rewrite !eng_gate_none; [reflexivity|exact Eu|rewrite sh_on, N.eqb_refl; exact Eu]. }
    assert (M : mmul (bmat cx b) m = mmul midn (bmat cx (bas_of U i))) by (rewrite mmul_1_l; exact E).
    assert (HD : DIRTY (u_sh U1 i) = match s_unit (u_sh U i) with Some _ => true | None => false end).
    { rewrite S1i. unfold DIRTY. cbn [w_bas s_fd s_pd]. destruct (s_unit (u_sh U i)) eqn:Eu; [rewrite Hfd by discriminate; reflexivity|]. destruct (wf_none U W i Hi Eu) as (_ & -> & -> & _). reflexivity. }
    rewrite HD. destruct (s_unit (u_sh U i)) as [u|] eqn:Eu.
    - set (V := on_sh i (w_pd true) U1).
      assert (SV : forall p, u_sh V p = if p =? i then w_pd true (w_bas b (u_sh U i)) else u_sh U p) by (intros p; unfold V; rewrite sh_on, S1, N.eqb_refl; destruct (N.eqb_spec p i); [reflexivity|rewrite S1; destruct (N.eqb_spec p i); [congruence|reflexivity]]).
      destruct (op1 U V i (fun s => w_pd true (w_bas b s)) m W Hi Um K1 X1 SV G1) as (V1 & V2 & V3); try reflexivity.
      + intros F. congruence.
      + discriminate.
      + split; [exact V1|]. split; [|split; [exact K1|split; [unfold bas_of; rewrite SV, N.eqb_refl; reflexivity|]]].
        * eapply ss_trans; [apply (step1_framed U V i m midn Hi)|apply gate_midn].
          -- apply K1. -- intros p _ Hp. rewrite SV. destruct (N.eqb_spec p i); [congruence|reflexivity]. -- exact V2. -- unfold bas_of at 1. rewrite SV, N.eqb_refl. exact M.
        * split; [exact X1|split; [exact V3|]]. rewrite (SV i), N.eqb_refl. repeat split. intros p Hp. rewrite SV. destruct (N.eqb_spec p i); [congruence|reflexivity].
    - set (A := amps_gate i m U1). set (f := fun s => w_amps (m00 m * s_a0 s + m01 m * s_a1 s) (m10 m * s_a0 s + m11 m * s_a1 s) (w_bas b s)).
      assert (SA : forall p, u_sh A p = if p =? i then f (u_sh U i) else u_sh U p) by (intros p; unfold A, amps_gate; rewrite sh_on, S1i; destruct (N.eqb_spec p i); [reflexivity|rewrite S1; destruct (N.eqb_spec p i); [congruence|reflexivity]]).
      destruct (wf_none U W i Hi Eu) as (L1 & L2 & L3 & L4).
      assert (OK : local_ok (f (u_sh U i))) by (unfold local_ok, f; cbn [w_amps w_bas s_map s_pd s_fd s_a0 s_a1]; rewrite unitary_pair by exact Um; auto).
      assert (SAi : u_sh A i = f (u_sh U i)) by (rewrite SA, N.eqb_refl; reflexivity).
      unfold ClampShard. rewrite SAi. destruct (ClampAmps cx (f (u_sh U i))) as [c s] eqn:Ec.
      assert (Es : s = f (u_sh U i)) by (rewrite <- (local_clamp _ OK), Ec; reflexivity). subst s.
      replace (s_unit (f (u_sh U i))) with (@None N) by (symmetry; exact Eu).
      set (V := put_sh i (f (u_sh U i)) A).
      assert (SV : forall p, u_sh V p = if p =? i then f (u_sh U i) else u_sh U p) by (intros p; change (u_sh V p) with (if p =? i then f (u_sh U i) else u_sh A p); destruct (N.eqb_spec p i) as [->|Hp]; [reflexivity|rewrite SA; destruct (N.eqb_spec p i); [congruence|reflexivity]]).
      destruct (op1 U V i f m W Hi Um K1 X1 SV G1) as (V1 & V2 & V3); try reflexivity.
      + intros _. unfold f. cbn [w_amps w_bas s_pd s_fd s_a0 s_a1]. auto.
      + intros _ F. rewrite Eu in F. congruence.
      + split; [exact V1|]. split; [|split; [exact K1|split; [unfold bas_of; rewrite SV, N.eqb_refl; reflexivity|]]].
        * eapply ss_trans; [apply (step1_framed U V i m midn Hi)|apply gate_midn].
          -- apply K1. -- intros p _ Hp. rewrite SV. destruct (N.eqb_spec p i); [congruence|reflexivity]. -- exact V2. -- unfold bas_of at 1. rewrite SV, N.eqb_refl. exact M.
        * split; [exact X1|split; [exact V3|]]. rewrite (SV i), N.eqb_refl. repeat split. intros p Hp. rewrite SV. destruct (N.eqb_spec p i); [congruence|reflexivity].
  Qed.
  Local Notation hh := (cx_h cx).
  Local Notation ii := (cx_i cx).
  Lemma sqrtx_ok : mmul (mH cx) (mSqrtX cx) = mSH cx.
  Proof.
    unfold mmul, mH, mSqrtX, mSH. cbn [m00 m01 m10 m11]. apply mat2_eq; cbn [m00 m01 m10 m11].
    - transitivity (MUnit.half cx * (hh + hh))%amp; [ring|apply two_half].
    - transitivity (MUnit.half cx * (hh + hh))%amp; [ring|apply two_half].
    - transitivity (MUnit.half cx * ((ii * hh) + (ii * hh)))%amp; [ring|apply two_half].
    - transitivity (MUnit.half cx * ((- (ii * hh)) + (- (ii * hh))))%amp; [ring|apply two_half].
  Qed.
  Lemma hh_ok : mmul (mH cx) (mH cx) = midn.
  Proof. apply (hmat_inv (cx_h cx)). apply cx_h_sq. Qed.
  Lemma sqrtx_unitary : unitary2 (mSqrtX cx).
  Proof.
    assert (E : mSqrtX cx = mmul (mH cx) (mSH cx)) by (rewrite <- sqrtx_ok, <- mmul_assoc, hh_ok, mmul_1_l; reflexivity).
    rewrite E. apply unitary_mmul; [apply (bmat_unitary cx PauliX)|apply (bmat_unitary cx PauliY)].
  Qed.
  Lemma reverty_ok sep i U : wf U -> i < u_n U -> (s_unit (u_sh U i) <> None -> s_fd (u_sh U i) = true) ->
    let V := RevertBasisY cx sep i U in wf V /\ same_state (framed V) (framed U) /\ kept U V /\ bas_of V i <> PauliY /\ same_shape U V i.
  Proof.
    intros W Hi Hfd. unfold RevertBasisY. destruct (s_bas (u_sh U i)) eqn:Eb; cbn zeta.
    - split; [exact W|]. split; [apply ss_refl|]. split; [apply kept_refl|]. split; [unfold bas_of; rewrite Eb; discriminate|apply shape_refl].
    - split; [exact W|]. split; [apply ss_refl|]. split; [apply kept_refl|]. split; [unfold bas_of; rewrite Eb; discriminate|apply shape_refl].
    - destruct (convert_ok sep PauliX (mSqrtX cx) i U W Hi Hfd sqrtx_unitary) as (H1 & H2 & H3 & H4 & H5).
      + unfold bas_of. rewrite Eb. apply sqrtx_ok.
      + rewrite H4. split; [exact H1|]. split; [exact H2|]. split; [exact H3|]. split; [discriminate|exact H5].
  Qed.
  Lemma revert1_ok sep i U : wf U -> i < u_n U -> (s_unit (u_sh U i) <> None -> s_fd (u_sh U i) = true) ->
    let V := RevertBasis1Qb cx sep i U in wf V /\ same_state (framed V) (framed U) /\ kept U V /\ bas_of V i = PauliZ /\ same_shape U V i.
  Proof.
    intros W Hi Hfd. unfold RevertBasis1Qb. destruct (s_bas (u_sh U i)) eqn:Eb; cbn zeta.
    - split; [exact W|]. split; [apply ss_refl|]. split; [apply kept_refl|]. split; [exact Eb|apply shape_refl].
    - unfold ConvertZToX. rewrite Eb. apply convert_ok; try assumption; [apply (bmat_unitary cx PauliX)|]. unfold bas_of. rewrite Eb. apply mmul_1_l.
    - unfold ConvertYToZ. apply convert_ok; try assumption; [apply (bmat_unitary cx PauliY)|]. unfold bas_of. rewrite Eb. apply mmul_1_l.
  Qed.
End P.
Arguments step1 {K cx}.
Arguments op1 {K cx}.
Arguments wf_placed {K cx}.
Arguments wf_norm {K cx}.
Arguments wf_none {K cx}.
Arguments wf_faith {K cx}.
Arguments wf_ph {K cx}.
Arguments wf_sw {K cx}.
Arguments mkWf {K cx}.
