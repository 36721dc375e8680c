(** Proofs for QUnitClifford: what holds for every register that can be reached. *)
From Coq Require Import Arith NArith List Bool Lia Ring Permutation.
From Verif Require Import Bits MFunctions SpecFunctions PFunctions MKernel PKernel Amp PAmp SpecState PApply PCompose PGates PGates2 PQCirc2 PQCirc3 PEngine MShard SpecShard MUnit PShard1 PShard2 PShard5 PUnit1 PUnit2 PUnit3 PUnit4 PQCirc6 PUnitW PUnit6 PUnit9 MTensor MUCliff SpecUCliff PUCliff1 PUCliff2 PUCliff3 PUCliff4 PUCliff5 PUCliff6.
Import ListNotations.
Local Open Scope N_scope.
Local Notation up n := (upto (N.to_nat n)).

Section P.
  Context {K : StarRing} (ci ch : K) (c : kcfg K) (D : definite (K := K)) (Sep : sep_ok c) (A : amps_ok ci ch).
  Add Ring KrEH : (sr_ring K).
  Local Notation vec := (N -> K).
  Local Notation uk := (ucliff K).
  Local Notation M2 := (mat2 K).
  Local Notation good := PUCliff2.good.
  Implicit Types (U V T : uk) (psi : vec) (m : M2).

  Definition stays U V : Prop := good V /\ k_n V = k_n U.
  Lemma becomes_stays U V psi : becomes U V psi -> stays U V.
  Proof. intros (G & H & _). split; assumption. Qed.
  Lemma stays_trans U V W : stays U V -> stays V W -> stays U W.
  Proof. intros [G1 H1] [G2 H2]. split; [exact G2|congruence]. Qed.
  Lemma gate_any U t i m V : good U -> t < k_n U -> unitary2 m -> u_gate (k_unit U t) i m U = Ret V -> stays U V.
  Proof.
    intros G Ht HM E. pose proof (kw_in U t (gd_wf U G) Ht) as [Hu _]. assert (Hi : i < k_size U (k_unit U t)) by (unfold u_gate in E; destruct (N.ltb_spec i (k_size U (k_unit U t))); [assumption|discriminate]).
    destruct (pl_cov _ _ _ _ (kw_placed U (gd_wf U G)) (k_unit U t) i Hu Hi) as (p & Hp & F & M). rewrite csh_unit in F. injection F as F. rewrite csh_map in M.
    destruct (gate_ok U p m G Hp HM) as (V' & E' & B). rewrite F, M, E in E'. injection E' as ->. apply (becomes_stays _ _ _ B).
  Qed.
  Lemma k_gate_any U t m V : good U -> unitary2 m -> k_gate m t U = Ret V -> stays U V.
  Proof. intros G HM. unfold k_gate. destruct (N.leb_spec (k_n U) t); [discriminate|]. intros E. apply (gate_any U t (k_map U t) m V); assumption. Qed.
  Lemma CGate_any U anti ok ok2 q t m V : good U -> q < k_n U -> t < k_n U -> q <> t -> unitary2 m -> CGate c anti ok ok2 q t m U = Ret V -> stays U V.
  Proof.
    intros G Hq Ht Hqt HM. unfold CGate. destruct (N.leb_spec (k_n U) t); [lia|]. rewrite (prob_ok U q G Hq). cbn [bind].
    assert (ST : stays U U) by (split; [exact G|reflexivity]). assert (FI : (if ok then u_gate (k_unit U t) t m U else Throws) = Ret V -> stays U V) by (destruct ok; [apply gate_any; assumption|discriminate]).
    destruct (definitely false _); [destruct anti; [exact FI|intros E; injection E as <-; exact ST]|]. destruct (definitely true _); [destruct anti; [intros E; injection E as <-; exact ST|exact FI]|]. destruct ok2; [|discriminate].
    destruct (entangle2_ok q t U (gd_wf U G) Hq Ht) as (W1 & J1 & (X1 & X2) & DR & EU). set (U1 := entangle [q; t] U) in *.
    assert (G1 : good U1) by (split; [exact W1|rewrite X2; apply G]). assert (Hq1 : q < k_n U1) by (rewrite X1; exact Hq). assert (Ht1 : t < k_n U1) by (rewrite X1; exact Ht).
    destruct (kw_in U1 q W1 Hq1) as [_ B1]. destruct (kw_in U1 t W1 Ht1) as [_ B2]. unfold u_cgate. rewrite <- EU in B2.
    destruct (N.ltb_spec (k_map U1 q) (k_size U1 (k_unit U1 q))); [|lia]. destruct (N.ltb_spec (k_map U1 t) (k_size U1 (k_unit U1 q))); [|lia]. cbn [andb bind].
    assert (MN : k_map U1 q <> k_map U1 t). { intros F. apply Hqt. apply (pl_inj _ _ _ _ (kw_placed U1 W1) q t (k_unit U1 t) Hq1 Ht1); [rewrite csh_unit, EU; reflexivity|reflexivity|exact F]. }
    destruct (put_gate U1 t (fun x => eqb (N.testbit x (k_map U1 q)) (negb anti)) m W1 Ht1 HM) as [W2 E2].
    { intros x. split; rewrite ?tb_setbit, ?tb_clearbit; destruct (N.eqb_spec (k_map U1 t) (k_map U1 q)); try congruence; cbn [orb negb]; rewrite ?andb_true_r; reflexivity. }
    rewrite <- EU in W2. set (U2 := put_unit _ _ _ U1) in *. intros E. injection E as <-. assert (G2 : good U2) by (split; [exact W2|change (k_ph U2) with (k_ph U1); rewrite X2; apply G]).
    pose proof (becomes_stays _ _ _ (try2_ok c Sep U2 q t _ G2 Hq1 Ht1 (fun x => eq_refl))) as [G3 N3]. split; [exact G3|]. rewrite N3. exact X1.
  Qed.
  Lemma cz_any U anti q t V : good U -> q < k_n U -> t < k_n U -> q <> t -> k_cz c anti q t U = Ret V -> stays U V.
  Proof.
    intros G Hq Ht Hqt. unfold k_cz. rewrite (prob_ok U t G Ht). cbn [bind]. destruct (definitely true _); intros E.
    - apply (k_gate_any U q _ V G) in E; [exact E|]. destruct anti; [apply uni_P; [apply unit_m1|apply unit_1]|apply uni_Z].
    - apply CGate_any in E; auto. apply uni_Z.
  Qed.
  Lemma cnot_any U anti q t V : good U -> q < k_n U -> t < k_n U -> q <> t -> k_cnot ch c anti q t U = Ret V -> stays U V.
  Proof.
    intros G Hq Ht Hqt. unfold k_cnot. destruct (k_gate_ok U t (mH ch) G Ht (uni_H ci ch A)) as (U1 & E0 & B1). rewrite E0. cbn [bind]. destruct (becomes_stays _ _ _ B1) as [G1 N1]. unfold k_separable_z. rewrite (prob_ok U1 t G1 ltac:(congruence)). cbn [bind].
    destruct (_ || _); intros E.
    - destruct (k_cz c anti q t U1) as [U2| |] eqn:E2; try discriminate. cbn [bind] in E. apply cz_any in E2; [|exact G1|congruence|congruence|exact Hqt]. apply (k_gate_any U2) in E; [|apply E2|apply (uni_H ci ch A)]. apply (stays_trans U U1); [split; assumption|]. apply (stays_trans U1 U2); assumption.
    - destruct (k_gate_ok U1 t (mH ch) G1 ltac:(congruence) (uni_H ci ch A)) as (U2 & E2 & B2). rewrite E2 in E. cbn [bind] in E. destruct (becomes_stays _ _ _ B2) as [G2 N2]. apply CGate_any in E; [|exact G2|congruence|congruence|exact Hqt|apply uni_X].
      apply (stays_trans U U2); [split; [exact G2|congruence]|exact E].
  Qed.
  Lemma call_any U o V : good U -> valid (kc_ok c) (kc_ok2 c) (k_n U) o -> k_call ci ch c o U = Ret V -> stays U V.
  Proof.
    intros G HV E. destruct o as [t|t|t|t|t|t|m t|a q t|a q t|a q t|a cs m t|a b|i a b].
    all: try (destruct (call_ok ci ch c D Sep A U _ G HV I) as (V' & E' & B); rewrite E in E'; injection E' as <-; apply (becomes_stays _ _ _ B)).
    - destruct HV as (Hq & Ht & Hn). apply (cz_any U a q t V); auto.
    - destruct HV as (Hq & Ht & Hn). apply (CGate_any U a true true q t (mY ci) V); auto. apply (uni_Y ci ch A).
    - destruct HV as (Hq & Ht & Hn). apply (cnot_any U a q t V); auto.
    - destruct HV as (Ht & HM & Hc). destruct cs as [|q [|q' l]]; [| |destruct Hc].
      + cbn [k_call k_mc] in E. unfold k_mtrx in E. destruct (N.leb_spec (k_n U) t); [discriminate|]. rewrite Hc in E. apply (gate_any U t (k_map U t) m V); assumption.
      + destruct Hc as (Hq & Hn & Hok). cbn [k_call k_mc] in E. destruct ((k_n U <=? t) || (k_n U <=? q)); [discriminate|].
        destruct (_ && _) in E; [destruct (_ && _) in E; [apply cz_any in E|apply CGate_any in E]; auto|]. destruct (_ && _) in E; [|apply CGate_any in E; auto]. destruct (_ && _) in E; [apply cnot_any in E|apply CGate_any in E]; auto.
  Qed.
  Lemma amps_joint U : good U -> eqv (k_n U) (amps U) (joint U).
  Proof. intros G x Hx. unfold amps. rewrite (amplitude_ok U x (gd_wf U G) Hx). reflexivity. Qed.
  Lemma amps_wt U q r : good U -> weight_at U q r = wt (k_n U) q r (joint U).
  Proof. intros G. unfold weight_at. rewrite <- wt_weight. apply wt_eqv. apply amps_joint, G. Qed.
  Lemma nrm_at_ok U q : good U -> nrm_ok c U q -> forall r, nrm_at c (wt (k_n U) q r (joint U)).
  Proof. intros G HN r. specialize (HN r). rewrite (amps_wt U q r G) in HN. exact HN. Qed.
  Lemma reached_good U : reached ci ch c U -> good U.
  Proof.
    induction 1 as [n perm ph HP|U o V R G HV E|U q res force apply r V R G Hq HN E|U T start V RU GU RT GT E].
    - apply perm_good, HP.
    - apply (call_any U o V G HV E).
    - destruct apply.
      + destruct force.
        * destruct (zero_dec (wt (k_n U) q res (joint U))) as [Z|Z]; [rewrite (force_impossible c D U q res G Hq Z) in E; discriminate|].
          destruct (force_ok c D Sep U q res true G Hq (nrm_at_ok U q G HN) (fun _ => Z)) as (r' & V' & E' & G' & _). rewrite E in E'. injection E' as -> ->. exact G'.
        * destruct (force_ok c D Sep U q res false G Hq (nrm_at_ok U q G HN)) as (r' & V' & E' & G' & _); [discriminate|]. rewrite E in E'. injection E' as -> ->. exact G'.
      + destruct (peek_ok c D U q res force G Hq) as (r' & V' & E' & G' & _). rewrite E in E'. injection E' as -> ->. exact G'.
    - apply (compose_ok U T start V GU GT); [|exact E]. unfold k_compose in E. destruct (N.ltb_spec (k_n U) start); [discriminate|lia].
  Qed.
  (** ** What can be read *)
  Lemma r_norm U : reached ci ch c U -> norm2 (k_n U) (amps U) = 1%amp.
  Proof. intros R. assert (G := reached_good U R). rewrite <- (joint_norm U G). unfold norm2. apply asum_ext. intros x Hx. apply up_in in Hx. rewrite (amps_joint U G x Hx). reflexivity. Qed.
  Lemma r_prob U q : reached ci ch c U -> q < k_n U -> k_prob q U = Ret (weight_at U q true).
  Proof. intros R Hq. assert (G := reached_good U R). rewrite (prob_ok U q G Hq), (amps_wt U q true G). reflexivity. Qed.
  Lemma r_mask U q perm : reached ci ch c U -> q < k_n U -> k_prob_mask (2 ^ q) perm U = Ret (weight_at U q (N.testbit perm q)).
  Proof. intros R Hq. assert (G := reached_good U R). rewrite (mask_one U q perm G Hq), (amps_wt U q _ G), wt_weight. reflexivity. Qed.
  Lemma r_measure_ok U q res (force : bool) : reached ci ch c U -> q < k_n U -> nrm_ok c U q -> (force = true -> weight_at U q res <> 0%amp) ->
    exists r V g, k_force_m c q res force true U = Ret (r, V) /\ k_n V = k_n U /\ weight_at U q r <> 0%amp /\ (force = true -> r = res) /\ (anorm g * weight_at U q r = 1)%amp /\
      forall x, x < 2 ^ k_n U -> k_amplitude x V = Ret (if eqb (N.testbit x q) r then g * amps U x else 0)%amp.
  Proof.
    intros R Hq HN HF. assert (G := reached_good U R). rewrite (amps_wt U q res G) in HF.
    destruct (force_ok c D Sep U q res force G Hq (nrm_at_ok U q G HN) HF) as (r & V & E & GV & NV & HR & HW & (g & Hg & J)). exists r, V, g. split; [exact E|]. split; [exact NV|]. rewrite (amps_wt U q r G). split; [exact HW|]. split; [intros ->; exact HR|].
    split; [rewrite wt_weight; exact Hg|]. intros x Hx. rewrite (amplitude_ok V x (gd_wf V GV)) by (rewrite NV; exact Hx). rewrite (J x Hx). unfold kept. rewrite (amps_joint U G x Hx). reflexivity.
  Qed.
  Lemma r_impossible U q res : reached ci ch c U -> q < k_n U -> weight_at U q res = 0%amp -> k_force_m c q res true true U = Throws.
  Proof. intros R Hq. assert (G := reached_good U R). rewrite (amps_wt U q res G). apply (force_impossible c D U q res G Hq). Qed.
  Lemma r_peek U q res (force : bool) : reached ci ch c U -> q < k_n U -> exists r V, k_force_m c q res force false U = Ret (r, V) /\ k_n V = k_n U /\ (forall x, x < 2 ^ k_n U -> k_amplitude x V = k_amplitude x U) /\ (force = true -> r = res) /\ (force = false -> weight_at U q r <> 0%amp).
  Proof.
    intros R Hq. assert (G := reached_good U R). destruct (peek_ok c D U q res force G Hq) as (r & V & E & GV & NV & J & H1 & H2). exists r, V. split; [exact E|]. split; [exact NV|]. split; [|split; [exact H1|rewrite (amps_wt U q r G); exact H2]].
    intros x Hx. rewrite (amplitude_ok V x (gd_wf V GV)) by (rewrite NV; exact Hx). rewrite (amplitude_ok U x (gd_wf U G) Hx), J. reflexivity.
  Qed.
  Lemma r_compose_ok U T start : reached ci ch c U -> reached ci ch c T -> start <= k_n U -> exists V e, k_compose T start U = Ret V /\ k_n V = k_n U + k_n T /\ anorm e = 1%amp /\
    forall x, x < 2 ^ (k_n U + k_n T) -> k_amplitude x V = Ret (e * (amps U (outside x start (k_n T)) * amps T (get_reg x start (k_n T))))%amp.
  Proof.
    intros RU RT Hs. assert (GU := reached_good U RU). assert (GT := reached_good T RT). destruct (k_compose T start U) as [V| |] eqn:E; [|unfold k_compose in E; destruct (N.ltb_spec (k_n U) start); [lia|discriminate]..].
    destruct (compose_ok U T start V GU GT Hs E) as (GV & NV & J). exists V, (sr_conj (k_ph T)). split; [reflexivity|]. split; [exact NV|]. assert (P := gd_ph T GT). unfold anorm in P. split; [unfold anorm; rewrite sr_conj_invol; rewrite <- P; ring|].
    intros x Hx. rewrite (amplitude_ok V x (gd_wf V GV)) by (rewrite NV; exact Hx). f_equal. rewrite (amps_joint U GU) by (apply outside_lt; [exact Hs|exact Hx]). rewrite (amps_joint T GT) by apply get_reg_lt.
    specialize (J x). unfold tensor_at in J. rewrite <- J. transitivity (k_ph T * sr_conj (k_ph T) * joint V x)%amp; [rewrite P; ring|ring].
  Qed.
End P.

Section R.
  Context {K : StarRing} (ci ch : K) (c : kcfg K) (D : definite (K := K)) (Sep : sep_ok c) (A : amps_ok ci ch).
  Lemma run_reached p : forall U V, reached ci ch c U -> Forall (valid (kc_ok c) (kc_ok2 c) (k_n U)) p -> k_run ci ch c p U = Ret V -> reached ci ch c V.
  Proof.
    induction p as [|o p IH]; intros U V R F E; cbn [k_run] in E; [injection E as <-; exact R|]. inversion F as [|? ? F1 F2]; subst. destruct (k_call ci ch c o U) as [W| |] eqn:EW; try discriminate. cbn [bind] in E.
    assert (S := call_any ci ch c D Sep A U o W (reached_good ci ch c D Sep A U R) F1 EW). apply (IH W V); [apply (r_call ci ch c U o W R F1 EW)|rewrite (proj2 S); exact F2|exact E].
  Qed.
End R.
