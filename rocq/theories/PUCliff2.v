(** Proofs for QUnitClifford: probabilities, gates, controlled gates, swaps and amplitudes. *)
From Coq Require Import Arith NArith List Bool Lia Ring Permutation.
From Verif Require Import Bits MFunctions SpecFunctions PFunctions MKernel PKernel Amp PAmp SpecState PApply PCompose PGates PGates2 PQCirc2 PQCirc3 PEngine MShard SpecShard MUnit PShard1 PShard2 PShard5 PUnit1 PUnit2 PUnit3 PUnit4 PUnitW PUnit6 MTensor MUCliff SpecUCliff PUCliff1.
Import ListNotations.
Local Open Scope N_scope.
Local Notation up n := (upto (N.to_nat n)).

Section P.
  Context {K : StarRing} (ci ch : K) (c : kcfg K) (D : definite (K := K)) (Sep : sep_ok c) (A : amps_ok ci ch).
  Add Ring KrEC : (sr_ring K).
  Local Notation vec := (N -> K).
  Local Notation uk := (ucliff K).
  Local Notation M2 := (mat2 K).
  Implicit Types (U V : uk) (v psi : vec) (m : M2).

  Record good U : Prop := mkGood { gd_wf : kwf U; gd_ph : anorm (k_ph U) = 1%amp }.
  (** [V] holds the state [psi] on the qubits of [U]. *)
  Definition becomes U V psi : Prop := good V /\ k_n V = k_n U /\ k_draw V = k_draw U /\ same_state (joint V) psi.
  Lemma becomes_refl U : good U -> becomes U U (joint U).
  Proof. intros G. split; [exact G|]. split; [reflexivity|]. split; [reflexivity|intros x; reflexivity]. Qed.
  Lemma becomes_same U V psi phi : becomes U V psi -> same_state psi phi -> becomes U V phi.
  Proof. intros (G & H & DR & E) F. split; [exact G|]. split; [exact H|]. split; [exact DR|]. intros x. rewrite E. apply F. Qed.
  Lemma becomes_by U V W psi : k_n V = k_n U -> k_draw V = k_draw U -> becomes V W psi -> becomes U W psi.
  Proof. intros H DR (G & H1 & DR1 & E). split; [exact G|]. split; [congruence|]. split; [congruence|exact E]. Qed.
  Lemma gate_same P t m psi phi : same_state psi phi -> same_state (gate1 P t m psi) (gate1 P t m phi).
  Proof. intros E x. unfold gate1. rewrite !E. reflexivity. Qed.

  (** ** Probabilities *)
  Lemma no_loc U : forall p, p < k_n U -> s_unit (csh U p) = None -> (anorm (s_a0 (csh U p)) + anorm (s_a1 (csh U p)) = 1)%amp.
  Proof. intros p _ H. discriminate H. Qed.
  Lemma joint_wt U q b : good U -> q < k_n U -> wt (k_n U) q b (joint U) = wt (k_size U (k_unit U q)) (k_map U q) b (k_vec U (k_unit U q)).
  Proof.
    intros [W P] Hq. transitivity (wt (k_n U) q b (parts U)).
    - unfold wt, norm2. apply asum_ext. intros x _. unfold mask, joint. destruct (eqb _ _); [|reflexivity]. rewrite anorm_mul, P. ring.
    - apply (unit_wt (k_n U) (k_next U) (csh U) (k_eng U) (kw_placed U W) (kw_norm U W) (no_loc U) q (k_unit U q) b Hq eq_refl).
  Qed.
  Lemma joint_norm U : good U -> norm2 (k_n U) (joint U) = 1%amp.
  Proof.
    intros [W P]. transitivity (norm2 (k_n U) (parts U)).
    - unfold norm2. apply asum_ext. intros x _. unfold joint. rewrite anorm_mul, P. ring.
    - apply (base_norm (k_n U) (k_next U) (csh U) (k_eng U) (kw_placed U W) (kw_norm U W) (no_loc U)).
  Qed.
  Lemma prob_ok U q : good U -> q < k_n U -> k_prob q U = Ret (wt (k_n U) q true (joint U)).
  Proof.
    intros G Hq. unfold k_prob, u_prob. destruct (N.leb_spec (k_n U) q); [lia|]. destruct (kw_in U q (gd_wf U G) Hq) as [_ Hm]. destruct (N.ltb_spec (k_map U q) (k_size U (k_unit U q))); [|lia].
    rewrite (joint_wt U q true G Hq), wt_true. reflexivity.
  Qed.
  Lemma wt_zero n q (b : bool) v : wt n q b v = 0%amp <-> esup n q (negb b) v.
  Proof.
    rewrite wt_weight, (weight_zero D). unfold esup. split; intros H y Hy HB; apply H; auto.
    - apply eqb_true_iff. destruct (N.testbit y q), b; cbn in HB; congruence.
    - apply eqb_prop in HB. rewrite HB. destruct b; discriminate.
  Qed.
  Lemma joint_sup U q b : good U -> q < k_n U -> supported q b (joint U) <-> wt (k_n U) q (negb b) (joint U) = 0%amp.
  Proof.
    intros G Hq. rewrite (joint_wt U q _ G Hq), wt_zero, negb_involutive. destruct G as [W P].
    rewrite <- (support_unit (k_n U) (k_next U) (csh U) (k_eng U) D (kw_placed U W) (kw_norm U W) (no_loc U) q (k_unit U q) b Hq eq_refl).
    unfold supported, joint. split; intros H x Hx; specialize (H x Hx).
    - apply (proj1 (unit_zero (k_ph U) (parts U x) P)) in H. exact H.
    - fold (parts U). change (parts U x = 0%amp) in H. rewrite H. ring.
  Qed.
  Lemma definitely_ok U q b : good U -> q < k_n U -> definitely b (wt (k_n U) q true (joint U)) = true <-> supported q b (joint U).
  Proof.
    intros G Hq. rewrite (joint_sup U q b G Hq). unfold definitely. rewrite sr_eqb_ok. pose proof (wt_split (k_n U) q (joint U)) as E. rewrite (joint_norm U G) in E. destruct b; cbn [negb]; [|reflexivity].
    split; intros F.
    - transitivity (wt (k_n U) q false (joint U) + wt (k_n U) q true (joint U) - wt (k_n U) q true (joint U))%amp; [ring|]. rewrite E, F. ring.
    - rewrite F in E. rewrite <- E. ring.
  Qed.

  (** ** One qubit *)
  Lemma gate_ok U t m : good U -> t < k_n U -> unitary2 m -> exists V, u_gate (k_unit U t) (k_map U t) m U = Ret V /\ becomes U V (gate1 always t m (joint U)).
  Proof.
    intros [W P] Ht HM. destruct (kw_in U t W Ht) as [_ Hm]. unfold u_gate. destruct (N.ltb_spec (k_map U t) (k_size U (k_unit U t))); [|lia]. eexists. split; [reflexivity|].
    destruct (put_gate U t always m W Ht HM) as [W1 E1]; [intros x; split; reflexivity|]. split; [split; [exact W1|exact P]|]. split; [reflexivity|]. split; [reflexivity|exact E1].
  Qed.
  Lemma k_gate_ok U t m : good U -> t < k_n U -> unitary2 m -> exists V, k_gate m t U = Ret V /\ becomes U V (gate1 always t m (joint U)).
  Proof. intros G Ht HM. unfold k_gate. destruct (N.leb_spec (k_n U) t); [lia|]. apply gate_ok; assumption. Qed.

  (** ** Separating *)
  Lemma try_ok U q : good U -> q < k_n U -> becomes U (k_try_separate c q U) (joint U).
  Proof.
    intros G Hq. unfold k_try_separate. destruct (N.leb_spec (k_size U (k_unit U q)) 1) as [H1|H1]; [apply becomes_refl, G|].
    destruct (kc_sep c (k_size U (k_unit U q)) (k_map U q) (k_vec U (k_unit U q))) as [[rest one]|] eqn:ES; [|apply becomes_refl, G].
    destruct G as [W P]. destruct (kw_in U q W Hq) as [Hu Hm]. destruct (Sep _ _ _ _ _ H1 Hm (kw_norm U W _ Hu) ES) as (N1 & N2 & E).
    match goal with |- becomes _ ?V _ => set (V1 := V) end.
    assert (Vs : forall p, k_sh V1 p = if p =? q then (k_next U, 0) else if (k_unit U p =? k_unit U q) && (k_map U q <? k_map U p) then (k_unit U p, k_map U p - 1) else k_sh U p) by reflexivity.
    assert (Ve : forall w, k_eng V1 w = if w =? k_next U then (1, ktab 1 one) else if w =? k_unit U q then (k_size U (k_unit U q) - 1, ktab (k_size U (k_unit U q) - 1) rest) else k_eng U w) by reflexivity.
    split; [split; [apply (split_wf U V1 W q Hq rest one eq_refl eq_refl Vs Ve H1 N1 N2)|exact P]|]. split; [reflexivity|]. split; [reflexivity|].
    intros x. unfold joint. change (k_ph V1) with (k_ph U). f_equal.
    rewrite (split_base U V1 W q Hq rest one eq_refl eq_refl Vs Ve H1 1%amp); [ring|]. intros y Hy. rewrite <- (E y Hy). ring.
  Qed.
  Lemma try2_ok U a b psi : good U -> a < k_n U -> b < k_n U -> same_state (joint U) psi -> becomes U (k_try_separate c b (k_try_separate c a U)) psi.
  Proof.
    intros G Ha Hb E. pose proof (try_ok U a G Ha) as (G1 & H1 & D1 & E1). apply (becomes_by U (k_try_separate c a U)); [exact H1|exact D1|].
    apply (becomes_same _ _ _ _ (try_ok _ b G1 ltac:(rewrite H1; exact Hb))). intros x. rewrite E1. apply E.
  Qed.

  (** ** Controlled gates *)
  Lemma fires_indep anti q t : q <> t -> indep (fires anti q) t.
  Proof. intros H x. unfold fires. split; destruct anti; rewrite ?tb_setbit, ?tb_clearbit; destruct (N.eqb_spec t q); try congruence; cbn [orb negb]; rewrite ?andb_true_r; reflexivity. Qed.
  (** The control never fires. *)
  Lemma gate_idle anti q t m psi : q <> t -> supported q anti psi -> same_state (gate1 (fires anti q) t m psi) psi.
  Proof.
    intros H HS x. unfold gate1. destruct (fires anti q x) eqn:F; [|reflexivity]. destruct (fires_indep anti q t H x) as [F1 F2].
    assert (Z : forall y, fires anti q y = true -> psi y = 0%amp). { intros y Hy. apply HS. unfold fires in Hy. destruct anti, (N.testbit y q); discriminate || congruence. }
    assert (Zx := Z x F). assert (Z1 : psi (N.setbit x t) = 0%amp) by (apply Z; rewrite <- F; first [exact F1|exact F2]). assert (Z0 : psi (N.clearbit x t) = 0%amp) by (apply Z; rewrite <- F; first [exact F1|exact F2]).
    rewrite Zx, Z1, Z0. destruct (N.testbit x t); ring.
  Qed.
  Lemma unsure_not U anti q : unsure (k_n U) anti q (joint U) -> ~ supported q (negb anti) (joint U).
  Proof. intros (x & _ & F & Z) HS. apply Z, HS. unfold fires in F. destruct anti, (N.testbit x q); discriminate || congruence. Qed.
  Lemma CGate_ok U anti ok q t m : good U -> q < k_n U -> t < k_n U -> q <> t -> unitary2 m -> ~ supported q (negb anti) (joint U) ->
    exists V, CGate c anti ok true q t m U = Ret V /\ becomes U V (gate1 (fires anti q) t m (joint U)).
  Proof.
    intros G Hq Ht Hqt HM HU. unfold CGate. destruct (N.leb_spec (k_n U) t); [lia|]. rewrite (prob_ok U q G Hq). cbn [bind].
    pose proof (definitely_ok U q false G Hq) as DF. pose proof (definitely_ok U q true G Hq) as DT. set (p := wt _ _ _ _) in *.
    destruct (definitely false p).
    - destruct anti; [destruct HU; apply DF; reflexivity|]. exists U. split; [reflexivity|]. apply (becomes_same _ _ _ _ (becomes_refl U G)). intros x. symmetry. apply (gate_idle false); [exact Hqt|apply DF; reflexivity].
    - destruct (definitely true p).
      + destruct anti; [|destruct HU; apply DT; reflexivity]. exists U. split; [reflexivity|]. apply (becomes_same _ _ _ _ (becomes_refl U G)). intros x. symmetry. apply (gate_idle true); [exact Hqt|apply DT; reflexivity].
      + clear DF DT p. destruct (entangle2_ok q t U (gd_wf U G) Hq Ht) as (W1 & J1 & (X1 & X2) & DR & EU). set (U1 := entangle [q; t] U) in *.
        assert (G1 : good U1) by (split; [exact W1|rewrite X2; apply G]). assert (Hq1 : q < k_n U1) by (rewrite X1; exact Hq). assert (Ht1 : t < k_n U1) by (rewrite X1; exact Ht).
        destruct (kw_in U1 q W1 Hq1) as [_ B1]. destruct (kw_in U1 t W1 Ht1) as [_ B2]. unfold u_cgate. rewrite <- EU in B2.
        destruct (N.ltb_spec (k_map U1 q) (k_size U1 (k_unit U1 q))); [|lia]. destruct (N.ltb_spec (k_map U1 t) (k_size U1 (k_unit U1 q))); [|lia]. cbn [andb bind].
        assert (MN : k_map U1 q <> k_map U1 t). { intros F. apply Hqt. apply (pl_inj _ _ _ _ (kw_placed U1 W1) q t (k_unit U1 t) Hq1 Ht1); [rewrite csh_unit, EU; reflexivity|reflexivity|exact F]. }
        destruct (put_gate U1 t (fun x => eqb (N.testbit x (k_map U1 q)) (negb anti)) m W1 Ht1 HM) as [W2 E2].
        { intros x. split; rewrite ?tb_setbit, ?tb_clearbit; destruct (N.eqb_spec (k_map U1 t) (k_map U1 q)); try congruence; cbn [orb negb]; rewrite ?andb_true_r; reflexivity. }
        rewrite <- EU in W2, E2. set (U2 := put_unit _ _ _ U1) in *. eexists. split; [reflexivity|].
        apply (becomes_by U U2); [exact X1|exact DR|]. apply try2_ok; [split; [exact W2|change (k_ph U2) with (k_ph U1); rewrite X2; apply G]|exact Hq1|exact Ht1|].
        intros x. rewrite E2. rewrite <- (gate_same (fires anti q) t m _ _ J1 x). unfold gate1.
        replace (eqb (N.testbit (k_gather (k_unit U1 q) x U1) (k_map U1 q)) (negb anti)) with (fires anti q x); [reflexivity|].
        rewrite (gather_own U1 q x W1 Hq1). unfold fires. destruct anti, (N.testbit x q); reflexivity.
  Qed.
End P.
