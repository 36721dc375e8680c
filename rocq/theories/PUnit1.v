(** Proofs for QUnit: states up to a phase, basis changes, support. *)
From Coq Require Import NArith List Bool Lia Ring.
From Verif Require Import Amp PAmp SpecState PGates PGates2 PQCirc2 PQCirc3 PEngine MShard SpecShard MUnit PShard1 PShard2 PShard5.
Import ListNotations.
Local Open Scope N_scope.

Section P.
  Context {K : StarRing} (cx : Cplx K).
  Add Ring KrBN : (sr_ring K).
  Local Notation vec := (N -> K).
  Local Notation unit1 x := (anorm x = 1%amp).
  Local Notation M2 := (mat2 K).
  Local Notation hh := (cx_h cx).
  Local Notation ii := (cx_i cx).
  Implicit Types (psi phi : vec).
  Local Open Scope amp_scope.

  (** ** Up to a phase *)
  Definition like psi phi : Prop := exists c, unit1 c /\ forall x, psi x = c * phi x.
  Lemma like_ss psi phi : same_state psi phi -> like psi phi.
  Proof. intros H. exists 1. split; [unfold anorm; rewrite conj_1; ring|]. intros x. rewrite H. ring. Qed.
  Lemma like_refl psi : like psi psi.
  Proof. apply like_ss, ss_refl. Qed.
  Lemma like_scale (c : K) psi : unit1 c -> like (fun x => c * psi x) psi.
  Proof. intros H. exists c. split; [exact H|]. reflexivity. Qed.
  Lemma like_sym psi phi : like psi phi -> like phi psi.
  Proof.
    intros (c & Hc & H). exists (sr_conj c). split; [apply unit_conj, Hc|]. intros x. rewrite H. transitivity (anorm c * phi x); [rewrite Hc; ring|unfold anorm; ring].
  Qed.
  Lemma like_trans f g h : like f g -> like g h -> like f h.
  Proof. intros (c & Hc & H) (d & Hd & H'). exists (c * d). split; [apply unit_mul; assumption|]. intros x. rewrite H, H'. ring. Qed.
  Lemma like_gate P t (m : M2) psi phi : like psi phi -> like (gate1 P t m psi) (gate1 P t m phi).
  Proof.
    intros (c & Hc & H). exists c. split; [exact Hc|]. intros x. rewrite <- gate1_scale. apply gate1_proper. exact H.
  Qed.
  Definition linear (f : vec -> vec) : Prop := proper f /\ forall (c : K) psi, same_state (f (fun x => c * psi x)) (fun x => c * f psi x).
  Lemma like_linear f psi phi : linear f -> like psi phi -> like (f psi) (f phi).
  Proof. intros [Pf Lf] (c & Hc & H). exists c. split; [exact Hc|]. intros x. rewrite <- Lf. apply Pf. exact H. Qed.
  Lemma linear_gate P t (m : M2) : linear (gate1 P t m).
  Proof. split; [apply gate1_proper|]. intros c psi x. apply gate1_scale. Qed.
  Lemma linear_fold {A} (F : A -> vec -> vec) l : (forall k, linear (F k)) -> linear (fun psi => fold_right F psi l).
  Proof.
    intros HF. induction l as [|k l IH]; cbn [fold_right]; [split; [intros g h H; exact H|intros c psi; apply ss_refl]|].
    destruct IH as [IP IL], (HF k) as [KP KL]. split; [intros g h H; apply KP, IP, H|].
    intros c psi. eapply ss_trans; [apply KP, IL|apply KL].
  Qed.
  Lemma linear_at s k : linear (gate_at (K := K) s k).
  Proof. destruct k as [[a c] t]. unfold gate_at. destruct buffer_of; [apply linear_gate|]. split; [intros g h H; exact H|intros d psi; apply ss_refl]. Qed.
  Lemma linear_pending s : linear (pending (K := K) s).
  Proof. apply linear_fold. apply linear_at. Qed.
  Lemma like_pending s psi phi : like psi phi -> like (pending s psi) (pending s phi).
  Proof. apply like_linear, linear_pending. Qed.

  (** ** Bases *)
  Definition bmat (b : pauli) : M2 := match b with PauliZ => midn | PauliX => mH cx | PauliY => mSH cx end.
  Lemma hsq : hh * hh + hh * hh = 1. Proof. apply cx_h_sq. Qed.
  Lemma half2 : MUnit.half cx + MUnit.half cx = 1. Proof. apply cx_h_sq. Qed.
  Lemma isq : ii * ii = - (1). Proof. apply cx_i_sq. Qed.
  Lemma i_unit : unit1 ii.
  Proof. unfold anorm. rewrite cx_i_conj. transitivity (- (ii * ii)); [ring|]. rewrite isq. ring. Qed.
  Lemma bmat_unitary b : unitary2 (bmat b).
  Proof.
    unfold unitary2. destruct b; cbn [bmat].
    - apply unitary_1.
    - unfold mH, mmul, mdag, midn. cbn [m00 m01 m10 m11]. rewrite conj_opp, cx_h_conj. apply mat2_eq; cbn [m00 m01 m10 m11]; try ring.
      + apply hsq. + rewrite <- hsq. ring.
    - unfold mSH, mmul, mdag, midn. cbn [m00 m01 m10 m11]. rewrite conj_opp, sr_conj_mul, cx_h_conj, cx_i_conj.
      assert (E : - ii * hh * (ii * hh) = hh * hh). { transitivity (- (ii * ii) * (hh * hh)); [ring|]. rewrite isq. ring. }
      apply mat2_eq; cbn [m00 m01 m10 m11].
      + rewrite E. apply hsq.
      + transitivity (hh * hh - (- ii * hh * (ii * hh))); [ring|]. rewrite E. ring.
      + transitivity (hh * hh - (- ii * hh * (ii * hh))); [ring|]. rewrite E. ring.
      + transitivity (hh * hh + (- ii * hh * (ii * hh))); [ring|]. rewrite E. apply hsq.
  Qed.

  Lemma half_eq : MUnit.half cx = hh * hh. Proof. reflexivity. Qed.
  (** The matrix in the basis of the qubit. *)
  Definition in_basis (b : pauli) (m m' : M2) : Prop := mmul (bmat b) m' = mmul m (bmat b).
  Ltac basis_tac := apply mat2_eq; cbn [m00 m01 m10 m11].
  Lemma two_half x : MUnit.half cx * (x + x) = x.
  Proof. transitivity ((MUnit.half cx + MUnit.half cx) * x); [ring|]. rewrite half2. ring. Qed.
  Lemma isq_l x : ii * (ii * x) = - x.
  Proof. transitivity ((ii * ii) * x); [ring|]. rewrite isq. ring. Qed.
  Ltac by_half t := match goal with |- ?a = ?b => transitivity (MUnit.half cx * (t + t)); [ring|apply two_half] end.
  Lemma trns_mtrx m b : in_basis b m (trnsMtrx cx m b).
  Proof.
    unfold in_basis. destruct b; cbn [trnsMtrx bmat].
    - rewrite mmul_1_l, mmul_1_r. reflexivity.
    - destruct m as [p q r s]. unfold TransformX2x2, mH, mmul. cbn [m00 m01 m10 m11]. basis_tac.
      + transitivity (MUnit.half cx * ((p * hh + q * hh) + (p * hh + q * hh))); [ring|apply two_half].
      + transitivity (MUnit.half cx * ((p * hh - q * hh) + (p * hh - q * hh))); [ring|]. rewrite two_half. ring.
      + transitivity (MUnit.half cx * ((r * hh + s * hh) + (r * hh + s * hh))); [ring|apply two_half].
      + transitivity (MUnit.half cx * ((r * hh - s * hh) + (r * hh - s * hh))); [ring|]. rewrite two_half. ring.
    - destruct m as [p q r s]. unfold TransformY2x2, mSH, mmul. cbn [m00 m01 m10 m11]. basis_tac.
      + transitivity (MUnit.half cx * ((p * hh + q * (ii * hh)) + (p * hh + q * (ii * hh)))); [ring|apply two_half].
      + transitivity (MUnit.half cx * ((p * hh - q * (ii * hh)) + (p * hh - q * (ii * hh)))); [ring|]. rewrite two_half. ring.
      + transitivity (MUnit.half cx * (ii * ii * (- (r + r)) * hh + ii * (s + s) * hh)); [ring|]. rewrite isq.
        transitivity (MUnit.half cx * ((r * hh + s * (ii * hh)) + (r * hh + s * (ii * hh)))); [ring|apply two_half].
      + transitivity (MUnit.half cx * (ii * ii * (- (r + r)) * hh - ii * (s + s) * hh)); [ring|]. rewrite isq.
        transitivity (MUnit.half cx * ((r * hh - s * (ii * hh)) + (r * hh - s * (ii * hh)))); [ring|]. rewrite two_half. ring.
  Qed.
  Lemma trns_phase tl br b : in_basis b (mkMat tl 0 0 br) (trnsPhase cx tl br b).
  Proof.
    replace (trnsPhase cx tl br b) with (trnsMtrx cx (mkMat tl 0 0 br) b); [apply trns_mtrx|].
    destruct b; cbn [trnsPhase trnsMtrx]; [reflexivity| |]; unfold TransformX2x2, TransformY2x2, TransformPhase; cbn [m00 m01 m10 m11]; basis_tac; ring.
  Qed.
  Lemma trns_invert tr bl b : in_basis b (mkMat 0 tr bl 0) (trnsInvert cx tr bl b).
  Proof.
    replace (trnsInvert cx tr bl b) with (trnsMtrx cx (mkMat 0 tr bl 0) b); [apply trns_mtrx|].
    destruct b; cbn [trnsInvert trnsMtrx]; [reflexivity| |]; unfold TransformX2x2, TransformY2x2, TransformXInvert, TransformYInvert; cbn [m00 m01 m10 m11]; basis_tac; ring.
  Qed.
  Lemma in_basis_unitary b m m' : unitary2 m -> in_basis b m m' -> unitary2 m'.
  Proof.
    intros Um H. assert (E : m' = mmul (mdag (bmat b)) (mmul m (bmat b))). { rewrite <- H, <- mmul_assoc. rewrite (bmat_unitary b), mmul_1_l. reflexivity. }
    rewrite E. apply unitary_mmul; [apply unitary_dag, bmat_unitary|]. apply unitary_mmul; [exact Um|apply bmat_unitary].
  Qed.

  (** ** The state in the computational basis *)
  Definition fr (l : list N) (bas : N -> pauli) psi : vec := fold_right (fun p v => gate1 always p (bmat (bas p)) v) psi l.
  Lemma fr_linear l bas : linear (fr l bas).
  Proof. apply linear_fold. intros k. apply linear_gate. Qed.
  Lemma fr_proper l bas psi phi : same_state psi phi -> same_state (fr l bas psi) (fr l bas phi).
  Proof. apply fr_linear. Qed.
  Lemma fr_like l bas psi phi : like psi phi -> like (fr l bas psi) (fr l bas phi).
  Proof. apply like_linear, fr_linear. Qed.
  Lemma fr_bas l bas bas' psi : (forall p, In p l -> bas' p = bas p) -> fr l bas' psi = fr l bas psi.
  Proof.
    intros H. induction l as [|p l IH]; [reflexivity|]. cbn [fr fold_right]. fold (fr l bas' psi). fold (fr l bas psi).
    rewrite IH by (intros q Hq; apply H; right; exact Hq). rewrite (H p (or_introl eq_refl)). reflexivity.
  Qed.
  (** A gate whose target is in the Z basis and whose condition does not look at qubits in another basis. *)
  Lemma fr_gate l bas P t m psi : bas t = PauliZ -> (forall p, In p l -> p = t \/ bas p = PauliZ \/ indep P p) ->
    same_state (fr l bas (gate1 P t m psi)) (gate1 P t m (fr l bas psi)).
  Proof.
    intros Ht H. induction l as [|p l IH]; [apply ss_refl|]. cbn [fr fold_right]. fold (fr l bas (gate1 P t m psi)). fold (fr l bas psi).
    specialize (IH (fun q Hq => H q (or_intror Hq))).
    assert (Hz : bas p = PauliZ -> same_state (gate1 always p (bmat (bas p)) (fr l bas (gate1 P t m psi))) (gate1 P t m (gate1 always p (bmat (bas p)) (fr l bas psi)))).
    { intros E. rewrite E. cbn [bmat]. eapply ss_trans; [apply gate_midn|]. eapply ss_trans; [apply IH|]. apply gate1_proper, ss_sym, gate_midn. }
    destruct (H p (or_introl eq_refl)) as [->|[E|E]]; [exact (Hz Ht)|exact (Hz E)|].
    destruct (N.eq_dec p t) as [->|Hpt]; [exact (Hz Ht)|].
    eapply ss_trans; [apply gate1_proper, IH|]. apply ss_sym, conj_apart; [exact E|congruence].
  Qed.
  Definition set_bas (bas : N -> pauli) (t : N) (b : pauli) (p : N) : pauli := if (p =? t)%N then b else bas p.
  Lemma fr_at l bas t psi : NoDup l -> In t l -> same_state (fr l bas psi) (gate1 always t (bmat (bas t)) (fr l (set_bas bas t PauliZ) psi)).
  Proof.
    intros ND Hin. induction l as [|p l IH]; [destruct Hin|]. apply NoDup_cons_iff in ND. destruct ND as [Hn ND]. cbn [fr fold_right].
    fold (fr l bas psi). fold (fr l (set_bas bas t PauliZ) psi). unfold set_bas at 1. destruct (N.eqb_spec p t) as [->|Hpt].
    - rewrite (fr_bas l bas (set_bas bas t PauliZ)); [apply gate1_proper; cbn [bmat]; apply ss_sym, gate_midn|].
      intros q Hq. unfold set_bas. destruct (N.eqb_spec q t) as [->|]; [contradiction|reflexivity].
    - destruct Hin as [->|Hin]; [congruence|]. eapply ss_trans; [apply gate1_proper, IH; assumption|]. apply conj_apart; [apply indep_always|exact Hpt].
  Qed.
  (** A controlled gate on a qubit in any basis. *)
  Lemma fr_ctrl l bas P t m m' psi : NoDup l -> In t l -> indep P t -> (forall p, In p l -> p = t \/ bas p = PauliZ \/ indep P p) -> in_basis (bas t) m m' ->
    same_state (fr l bas (gate1 P t m' psi)) (gate1 P t m (fr l bas psi)).
  Proof.
    intros ND Ht HP HI E. eapply ss_trans; [apply fr_at; eassumption|].
    eapply ss_trans; [apply gate1_proper, fr_gate|].
    - unfold set_bas. rewrite N.eqb_refl. reflexivity.
    - intros p Hp. unfold set_bas. destruct (N.eqb_spec p t) as [->|]; [left; reflexivity|]. destruct (HI p Hp) as [|[|]]; auto.
    - apply ss_sym. eapply ss_trans; [apply gate1_proper, fr_at; eassumption|]. apply conj_target; [exact HP|]. symmetry. exact E.
  Qed.
  (** A gate together with a change of the basis of its target. *)
  Lemma fr_change l bas bas' t m m' psi : NoDup l -> In t l -> (forall p, In p l -> p <> t -> bas' p = bas p) -> mmul (bmat (bas' t)) m' = mmul m (bmat (bas t)) ->
    same_state (fr l bas' (gate1 always t m' psi)) (gate1 always t m (fr l bas psi)).
  Proof.
    intros ND Ht HB E. eapply ss_trans; [apply fr_at; eassumption|].
    eapply ss_trans; [apply gate1_proper, fr_gate|].
    - unfold set_bas. rewrite N.eqb_refl. reflexivity.
    - intros p _. right. right. apply indep_always.
    - apply ss_sym. eapply ss_trans; [apply gate1_proper, fr_at; eassumption|].
      rewrite (fr_bas l (set_bas bas t PauliZ) (set_bas bas' t PauliZ)).
      + intros x. rewrite !gate1_compose by apply indep_always. rewrite E. reflexivity.
      + intros p Hp. unfold set_bas. destruct (N.eqb_spec p t) as [|Hpt]; [reflexivity|apply HB; assumption].
  Qed.

  (** ** Support *)
  Definition two_sided (q : N) psi : Prop := ~ supported q false psi /\ ~ supported q true psi.
  Lemma supported_ss q v psi phi : same_state psi phi -> supported q v phi -> supported q v psi.
  Proof. intros E H x Hx. rewrite E. apply H, Hx. Qed.
  Lemma supported_like q v psi phi : like psi phi -> supported q v phi -> supported q v psi.
  Proof. intros (c & _ & E) H x Hx. rewrite E, (H x Hx). ring. Qed.
  Lemma two_like q psi phi : like psi phi -> two_sided q phi -> two_sided q psi.
  Proof. intros E [H1 H2]. apply like_sym in E. split; intros H; [apply H1|apply H2]; eapply supported_like; eassumption. Qed.
  Lemma supported_apart q v P t m psi : q <> t -> supported q v psi -> supported q v (gate1 P t m psi).
  Proof.
    intros Hq H x Hx. unfold gate1.
    assert (E1 : psi (N.clearbit x t) = 0). { apply H. rewrite tb_clearbit. destruct (N.eqb_spec t q); [congruence|]. cbn [negb]. rewrite andb_true_r. exact Hx. }
    assert (E2 : psi (N.setbit x t) = 0). { apply H. rewrite tb_setbit. destruct (N.eqb_spec t q); [congruence|]. exact Hx. }
    rewrite E1, E2, (H x Hx). destruct (P x), (N.testbit x t); ring.
  Qed.
  Lemma supported_apart_iff q v P t m psi : q <> t -> indep P t -> unitary2 m -> supported q v (gate1 P t m psi) <-> supported q v psi.
  Proof.
    intros Hq HP U. split; [|apply supported_apart, Hq]. intros H. apply (supported_ss q v _ (gate1 P t (mdag m) (gate1 P t m psi))).
    - intros x. symmetry. apply gate1_inverse; assumption.
    - apply supported_apart; assumption.
  Qed.
  Lemma supported_fr q v l bas psi : bas q = PauliZ -> supported q v (fr l bas psi) <-> supported q v psi.
  Proof.
    intros Hz. induction l as [|p l IH]; [reflexivity|]. cbn [fr fold_right]. fold (fr l bas psi). rewrite <- IH.
    destruct (N.eq_dec q p) as [<-|Hq].
    - rewrite Hz. cbn [bmat]. split; apply supported_ss; [apply ss_sym|]; apply gate_midn.
    - apply supported_apart_iff; [exact Hq|apply indep_always|apply bmat_unitary].
  Qed.
  (** A diagonal gate keeps the support of its target, an inversion exchanges the two values. *)
  Definition diag (m : M2) : Prop := m01 m = 0 /\ m10 m = 0.
  Definition anti (m : M2) : Prop := m00 m = 0 /\ m11 m = 0.
  Lemma supported_diag q v P m psi : diag m -> supported q v psi -> supported q v (gate1 P q m psi).
  Proof.
    intros [E1 E2] H x Hx. unfold gate1. rewrite E1, E2, (H x Hx). destruct (P x), (N.testbit x q); ring.
  Qed.
  Lemma diag_dag m : diag m -> diag (mdag m).
  Proof. intros [E1 E2]. unfold diag, mdag. cbn [m01 m10]. rewrite E1, E2, conj_0. auto. Qed.
  Lemma anti_dag m : anti m -> anti (mdag m).
  Proof. intros [E1 E2]. unfold anti, mdag. cbn [m00 m11]. rewrite E1, E2, conj_0. auto. Qed.
  Lemma supported_diag_iff q v P m psi : diag m -> indep P q -> unitary2 m -> supported q v (gate1 P q m psi) <-> supported q v psi.
  Proof.
    intros D HP U. split; [|apply supported_diag, D]. intros H. apply (supported_ss q v _ (gate1 P q (mdag m) (gate1 P q m psi))).
    - intros x. symmetry. apply gate1_inverse; assumption.
    - apply supported_diag; [apply diag_dag, D|exact H].
  Qed.
  Lemma supported_anti q v m psi : anti m -> supported q v psi -> supported q (negb v) (gate1 always q m psi).
  Proof.
    intros [E1 E2] H x Hx. unfold gate1, always. rewrite E1, E2.
    assert (E : N.testbit x q = v). { destruct (N.testbit x q), v; cbn in Hx; congruence. }
    rewrite E. destruct v.
    - rewrite (H (N.clearbit x q)); [ring|]. rewrite tb_clearbit, N.eqb_refl, andb_false_r. discriminate.
    - rewrite (H (N.setbit x q)); [ring|]. rewrite tb_setbit, N.eqb_refl. discriminate.
  Qed.
  Lemma supported_anti_iff q v m psi : anti m -> unitary2 m -> supported q (negb v) (gate1 always q m psi) <-> supported q v psi.
  Proof.
    intros D U. split; [|apply supported_anti, D]. intros H. apply (supported_ss q v _ (gate1 always q (mdag m) (gate1 always q m psi))).
    - intros x. symmetry. apply gate1_inverse; [apply indep_always|exact U].
    - rewrite <- (negb_involutive v). apply supported_anti; [apply anti_dag, D|exact H].
  Qed.
  Lemma two_apart q P t m psi : q <> t -> indep P t -> unitary2 m -> two_sided q (gate1 P t m psi) <-> two_sided q psi.
  Proof. intros H1 H2 H3. unfold two_sided. rewrite !supported_apart_iff by assumption. reflexivity. Qed.
  Lemma two_diag q P m psi : diag m -> indep P q -> unitary2 m -> two_sided q (gate1 P q m psi) <-> two_sided q psi.
  Proof. intros H1 H2 H3. unfold two_sided. rewrite !supported_diag_iff by assumption. reflexivity. Qed.
  Lemma two_anti q m psi : anti m -> unitary2 m -> two_sided q (gate1 always q m psi) <-> two_sided q psi.
  Proof.
    intros H1 H2. unfold two_sided. rewrite <- (supported_anti_iff q true m psi), <- (supported_anti_iff q false m psi) by assumption. cbn [negb]. tauto.
  Qed.
End P.
