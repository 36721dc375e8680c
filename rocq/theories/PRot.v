(** Proofs about the rotation gates. *)
From Coq Require Import NArith Arith List Bool Lia Ring.
From Verif Require Import Bits Amp PAmp MKernel MEngine SpecState SpecEngine PGates PGates2 PEngine MCircuit SpecCircuit PCircuit PCircuit6 PCircuit8 PCircuit12 PCircuit14 PQCirc2 PApi9
  MExpect2 SpecExpect2 PExpect4 MRot SpecRot.
Import ListNotations.
Local Open Scope N_scope.

Section P.
  Context {K : StarRing}.
  Add Ring KrEX : (sr_ring K).
  Variable c : cfg.
  Local Notation V := (mem K).
  Local Notation circ := (circ K).
  Local Open Scope amp_scope.

  Lemma anorm_1 : anorm (1 : K) = 1.
  Proof. unfold anorm. rewrite conj_1. ring. Qed.
  Lemma anorm_mul (a b : K) : anorm a = 1 -> anorm b = 1 -> anorm (a * b) = 1.
  Proof. unfold anorm. intros A B. rewrite sr_conj_mul. transitivity ((a * sr_conj a) * (b * sr_conj b)); [ring|]. rewrite A, B. ring. Qed.
  Lemma scal_unit (ph : K) : unitary2 (mkMat ph 0 0 ph) -> anorm ph = 1.
  Proof. unfold unitary2, mmul, mdag, midn, anorm. cbn [m00 m01 m10 m11]. intros E. injection E as E _ _ _. rewrite <- E, conj_0. ring. Qed.
  Lemma perf_GM rgp n cs m t (psi : V) : fits c n -> wfc n cs t -> (cs = [] -> unitary2 m) -> performs c rgp n [GM cs m t] (gate1 (all_set cs) t m) psi.
  Proof.
    intros Hf W U. assert (W0 : Forall (wf0 n) [GM cs m t : gop K]) by (constructor; [exact W|constructor]).
    destruct (crun_phase c rgp n [GM cs m t] Hf W0 psi) as [He Ha]. split; auto. intros r HR. destruct (Ha r HR) as [psi' [g [-> [HE [HP HN]]]]].
    exists psi', g. split; auto. split; [exact HE|]. split; auto. apply HN. intros m' t' ph [E|[]] ->. injection E as -> -> ->. apply scal_unit. auto.
  Qed.
  Lemma perf_nil rgp n (F : V -> V) (psi : V) g : (forall x, F psi x = g * psi x) -> (rgp = false -> g = 1) -> anorm g = 1 -> performs c rgp n [] F psi.
  Proof. intros E P N0. split. exists (Ok (Some psi)). reflexivity. intros r ->. exists psi, g. repeat split; auto. Qed.
  Lemma perf_Phase rgp n tl br q (psi : V) : fits c n -> (q < n)%N -> anorm tl = 1 -> anorm br = 1 -> performs c rgp n (qi_Phase rgp tl br q) (gate1 always q (mkMat tl 0 0 br)) psi.
  Proof.
    intros Hf Hq A B. unfold qi_Phase. destruct (_ && _) eqn:E.
    - apply andb_true_iff in E. destruct E as [E1 E2]. apply sr_eqb_ok in E2. assert (br = tl) as ->. { transitivity (tl - (tl - br)); [ring|]. rewrite E2. ring. }
      apply (perf_nil rgp n _ psi tl); auto.
      + intros x. unfold gate1. cbn [always m00 m01 m10 m11]. unfold always. destruct (N.testbit x q) eqn:T; ring.
      + intros ->. cbn [orb] in E1. apply sr_eqb_ok in E1. transitivity (1 - (1 - tl)); [ring|]. rewrite E1. ring.
    - apply (perf_GM rgp n [] _ q psi); auto. now apply wfc_nil. intros _. unfold unitary2, mmul, mdag, midn. unfold anorm in *. cbn [m00 m01 m10 m11]. rewrite conj_0. apply mat_eq; cbn [m00 m01 m10 m11]; try ring.
      rewrite <- A. ring. rewrite <- B. ring.
  Qed.
  Lemma perf_exact rgp n (l : circ) (F : V -> V) (psi : V) : every_run (crun c rgp n l (Some psi)) (fun r => exists psi', r = Ok (Some psi') /\ eqv n psi' (F psi)) -> performs c rgp n l F psi.
  Proof. intros [He Ha]. split; auto. intros r HR. destruct (Ha r HR) as [psi' [-> E]]. exists psi', 1. split; auto. split; [|split; auto; apply anorm_1]. intros x Hx. rewrite <- (E x Hx). ring. Qed.
  Lemma perf_MCPhase rgp n cs tl br t (psi : V) : fits c n -> wfc n cs t -> cs <> [] -> performs c rgp n (qi_MCPhase cs tl br t) (gate1 (all_set cs) t (mkMat tl 0 0 br)) psi.
  Proof.
    intros Hf W NE. unfold qi_MCPhase. destruct (_ && _) eqn:E.
    - apply andb_true_iff in E. destruct E as [E1 E2]. apply sr_eqb_ok in E1, E2.
      assert (tl = 1) as ->. { transitivity (1 - (1 - tl)); [ring|]. rewrite E1. ring. } assert (br = 1) as ->. { transitivity (1 - (1 - br)); [ring|]. rewrite E2. ring. }
      apply (perf_nil rgp n _ psi 1); auto using anorm_1. intros x. rewrite gate1_one. ring.
    - apply perf_GM; auto. intros E0. contradiction.
  Qed.
  Lemma perf_ext rgp n (l : circ) (F G : V -> V) (psi : V) : (forall x, F psi x = G psi x) -> performs c rgp n l F psi -> performs c rgp n l G psi.
  Proof. intros E [He Ha]. split; auto. intros r HR. destruct (Ha r HR) as [psi' [g [-> [H H']]]]. exists psi', g. split; auto. split; auto. intros x Hx. rewrite <- E. auto. Qed.
  Lemma gate1_scale b t m z (psi : V) x : gate1 b t m (fun y => z * psi y) x = z * gate1 b t m psi x.
  Proof. unfold gate1. destruct (b x), (N.testbit x t); ring. Qed.
  Lemma perf_app rgp n (l1 l2 : circ) b1 m1 b2 m2 t : (t < n)%N -> (forall psi : V, performs c rgp n l1 (gate1 b1 t m1) psi) -> (forall psi : V, performs c rgp n l2 (gate1 b2 t m2) psi) ->
    forall psi : V, performs c rgp n (l1 ++ l2) (fun p => gate1 b2 t m2 (gate1 b1 t m1 p)) psi.
  Proof.
    intros Ht H1 H2 psi. destruct (H1 psi) as [[r1 E1] A1]. split.
    - destruct (A1 r1 E1) as [p1 [g1 [-> _]]]. destruct (H2 p1) as [[r2 E2] _]. exists r2. apply crun_app. exists (Ok (Some p1)). auto.
    - intros r HR. apply crun_app in HR. destruct HR as [r1' [E HR]]. destruct (A1 r1' E) as [p1 [g1 [-> [B1 [C1 D1]]]]]. destruct (H2 p1) as [_ A2].
      destruct (A2 r HR) as [p2 [g2 [-> [B2 [C2 D2]]]]]. exists p2, (g1 * g2). split; auto. split; [|split].
      + intros x Hx. rewrite (gate1_eqv n b2 t m2 (gate1 b1 t m1 psi) (fun y => g1 * p1 y)); auto. rewrite gate1_scale, B2 by auto. ring.
      + intros R. rewrite C1, C2 by auto. ring.
      + now apply anorm_mul.
  Qed.
  Lemma perf_two rgp n (l1 l2 : circ) b m1 m2 t : (t < n)%N -> indep b t -> (forall psi : V, performs c rgp n l1 (gate1 b t m1) psi) -> (forall psi : V, performs c rgp n l2 (gate1 b t m2) psi) ->
    forall psi : V, performs c rgp n (l1 ++ l2) (gate1 b t (mmul m2 m1)) psi.
  Proof. intros Ht I H1 H2 psi. eapply perf_ext; [|apply (perf_app rgp n l1 l2 b m1 b m2 t Ht H1 H2 psi)]. intros x. cbv beta. now apply gate1_compose. Qed.
  Lemma gate1_midn b t (psi : V) x : gate1 b t midn psi x = psi x.
  Proof. apply gate1_one. Qed.

  Lemma perf_cross rgp n (l : circ) (F G : V -> V) (psi : V) x y : performs c rgp n l F psi -> performs c rgp n l G psi -> (x < 2 ^ n)%N -> (y < 2 ^ n)%N -> F psi x * G psi y = G psi x * F psi y.
  Proof.
    intros [[r HR] A] [_ B] Hx Hy. destruct (A r HR) as [p [g [-> [E _]]]]. destruct (B _ HR) as [p' [g' [E' [E2 _]]]]. injection E' as <-. rewrite !E, !E2 by auto. ring.
  Qed.
  (** ** The matrices *)
  Variable i : K.
  Hypothesis Hi : imag_unit i.
  Lemma conj_exp a : is_angle a -> sr_conj (expi i a) = a_c a + i * - a_s a.
  Proof. destruct Hi as [_ Ci]. intros [C [S0 _]]. unfold expi. rewrite sr_conj_add, sr_conj_mul, C, S0, Ci. ring. Qed.
  Lemma exp_unit a : is_angle a -> anorm (expi i a) = 1.
  Proof. intros A. unfold anorm. rewrite conj_exp by auto. destruct Hi as [Ii _]. destruct A as [_ [_ A]]. unfold expi. transitivity (a_c a * a_c a - (i * i) * (a_s a * a_s a)); [ring|]. rewrite Ii. transitivity (a_c a * a_c a + a_s a * a_s a); [ring|exact A]. Qed.
  Lemma exp_unit' a : is_angle a -> anorm (a_c a + i * - a_s a) = 1.
  Proof. intros A. rewrite <- conj_exp by auto. pose proof (exp_unit a A) as E. unfold anorm in *. rewrite sr_conj_invol. rewrite <- E. ring. Qed.
  Lemma rot_x a : m_RX i a = rot i AxX a.
  Proof. unfold m_RX, rot, pauli. cbn [m00 m01 m10 m11]. apply mat_eq; cbn [m00 m01 m10 m11]; ring. Qed.
  Lemma rot_y a : m_RY a = rot i AxY a.
  Proof. destruct Hi as [Ii _]. unfold m_RY, rot, pauli. cbn [m00 m01 m10 m11]. apply mat_eq; cbn [m00 m01 m10 m11]; try ring.
    transitivity ((i * i) * a_s a); [rewrite Ii; ring|ring]. transitivity (- ((i * i) * a_s a)); [rewrite Ii; ring|ring]. Qed.
  Lemma rot_z a : mkMat (a_c a + i * - a_s a) 0 0 (a_c a + i * a_s a) = rot i AxZ a.
  Proof. unfold rot, pauli. cbn [m00 m01 m10 m11]. apply mat_eq; cbn [m00 m01 m10 m11]; ring. Qed.
  Lemma pauli_sq P : mmul (pauli i P) (pauli i P) = midn.
  Proof. destruct Hi as [Ii _]. destruct P; unfold pauli, mmul, midn; cbn [m00 m01 m10 m11]; apply mat_eq; cbn [m00 m01 m10 m11]; try ring; transitivity (- (i * i)); try ring; rewrite Ii; ring. Qed.
  Lemma rot_add P a b : mmul (rot i P b) (rot i P a) = rot i P (ang_add a b).
  Proof.
    destruct Hi as [Ii _]. assert (E : forall z : K, z - i * i * 1 * z = z + z) by (intros; rewrite Ii; ring). unfold mmul, rot, ang_add. cbn [a_c a_s]. destruct P; cbn [pauli m00 m01 m10 m11]; apply mat_eq; cbn [m00 m01 m10 m11].
    all: try ring.
    - transitivity (a_c b * a_c a + (i * i) * (a_s b * a_s a)); [ring|]. rewrite Ii. ring.
    - transitivity (a_c b * a_c a + (i * i) * (a_s b * a_s a)); [ring|]. rewrite Ii. ring.
    - transitivity (a_c b * a_c a - (i * i) * (i * i) * (a_s b * a_s a)); [ring|]. rewrite Ii. ring.
    - transitivity (a_c b * a_c a - (i * i) * (i * i) * (a_s b * a_s a)); [ring|]. rewrite Ii. ring.
    - transitivity (a_c b * a_c a - i * (a_s b * a_c a + a_c b * a_s a) + (i * i) * (a_s b * a_s a)); [ring|]. rewrite Ii. ring.
    - transitivity (a_c b * a_c a + i * (a_s b * a_c a + a_c b * a_s a) + (i * i) * (a_s b * a_s a)); [ring|]. rewrite Ii. ring.
  Qed.
  Lemma rot_zero P : rot i P (mkAng 1 0) = midn.
  Proof. unfold rot, midn. cbn [a_c a_s]. apply mat_eq; cbn [m00 m01 m10 m11]; ring. Qed.
  Lemma conj_sub (x y : K) : sr_conj (x - y) = sr_conj x - sr_conj y.
  Proof. replace (x - y) with (x + - y) by ring. rewrite sr_conj_add, conj_opp. ring. Qed.
  Lemma rot_dag P a : is_angle a -> mdag (rot i P a) = rot i P (ang_neg a).
  Proof.
    destruct Hi as [_ Ci]. intros [C [S0 _]]. unfold mdag, rot, ang_neg. cbn [a_c a_s m00 m01 m10 m11]. destruct P; cbn [pauli m00 m01 m10 m11];
    apply mat_eq; cbn [m00 m01 m10 m11]; repeat rewrite ?conj_sub, ?conj_opp, ?sr_conj_mul, ?Ci, ?C, ?S0, ?conj_0, ?conj_1; ring.
  Qed.
  Lemma rot_unitary P a : is_angle a -> unitary2 (rot i P a).
  Proof.
    intros A. unfold unitary2. rewrite rot_dag by auto. rewrite rot_add. destruct A as [_ [_ A]]. rewrite <- (rot_zero P). f_equal. unfold ang_add, ang_neg. cbn [a_c a_s]. f_equal; [|ring]. rewrite <- A. ring.
  Qed.

  (** ** The gates *)
  Lemma rx_ok rgp n a q (psi : V) : fits c n -> (q < n)%N -> is_angle a -> performs c rgp n (qi_RX i a q) (gate1 always q (rot i AxX a)) psi.
  Proof. intros Hf Hq A. unfold qi_RX. rewrite rot_x. apply (perf_GM rgp n [] _ q psi); auto. now apply wfc_nil. intros _. now apply rot_unitary. Qed.
  Lemma ry_ok rgp n a q (psi : V) : fits c n -> (q < n)%N -> is_angle a -> performs c rgp n (qi_RY a q) (gate1 always q (rot i AxY a)) psi.
  Proof. intros Hf Hq A. unfold qi_RY. rewrite rot_y. apply (perf_GM rgp n [] _ q psi); auto. now apply wfc_nil. intros _. now apply rot_unitary. Qed.
  Lemma rz_ok rgp n a q (psi : V) : fits c n -> (q < n)%N -> is_angle a -> performs c rgp n (qi_RZ rgp i a q) (gate1 always q (rot i AxZ a)) psi.
  Proof. intros Hf Hq A. unfold qi_RZ. rewrite <- rot_z. apply perf_Phase; auto. now apply exp_unit'. now apply exp_unit. Qed.
  Lemma cry_ok rgp n a ctl t (psi : V) : fits c n -> ctl <> t -> (ctl < n)%N -> (t < n)%N -> performs c rgp n (qi_CRY a ctl t) (gate1 (all_set [ctl]) t (rot i AxY a)) psi.
  Proof. intros Hf D Hc Ht. unfold qi_CRY. rewrite rot_y. apply perf_GM; auto. now apply wfc_1. discriminate. Qed.
  Lemma crz_ok rgp n a ctl t (psi : V) : fits c n -> ctl <> t -> (ctl < n)%N -> (t < n)%N -> performs c rgp n (qi_CRZ i a ctl t) (gate1 (all_set [ctl]) t (rot i AxZ a)) psi.
  Proof. intros Hf D Hc Ht. unfold qi_CRZ. rewrite <- rot_z. apply perf_MCPhase; auto. now apply wfc_1. discriminate. Qed.
  Lemma ucsb_ok rgp n cs t (M M' : N -> mat2 K) (psi : V) : fits c n -> wfc n cs t -> (forall k, M k = M' k) -> (forall k, unitary2 (M' k)) ->
    performs c rgp n (qi_UCSB cs t M) (fun p x => gate1 always t (M' (ctrl_value 0 cs x)) p x) psi.
  Proof.
    intros Hf W E U. destruct cs as [|q l] eqn:L.
    - apply (perf_ext rgp n _ (gate1 (all_set []) t (M 0%N))). intros x. cbn [ctrl_value]. now rewrite E. apply perf_GM; auto. rewrite E. auto.
    - rewrite <- L in *. apply perf_exact. apply sem_run; auto. apply wf_UCSB; auto. left. subst. discriminate. intros x _. rewrite (sem_UCSB n) by auto. now rewrite E.
  Qed.
  Lemma ucry_ok rgp n cs t angles (psi : V) : fits c n -> wfc n cs t -> (forall k, is_angle (angles k)) ->
    performs c rgp n (qi_UCRY cs t angles) (fun p x => gate1 always t (rot i AxY (angles (ctrl_value 0 cs x))) p x) psi.
  Proof. intros. apply (ucsb_ok rgp n cs t _ (fun k => rot i AxY (angles k))); auto. intros k. apply rot_y. intros k. now apply rot_unitary. Qed.
  Lemma ucrz_ok rgp n cs t angles (psi : V) : fits c n -> wfc n cs t -> (forall k, is_angle (angles k)) ->
    performs c rgp n (qi_UCRZ i cs t angles) (fun p x => gate1 always t (rot i AxZ (angles (ctrl_value 0 cs x))) p x) psi.
  Proof. intros. apply (ucsb_ok rgp n cs t _ (fun k => rot i AxZ (angles k))); auto. intros k. apply rot_z. intros k. now apply rot_unitary. Qed.
  Lemma r_ok rgp n P a q (psi : V) : fits c n -> (q < n)%N -> is_angle a -> performs c rgp n (R_call rgp i P a q) (gate1 always q (rot i P a)) psi.
  Proof. intros. destruct P; [apply rx_ok|apply ry_ok|apply rz_ok]; auto. Qed.
  Lemma r_add rgp n P a b q (psi : V) : fits c n -> (q < n)%N -> is_angle a -> is_angle b -> performs c rgp n (R_call rgp i P a q ++ R_call rgp i P b q) (gate1 always q (rot i P (ang_add a b))) psi.
  Proof. intros. rewrite <- rot_add. apply perf_two; auto. apply indep_always. intros. now apply r_ok. intros. now apply r_ok. Qed.
  Lemma r_undo rgp n P a q (psi : V) : fits c n -> (q < n)%N -> is_angle a -> performs c rgp n (R_call rgp i P a q ++ R_call rgp i P (ang_neg a) q) (fun p => p) psi.
  Proof.
    intros Hf Hq A. assert (A' : is_angle (ang_neg a)). { destruct A as [C [S0 A]]. unfold is_angle, ang_neg. cbn [a_c a_s]. rewrite conj_opp, C, S0. repeat split. rewrite <- A. ring. }
    eapply perf_ext; [|apply (r_add rgp n P a (ang_neg a) q psi); auto]. intros x. destruct A as [_ [_ A]].
    replace (ang_add a (ang_neg a)) with (mkAng (1 : K) 0). rewrite rot_zero. apply gate1_midn. unfold ang_add, ang_neg. cbn [a_c a_s]. f_equal; [|ring]. rewrite <- A. ring.
  Qed.

  (** RT *)
  Lemma rt_ok rgp n a q (psi : V) : fits c n -> (q < n)%N -> is_angle a -> performs c rgp n (qi_RT rgp i a q) (gate1 always q (mkMat 1 0 0 (expi i a))) psi.
  Proof. intros Hf Hq A. unfold qi_RT. apply perf_Phase; auto using anorm_1. now apply exp_unit. Qed.

  Lemma crx_ok rgp n a ctl t (psi : V) : fits c n -> ctl <> t -> (ctl < n)%N -> (t < n)%N -> performs c rgp n (qi_CRX i a ctl t) (gate1 (all_set [ctl]) t (rot i AxX (ang_neg a))) psi.
  Proof.
    intros Hf D Hc Ht. unfold qi_CRX. replace (mkMat (a_c a) (i * a_s a) (i * a_s a) (a_c a)) with (rot i AxX (ang_neg a)). apply perf_GM; auto. now apply wfc_1. discriminate.
    unfold rot, ang_neg. cbn [a_c a_s pauli m00 m01 m10 m11]. apply mat_eq; cbn [m00 m01 m10 m11]; ring.
  Qed.
  Lemma exp_diag_unitary (x y : K) : anorm x = 1 -> anorm y = 1 -> unitary2 (mkMat 0 x y 0).
  Proof. intros A B. unfold unitary2, mmul, mdag, midn. unfold anorm in *. cbn [m00 m01 m10 m11]. rewrite conj_0. apply mat_eq; cbn [m00 m01 m10 m11]; try ring. rewrite <- B. ring. rewrite <- A. ring. Qed.
  Lemma anorm_i : anorm i = 1.
  Proof. destruct Hi as [Ii Ci]. unfold anorm. rewrite Ci. transitivity (- (i * i)); [ring|]. rewrite Ii. ring. Qed.
  Lemma anorm_neg (x : K) : anorm x = 1 -> anorm (- x) = 1.
  Proof. unfold anorm. rewrite conj_opp. intros E. rewrite <- E. ring. Qed.
  Lemma expP_ok rgp n P a q (psi : V) : fits c n -> (q < n)%N -> is_angle a ->
    performs c rgp n (match P with AxX => qi_ExpX i a q | AxY => qi_ExpY i a q | AxZ => qi_ExpZ rgp i a q end) (gate1 always q (mkMat (expi i a * m00 (pauli i P)) (expi i a * m01 (pauli i P)) (expi i a * m10 (pauli i P)) (expi i a * m11 (pauli i P)))) psi.
  Proof.
    intros Hf Hq A. pose proof (exp_unit a A) as U. unfold qi_ExpX, qi_ExpY, qi_ExpZ, qi_Invert. fold (expi i a). set (e := expi i a) in *. assert (W : wfc n [] q) by now apply wfc_nil.
    destruct P; cbn [pauli m00 m01 m10 m11].
    - replace (mkMat (e * 0) (e * 1) (e * 1) (e * 0)) with (mkMat 0 e e 0) by (apply mat_eq; cbn [m00 m01 m10 m11]; ring). apply (perf_GM rgp n [] _ q psi); auto. intros _. now apply exp_diag_unitary.
    - replace (mkMat (e * 0) (e * - i) (e * i) (e * 0)) with (mkMat 0 (e * - i) (e * i) 0) by (apply mat_eq; cbn [m00 m01 m10 m11]; ring). apply (perf_GM rgp n [] _ q psi); auto. intros _. apply exp_diag_unitary; apply anorm_mul; auto. apply anorm_neg. all: apply anorm_i.
    - replace (mkMat (e * 1) (e * 0) (e * 0) (e * - (1))) with (mkMat e 0 0 (- e)) by (apply mat_eq; cbn [m00 m01 m10 m11]; ring). apply perf_Phase; auto. now apply anorm_neg.
  Qed.
  Lemma exp1_ok rgp n a q (psi : V) : fits c n -> (q < n)%N -> is_angle a -> performs c rgp n (qi_Exp rgp i a q) (gate1 always q (mkMat (expi i a) 0 0 (expi i a))) psi.
  Proof. intros. apply perf_Phase; auto; now apply exp_unit. Qed.

  (** U, CU, AntiCU *)
  Lemma u_std_mat (u : u3 K) : u_mat u = u_std u.
  Proof. unfold u_mat, u_std. apply mat_eq; cbn [m00 m01 m10 m11]; ring. Qed.
  Lemma u_ok rgp n u t (psi : V) : fits c n -> (t < n)%N -> angles u -> performs c rgp n (qi_U u t) (gate1 always t (u_std u)) psi.
  Proof. intros Hf Ht A. unfold qi_U. rewrite <- u_std_mat. apply (perf_GM rgp n [] _ t psi); auto. now apply wfc_nil. intros _. now apply u_unitary. Qed.
  Lemma cu_ok rgp n u cs t (psi : V) : fits c n -> wfc n cs t -> angles u -> performs c rgp n (qi_CU u cs t) (gate1 (all_set cs) t (u_std u)) psi.
  Proof. intros Hf W A. unfold qi_CU. rewrite <- u_std_mat. apply perf_GM; auto. intros _. now apply u_unitary. Qed.
  Lemma perf_MAC rgp n cs m t (psi : V) : fits c n -> wfc n cs t -> cs <> [] -> performs c rgp n (qi_MACMtrx cs m t) (gate1 (all_clear cs) t m) psi.
  Proof. intros Hf W NE. apply perf_exact. apply sem_run; auto. apply wf_MACMtrx; auto. intros x _. now apply (sem_MACMtrx n). Qed.
  Lemma acu_ok rgp n u cs t (psi : V) : fits c n -> wfc n cs t -> cs <> [] -> performs c rgp n (qi_AntiCU u cs t) (gate1 (all_clear cs) t (u_std u)) psi.
  Proof. intros. unfold qi_AntiCU. rewrite u_std_mat. now apply perf_MAC. Qed.

  (** AI *)
  Lemma ai_conj half inc : is_angle half -> mmul (rot i AxZ half) (mmul (rot i AxY inc) (rot i AxZ (ang_neg half))) = m_AI i (ang_add half half) inc.
  Proof.
    intros [_ [_ A]]. destruct Hi as [Ii _]. rewrite <- !rot_z, <- rot_y. unfold m_RY, m_AI, ang_add, ang_neg, mmul. cbn [a_c a_s m00 m01 m10 m11].
    set (x := a_c half) in *. set (y := a_s half) in *. apply mat_eq; cbn [m00 m01 m10 m11].
    - transitivity (a_c inc * (x * x - (i * i) * (y * y))); [ring|]. rewrite Ii. transitivity (a_c inc * (x * x + y * y)); [ring|]. rewrite A. ring.
    - transitivity (- a_s inc * (x * x + (i * i) * (y * y) - i * (x * y + x * y))); [ring|]. rewrite Ii. ring.
    - transitivity (a_s inc * (x * x + (i * i) * (y * y) + i * (x * y + x * y))); [ring|]. rewrite Ii. ring.
    - transitivity (a_c inc * (x * x - (i * i) * (y * y))); [ring|]. rewrite Ii. transitivity (a_c inc * (x * x + y * y)); [ring|]. rewrite A. ring.
  Qed.
  Lemma ai_det az inc : is_angle az -> is_angle inc -> @det K (m_AI i az inc) = 1.
  Proof. intros [_ [_ A]] [_ [_ B]]. destruct Hi as [Ii _]. unfold det, m_AI. cbn [m00 m01 m10 m11]. transitivity (a_c inc * a_c inc + (a_c az * a_c az - (i * i) * (a_s az * a_s az)) * (a_s inc * a_s inc)); [ring|]. rewrite Ii. transitivity (a_c inc * a_c inc + (a_c az * a_c az + a_s az * a_s az) * (a_s inc * a_s inc)); [ring|]. rewrite A. transitivity (a_c inc * a_c inc + a_s inc * a_s inc); [ring|exact B]. Qed.
  Lemma ai_unitary az inc : is_angle az -> is_angle inc -> unitary2 (m_AI i az inc).
  Proof.
    intros [C [S0 A]] [C' [S1 B]]. destruct Hi as [Ii Ci]. unfold unitary2, mmul, mdag, midn, m_AI. cbn [m00 m01 m10 m11]. rewrite !sr_conj_mul, !sr_conj_add, !sr_conj_mul, !conj_opp, C, S0, C', S1, Ci.
    assert (E : a_c inc * a_c inc + (a_c az * a_c az - (i * i) * (a_s az * a_s az)) * (a_s inc * a_s inc) = 1). { rewrite Ii. transitivity (a_c inc * a_c inc + (a_c az * a_c az + a_s az * a_s az) * (a_s inc * a_s inc)); [ring|]. rewrite A. transitivity (a_c inc * a_c inc + a_s inc * a_s inc); [ring|exact B]. }
    apply mat_eq; cbn [m00 m01 m10 m11]; try ring; rewrite <- E; ring.
  Qed.
  Variable recip : K -> K.
  Hypothesis Hr : recip 1 = 1.
  Lemma ai_inv az inc : is_angle az -> is_angle inc -> inv2 recip (m_AI i az inc) = mdag (m_AI i az inc).
  Proof. intros A B. apply inv2_dag. now apply ai_unitary. rewrite ai_det by auto. rewrite Hr. ring. Qed.
  Lemma ai_inv_unitary az inc : is_angle az -> is_angle inc -> unitary2 (inv2 recip (m_AI i az inc)).
  Proof. intros A B. rewrite ai_inv by auto. unfold unitary2. rewrite mdag_dag, <- ai_inv by auto. apply inv2_r. rewrite ai_det by auto. rewrite Hr. ring. Qed.
  Lemma ai_inv_l az inc : is_angle az -> is_angle inc -> mmul (inv2 recip (m_AI i az inc)) (m_AI i az inc) = midn.
  Proof. intros A B. apply inv2_l. rewrite ai_det by auto. rewrite Hr. ring. Qed.
  Lemma ai_std az inc : is_angle az -> mkMat (a_c inc) (- (sr_conj (expi i az) * a_s inc)) (expi i az * a_s inc) (a_c inc) = m_AI i az inc.
  Proof. intros A. rewrite conj_exp by auto. unfold m_AI, expi. apply mat_eq; cbn [m00 m01 m10 m11]; ring. Qed.
  Lemma ai_ok rgp n az inc t (psi : V) : fits c n -> (t < n)%N -> is_angle az -> is_angle inc -> performs c rgp n (qi_AI i az inc t) (gate1 always t (m_AI i az inc)) psi.
  Proof. intros Hf Ht A B. apply (perf_GM rgp n [] _ t psi); auto. now apply wfc_nil. intros _. now apply ai_unitary. Qed.
  Lemma ai_axes rgp n half inc t (psi : V) : fits c n -> (t < n)%N -> is_angle half -> is_angle (ang_add half half) -> is_angle inc ->
    performs c rgp n (qi_AI i (ang_add half half) inc t) (fun p => gate1 always t (rot i AxZ half) (gate1 always t (rot i AxY inc) (gate1 always t (rot i AxZ (ang_neg half)) p))) psi.
  Proof.
    intros Hf Ht H A B. eapply perf_ext; [|apply (ai_ok rgp n (ang_add half half) inc t psi); auto]. intros x. rewrite <- ai_conj by auto. rewrite <- gate1_compose by apply indep_always. unfold gate1 at 1 3. cbn [always]. unfold always at 1 2.
    rewrite <- !(gate1_compose always t (rot i AxY inc) (rot i AxZ (ang_neg half)) psi) by apply indep_always. reflexivity.
  Qed.
  Lemma ai_prepares rgp n az inc t (psi : V) : fits c n -> (t < n)%N -> is_angle az -> is_angle inc -> (forall x, N.testbit x t = true -> psi x = 0) ->
    performs c rgp n (qi_AI i az inc t) (fun p x => if N.testbit x t then expi i az * a_s inc * p (N.clearbit x t) else a_c inc * p x) psi.
  Proof.
    intros Hf Ht A B Z. eapply perf_ext; [|apply (ai_ok rgp n az inc t psi); auto]. intros x. unfold gate1, m_AI, expi. cbn [m00 m01 m10 m11]. unfold always. destruct (N.testbit x t) eqn:T.
    rewrite (Z x) by auto. ring. rewrite (Z (N.setbit x t)) by apply N.setbit_eq. ring.
  Qed.
  Lemma iai_undo rgp n az inc t (psi : V) : fits c n -> (t < n)%N -> is_angle az -> is_angle inc -> performs c rgp n (qi_AI i az inc t ++ qi_IAI recip i az inc t) (fun p => p) psi.
  Proof.
    intros Hf Ht A B. eapply perf_ext; [|apply (perf_two rgp n _ _ always (m_AI i az inc) (inv2 recip (m_AI i az inc)) t Ht (indep_always t))].
    - intros x. rewrite ai_inv_l by auto. apply gate1_midn.
    - intros. now apply ai_ok.
    - intros p. apply (perf_GM rgp n [] _ t p); auto. now apply wfc_nil. intros _. now apply ai_inv_unitary.
  Qed.
  Lemma cai_undo rgp n az inc ctl t (psi : V) : fits c n -> ctl <> t -> (ctl < n)%N -> (t < n)%N -> is_angle az -> is_angle inc ->
    performs c rgp n (qi_CAI i az inc ctl t) (gate1 (all_set [ctl]) t (m_AI i az inc)) psi /\ performs c rgp n (qi_CAI i az inc ctl t ++ qi_CIAI recip i az inc ctl t) (fun p => p) psi.
  Proof.
    intros Hf D Hc Ht A B. assert (W : wfc n [ctl] t) by now apply wfc_1. assert (I : indep (all_set [ctl]) t) by (apply indep_all_set; intros [E|[]]; auto).
    split. apply perf_GM; auto. discriminate. eapply perf_ext; [|apply (perf_two rgp n _ _ _ (m_AI i az inc) (inv2 recip (m_AI i az inc)) t Ht I)].
    - intros x. rewrite ai_inv_l by auto. apply gate1_midn.
    - intros p. apply perf_GM; auto. discriminate.
    - intros p. apply perf_GM; auto. discriminate.
  Qed.
  Lemma acai_undo rgp n az inc ctl t (psi : V) : fits c n -> ctl <> t -> (ctl < n)%N -> (t < n)%N -> is_angle az -> is_angle inc ->
    performs c rgp n (qi_AntiCAI i az inc ctl t) (gate1 (all_clear [ctl]) t (m_AI i az inc)) psi /\ performs c rgp n (qi_AntiCAI i az inc ctl t ++ qi_AntiCIAI recip i az inc ctl t) (fun p => p) psi.
  Proof.
    intros Hf D Hc Ht A B. assert (W : wfc n [ctl] t) by now apply wfc_1. assert (I : indep (all_clear [ctl]) t) by (apply indep_all_clear; intros [E|[]]; auto).
    split. apply perf_MAC; auto. discriminate. eapply perf_ext; [|apply (perf_two rgp n _ _ _ (m_AI i az inc) (inv2 recip (m_AI i az inc)) t Ht I)].
    - intros x. rewrite ai_inv_l by auto. apply gate1_midn.
    - intros p. apply perf_MAC; auto. discriminate.
    - intros p. apply perf_MAC; auto. discriminate.
  Qed.
End P.
