(** Proofs about the generic circuits (part 6: logic gates, swap family). *)
From Coq Require Import NArith List Bool Lia Ring.
From Verif Require Import Bits MFunctions PFunctions MParFor PParFor MKernel Amp PAmp MEngine SpecState SpecEngine
  PGates PGates2 PGates3 PEngine PCompose MAlu SpecAlu PAlu PAlu2 PAlu5 PAlu6 PAlu9 MCircuit SpecCircuit PCircuit PCircuit2 PCircuit3 PCircuit4 PCircuit5.
Import ListNotations.
Local Open Scope N_scope.

Section P.
  Context {K : StarRing}.
  Add Ring KrP : (sr_ring K).
  Variable c : cfg.
  Local Notation V := (mem K).
  Local Notation circ := (circ K).

  (** ** Logic gates *)
  Lemma act_AntiCNOT a t x : cact (qi_AntiCNOT a t : circ) x = flip (negb (N.testbit x a)) t x.
  Proof. unfold qi_AntiCNOT. rewrite act_MAC. unfold all_clear. cbn [forallb]. now rewrite andb_true_r. Qed.
  Lemma act_AntiCCNOT a b t x : cact (qi_AntiCCNOT a b t : circ) x = flip (negb (N.testbit x a) && negb (N.testbit x b)) t x.
  Proof. unfold qi_AntiCCNOT. rewrite act_MAC. unfold all_clear. cbn [forallb]. now rewrite andb_true_r. Qed.
  Lemma act_CNOT a t x : cact (qi_CNOT a t : circ) x = flip (N.testbit x a) t x.
  Proof. unfold qi_CNOT. rewrite act_MC. unfold all_set. cbn [forallb]. now rewrite andb_true_r. Qed.
  Lemma act_CCNOT a b t x : cact (qi_CCNOT a b t : circ) x = flip (N.testbit x a && N.testbit x b) t x.
  Proof. unfold qi_CCNOT. rewrite act_MC. unfold all_set. cbn [forallb]. now rewrite andb_true_r. Qed.
  Lemma wf_CCNOT n a b t : a <> b -> a <> t -> b <> t -> a < n -> b < n -> t < n -> Forall (wfx n) (qi_CCNOT a b t : circ).
  Proof.
    intros. apply wf_MC. apply wfc_intro; auto. repeat constructor; auto. intros [|[]]; auto. intros [|[|[]]]; auto. intros q [<-|[<-|[]]]; auto.
  Qed.
  Lemma wf_AntiCCNOT n a b t : a <> b -> a <> t -> b <> t -> a < n -> b < n -> t < n -> Forall (wfx n) (qi_AntiCCNOT a b t : circ).
  Proof.
    intros. apply wf_MAC. apply wfc_intro; auto. repeat constructor; auto. intros [|[]]; auto. intros [|[|[]]]; auto. intros q [<-|[<-|[]]]; auto.
  Qed.
  Lemma wf_AntiCNOT n a b : a <> b -> a < n -> b < n -> Forall (wfx n) (qi_AntiCNOT a b : circ).
  Proof. intros. apply wf_MAC. apply wfc_intro; auto. repeat constructor. intros []. intros [|[]]; auto. intros q [<-|[]]; auto. Qed.

  Definition logic2 : list ((N -> N -> N -> lprog K) * (bool -> bool -> bool)) :=
    [(qi_AND, f_and); (qi_OR, f_or); (qi_XOR, f_xor); (qi_NAND, f_nand); (qi_NOR, f_nor); (qi_XNOR, f_xnor)].
  Definition logic1 : list ((N -> bool -> N -> circ) * (bool -> bool -> bool)) :=
    [(qi_CLAND, f_and); (qi_CLOR, f_or); (qi_CLXOR, f_xor); (qi_CLNAND, f_nand); (qi_CLNOR, f_nor); (qi_CLXNOR, f_xnor)].

  Lemma flip_toggle (b : bool) t x F : b = F x -> flip b t x = toggle t F x.
  Proof. intros ->. rewrite flip_put. reflexivity. Qed.
  Lemma flip2 a b t x : flip a t (flip b t x) = flip (xorb a b) t x.
  Proof. apply N.bits_inj. intros q. rewrite !tb_flip. destruct (t =? q); rewrite ?andb_true_r, ?andb_false_r; destruct a, b, (N.testbit x q); reflexivity. Qed.

  Lemma logic2_gates n op F in1 in2 out : In (op, F) logic2 -> in1 < n -> in2 < n -> out < n -> in1 <> out -> in2 <> out ->
    exists l, op in1 in2 out = LGates l /\ Forall (wfx n) l /\ forall x, cact l x = toggle out (fun x => F (N.testbit x in1) (N.testbit x in2)) x.
  Proof.
    intros HI H1 H2 H3 E1 E2. unfold logic2 in HI. cbn [In] in HI.
    assert (EA : (in1 =? in2) && (in2 =? out) = false) by (rewrite (neqb_f in2 out), andb_false_r; auto).
    assert (EO : (in1 =? out) || (in2 =? out) = false) by (rewrite (neqb_f in2 out), (neqb_f in1 out); auto).
    assert (NT : forall b q x, q <> out -> N.testbit (flip b out x) q = N.testbit x q) by (intros b q x Hq; rewrite tb_flip, (neqb_f out q), andb_false_r, xorb_false_r; auto).
    destruct HI as [HI|[HI|[HI|[HI|[HI|[HI|[]]]]]]]; injection HI as <- <-; unfold qi_AND, qi_OR, qi_XOR, qi_NAND, qi_NOR, qi_XNOR, then_;
      unfold qi_AND, qi_OR, qi_XOR; rewrite ?EA, ?EO, ?(neqb_f in1 out), ?(neqb_f in2 out) by auto; destruct (N.eqb_spec in1 in2) as [->|E3];
      (eexists; split; [reflexivity|]; split; [repeat first [apply wf_X|apply wf_CNOT|apply wf_CCNOT|apply wf_AntiCNOT|apply wf_AntiCCNOT|apply Forall_app; split]; auto|]);
      intros x; rewrite ?cact_app, ?act_CNOT, ?act_CCNOT, ?act_AntiCNOT, ?act_AntiCCNOT, ?act_X, ?NT by auto; rewrite ?flip2; apply flip_toggle;
      unfold f_and, f_or, f_xor, f_nand, f_nor, f_xnor; try destruct (N.testbit x in1); destruct (N.testbit x in2); reflexivity.
  Qed.
  Lemma logic1_gates n op F inq inc out : In (op, F) logic1 -> inq < n -> out < n -> inq <> out ->
    Forall (wfx n) (op inq inc out) /\ forall x, cact (op inq inc out) x = toggle out (fun x => F (N.testbit x inq) inc) x.
  Proof.
    intros HI H1 H3 E1. unfold logic1 in HI. cbn [In] in HI.
    assert (NT : forall b q x, q <> out -> N.testbit (flip b out x) q = N.testbit x q) by (intros b q x Hq; rewrite tb_flip, (neqb_f out q), andb_false_r, xorb_false_r; auto).
    assert (F0 : forall x, x = flip false out x) by reflexivity.
    destruct HI as [HI|[HI|[HI|[HI|[HI|[HI|[]]]]]]]; injection HI as <- <-; unfold qi_CLAND, qi_CLOR, qi_CLXOR, qi_CLNAND, qi_CLNOR, qi_CLXNOR;
      unfold qi_CLAND, qi_CLOR, qi_CLXOR; rewrite ?(neqb_f inq out) by auto; destruct inc; cbn [andb negb app];
      (split; [repeat first [apply wf_X|apply wf_CNOT|apply Forall_nil|apply Forall_app; split]; auto|]; intros x; rewrite ?cact_app, ?act_CNOT, ?act_X, ?NT by auto; cbn [cact fold_left]; rewrite ?flip2).
    all: try (apply flip_toggle; unfold f_and, f_or, f_xor, f_nand, f_nor, f_xnor; destruct (N.testbit x inq); reflexivity).
    rewrite (F0 x) at 1. apply flip_toggle. unfold f_and. now rewrite andb_false_r.
  Qed.
  (** In place: XOR and XNOR with exactly one input equal to the output, the others with all three equal. *)
  Lemma assign_flip (b : bool) t x F : xorb (N.testbit x t) b = F x -> flip b t x = assign t F x.
  Proof. intros H. rewrite flip_put, H. reflexivity. Qed.
  Lemma xor_inplace n in1 in2 out : in1 < n -> in2 < n -> in1 <> in2 -> out = in1 \/ out = in2 ->
    exists l : circ, qi_XOR in1 in2 out = LGates l /\ Forall (wfx n) l /\ forall x, cact l x = assign out (fun x => xorb (N.testbit x in1) (N.testbit x in2)) x.
  Proof.
    intros H1 H2 E H. unfold qi_XOR. rewrite (neqb_f in1 in2) by auto. cbn [andb]. destruct H as [->| ->].
    - rewrite N.eqb_refl. eexists. split; [reflexivity|]. split; [apply wf_CNOT; auto|]. intros x. rewrite act_CNOT. apply assign_flip. reflexivity.
    - rewrite (neqb_f in1 in2), N.eqb_refl by auto. eexists. split; [reflexivity|]. split; [apply wf_CNOT; auto|]. intros x. rewrite act_CNOT. apply assign_flip. apply xorb_comm.
  Qed.
  Lemma xnor_inplace n in1 in2 out : in1 < n -> in2 < n -> in1 <> in2 -> out = in1 \/ out = in2 ->
    exists l : circ, qi_XNOR in1 in2 out = LGates l /\ Forall (wfx n) l /\ forall x, cact l x = assign out (fun x => negb (xorb (N.testbit x in1) (N.testbit x in2))) x.
  Proof.
    intros H1 H2 E H. destruct (xor_inplace n in1 in2 out H1 H2 E H) as [l [E1 [W A]]]. unfold qi_XNOR, then_. rewrite E1. eexists. split; [reflexivity|].
    split. apply Forall_app. split; auto. apply wf_X. destruct H; subst; auto. intros x. rewrite cact_app, A, act_X. apply N.bits_inj. intros q.
    rewrite tb_flip. unfold assign. rewrite !tb_put_bit. cbn [andb]. destruct (out =? q). apply xorb_true_r. apply xorb_false_r.
  Qed.
  (** XOR and XNOR of a qubit with itself into itself. *)
  Lemma reset_ok rgp (nrm : K) n q (b0 : bool) (psi : V) : fits c n -> q < n -> nonzero n psi ->
    every_run (lrun c rgp nrm n q (LReset (if b0 then qi_X q else [])) psi) (fun r => exists psi' b g, r = Ok (Some psi') /\
      measured n (bit_is q b) nrm g psi /\ basis_map n (bit_is q b) (fun x => put_bit x q b0) (fun _ => g) psi psi').
  Proof.
    intros Hf Hq Hn.
    assert (HR : forall b psi1, MBit c nrm n q psi b psi1 -> every_run (crun c rgp n ((if b then qi_X q else []) ++ (if b0 then qi_X q else [])) (Some psi1)) (fun r => exists psi' g, r = Ok (Some psi') /\
      measured n (bit_is q b) nrm g psi /\ basis_map n (bit_is q b) (fun x => put_bit x q b0) (fun _ => g) psi psi')).
    { intros b psi1 HM. apply mbit_ok in HM; auto. destruct HM as [g [Hg HB]].
      destruct (perm_run c rgp n ((if b then qi_X q else []) ++ (if b0 then qi_X q else [])) (fun x => flip (xorb b0 b) q x) psi1 Hf) as [He Ha].
      - apply Forall_app. split. destruct b; [now apply wf_X|constructor]. destruct b0; [now apply wf_X|constructor].
      - intros x Hx. rewrite cact_app. destruct b, b0; rewrite ?act_X; cbn [cact fold_left xorb]; auto. now rewrite flip_flip.
      - split; auto. intros r HR. destruct (Ha r HR) as [psi' [-> HP]]. exists psi', g. split; auto. split; auto.
        pose proof (basis_map_comp n _ _ _ _ _ _ _ _ _ HB HP (fun _ _ _ => eq_refl)) as HC. cbn beta in HC.
        eapply basis_map_ext; [| |exact HC]; auto. intros x Hx Dx. cbn beta. split; [|ring]. rewrite flip_put. f_equal. unfold bit_is in Dx. apply eqb_prop in Dx. rewrite Dx. now destruct b, b0. }
    split.
    - destruct (mbit_any c nrm n q psi Hf Hq Hn) as [b [psi1 HM]]. destruct (HR b psi1 HM) as [[r Hr] _]. exists r. cbn [lrun]. eauto.
    - intros r [b [psi1 [HM HC]]]. destruct (HR b psi1 HM) as [_ Ha]. destruct (Ha r HC) as [psi' [g [-> [Hg HB]]]]. exists psi', b, g. auto.
  Qed.

  (** ** Diagonal gates *)
  Lemma gate1_ext P t (m : mat2 K) a b x : (forall x, a x = b x) -> gate1 P t m a x = gate1 P t m b x.
  Proof. intros H. unfold gate1. now rewrite !H. Qed.
  Lemma csem_ext (l : circ) : forall a b, (forall x, a x = b x) -> forall x, csem l a x = csem l b x.
  Proof.
    induction l as [|g r IH]; intros a b H x; auto. rewrite !csem_cons. apply IH. intros y. destruct g; cbn [gsem]; auto. now apply gate1_ext.
  Qed.
  Lemma phase_free_1 (br : K) : phase_free (mkMat 1%amp 0%amp 0%amp br).
  Proof. intros ph H. now injection H. Qed.
  Lemma sub0 (a b : K) : (a - b)%amp = 0%amp -> b = a.
  Proof. intros H. transitivity (a - (a - b))%amp. ring. rewrite H. ring. Qed.
  Lemma sem_Phase1 rgp br q psi x : csem (qi_Phase rgp 1%amp br q : circ) psi x = if N.testbit x q then (br * psi x)%amp else psi x.
  Proof.
    unfold qi_Phase. destruct ((rgp || sr_eqb (1 - 1)%amp 0%amp) && sr_eqb (1 - br)%amp 0%amp) eqn:E.
    - apply andb_true_iff in E. destruct E as [_ E]. apply sr_eqb_ok in E. apply sub0 in E. rewrite E. cbn [csem fold_left]. destruct (N.testbit x q); auto. ring.
    - cbn [csem fold_left gsem]. unfold gate1. cbn [all_set forallb m00 m01 m10 m11]. destruct (N.testbit x q); ring.
  Qed.
  Lemma wf_Phase1 rgp n (br : K) q : q < n -> Forall (wfg n) (qi_Phase rgp 1%amp br q : circ).
  Proof. intros H. unfold qi_Phase. destruct (_ && _); constructor; [|constructor]. split. now apply wfc_nil. right. apply phase_free_1. Qed.
  Lemma sem_MCPhase1 cs br t psi x : csem (qi_MCPhase cs 1%amp br t : circ) psi x = if all_set cs x && N.testbit x t then (br * psi x)%amp else psi x.
  Proof.
    unfold qi_MCPhase. destruct (sr_eqb (1 - 1)%amp 0%amp && sr_eqb (1 - br)%amp 0%amp) eqn:E.
    - apply andb_true_iff in E. destruct E as [_ E]. apply sr_eqb_ok in E. apply sub0 in E. rewrite E. cbn [csem fold_left]. destruct (all_set cs x && N.testbit x t); auto. ring.
    - cbn [csem fold_left gsem]. unfold gate1. cbn [m00 m01 m10 m11]. destruct (all_set cs x); auto. destruct (N.testbit x t); cbn [andb]; ring.
  Qed.
  Lemma wf_MCPhase1 n cs (br : K) t : wfc n cs t -> Forall (wfg n) (qi_MCPhase cs 1%amp br t : circ).
  Proof. intros H. unfold qi_MCPhase. destruct (_ && _); constructor; [|constructor]. split; auto. right. apply phase_free_1. Qed.
  Lemma wfc_1 n a b : a <> b -> a < n -> b < n -> wfc n [a] b.
  Proof. intros. apply wfc_intro; auto. repeat constructor. intros []. intros [|[]]; auto. intros q [<-|[]]; auto. Qed.

  (** ** ISwap *)
  Lemma sem_Swap n q1 q2 psi x : q1 < n -> q2 < n -> csem (qi_Swap q1 q2 : circ) psi x = psi (swap_bits q1 q2 x).
  Proof. intros H1 H2. rewrite (csem_cact n) by now apply wf_Swap. rewrite <- swap_rev. now rewrite swap_act. Qed.
  Lemma wf_ISwap rgp n (i : K) q1 q2 : q1 < n -> q2 < n -> Forall (wfg n) (qi_ISwap rgp i q1 q2 : circ).
  Proof.
    intros. unfold qi_ISwap. destruct (N.eqb_spec q1 q2). constructor. repeat (apply Forall_app; split). apply wfx_all. now apply wf_Swap.
    apply wf_MCPhase1. now apply wfc_1. now apply wf_Phase1. now apply wf_Phase1.
  Qed.
  Lemma wf_IISwap rgp n (i : K) q1 q2 : q1 < n -> q2 < n -> Forall (wfg n) (qi_IISwap rgp i q1 q2 : circ).
  Proof.
    intros. unfold qi_IISwap. destruct (N.eqb_spec q1 q2). constructor. repeat (apply Forall_app; split).
    now apply wf_Phase1. now apply wf_Phase1. apply wf_MCPhase1. now apply wfc_1. apply wfx_all. now apply wf_Swap.
  Qed.
  Lemma sem_ISwap rgp n (i : K) q1 q2 psi x : q1 <> q2 -> q1 < n -> q2 < n -> (i * i = - (1))%amp ->
    csem (qi_ISwap rgp i q1 q2 : circ) psi x = gate_swap always q1 q2 (iswap_mat i) psi x.
  Proof.
    intros E H1 H2 Hi. unfold qi_ISwap, qi_CZ, qi_S. rewrite (neqb_f q1 q2) by auto. rewrite !csem_app, !sem_Phase1, sem_MCPhase1, (sem_Swap n) by auto.
    unfold all_set, gate_swap, always, iswap_mat. cbn [forallb m00 m01 m10 m11 andb]. rewrite andb_true_r.
    destruct (N.testbit x q1) eqn:B1, (N.testbit x q2) eqn:B2; cbn [andb xorb].
    - replace (swap_bits q1 q2 x) with x. transitivity (- (i * i) * psi x)%amp. ring. rewrite Hi. ring.
      apply N.bits_inj. intros q. rewrite tb_swap. beq_all (0). all: congruence.
    - ring.
    - ring.
    - replace (swap_bits q1 q2 x) with x. reflexivity. apply N.bits_inj. intros q. rewrite tb_swap. beq_all (0). all: congruence.
  Qed.
  Lemma sem_IISwap rgp n (i : K) q1 q2 psi x : q1 <> q2 -> q1 < n -> q2 < n -> (i * i = - (1))%amp ->
    csem (qi_IISwap rgp i q1 q2 : circ) psi x = gate_swap always q1 q2 (iswap_mat (- i)%amp) psi x.
  Proof.
    intros E H1 H2 Hi. unfold qi_IISwap, qi_CZ, qi_IS. rewrite (neqb_f q1 q2) by auto. rewrite !csem_app, (sem_Swap n), sem_MCPhase1, !sem_Phase1 by auto.
    unfold all_set, gate_swap, always, iswap_mat. cbn [forallb m00 m01 m10 m11 andb]. rewrite andb_true_r. rewrite !tb_swap, N.eqb_refl, (neqb_f q1 q2), N.eqb_refl by auto.
    destruct (N.testbit x q1) eqn:B1, (N.testbit x q2) eqn:B2; cbn [andb xorb].
    - replace (swap_bits q1 q2 x) with x. transitivity (- (i * i) * psi x)%amp. ring. rewrite Hi. ring.
      apply N.bits_inj. intros q. rewrite tb_swap. beq_all (0). all: congruence.
    - ring.
    - ring.
    - replace (swap_bits q1 q2 x) with x. reflexivity. apply N.bits_inj. intros q. rewrite tb_swap. beq_all (0). all: congruence.
  Qed.
End P.
