(** Proofs about the generic circuits (part 7: square roots of the swap). *)
From Coq Require Import NArith List Bool Lia Ring.
From Verif Require Import Bits MFunctions PFunctions MParFor PParFor MKernel Amp PAmp MEngine SpecState SpecEngine
  PGates PGates2 PGates3 PEngine PCompose MAlu SpecAlu PAlu PAlu2 PAlu5 PAlu6 PAlu9 MCircuit SpecCircuit PCircuit PCircuit2 PCircuit3 PCircuit4 PCircuit5 PCircuit6.
Import ListNotations.
Local Open Scope N_scope.

Section P.
  Context {K : StarRing}.
  Add Ring KrQ : (sr_ring K).
  Local Notation V := (mem K).
  Local Notation circ := (circ K).

  Lemma sem_H h q (psi : V) x : csem (qi_H h q : circ) psi x =
    (if N.testbit x q then h * psi (N.clearbit x q) - h * psi x else h * psi x + h * psi (N.setbit x q))%amp.
  Proof. cbn [qi_H csem fold_left gsem]. unfold gate1, matH. cbn [all_set forallb m00 m01 m10 m11]. destruct (N.testbit x q); ring. Qed.
  Lemma phase_free_H (h : K) : ((1 + 1) * (h * h) = 1)%amp -> phase_free (matH h).
  Proof. intros Hh ph H. injection H as H1 H2 H3 H4. rewrite H2 in *. rewrite <- H1. rewrite <- Hh. ring. Qed.
  Lemma wf_H n (h : K) q : q < n -> ((1 + 1) * (h * h) = 1)%amp -> Forall (wfg n) (qi_H h q : circ).
  Proof. intros H Hp. constructor; [|constructor]. split. now apply wfc_nil. right. now apply phase_free_H. Qed.
  Lemma wf_T rgp n (h i : K) q : q < n -> Forall (wfg n) (qi_T rgp h i q : circ).
  Proof. apply wf_Phase1. Qed.
  Lemma wf_IT rgp n (h i : K) q : q < n -> Forall (wfg n) (qi_IT rgp h i q : circ).
  Proof. apply wf_Phase1. Qed.
  Lemma wf_S rgp n (i : K) q : q < n -> Forall (wfg n) (qi_S rgp i q : circ).
  Proof. apply wf_Phase1. Qed.
  Lemma wf_IS rgp n (i : K) q : q < n -> Forall (wfg n) (qi_IS rgp i q : circ).
  Proof. apply wf_Phase1. Qed.

  Section Two.
    Variable n q1 q2 : N.
    Hypothesis (E : q1 <> q2) (H1 : q1 < n) (H2 : q2 < n).
    Variable x : N.
    Definition A (psi : V) (b1 b2 : bool) : K := psi (put_bit (put_bit x q1 b1) q2 b2).

    Lemma t1 b1 b2 : N.testbit (put_bit (put_bit x q1 b1) q2 b2) q1 = b1.
    Proof using E. now rewrite !tb_put_bit, (neqb_f q2 q1), N.eqb_refl by auto. Qed.
    Lemma t2 b1 b2 : N.testbit (put_bit (put_bit x q1 b1) q2 b2) q2 = b2.
    Proof using E. now rewrite !tb_put_bit, N.eqb_refl by auto. Qed.
    Lemma p1 b1 b2 b : put_bit (put_bit (put_bit x q1 b1) q2 b2) q1 b = put_bit (put_bit x q1 b) q2 b2.
    Proof using E. clear H1 H2 n. apply N.bits_inj. intros q. rewrite !tb_put_bit. beq_all 0. Qed.
    Lemma p2 b1 b2 b : put_bit (put_bit (put_bit x q1 b1) q2 b2) q2 b = put_bit (put_bit x q1 b1) q2 b.
    Proof using E. clear H1 H2 n. apply N.bits_inj. intros q. rewrite !tb_put_bit. beq_all 0. Qed.
    Lemma A_H1 h psi b1 b2 : A (csem (qi_H h q1 : circ) psi) b1 b2 = (if b1 then h * A psi false b2 - h * A psi true b2 else h * A psi false b2 + h * A psi true b2)%amp.
    Proof using E. unfold A. rewrite sem_H, t1. change (N.clearbit ?y q1) with (put_bit y q1 false). change (N.setbit ?y q1) with (put_bit y q1 true). rewrite !p1. now destruct b1. Qed.
    Lemma A_H2 h psi b1 b2 : A (csem (qi_H h q2 : circ) psi) b1 b2 = (if b2 then h * A psi b1 false - h * A psi b1 true else h * A psi b1 false + h * A psi b1 true)%amp.
    Proof using E. unfold A. rewrite sem_H, t2. change (N.clearbit ?y q2) with (put_bit y q2 false). change (N.setbit ?y q2) with (put_bit y q2 true). rewrite !p2. now destruct b2. Qed.
    Lemma A_P1 rgp br psi b1 b2 : A (csem (qi_Phase rgp 1%amp br q1 : circ) psi) b1 b2 = (if b1 then br * A psi b1 b2 else A psi b1 b2)%amp.
    Proof using E. unfold A. now rewrite sem_Phase1, t1. Qed.
    Lemma A_P2 rgp br psi b1 b2 : A (csem (qi_Phase rgp 1%amp br q2 : circ) psi) b1 b2 = (if b2 then br * A psi b1 b2 else A psi b1 b2)%amp.
    Proof using E. unfold A. now rewrite sem_Phase1, t2. Qed.
    Lemma A_CNOT psi b1 b2 : A (csem (qi_CNOT q1 q2 : circ) psi) b1 b2 = A psi b1 (xorb b2 b1).
    Proof.
      unfold A. rewrite (csem_cact n) by (apply wf_CNOT; auto). unfold qi_CNOT, qi_MCInvert. cbn [rev app].
      change [GM [q1] (mkMat 0%amp 1%amp 1%amp 0%amp) q2] with (qi_CNOT q1 q2 : circ). rewrite act_CNOT, t1. f_equal.
      rewrite flip_put, t2, p2. reflexivity.
    Qed.
  End Two.

  Lemma A_id q1 q2 x psi : @A q1 q2 x psi (N.testbit x q1) (N.testbit x q2) = psi x.
  Proof. unfold A. f_equal. apply N.bits_inj. intros q. rewrite !tb_put_bit. beq_all 0. Qed.
  Lemma A_sw q1 q2 x psi : @A q1 q2 x psi (N.testbit x q2) (N.testbit x q1) = psi (swap_bits q1 q2 x).
  Proof. unfold A. f_equal. apply N.bits_inj. intros q. rewrite !tb_put_bit, tb_swap. beq_all 0. Qed.

  Lemma sem_SqrtSwap rgp n (h i : K) q1 q2 psi x : q1 <> q2 -> q1 < n -> q2 < n -> ((1 + 1) * (h * h) = 1)%amp -> (i * i = - (1))%amp ->
    csem (qi_SqrtSwap rgp h i q1 q2 : circ) psi x = gate_swap always q1 q2 (sqrt_swap_mat h i) psi x.
  Proof.
    intros E H1 H2 Hh Hi. rewrite <- (A_id q1 q2 x (csem _ psi)). unfold gate_swap. cbn zeta. rewrite <- (A_id q1 q2 x psi), <- (A_sw q1 q2 x psi).
    unfold qi_SqrtSwap, qi_IT, qi_T, qi_S, qi_IS. rewrite (neqb_f q1 q2) by auto. rewrite !csem_app.
    cbn [always andb]. generalize (N.testbit x q1) as b1, (N.testbit x q2) as b2. intros b1 b2.
    unfold sqrt_swap_mat. cbn [m00 m01 m10 m11].
    destruct b1, b2; cbn [xorb];
      repeat (rewrite ?A_H1, ?A_H2, ?A_P1, ?A_P2, ?(A_CNOT n) by auto; cbn [xorb]); ring [Hh Hi].
  Qed.
  Lemma sem_ISqrtSwap rgp n (h i : K) q1 q2 psi x : q1 <> q2 -> q1 < n -> q2 < n -> ((1 + 1) * (h * h) = 1)%amp -> (i * i = - (1))%amp ->
    csem (qi_ISqrtSwap rgp h i q1 q2 : circ) psi x = gate_swap always q1 q2 (isqrt_swap_mat h i) psi x.
  Proof.
    intros E H1 H2 Hh Hi. rewrite <- (A_id q1 q2 x (csem _ psi)). unfold gate_swap. cbn zeta. rewrite <- (A_id q1 q2 x psi), <- (A_sw q1 q2 x psi).
    unfold qi_ISqrtSwap, qi_IT, qi_T, qi_S, qi_IS. rewrite (neqb_f q1 q2) by auto. rewrite !csem_app.
    cbn [always andb]. generalize (N.testbit x q1) as b1, (N.testbit x q2) as b2. intros b1 b2.
    unfold isqrt_swap_mat. cbn [m00 m01 m10 m11].
    destruct b1, b2; cbn [xorb];
      repeat (rewrite ?A_H1, ?A_H2, ?A_P1, ?A_P2, ?(A_CNOT n) by auto; cbn [xorb]); ring [Hh Hi].
  Qed.
End P.
