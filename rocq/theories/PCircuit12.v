(** Proofs about the generic circuits (part 12: runs on part of the basis, swap matrices, basis states on which a circuit
    departs from its specification). *)
From Coq Require Import NArith ZArith Arith List Bool Lia Ring.
From Verif Require Import Bits MFunctions PFunctions MParFor PParFor MKernel Amp PAmp MEngine SpecState SpecEngine SpecParFor PApply PKernel PLoop PProb
  PGates PGates2 PGates3 PEngine PEngine2 PCompose MAlu SpecAlu PAlu PAlu2 PAlu5 PAlu6 PAlu8 PAlu9 MCircuit SpecCircuit PCircuit PCircuit2 PCircuit3 PCircuit4 PCircuit5
  PCircuit6 PCircuit7 PCircuit8 PCircuit9 PCircuit10 PCircuit11.
Import ListNotations.
Local Open Scope N_scope.

Section P.
  Context {K : StarRing}.
  Add Ring KrV : (sr_ring K).
  Variable c : cfg.
  Local Notation V := (mem K).
  Local Notation circ := (circ K).

  Lemma basis_map_restrict n D f (ph : N -> K) psi psi' : supported n D psi -> basis_map n always f ph psi psi' -> basis_map n D f ph psi psi'.
  Proof.
    intros HS [A [B C]]. split; [|split].
    - intros x y Hx Hy _ _ E. now apply A.
    - intros x Hx _. now apply B.
    - intros y Hy Hn. destruct (find_basis n (fun x => f x =? y)) as [[x [Hx E]]|H].
      + apply N.eqb_eq in E. subst y. destruct (B x Hx eq_refl) as [_ ->]. destruct (D x) eqn:Dx. exfalso. now apply (Hn x). rewrite HS by auto. ring.
      + apply C; auto. intros x Hx _ E. specialize (H x Hx). cbn beta in H. now rewrite E, N.eqb_refl in H.
  Qed.
  Lemma perm_run_on rgp n (l : circ) D f (psi : V) : fits c n -> Forall (wfx n) l -> supported n D psi -> (forall x, x < 2 ^ n -> D x = true -> cact l x = f x) ->
    every_run (crun c rgp n l (Some psi)) (fun r => exists psi', r = Ok (Some psi') /\ basis_map n D f (fun _ => 1%amp) psi psi').
  Proof.
    intros Hf W HS E. destruct (perm_run c rgp n l (cact l) psi Hf W) as [He Ha]; auto. split; auto. intros r HR. destruct (Ha r HR) as [psi' [-> HB]].
    exists psi'. split; auto. apply (basis_map_restrict n D) in HB; auto. eapply basis_map_ext; [| |exact HB]; auto.
  Qed.
  Lemma sem_run rgp n (l : circ) S (psi : V) : fits c n -> Forall (wfg n) l -> (forall x, x < 2 ^ n -> csem l psi x = S x) ->
    every_run (crun c rgp n l (Some psi)) (fun r => exists psi', r = Ok (Some psi') /\ eqv n psi' S).
  Proof.
    intros Hf W E. destruct (crun_run c rgp n l Hf W psi) as [He Ha]. split; auto. intros r HR. destruct (Ha r HR) as [psi' [-> HB]].
    exists psi'. split; auto. intros x Hx. rewrite HB by auto. now apply E.
  Qed.
  Lemma run_inv rgp n (l l' : circ) (psi : V) : fits c n -> Forall (wfg n) l -> Forall (wfg n) l' -> (forall x, csem l' (csem l psi) x = psi x) ->
    every_run (crun c rgp n l (Some psi)) (fun r => exists psi1, r = Ok (Some psi1) /\
      every_run (crun c rgp n l' (Some psi1)) (fun r2 => exists psi2, r2 = Ok (Some psi2) /\ eqv n psi2 psi)).
  Proof. intros Hf W1 W2 H. apply undo_run; auto. intros x _. apply H. Qed.

  (** ** Swap matrices *)
  Lemma swap_swap a b x : swap_bits a b (swap_bits a b x) = x.
  Proof.
    apply N.bits_inj. intros q. rewrite !tb_swap. destruct (N.eqb_spec a q), (N.eqb_spec b q); subst; rewrite ?N.eqb_refl; auto;
      repeat match goal with |- context [?x =? ?y] => destruct (N.eqb_spec x y); subst; try congruence end; auto.
  Qed.
  Lemma gate_swap_mul a b (m1 m2 : mat2 K) psi x : a <> b -> gate_swap always a b m2 (gate_swap always a b m1 psi) x = gate_swap always a b (mmul m2 m1) psi x.
  Proof.
    intros H. unfold gate_swap, always. cbn [andb]. destruct (xorb (N.testbit x a) (N.testbit x b)) eqn:E; auto. rewrite swap_swap.
    assert (TA : N.testbit (swap_bits a b x) a = N.testbit x b). { rewrite tb_swap. rewrite N.eqb_refl. auto. }
    assert (TB : N.testbit (swap_bits a b x) b = N.testbit x a). { rewrite tb_swap. rewrite (neqb_f a b) by auto. rewrite N.eqb_refl. auto. }
    rewrite TA, TB, (xorb_comm (N.testbit x b)), E. unfold mmul; cbn [m00 m01 m10 m11].
    destruct (N.testbit x a), (N.testbit x b); cbn [xorb] in E; try discriminate; ring.
  Qed.
  Lemma gate_swap_id a b psi x : gate_swap always a b (midn : mat2 K) psi x = psi x.
  Proof. unfold gate_swap, midn. cbn [m00 m01 m10 m11]. destruct (_ && _); auto. destruct (N.testbit x a); ring. Qed.
  Lemma gate_swap_x a b psi x : gate_swap always a b (mkMat 0%amp 1%amp 1%amp 0%amp : mat2 K) psi x = psi (swap_bits a b x).
  Proof.
    unfold gate_swap, always. cbn [m00 m01 m10 m11 andb]. destruct (xorb (N.testbit x a) (N.testbit x b)) eqn:E.
    - destruct (N.testbit x a); ring.
    - assert (E2 : N.testbit x a = N.testbit x b) by (destruct (N.testbit x a), (N.testbit x b); auto; discriminate).
      f_equal. apply N.bits_inj. intros q. rewrite tb_swap. destruct (N.eqb_spec a q), (N.eqb_spec b q); subst; auto.
  Qed.
  Lemma gate_swap_mat a b (m m' : mat2 K) psi x : m = m' -> gate_swap always a b m psi x = gate_swap always a b m' psi x.
  Proof. now intros ->. Qed.
  Lemma gate_swap_fun a b (m : mat2 K) f g x : (forall x, f x = g x) -> gate_swap always a b m f x = gate_swap always a b m g x.
  Proof. intros H. unfold gate_swap. now rewrite !H. Qed.
  Section M.
    Variables h i : K.
    Hypothesis (Hh : ((1 + 1) * (h * h) = 1)%amp) (Hi : (i * i = - (1))%amp).
    Lemma sqrt_sq : mmul (sqrt_swap_mat h i) (sqrt_swap_mat h i) = mkMat 0%amp 1%amp 1%amp 0%amp.
    Proof using Hh Hi. unfold mmul, sqrt_swap_mat; cbn [m00 m01 m10 m11]. f_equal; ring [Hh Hi]. Qed.
    Lemma isqrt_sqrt : mmul (isqrt_swap_mat h i) (sqrt_swap_mat h i) = midn.
    Proof using Hh Hi. unfold mmul, sqrt_swap_mat, isqrt_swap_mat, midn; cbn [m00 m01 m10 m11]. f_equal; ring [Hh Hi]. Qed.
    Lemma sqrt_isqrt : mmul (sqrt_swap_mat h i) (isqrt_swap_mat h i) = midn.
    Proof using Hh Hi. unfold mmul, sqrt_swap_mat, isqrt_swap_mat, midn; cbn [m00 m01 m10 m11]. f_equal; ring [Hh Hi]. Qed.
    Lemma iswap_iiswap : mmul (iswap_mat (- i)%amp) (iswap_mat i) = midn.
    Proof using Hi. unfold mmul, iswap_mat, midn; cbn [m00 m01 m10 m11]. f_equal; ring [Hi]. Qed.
    Lemma iiswap_iswap : mmul (iswap_mat i) (iswap_mat (- i)%amp) = midn.
    Proof using Hi. unfold mmul, iswap_mat, midn; cbn [m00 m01 m10 m11]. f_equal; ring [Hi]. Qed.

    Lemma wf_SqrtSwap rgp n q1 q2 : q1 < n -> q2 < n -> Forall (wfg n) (qi_SqrtSwap rgp h i q1 q2 : circ).
    Proof using Hh.
      intros. unfold qi_SqrtSwap. destruct (N.eqb_spec q1 q2). constructor.
      repeat (apply Forall_app; split); try (now apply wf_H); try (now apply wf_T); try (now apply wf_IT); try (now apply wf_S); try (now apply wf_IS); try (apply wfx_all; now apply wf_CNOT);
        try (apply wf_MCPhase1; now apply wfc_1).
    Qed.
    Lemma wf_ISqrtSwap rgp n q1 q2 : q1 < n -> q2 < n -> Forall (wfg n) (qi_ISqrtSwap rgp h i q1 q2 : circ).
    Proof using Hh.
      intros. unfold qi_ISqrtSwap. destruct (N.eqb_spec q1 q2). constructor.
      repeat (apply Forall_app; split); try (now apply wf_H); try (now apply wf_T); try (now apply wf_IT); try (now apply wf_S); try (now apply wf_IS); try (apply wfx_all; now apply wf_CNOT);
        try (apply wf_MCPhase1; now apply wfc_1).
    Qed.
  End M.

  Lemma mod_olen_up N0 : N0 <> 0 -> mod_olen N0 = N.log2_up N0.
  Proof.
    intros H0. unfold mod_olen. destruct (isPowerOfTwoOcl N0) eqn:E.
    - apply isPowerOfTwo_ok in E. destruct E as [k ->]. now rewrite N.log2_pow2, N.log2_up_pow2 by lia.
    - destruct (N.le_gt_cases N0 1) as [|H1].
      { assert (N0 = 1) as -> by lia. discriminate E. }
      destruct (N.log2_up_spec N0 H1) as [A B]. destruct (N.log2_spec N0) as [C D]; [lia|].
      assert (F : N.log2_up N0 <> N.log2 N0). { intros F. rewrite F in B. assert (N0 = 2 ^ N.log2 N0) by lia. assert (isPowerOfTwoOcl N0 = true) by (apply isPowerOfTwo_ok; eauto). congruence. }
      pose proof (N.le_log2_log2_up N0). pose proof (N.le_log2_up_succ_log2 N0). lia.
  Qed.
End P.

(** A basis state sent elsewhere than specified. *)
Lemma ket_wrong rgp n (l : circ GI) D f x : n <= 40 -> Forall (wfx n) l -> x < 2 ^ n -> D x = true -> cact l x <> f x ->
  ~ every_run (crun c4 rgp n l (Some (ket x : mem GI))) (fun r => exists psi', r = Ok (Some psi') /\ basis_map n D f (fun _ => 1%amp) (ket x) psi').
Proof.
  intros Hn W Hx HD H [[r HR] Ha]. destruct (Ha r HR) as [psi' [-> HB]].
  destruct (perm_run c4 rgp n l (cact l) (ket x) (c4_fits n Hn) W) as [_ Ha2]; auto. destruct (Ha2 _ HR) as [psi'' [E HB2]]. injection E as <-.
  apply gi_one_nz. eapply (clash n D f (fun _ => 1%amp) always (cact l) (fun _ => 1%amp) x psi'); auto. 
Qed.
