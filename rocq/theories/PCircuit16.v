(** Proofs about the generic circuits (part 16: controlled square roots of the swap, TimeEvolve). *)
From Coq Require Import NArith Arith List Bool Lia Ring.
From Verif Require Import Bits MFunctions PFunctions MParFor PParFor MKernel Amp PAmp MEngine SpecState SpecEngine
  PGates PGates2 PGates3 PEngine PCompose MAlu SpecAlu PAlu PAlu2 PAlu5 PAlu6 PAlu9 MCircuit SpecCircuit PCircuit PCircuit2 PCircuit3 PCircuit4 PCircuit5 PCircuit6 PCircuit7 PCircuit8 PCircuit12
  MCircuit2 SpecCircuit2 PCircuit14 PCircuit15.
Import ListNotations.
Local Open Scope N_scope.

Section P.
  Context {K : StarRing}.
  Add Ring KrEL : (sr_ring K).
  Variable c : cfg.
  Local Notation V := (mem K).
  Local Notation circ := (circ K).

  (** ** A circuit with more controls *)
  Definition ctl (cs : list N) (g : gop K) : gop K := match g with GM d m t => GM (cs ++ d) m t | GXM m => GXM m end.
  Definition off (cs : list N) (g : gop K) : Prop := match g with GM d m t => ~ In t cs | GXM _ => False end.
  Definition agree (cs : list N) (a b : V) : Prop := forall x, all_set cs x = true -> a x = b x.
  Lemma all_set_app a b x : all_set (a ++ b) x = all_set a x && all_set b x.
  Proof. unfold all_set. apply forallb_app. Qed.
  Lemma set_target cs t x : ~ In t cs -> all_set cs (N.setbit x t) = all_set cs x.
  Proof. intros H. unfold all_set. apply forallb_ext_in. intros q Hq. rewrite N.setbit_eqb. destruct (N.eqb_spec t q); [subst; contradiction|reflexivity]. Qed.
  Lemma clear_target cs t x : ~ In t cs -> all_set cs (N.clearbit x t) = all_set cs x.
  Proof. intros H. unfold all_set. apply forallb_ext_in. intros q Hq. rewrite N.clearbit_eqb. destruct (N.eqb_spec t q); [subst; contradiction|]. apply andb_true_r. Qed.
  Lemma agree_gate cs g a b : off cs g -> agree cs a b -> agree cs (gsem g a) (gsem g b).
  Proof. destruct g as [d m t|m]; cbn [off gsem]; [|tauto]. intros H A x Hx. unfold gate1. now rewrite !A by (rewrite ?set_target, ?clear_target by auto; auto). Qed.
  Lemma agree_ctl cs g a : off cs g -> agree cs (gsem (ctl cs g) a) (gsem g a).
  Proof. destruct g as [d m t|m]; cbn [off ctl gsem]; [|tauto]. intros H x Hx. apply gate1_pred. now rewrite all_set_app, Hx. Qed.
  Lemma agree_csem cs l : Forall (off cs) l -> forall a b, agree cs a b -> agree cs (csem l a) (csem l b).
  Proof. induction 1 as [|g l Hg Hl IH]; intros a b A. exact A. rewrite !csem_cons. apply IH. now apply agree_gate. Qed.
  Lemma ctl_on cs l : Forall (off cs) l -> forall psi, agree cs (csem (map (ctl cs) l) psi) (csem l psi).
  Proof.
    induction 1 as [|g l Hg Hl IH]; intros psi. now intros x _. cbn [map]. rewrite !csem_cons. intros x Hx. rewrite (IH _ x Hx). apply (agree_csem cs l Hl); auto. now apply agree_ctl.
  Qed.
  Lemma ctl_off cs l : Forall (off cs) l -> forall psi x, all_set cs x = false -> csem (map (ctl cs) l) psi x = psi x.
  Proof.
    induction 1 as [|g l Hg Hl IH]; intros psi x Hx; auto. cbn [map]. rewrite csem_cons, IH by auto. destruct g as [d m t|m]; cbn [off ctl gsem] in *; [|tauto]. unfold gate1. now rewrite all_set_app, Hx.
  Qed.
  Lemma ctl_sem cs l psi x : Forall (off cs) l -> csem (map (ctl cs) l) psi x = if all_set cs x then csem l psi x else psi x.
  Proof. intros H. destruct (all_set cs x) eqn:E. now apply (ctl_on cs l H). now apply ctl_off. Qed.

  (** ** The square roots *)
  Definition sq_list (h i : K) (q1 q2 : N) : circ :=
    let t := (h + i * h)%amp in let it := (h - i * h)%amp in
    qi_CNOT q1 q2 ++ [g_had h [] q1; g_ph it [] q2; g_ph t [] q1; g_had h [] q2; g_had h [] q1] ++ qi_CNOT q1 q2 ++
    [g_had h [] q1; g_had h [] q2; g_ph it [] q1; g_had h [] q1] ++ qi_CNOT q1 q2 ++ [g_ph (- i)%amp [] q1; g_ph i [] q2].
  Definition isq_list (h i : K) (q1 q2 : N) : circ :=
    let t := (h + i * h)%amp in let it := (h - i * h)%amp in
    [g_ph (- i)%amp [] q2; g_ph i [] q1] ++ qi_CNOT q1 q2 ++ [g_had h [] q1; g_ph t [] q1; g_had h [] q2; g_had h [] q1] ++ qi_CNOT q1 q2 ++
    [g_had h [] q1; g_had h [] q2; g_ph it [] q1; g_ph t [] q2; g_had h [] q1] ++ qi_CNOT q1 q2.
  Lemma sem_ph1 z q (psi : V) x : csem [g_ph z [] q] psi x = csem (qi_Phase false 1%amp z q) psi x.
  Proof. symmetry. apply sem_Phase1. Qed.
  Lemma sq_sem h i q1 q2 (psi : V) x : csem (sq_list h i q1 q2) psi x = if q1 =? q2 then csem (sq_list h i q1 q2) psi x else csem (qi_SqrtSwap false h i q1 q2) psi x.
  Proof.
    unfold qi_SqrtSwap. destruct (N.eqb_spec q1 q2); auto.
    change (sq_list h i q1 q2) with (qi_CNOT q1 q2 ++ qi_H h q1 ++ [g_ph (h - i * h)%amp [] q2] ++ [g_ph (h + i * h)%amp [] q1] ++ qi_H h q2 ++ qi_H h q1 ++ qi_CNOT q1 q2 ++
      qi_H h q1 ++ qi_H h q2 ++ [g_ph (h - i * h)%amp [] q1] ++ qi_H h q1 ++ qi_CNOT q1 q2 ++ [g_ph (- i)%amp [] q1] ++ [g_ph i [] q2]).
    rewrite !csem_app. unfold qi_IT, qi_T, qi_S, qi_IS.
    repeat first [rewrite sem_ph1; apply csem_ext; intros ?y | apply csem_ext; intros ?y].
    all: try reflexivity. all: auto using sem_ph1.
  Qed.
  Lemma isq_sem h i q1 q2 (psi : V) x : csem (isq_list h i q1 q2) psi x = if q1 =? q2 then csem (isq_list h i q1 q2) psi x else csem (qi_ISqrtSwap false h i q1 q2) psi x.
  Proof.
    unfold qi_ISqrtSwap. destruct (N.eqb_spec q1 q2); auto.
    change (isq_list h i q1 q2) with ([g_ph (- i)%amp [] q2] ++ [g_ph i [] q1] ++ qi_CNOT q1 q2 ++ qi_H h q1 ++ [g_ph (h + i * h)%amp [] q1] ++ qi_H h q2 ++ qi_H h q1 ++
      qi_CNOT q1 q2 ++ qi_H h q1 ++ qi_H h q2 ++ [g_ph (h - i * h)%amp [] q1] ++ [g_ph (h + i * h)%amp [] q2] ++ qi_H h q1 ++ qi_CNOT q1 q2).
    rewrite !csem_app. unfold qi_IT, qi_T, qi_S, qi_IS.
    repeat first [rewrite sem_ph1; apply csem_ext; intros ?y | apply csem_ext; intros ?y].
    all: try reflexivity. all: auto using sem_ph1.
  Qed.
  Lemma csq_map rgp h i cs q1 q2 : cs <> [] -> q1 <> q2 -> qi_CSqrtSwap rgp h i cs q1 q2 = map (ctl cs) (sq_list h i q1 q2).
  Proof. intros H E. unfold qi_CSqrtSwap. destruct cs as [|a t]; [contradiction|]. destruct (N.eqb_spec q1 q2); [contradiction|]. unfold sq_list, g_had, g_ph. cbn [map app ctl qi_CNOT qi_MCInvert]. rewrite !app_nil_r. reflexivity. Qed.
  Lemma cisq_map h i cs q1 q2 : q1 <> q2 -> qi_CISqrtSwap h i cs q1 q2 = map (ctl cs) (isq_list h i q1 q2).
  Proof. intros E. unfold qi_CISqrtSwap. destruct (N.eqb_spec q1 q2); [contradiction|]. unfold isq_list, g_had, g_ph. cbn [map app ctl qi_CNOT qi_MCInvert]. rewrite !app_nil_r. reflexivity. Qed.
  Lemma off_sq h i cs q1 q2 : ~ In q1 cs -> ~ In q2 cs -> Forall (off cs) (sq_list h i q1 q2).
  Proof. intros. unfold sq_list, g_had, g_ph. cbn [app qi_CNOT qi_MCInvert]. repeat (constructor; [cbn [off]; auto|]). constructor. Qed.
  Lemma off_isq h i cs q1 q2 : ~ In q1 cs -> ~ In q2 cs -> Forall (off cs) (isq_list h i q1 q2).
  Proof. intros. unfold isq_list, g_had, g_ph. cbn [app qi_CNOT qi_MCInvert]. repeat (constructor; [cbn [off]; auto|]). constructor. Qed.
  Lemma gate_swap_if cs q1 q2 (M : mat2 K) psi x : (if all_set cs x then gate_swap always q1 q2 M psi x else psi x) = gate_swap (all_set cs) q1 q2 M psi x.
  Proof. unfold gate_swap. destruct (all_set cs x); reflexivity. Qed.
  Lemma pf_ph (z : K) : phase_free (mkMat 1 0 0 z)%amp.
  Proof. intros ph H. now injection H as ->. Qed.
  Lemma wf_ctl n (h i : K) cs q1 q2 : ctl_ok n cs [q1; q2] -> q1 <> q2 -> q1 < n -> q2 < n -> ((1 + 1) * (h * h) = 1)%amp ->
    Forall (wfg n) (map (ctl cs) (sq_list h i q1 q2)) /\ Forall (wfg n) (map (ctl cs) (isq_list h i q1 q2)).
  Proof.
    intros [ND HC] E H1 H2 Hh. assert (W1 : wfc n (cs ++ []) q1) by (rewrite app_nil_r; apply wfc_intro; auto; [intros HI; apply HC in HI; cbn in HI; tauto|intros q Hq; now apply HC]).
    assert (W2 : wfc n (cs ++ []) q2) by (rewrite app_nil_r; apply wfc_intro; auto; [intros HI; apply HC in HI; cbn in HI; tauto|intros q Hq; now apply HC]).
    assert (W3 : wfc n (cs ++ [q1]) q2).
    { apply wfc_intro; auto. now rewrite app_nil_r in W1; apply W1. intros HI. apply in_app_or in HI. destruct HI as [HI|[HI|[]]]. apply HC in HI; cbn in HI; tauto. contradiction. intros q HI. apply in_app_or in HI. destruct HI as [HI|[<-|[]]]; auto. now apply HC. }
    pose proof (phase_free_H h Hh) as PH. unfold matH in PH. pose proof pf_ph as PP.
    assert (PX : cs ++ [q1] <> [] \/ phase_free (mkMat 0 1 1 0 : mat2 K)%amp). { left. intros Z. now apply app_eq_nil in Z. }
    split; unfold sq_list, isq_list, g_had, g_ph; cbn [app map ctl qi_CNOT qi_MCInvert]; repeat (constructor; [cbn [wfg]; split; auto|]); constructor.
  Qed.
  Lemma run_nop rgp n (S : V -> V) (psi : V) : (forall x, S psi x = psi x) -> every_run (crun c rgp n [] (Some psi)) (fun r => exists psi', r = Ok (Some psi') /\ eqv n psi' (S psi)).
  Proof. intros H. cbn [crun]. split; eauto. intros r ->. exists psi. split; auto. intros x _. now rewrite H. Qed.

  Section Sqrt.
    Variable (rgp : bool) (n : N) (h i : K) (cs : list N) (q1 q2 : N).
    Hypothesis (Hf : fits c n) (Hh : ((1 + 1) * (h * h) = 1)%amp) (Hi : (i * i = - (1))%amp) (HC : ctl_ok n cs [q1; q2]) (HE : q1 <> q2) (H1 : q1 < n) (H2 : q2 < n).
    Lemma c1 : ~ In q1 cs. Proof using HC. intros HI. apply HC in HI. cbn in HI. tauto. Qed.
    Lemma c2 : ~ In q2 cs. Proof using HC. intros HI. apply HC in HI. cbn in HI. tauto. Qed.
    Lemma sem_CSqrt psi x : csem (qi_CSqrtSwap rgp h i cs q1 q2) psi x = gate_swap (all_set cs) q1 q2 (sqrt_swap_mat h i) psi x.
    Proof using Hh Hi HC HE H1 H2.
      destruct cs as [|a t] eqn:EC; [|rewrite <- EC in *]. apply (sem_SqrtSwap rgp n); auto.
      rewrite csq_map by (auto; now rewrite EC). rewrite ctl_sem by (apply off_sq; [apply c1|apply c2]). rewrite sq_sem. destruct (N.eqb_spec q1 q2); [contradiction|].
      rewrite (sem_SqrtSwap false n) by auto. apply gate_swap_if.
    Qed.
    Lemma sem_CISqrt psi x : csem (qi_CISqrtSwap h i cs q1 q2) psi x = gate_swap (all_set cs) q1 q2 (isqrt_swap_mat h i) psi x.
    Proof using Hh Hi HC HE H1 H2.
      rewrite cisq_map by auto. rewrite ctl_sem by (apply off_isq; [apply c1|apply c2]). rewrite isq_sem. destruct (N.eqb_spec q1 q2); [contradiction|].
      rewrite (sem_ISqrtSwap false n) by auto. apply gate_swap_if.
    Qed.
    Lemma wf_CSqrt : Forall (wfg n) (qi_CSqrtSwap rgp h i cs q1 q2).
    Proof using Hh HC HE H1 H2. destruct cs as [|a t] eqn:EC; [|rewrite <- EC in *]. now apply wf_SqrtSwap. rewrite csq_map by (auto; now rewrite EC). now apply wf_ctl. Qed.
    Lemma wf_CISqrt : Forall (wfg n) (qi_CISqrtSwap h i cs q1 q2).
    Proof using Hh HC HE H1 H2. rewrite cisq_map by auto. now apply wf_ctl. Qed.
    Lemma xor_swap m x : N.testbit m q1 = false -> N.testbit m q2 = false -> swap_bits q1 q2 (N.lxor x m) = N.lxor (swap_bits q1 q2 x) m.
    Proof.
      intros A B. apply N.bits_inj. intros q. rewrite N.lxor_spec, !tb_swap, !N.lxor_spec, A, B, !xorb_false_r.
      destruct (N.eqb_spec q1 q) as [E1|_]; [subst q; now rewrite A, xorb_false_r|]. destruct (N.eqb_spec q2 q) as [E2|_]; [subst q; now rewrite B, xorb_false_r|reflexivity].
    Qed.
    Lemma mask_off q : ~ In q cs -> N.testbit (pow_mask cs) q = false.
    Proof. intros H. rewrite tb_pow_mask. apply not_true_is_false. rewrite existsb_exists. intros [z [Hz E]]. apply N.eqb_eq in E. now subst. Qed.
    Lemma conj_mask (l : circ) M psi x : (forall p y, csem l p y = gate_swap (all_set cs) q1 q2 M p y) ->
      csem ([GXM (pow_mask cs)] ++ l ++ [GXM (pow_mask cs)]) psi x = gate_swap (all_clear cs) q1 q2 M psi x.
    Proof using HC.
      intros H. rewrite !csem_app. cbn [csem fold_left gsem]. fold (csem l (fun y => psi (N.lxor y (pow_mask cs)))). rewrite H. unfold gate_swap. rewrite all_set_mask, !N.lxor_spec, !mask_off by (apply c1 || apply c2). rewrite !xorb_false_r. cbv zeta.
      rewrite xor_swap by (apply mask_off; apply c1 || apply c2). rewrite !lxor_twice. reflexivity.
    Qed.
    Lemma mask_lt : pow_mask cs < 2 ^ n.
    Proof using HC. apply pow_mask_lt. intros q Hq. now apply HC. Qed.
    Lemma csqrt_all (psi : V) :
      every_run (crun c rgp n (qi_CSqrtSwap rgp h i cs q1 q2) (Some psi)) (fun r => exists psi', r = Ok (Some psi') /\ eqv n psi' (gate_swap (all_set cs) q1 q2 (sqrt_swap_mat h i) psi)) /\
      every_run (crun c rgp n (qi_CISqrtSwap h i cs q1 q2) (Some psi)) (fun r => exists psi', r = Ok (Some psi') /\ eqv n psi' (gate_swap (all_set cs) q1 q2 (isqrt_swap_mat h i) psi)) /\
      every_run (crun c rgp n (qi_AntiCSqrtSwap rgp h i cs q1 q2) (Some psi)) (fun r => exists psi', r = Ok (Some psi') /\ eqv n psi' (gate_swap (all_clear cs) q1 q2 (sqrt_swap_mat h i) psi)) /\
      every_run (crun c rgp n (qi_AntiCISqrtSwap h i cs q1 q2) (Some psi)) (fun r => exists psi', r = Ok (Some psi') /\ eqv n psi' (gate_swap (all_clear cs) q1 q2 (isqrt_swap_mat h i) psi)).
    Proof using Hf Hh Hi HC HE H1 H2.
      assert (M1 : Forall (wfg n) ([GXM (pow_mask cs)] : circ)) by (constructor; [apply mask_lt|constructor]).
      split; [|split; [|split]]; apply sem_run; auto using wf_CSqrt, wf_CISqrt, sem_CSqrt, sem_CISqrt.
      - unfold qi_AntiCSqrtSwap. repeat (apply Forall_app; split); auto using wf_CSqrt.
      - intros x _. apply conj_mask. intros. apply sem_CSqrt.
      - unfold qi_AntiCISqrtSwap. repeat (apply Forall_app; split); auto using wf_CISqrt.
      - intros x _. apply conj_mask. intros. apply sem_CISqrt.
    Qed.
  End Sqrt.

  (** ** Time evolution *)
  Fixpoint tmask (cs : list N) (ts : list bool) : N :=
    match cs, ts with
    | q :: cs, b :: ts => N.lxor (if b then 2 ^ q else 0) (tmask cs ts)
    | _, _ => 0
    end.
  Lemma toggle_act cs : forall ts x, cact (toggle_x cs ts : circ) x = N.lxor x (tmask cs ts).
  Proof.
    induction cs as [|q cs IH]; intros [|b ts] x; cbn [toggle_x tmask]; try (symmetry; apply N.lxor_0_r). rewrite cact_app, IH. destruct b.
    - rewrite act_X. unfold flip. now rewrite N.lxor_assoc. - cbn [cact fold_left]. now rewrite N.lxor_0_l.
  Qed.
  Lemma toggle_wf n cs : forall ts, (forall q, In q cs -> q < n) -> Forall (wfx n) (toggle_x cs ts : circ).
  Proof.
    induction cs as [|q cs IH]; intros [|b ts] H; cbn [toggle_x]; try constructor. apply Forall_app. split. destruct b; [apply wf_X; apply H; now left|constructor]. apply IH. intros a Ha. apply H. now right.
  Qed.
  Lemma tmask_other cs q : ~ In q cs -> forall ts, N.testbit (tmask cs ts) q = false.
  Proof.
    induction cs as [|a cs IH]; intros H [|b ts]; cbn [tmask]; try apply N.bits_0. rewrite N.lxor_spec, IH by (intros HI; apply H; now right). rewrite xorb_false_r. destruct b; [|apply N.bits_0]. rewrite tb_pow2. destruct (N.eqb_spec a q); auto. subst. exfalso. apply H. now left.
  Qed.
  Lemma sel_other anti cs q (b : bool) x : ~ In q cs -> forall ts, selected anti cs ts (N.lxor x (if b then 2 ^ q else 0)) = selected anti cs ts x.
  Proof.
    induction cs as [|a cs IH]; intros H ts; cbn [selected]; auto. rewrite IH by (intros HI; apply H; now right). f_equal. f_equal. rewrite N.lxor_spec. destruct b; [|now rewrite N.bits_0, xorb_false_r]. rewrite tb_pow2. destruct (N.eqb_spec q a). subst. exfalso. apply H. now left. apply xorb_false_r.
  Qed.
  Lemma sel_toggle (anti : bool) cs : NoDup cs -> forall ts x, (if anti then all_clear cs else all_set cs) (N.lxor x (tmask cs ts)) = selected anti cs ts x.
  Proof.
    induction 1 as [|q cs NI ND IH]; intros ts x. now destruct anti. cbn [selected].
    destruct ts as [|b ts].
    - cbn [tmask hd tl]. rewrite N.lxor_0_r. specialize (IH [] x). destruct cs; cbn [tmask] in IH; rewrite N.lxor_0_r in IH; rewrite <- IH; destruct anti; cbn [negb xorb]; unfold all_clear, all_set; cbn [forallb]; f_equal; now destruct (N.testbit x q).
    - cbn [tmask hd tl]. rewrite <- N.lxor_assoc. specialize (IH ts (N.lxor x (if b then 2 ^ q else 0))). rewrite (sel_other anti cs q b x NI ts) in IH. rewrite <- IH.
      assert (T : N.testbit (N.lxor (N.lxor x (if b then 2 ^ q else 0)) (tmask cs ts)) q = xorb (N.testbit x q) b).
      { rewrite !N.lxor_spec, (tmask_other cs q NI), xorb_false_r. destruct b; [rewrite tb_pow2, N.eqb_refl|rewrite N.bits_0]; auto. }
      destruct anti; cbn [negb xorb]; unfold all_clear, all_set; cbn [forallb]; f_equal; rewrite T; now destruct (N.testbit x q), b.
  Qed.
  Lemma sel_nil (ts : list bool) anti x : selected anti [] ts x = true.
  Proof. reflexivity. Qed.
  Lemma times_twice (i dt : K) m : mscale i (mscale (- dt)%amp m) = times (- (i * dt))%amp m.
  Proof. unfold mscale, times. destruct m as [a b d e]. cbn [m00 m01 m10 m11]. f_equal; ring. Qed.

  Lemma hop_sem n ex (i dt : K) o psi x : term_ok n o -> csem (qi_hop ex i dt o) psi x =
    gate1 (selected (ho_anti o) (ho_controls o) (ho_toggles o)) (ho_target o) (factor ex i dt (ho_mats o 0)) psi x.
  Proof.
    intros (U & ND & HQ & _). unfold qi_hop. rewrite U. cbv zeta. rewrite times_twice. fold (factor ex i dt (ho_mats o 0)).
    assert (W : wfc n (ho_controls o) (ho_target o)) by (split; auto). pose proof (wfc_not _ _ _ W) as NT.
    assert (NC : NoDup (ho_controls o)). { apply NoDup_remove_1 in ND. now rewrite app_nil_r in ND. }
    assert (WX := toggle_wf n (ho_controls o) (ho_toggles o) (fun q Hq => HQ q (in_or_app _ _ _ (or_introl Hq)))).
    set (m := factor ex i dt (ho_mats o 0)). set (G := match ho_controls o with [] => _ | _ => _ end).
    assert (SG : forall p y, csem G p y = gate1 (if ho_anti o then all_clear (ho_controls o) else all_set (ho_controls o)) (ho_target o) m p y).
    { intros p y. unfold G. destruct (ho_controls o) as [|a t] eqn:E. destruct (ho_anti o); reflexivity. rewrite <- E in *. destruct (ho_anti o). now apply (sem_MACMtrx n). reflexivity. }
    rewrite !csem_app. rewrite (sem_lxor n _ _ WX (toggle_act _ _)). rewrite SG.
    rewrite (gate1_ext _ _ _ _ (fun y => psi (N.lxor y (tmask (ho_controls o) (ho_toggles o)))) _ (sem_lxor n _ _ WX (toggle_act _ _) psi)).
    rewrite gate1_mask by now apply tmask_other. apply gate1_pred. rewrite <- sel_toggle by auto. now destruct (ho_anti o).
  Qed.
  Lemma hop_wf n ex (i dt : K) o : term_ok n o -> Forall (wf0 n) (qi_hop ex i dt o).
  Proof.
    intros (U & ND & HQ & _). unfold qi_hop. rewrite U. cbv zeta. assert (W : wfc n (ho_controls o) (ho_target o)) by (split; auto).
    assert (WX := wfg_wf0 _ _ (wfx_all _ _ (toggle_wf n (ho_controls o) (ho_toggles o) (fun q Hq => HQ q (in_or_app _ _ _ (or_introl Hq)))))).
    apply Forall_app. split; auto. apply Forall_app. split; auto. set (m := ex _). clearbody m. destruct (ho_controls o) as [|a t] eqn:E. constructor; [exact W|constructor].
    destruct (ho_anti o). apply wfg_wf0, wf_MACMtrx; auto. left. discriminate. constructor; [exact W|constructor].
  Qed.
  Lemma toggle_scal cs (Q : K -> Prop) : ((1 : K)%amp = 0%amp -> forall z, Q z) -> forall ts, scalars (toggle_x cs ts) Q.
  Proof.
    intros H ts. revert ts. induction cs as [|q cs IH]; intros [|b ts] m t ph HI Em; cbn [toggle_x] in HI; try destruct HI. apply in_app_or in HI. destruct HI as [HI|HI]; [|now apply (IH ts m t ph)].
    destruct b; [|destruct HI]. destruct HI as [HI|[]]. injection HI as <- <-. injection Em as E1 E2 E3 E4. now apply H.
  Qed.
  Lemma triv_norm : (1 : K)%amp = 0%amp -> forall z : K, anorm z = 1%amp.
  Proof. intros T z. transitivity (1 * anorm z)%amp; [ring|]. rewrite T. ring. Qed.
  Lemma unitary_scalar (m : mat2 K) ph : unitary2 m -> m = mkMat ph 0%amp 0%amp ph -> anorm ph = 1%amp.
  Proof. intros U ->. unfold unitary2, mmul, mdag, midn in U. cbn [m00 m01 m10 m11] in U. injection U as U1 _ _ _. rewrite conj_0 in U1. unfold anorm. rewrite <- U1. ring. Qed.
  Lemma hop_scal n ex (i dt : K) o : term_ok n o -> unitary2 (factor ex i dt (ho_mats o 0)) -> scalars (qi_hop ex i dt o) (fun ph => anorm ph = 1%amp).
  Proof.
    intros (U & ND & HQ & _) HU m t ph. unfold qi_hop. rewrite U. cbv zeta. rewrite times_twice. fold (factor ex i dt (ho_mats o 0)). intros HI Em.
    apply in_app_or in HI. destruct HI as [HI|HI]; [now apply (toggle_scal _ _ triv_norm _ m t ph HI)|]. apply in_app_or in HI. destruct HI as [HI|HI]; [|now apply (toggle_scal _ _ triv_norm _ m t ph HI)].
    destruct (ho_controls o) as [|a r] eqn:E.
    - destruct HI as [HI|[]]. injection HI as <- <-. now apply (unitary_scalar _ ph HU).
    - destruct (ho_anti o); [|destruct HI as [HI|[]]; discriminate HI]. destruct (MACMtrx_form (a :: r) (factor ex i dt (ho_mats o 0)) (ho_target o)) as [[F _]|F]; rewrite F in HI. destruct HI.
      unfold qi_MACWrapper in HI. cbn [app In] in HI. destruct HI as [HI|[HI|[HI|[]]]]; discriminate HI.
  Qed.
  Lemma gate1_mid P t (psi : V) x : gate1 P t midn psi x = psi x.
  Proof. apply gate1_one. Qed.
  Lemma evolved_cons ex (i dt : K) o l psi : evolved ex i dt (o :: l) psi = evolved ex i dt l (gate1 (selected (ho_anti o) (ho_controls o) (ho_toggles o)) (ho_target o) (factor ex i dt (ho_mats o 0)) psi).
  Proof. reflexivity. Qed.
  Lemma evolved_ext ex (i dt : K) l : forall a b x, (forall y, a y = b y) -> evolved ex i dt l a x = evolved ex i dt l b x.
  Proof. induction l as [|o l IH]; intros a b x H. apply H. rewrite !evolved_cons. apply IH. intros y. now apply gate1_ext. Qed.
  Lemma evolve_generic rgp n ex (i dt : K) l (psi : V) : fits c n -> (forall o, In o l -> term_ok n o) -> ex (mkMat 0 0 0 0)%amp = midn ->
    every_run (crun c rgp n (qi_TimeEvolve ex i dt l) (Some psi)) (fun r => exists psi' g, r = Ok (Some psi') /\ (forall x, x < 2 ^ n -> evolved ex i dt l psi x = (g * psi' x)%amp) /\
      (rgp = false -> g = 1%amp) /\ ((forall o, In o l -> unitary2 (factor ex i dt (ho_mats o 0))) -> anorm g = 1%amp)).
  Proof.
    intros Hf HL H0. assert (N1 : anorm (1 : K)%amp = 1%amp) by (unfold anorm; rewrite conj_1; ring). unfold qi_TimeEvolve. destruct (sr_eqb dt 0%amp) eqn:ED.
    - apply sr_eqb_ok in ED. subst dt. cbn [crun]. split; eauto. intros r ->. exists psi, 1%amp. split; auto. split; [|split; auto]. intros x _. transitivity (psi x); [|ring]. clear HL Hf. revert psi x.
      induction l as [|o l IH]; intros psi x; auto. rewrite evolved_cons, IH. replace (factor ex i 0%amp (ho_mats o 0)) with (midn : mat2 K). apply gate1_mid. rewrite <- H0. unfold factor, times. f_equal. f_equal; ring.
    - assert (W : Forall (wf0 n) (flat_map (qi_hop ex i dt) l)).
      { clear - HL. induction l as [|o l IH]; cbn [flat_map]. constructor. apply Forall_app. split. apply hop_wf. apply HL. now left. apply IH. intros a Ha. apply HL. now right. }
      destruct (crun_phase c rgp n _ Hf W psi) as [He Ha]. split; auto. intros r HR. destruct (Ha r HR) as [psi' [g [-> [HB [HP HN]]]]]. exists psi', g. split; auto. split; [|split; auto].
      + intros x Hx. rewrite <- HB by auto. clear - HL. revert psi x. induction l as [|o l IH]; intros psi x; auto. cbn [flat_map]. rewrite csem_app, evolved_cons. rewrite <- IH by (intros a Ha; apply HL; now right). apply evolved_ext. intros y. symmetry. apply (hop_sem n). apply HL. now left.
      + intros HU. apply HN. intros m t ph HI Em. apply in_flat_map in HI. destruct HI as [o [Ho HI]]. apply (hop_scal n ex i dt o (HL o Ho) (HU o Ho) m t ph HI Em).
  Qed.
  Lemma uniform_generic rgp n ex (i dt : K) t cs (H : N -> mat2 K) (psi : V) : fits c n -> NoDup (cs ++ [t]) -> (forall q, In q (cs ++ [t]) -> q < n) -> cs <> [] -> dt <> 0%amp ->
    every_run (crun c rgp n (qi_TimeEvolve ex i dt [mkHop t false true (fun k => times i (H k)) cs []]) (Some psi)) (fun r => exists psi', r = Ok (Some psi') /\
      eqv n psi' (fun x => gate1 always t (factor ex i dt (H (ctrl_value 0 cs x))) psi x)).
  Proof.
    intros Hf ND HQ NE Hd. assert (W : wfc n cs t) by (split; auto). unfold qi_TimeEvolve. destruct (sr_eqb dt 0%amp) eqn:ED; [apply sr_eqb_ok in ED; contradiction|]. cbn [flat_map]. rewrite app_nil_r. unfold qi_hop. cbn [ho_controls ho_toggles ho_uniform ho_target ho_mats].
    replace (toggle_x cs []) with ([] : circ) by now destruct cs. cbn [app]. rewrite app_nil_r. apply sem_run; auto. apply wf_UCSB; auto. intros x _. rewrite (sem_UCSB n) by auto. cbv beta. f_equal. unfold factor, mscale, times. f_equal. cbn [m00 m01 m10 m11]. f_equal; ring.
  Qed.
  Lemma exp_generic rgp n ex (i : K) cs q m (anti : bool) (psi : V) : fits c n -> NoDup (cs ++ [q]) -> (forall a, In a (cs ++ [q]) -> a < n) -> cs <> [] ->
    every_run (crun c rgp n (qi_ExpM ex i cs q m anti) (Some psi)) (fun r => exists psi', r = Ok (Some psi') /\
      eqv n psi' (gate1 (if anti then all_clear cs else all_set cs) q (ex (times i m)) psi)).
  Proof.
    intros Hf ND HQ NE. assert (W : wfc n cs q) by (split; auto). unfold qi_ExpM. fold (times i m). destruct anti; apply sem_run; auto. apply wf_MACMtrx; auto. intros x _. now apply (sem_MACMtrx n).
    constructor; [|constructor]. split; auto.
  Qed.
End P.
