(** Proofs about the arithmetic kernels (part 5: controlled multiplication and modular operations). *)
From Coq Require Import NArith ZArith List Bool Lia Ring.
From Verif Require Import Bits MFunctions SpecFunctions PFunctions MParFor PParFor MKernel PKernel Amp PAmp MEngine SpecState SpecEngine
  PLoop PApply PGates PGates2 PGates3 PCompose PProb PEngine MAlu SpecAlu PAlu PAlu2 PAlu3 PAlu4.
Import ListNotations.
Local Open Scope N_scope.

Lemma NoDup_app_disjoint {A} (a b : list A) : NoDup a -> NoDup b -> (forall x, In x a -> ~ In x b) -> NoDup (a ++ b).
Proof.
  induction a as [|x a IH]; intros Ha Hb H; cbn [app]; auto. inversion Ha; subst. constructor.
  - rewrite in_app_iff. intros [X|X]; [contradiction|]. apply (H x); auto. now left.
  - apply IH; auto. intros y Hy. apply H. now right.
Qed.

(** ** Partial control masks *)
Fixpoint pick (cs : list N) (x : N) : N :=
  match cs with
  | [] => 0
  | q :: t => N.b2n (N.testbit x q) + 2 * pick t x
  end.
Lemma pick_lt cs x : pick cs x < 2 ^ N.of_nat (length cs).
Proof.
  induction cs as [|q t IH]; cbn [pick length]. reflexivity. rewrite Nat2N.inj_succ, N.pow_succ_r'. destruct (N.testbit x q); cbn [N.b2n]; lia.
Qed.
Lemma pick_full cs x : pick cs x = 2 ^ N.of_nat (length cs) - 1 -> all_set cs x = true.
Proof.
  induction cs as [|q t IH]; intros H. reflexivity. cbn [pick length] in H. rewrite Nat2N.inj_succ, N.pow_succ_r' in H.
  pose proof (pick_lt t x) as L. unfold all_set. cbn [forallb]. destruct (N.testbit x q) eqn:E; cbn [N.b2n] in H; [|lia]. apply IH. lia.
Qed.
Lemma tb_part_mask cs x j : (forall q, In q cs -> q < 64) -> N.testbit (part_mask (pick cs x) cs) j = N.testbit x j && existsb (N.eqb j) cs.
Proof.
  induction cs as [|q t IH]; intros H; cbn [pick part_mask existsb]. now rewrite N.bits_0, andb_false_r.
  rewrite N.lor_spec, N.shiftr_div_pow2. change (2 ^ 1) with 2.
  replace ((N.b2n (N.testbit x q) + 2 * pick t x) / 2) with (pick t x).
  - rewrite IH by (intros; apply H; now right). rewrite (N.add_comm (N.b2n _)), N.testbit_0_r. rewrite pow2Ocl_small by (apply H; now left).
    destruct (N.eqb_spec j q) as [->|E].
    + destruct (N.testbit x q) eqn:F. now rewrite N.pow2_bits_true. now rewrite N.bits_0.
    + destruct (N.testbit x q); [rewrite N.pow2_bits_false by auto|rewrite N.bits_0]; reflexivity.
  - rewrite N.add_comm, N.mul_comm, N.div_add_l by lia. destruct (N.testbit x q); cbn [N.b2n]; rewrite N.div_small by lia; lia.
Qed.
Lemma existsb_In j cs : existsb (N.eqb j) cs = true <-> In j cs.
Proof. rewrite existsb_exists. split. intros [y [Hy E]]. apply N.eqb_eq in E. now subst. intros H. exists j. now rewrite N.eqb_refl. Qed.
Lemma part_split cs x : (forall q, In q cs -> q < 64) -> N.lor (N.ldiff x (or_pows cs)) (part_mask (pick cs x) cs) = x.
Proof.
  intros H. apply N.bits_inj. intros j. rewrite N.lor_spec, N.ldiff_spec, tb_part_mask by auto.
  destruct (N.testbit (or_pows cs) j) eqn:E.
  - apply or_pows_bit in E; auto. apply existsb_In in E. rewrite E. destruct (N.testbit x j); auto.
  - assert (existsb (N.eqb j) cs = false) as ->.
    { destruct (existsb _ _) eqn:F; auto. apply existsb_In in F. apply (or_pows_bit cs H) in F. congruence. }
    destruct (N.testbit x j); auto.
Qed.
Lemma part_outside cs j k : (forall q, In q cs -> q < 64) -> N.testbit (part_mask j cs) k = true -> In k cs.
Proof.
  revert j. induction cs as [|q t IH]; intros j H; cbn [part_mask]. now rewrite N.bits_0. rewrite N.lor_spec, orb_true_iff. intros [E|E].
  - left. destruct (N.testbit j 0); [|rewrite N.bits_0 in E; discriminate]. rewrite pow2Ocl_small in E by (apply H; now left).
    rewrite N.pow2_bits_eqb in E. now apply N.eqb_eq in E.
  - right. apply (IH (N.shiftr j 1)); auto. intros; apply H; now right.
Qed.
Lemma all_set_part cs j x : NoDup cs -> (forall q, In q cs -> q < 64) -> zero_at cs x -> all_set cs (N.lor x (part_mask j cs)) = true -> 2 ^ N.of_nat (length cs) - 1 <= j.
Proof.
  revert j x. induction cs as [|q t IH]; intros j x ND H64 Hz HA. cbn [length]. change (2 ^ N.of_nat 0) with 1. lia.
  inversion ND; subst. assert (Ht : forall p, In p t -> p < 64) by (intros; apply H64; now right).
  unfold all_set in HA. cbn [forallb part_mask] in HA. apply andb_true_iff in HA. destruct HA as [A1 A2].
  assert (Hb : N.testbit j 0 = true).
  { rewrite !N.lor_spec in A1. rewrite (Hz q) in A1 by now left. cbn [orb] in A1.
    destruct (N.testbit j 0); auto. rewrite N.bits_0 in A1. cbn [orb] in A1. apply part_outside in A1; auto; contradiction. }
  assert (HR : 2 ^ N.of_nat (length t) - 1 <= N.shiftr j 1).
  { apply (IH (N.shiftr j 1) x); auto. intros p Hp; apply Hz; now right. unfold all_set. apply forallb_forall. intros p Hp.
    rewrite forallb_forall in A2. specialize (A2 p Hp). cbn beta in A2. rewrite N.lor_spec. rewrite !N.lor_spec in A2. rewrite Hb, pow2Ocl_small in A2 by (apply H64; now left).
    cbv iota in A2. rewrite N.pow2_bits_false in A2 by (intros ->; contradiction). exact A2. }
  cbn [length]. rewrite Nat2N.inj_succ, N.pow_succ_r'. rewrite N.shiftr_div_pow2 in HR. change (2 ^ 1) with 2 in HR.
  pose proof (N.div_mod j 2 ltac:(lia)) as D. rewrite <- N.bit0_mod, Hb in D. cbn [N.b2n] in D. set (h := j / 2) in *. clearbody h. set (M := 2 ^ N.of_nat (length t)) in *. clearbody M. lia.
Qed.

Section S.
  Context {K : StarRing}.
  Add Ring KrE : (sr_ring K).
  Variable c : cfg.
  Local Notation V := (mem K).

  Lemma exec_wrs (l : list (N * K)) : forall (m : V) a, In a (map fst l) -> In (a, exec (wrs l) m a) l.
  Proof.
    induction l as [|[b y] t IH]; intros m a Ha; cbn [map fst] in Ha. destruct Ha.
    cbn [wrs exec]. destruct (in_dec N.eq_dec a (map fst t)) as [Hi|Hi]. right. now apply IH.
    destruct Ha as [->|Ha]; [|contradiction]. left. f_equal.
    assert (HE : forall (l2 : list (N * K)) (m2 : V), ~ In a (map fst l2) -> exec (wrs l2) m2 a = m2 a).
    { induction l2 as [|[b2 y2] t2 IH2]; intros m2 Hn; cbn [wrs exec]; auto. rewrite IH2 by (intros X; apply Hn; now right). apply mset_neq. intros ->. apply Hn. now left. }
    rewrite HE by auto. now rewrite mset_eq.
  Qed.
  Lemma within_wrs (l : list (N * K)) (F : N -> Prop) : (forall a, In a (map fst l) -> F a) -> within F (wrs l).
  Proof.
    induction l as [|[b y] t IH]; intros H; cbn [wrs]. exact I. split. apply H. now left. apply IH. intros a Ha. apply H. now right.
  Qed.
  Lemma runs_wrs (P : N -> Prop) (l : N -> list (N * K)) (body : N -> prog K) (m m' : V) : (forall i, P i -> body i = wrs (l i)) ->
    (forall i j a, P i -> P j -> In a (map fst (l i)) -> In a (map fst (l j)) -> i = j) -> runs P body m m' ->
    (forall i a, P i -> In a (map fst (l i)) -> In (a, m' a) (l i)) /\ (forall a, (forall i, P i -> ~ In a (map fst (l i))) -> m' a = m a).
  Proof.
    intros Hb Hd HR. apply (runs_local P (fun i a => In a (map fst (l i)))) in HR; auto.
    - destruct HR as [A B]. split; auto. intros i a Hi Ha. rewrite (A i a) by auto. rewrite Hb by auto. now apply exec_wrs.
    - intros i Hi. rewrite Hb by auto. now apply within_wrs.
  Qed.

  Lemma untouched_addr cs (psi : V) x a y : (length cs < 64)%nat -> NoDup cs -> (forall q, In q cs -> q < 64) -> zero_at cs x -> (1 <= length cs)%nat ->
    In (a, y) (untouched cs psi x) -> y = psi a /\ N.ldiff a (or_pows cs) = x /\ all_set cs a = false.
  Proof.
    intros Hk ND H64 Hz H1 HI. unfold untouched in HI. destruct HI as [E|HI].
    - injection E as <- <-. split; auto. split.
      + apply N.bits_inj. intros j. rewrite N.ldiff_spec. destruct (N.testbit (or_pows cs) j) eqn:E; [|now rewrite andb_true_r].
        apply or_pows_bit in E; auto. now rewrite (Hz j E).
      + destruct cs as [|q t]; [cbn in H1; lia|]. unfold all_set. cbn [forallb]. rewrite (Hz q) by now left. reflexivity.
    - apply in_map_iff in HI. destruct HI as [j [E Hj]]. injection E as <- <-. split; auto. apply iota_In in Hj.
      rewrite pow2MaskOcl_small in Hj by lia. rewrite N2Nat.id in Hj. split.
      + apply N.bits_inj. intros k. rewrite N.ldiff_spec, N.lor_spec. destruct (N.testbit (or_pows cs) k) eqn:E.
        * apply or_pows_bit in E; auto. rewrite (Hz k E). now rewrite andb_false_r.
        * rewrite andb_true_r. destruct (N.testbit (part_mask j cs) k) eqn:F; [|apply orb_false_r]. apply part_outside in F; auto. apply (or_pows_bit cs H64) in F. congruence.
      + destruct (all_set cs _) eqn:E; auto. apply all_set_part in E; auto. set (M := 2 ^ N.of_nat (length cs)) in *. clearbody M. lia.
  Qed.
  Lemma untouched_all cs (psi : V) x : (length cs < 64)%nat -> (forall q, In q cs -> q < 64) -> all_set cs x = false ->
    In x (map fst (untouched cs psi (N.ldiff x (or_pows cs)))).
  Proof.
    intros Hk H64 HA. unfold untouched. cbn [map fst]. pose proof (part_split cs x H64) as E. destruct (N.eq_dec (pick cs x) 0) as [Z|Z].
    - left. rewrite Z in E. rewrite <- E at 2. symmetry. clear. set (y := N.ldiff x (or_pows cs)). clearbody y.
      assert (H : forall l, part_mask 0 l = 0) by (induction l as [|q t IH]; cbn [part_mask]; auto). now rewrite H, N.lor_0_r.
    - right. rewrite map_map. cbn [fst]. apply in_map_iff. exists (pick cs x). split; auto. apply iota_In.
      rewrite pow2MaskOcl_small by lia. rewrite N2Nat.id. pose proof (pick_lt cs x) as L.
      assert (pick cs x <> 2 ^ N.of_nat (length cs) - 1) by (intros F; apply pick_full in F; congruence).
      set (M := 2 ^ N.of_nat (length cs)) in *. clearbody M. lia.
  Qed.

  (** ** Controlled scatter and gather loops.  [D] does not depend on the controls. *)
  Definition ctl_dom (n : N) (cs : list N) (D : N -> bool) (x : N) : Prop := x < 2 ^ n /\ zero_at cs x /\ D x = true.
  Record ctl_ok (n : N) (cs : list N) (D : N -> bool) (f : N -> N) : Prop := {
    co_nd : NoDup cs;
    co_lt : forall q, In q cs -> q < n;
    co_n : n < 64;
    co_ne : cs <> [];
    co_D : forall x, D (N.ldiff x (or_pows cs)) = D x;
    co_f : forall x, x < 2 ^ n -> D x = true -> f x < 2 ^ n;
    co_inj : forall x y, x < 2 ^ n -> y < 2 ^ n -> D x = true -> D y = true -> f x = f y -> x = y;
    co_all : forall x, D x = true -> all_set cs (f x) = all_set cs x
  }.
  Lemma nodup_bound (n : N) (cs : list N) : NoDup cs -> (forall q, In q cs -> q < n) -> (length cs <= N.to_nat n)%nat.
  Proof.
    intros ND H. rewrite <- (seq_length (N.to_nat n) 0). rewrite <- (map_length N.of_nat (seq 0 (N.to_nat n))).
    apply NoDup_incl_length; auto. intros q Hq. apply in_map_iff. exists (N.to_nat q). split. apply N2Nat.id. apply in_seq. specialize (H q Hq). lia.
  Qed.
  Section Ctl.
    Variables (n : N) (cs : list N) (D : N -> bool) (f : N -> N) (psi m0 m' : V).
    Hypothesis OK : ctl_ok n cs D f.
    Hypothesis Hz : forall x, x < 2 ^ n -> m0 x = 0%amp.
    Local Notation cm := (or_pows cs).

    Lemma cs64 q : In q cs -> q < 64.
    Proof. intros Hq. apply (co_lt _ _ _ _ OK) in Hq. pose proof (co_n _ _ _ _ OK). lia. Qed.
    Lemma cs_len : (length cs < 64)%nat.
    Proof. pose proof (nodup_bound n cs (co_nd _ _ _ _ OK) (co_lt _ _ _ _ OK)). pose proof (co_n _ _ _ _ OK). lia. Qed.
    Lemma cs_pos : (1 <= length cs)%nat.
    Proof. pose proof (co_ne _ _ _ _ OK). destruct cs; [contradiction|cbn; lia]. Qed.
    Lemma cm_lt x : x < 2 ^ n -> N.lor x cm < 2 ^ n.
    Proof. intros Hx. apply lor_lt_pow2; auto. apply or_pows_lt; [apply (co_lt _ _ _ _ OK)|pose proof (co_n _ _ _ _ OK); lia]. Qed.
    Lemma D_lor x : D x = true -> D (N.lor x cm) = true.
    Proof.
      intros H. rewrite <- (co_D _ _ _ _ OK) in H |- *. replace (N.ldiff (N.lor x cm) cm) with (N.ldiff x cm); auto.
      apply N.bits_inj. intros j. rewrite !N.ldiff_spec, N.lor_spec. destruct (N.testbit x j), (N.testbit cm j); auto.
    Qed.
    Lemma dom_split x : x < 2 ^ n -> D x = true -> ctl_dom n cs D (N.ldiff x cm).
    Proof. intros Hx Dx. split. now apply ldiff_lt. split. apply ldiff_zero. apply cs64. now rewrite (co_D _ _ _ _ OK). Qed.

    Lemma ctl_scatter (body : N -> prog K) :
      (forall x, ctl_dom n cs D x -> body x = wrs ((f (N.lor x cm), psi (N.lor x cm)) :: untouched cs psi x)) ->
      runs (ctl_dom n cs D) body m0 m' -> basis_map n D (controlled cs f) (fun _ => 1%amp) psi m'.
    Proof.
      intros Hb HR. pose proof cs64 as H64. pose proof cs_len as HK. pose proof cs_pos as HP. pose proof (co_nd _ _ _ _ OK) as ND.
      assert (Hadr : forall x a, ctl_dom n cs D x -> In a (map fst ((f (N.lor x cm), psi (N.lor x cm)) :: untouched cs psi x)) ->
                a = f (N.lor x cm) /\ all_set cs a = true \/ N.ldiff a cm = x /\ all_set cs a = false).
      { intros x a [Hx [Hzx Dx]] HA. cbn [map fst In] in HA. destruct HA as [<-|Ha].
        - left. split; auto. rewrite (co_all _ _ _ _ OK) by now apply D_lor. now apply all_set_lor.
        - right. apply in_map_iff in Ha. destruct Ha as [[b y] [<- Ha]]. apply untouched_addr in Ha; auto. tauto. }
      assert (Hval : forall x a y, ctl_dom n cs D x -> In (a, y) ((f (N.lor x cm), psi (N.lor x cm)) :: untouched cs psi x) ->
                y = if all_set cs a then psi (N.lor x cm) else psi a).
      { intros x a y [Hx [Hzx Dx]] [E|Ha].
        - injection E as <- <-. rewrite (co_all _ _ _ _ OK) by now apply D_lor. now rewrite all_set_lor.
        - apply untouched_addr in Ha; auto. destruct Ha as [-> [_ ->]]. auto. }
      apply (runs_wrs _ _ _ _ _ Hb) in HR.
      - destruct HR as [A B]. split; [|split].
        + intros x y Hx Hy Dx Dy. unfold controlled. destruct (all_set cs x) eqn:Ex, (all_set cs y) eqn:Ey; auto.
          * now apply (co_inj _ _ _ _ OK).
          * intros E. rewrite <- E, (co_all _ _ _ _ OK) in Ey by auto. congruence.
          * intros E. rewrite E, (co_all _ _ _ _ OK) in Ex by auto. congruence.
        + intros x Hx Dx. pose proof (dom_split x Hx Dx) as HD. unfold controlled. destruct (all_set cs x) eqn:Ex.
          * split. now apply (co_f _ _ _ _ OK). pose proof (set_split cs x H64 Ex) as ES.
            assert (HA : In (f x) (map fst ((f (N.lor (N.ldiff x cm) cm), psi (N.lor (N.ldiff x cm) cm)) :: untouched cs psi (N.ldiff x cm)))) by (left; cbn [fst]; now rewrite ES).
            apply (A _ _ HD) in HA. apply (Hval _ _ _ HD) in HA. rewrite HA, (co_all _ _ _ _ OK), Ex, ES by auto. ring.
          * split; auto. assert (HA : In x (map fst ((f (N.lor (N.ldiff x cm) cm), psi (N.lor (N.ldiff x cm) cm)) :: untouched cs psi (N.ldiff x cm)))) by (right; now apply untouched_all).
            apply (A _ _ HD) in HA. apply (Hval _ _ _ HD) in HA. rewrite HA, Ex. ring.
        + intros y Hy Hn. rewrite B. now apply Hz. intros i Hi Ha. apply (Hadr i y Hi) in Ha. destruct Hi as [Hi [Hzi Di]]. destruct Ha as [[-> Ea]|[Ea Eb]].
          * apply (Hn (N.lor i cm)). now apply cm_lt. now apply D_lor. unfold controlled. now rewrite all_set_lor.
          * apply (Hn y); auto. rewrite <- (co_D _ _ _ _ OK), Ea. auto. unfold controlled. now rewrite Eb.
      - intros i j a Hi Hj Ai Aj. apply (Hadr _ _ Hi) in Ai. apply (Hadr _ _ Hj) in Aj. destruct Hi as [Hi [Hzi Di]], Hj as [Hj [Hzj Dj]].
        destruct Ai as [[-> Ai]|[Ei Ai]], Aj as [[Ej Aj]|[Ej Aj]]; try congruence.
        apply (co_inj _ _ _ _ OK) in Ej; auto using cm_lt, D_lor. rewrite <- (lor_ldiff cs i), <- (lor_ldiff cs j) by auto. now rewrite Ej.
    Qed.
    Lemma ctl_gather (body : N -> prog K) :
      (forall x, ctl_dom n cs D x -> body x = wrs ((N.lor x cm, psi (f (N.lor x cm))) :: untouched cs psi x)) ->
      runs (ctl_dom n cs D) body m0 m' -> pulled_back n D (controlled cs f) psi m'.
    Proof.
      intros Hb HR. pose proof cs64 as H64. pose proof cs_len as HK. pose proof cs_pos as HP. pose proof (co_nd _ _ _ _ OK) as ND.
      assert (Hadr : forall x a y, ctl_dom n cs D x -> In (a, y) ((N.lor x cm, psi (f (N.lor x cm))) :: untouched cs psi x) ->
                N.ldiff a cm = x /\ y = psi (controlled cs f a)).
      { intros x a y [Hx [Hzx Dx]] [E|Ha].
        - injection E as <- <-. split. now apply lor_ldiff. unfold controlled. now rewrite all_set_lor.
        - apply untouched_addr in Ha; auto. destruct Ha as [-> [E1 E2]]. split; auto. unfold controlled. now rewrite E2. }
      apply (runs_wrs _ _ _ _ _ Hb) in HR.
      - destruct HR as [A B]. intros x Hx. destruct (D x) eqn:Dx.
        + pose proof (dom_split x Hx Dx) as HD.
          assert (HA : In x (map fst ((N.lor (N.ldiff x cm) cm, psi (f (N.lor (N.ldiff x cm) cm))) :: untouched cs psi (N.ldiff x cm)))).
          { destruct (all_set cs x) eqn:Ex. left. cbn [fst]. now apply set_split. right. now apply untouched_all. }
          apply (A _ _ HD) in HA. now apply (Hadr _ _ _ HD) in HA.
        + rewrite B. now apply Hz. intros i Hi Ha. apply in_map_iff in Ha. destruct Ha as [[a y] [E Ha]]. cbn [fst] in E. subst a.
          apply (Hadr _ _ _ Hi) in Ha. destruct Ha as [Ea _]. destruct Hi as [_ [_ Di]]. rewrite <- Ea, (co_D _ _ _ _ OK) in Di. congruence.
      - intros i j a Hi Hj Ai Aj. apply in_map_iff in Ai. apply in_map_iff in Aj. destruct Ai as [[a1 y1] [E1 Ai]], Aj as [[a2 y2] [E2 Aj]]. cbn [fst] in *. subst a1 a2.
        apply (Hadr _ _ _ Hi) in Ai. apply (Hadr _ _ _ Hj) in Aj. destruct Ai as [<- _], Aj as [<- _]. auto.
    Qed.
  End Ctl.

  (** ** Loop domain *)
  Lemma skip_dom n cs o len (body : N -> prog K) (m m' : V) : fits c n -> o + len <= n -> NoDup cs -> (forall q, In q cs -> q < n /\ outside_reg q o len) ->
    loop_mask c (2 ^ n) (skip_powers cs o len) body m m' -> runs (ctl_dom n cs (reg_is o len 0)) body m m'.
  Proof.
    intros Hf Ho ND Hc HL. assert (Hn : n < 64) by apply Hf. unfold skip_powers in HL. rewrite <- (map_map (fun i => o + i) pow2Ocl), <- map_app in HL.
    set (ps := cs ++ map (fun i => o + i) (iota 0 (N.to_nat len))) in *.
    assert (Hps : forall q, In q ps -> q < n).
    { intros q Hq. apply in_app_or in Hq. destruct Hq as [Hq|Hq]. now apply Hc. apply in_map_iff in Hq. destruct Hq as [i [<- Hi]]. apply iota_In in Hi. lia. }
    assert (NDp : NoDup ps).
    { apply NoDup_app_disjoint; auto. apply map_NoDup_in; [|apply iota_NoDup]. intros; lia.
      intros q Hq H2. apply in_map_iff in H2. destruct H2 as [i [<- Hi]]. apply iota_In in Hi. apply Hc in Hq. unfold outside_reg in Hq. lia. }
    apply (loop_ctl c n ps) in HL; auto. eapply runs_iff; [|exact HL]. intros x. cbn beta. unfold ctl_dom, zero_at. rewrite reg_zero. split.
    - intros [Hx HZ]. split; auto. split; [intros q Hq|intros j Hj]; apply HZ; apply in_or_app; auto.
      right. apply in_map_iff. exists (j - o). split. lia. apply iota_In. lia.
    - intros [Hx [H1 H2]]. split; auto. intros q Hq. apply in_app_or in Hq. destruct Hq as [Hq|Hq]; auto. apply in_map_iff in Hq. destruct Hq as [i [<- Hi]].
      apply iota_In in Hi. apply H2. lia.
  Qed.
  Lemma reg_ldiff o len v cs x : (forall q, In q cs -> q < 64 /\ outside_reg q o len) -> reg_is o len v (N.ldiff x (or_pows cs)) = reg_is o len v x.
  Proof.
    intros H. unfold reg_is. f_equal. apply N.bits_inj. intros j. rewrite !tb_get_reg, N.ldiff_spec. destruct (N.ltb_spec j len); auto. cbn [andb].
    destruct (N.testbit (or_pows cs) (j + o)) eqn:E; [|now rewrite andb_true_r]. apply or_pows_bit in E; [|intros q Hq; now apply H]. apply H in E. unfold outside_reg in E. lia.
  Qed.
  Lemma put_reg_lor x m s len v : v < 2 ^ len -> (forall j, N.testbit m j = true -> outside_reg j s len) -> put_reg (N.lor x m) s len v = N.lor (put_reg x s len v) m.
  Proof.
    intros Hv H. apply N.bits_inj. intros j. rewrite N.lor_spec, !tb_put_reg, N.lor_spec by auto. bcases; auto.
    destruct (N.testbit m j) eqn:E; [|now rewrite orb_false_r]. apply H in E. unfold outside_reg in E. lia.
  Qed.
  Lemma lor_ldiff_same y m : N.lor (N.ldiff y m) m = N.lor y m.
  Proof. apply N.bits_inj. intros j. rewrite !N.lor_spec, N.ldiff_spec. destruct (N.testbit y j), (N.testbit m j); auto. Qed.

  (** ** CMULDIV *)
  Lemma throw_ok n cs : NoDup cs -> (forall q, In q cs -> q < n) -> throwIfQbIdArrayIsBad cs n = false.
  Proof. intros ND H. apply throwIf_ok. split; auto. now apply Forall_forall. Qed.
  Lemma mul_ctl_ok n m s car len cs : n < 64 -> muldiv_ok n m s car len -> ctl_regs n cs s car len -> ctl_ok n cs (reg_is car len 0) (mul_regs s car len m).
  Proof.
    intros Hn [Hs [Hc [Hd Hm]]] [Hne [ND Hcs]]. constructor; auto.
    - intros q Hq. now apply Hcs.
    - intros x. apply reg_ldiff. intros q Hq. apply Hcs in Hq. split; [lia|tauto].
    - intros x Hx Dx. apply mul_regs_lt; auto. lia.
    - intros x y Hx Hy Dx Dy. apply mul_regs_inj; auto. apply reg_is_true in Dx. apply reg_is_true in Dy. congruence.
    - intros x _. unfold mul_regs. pose proof (get_reg_lt x s len) as Hg. rewrite !all_set_put; auto using mod_lt_pow2. intros q Hq. now apply Hcs. apply mul_hi; auto; lia. intros q Hq. now apply Hcs.
  Qed.
  Lemma mul_ctl_res n m s car len cs x : n < 64 -> muldiv_ok n m s car len -> ctl_regs n cs s car len -> x < 2 ^ n ->
    N.lor (mul_res n m s car len (or_pows cs) x) (or_pows cs) = mul_regs s car len m (N.lor x (or_pows cs)).
  Proof.
    intros Hn [Hs [Hc [Hd Hm]]] [Hne [ND Hcs]] Hx. assert (H64 : forall q, In q cs -> q < 64) by (intros q Hq; apply Hcs in Hq; lia).
    assert (Ho : forall j, N.testbit (or_pows cs) j = true -> outside_reg j s len /\ outside_reg j car len).
    { intros j Hj. apply or_pows_bit in Hj; auto. now apply Hcs. }
    rewrite mul_res_ok, lor_ldiff_same by (auto; lia). unfold mul_regs. rewrite get_reg_lor by (intros; now apply Ho).
    pose proof (get_reg_lt x s len) as Hg. pose proof (mul_hi len _ m Hg (proj2 Hm)).
    rewrite !put_reg_lor; auto using mod_lt_pow2. intros; now apply Ho. intros; now apply Ho.
  Qed.
  Theorem cmuldiv_fwd n m s car len cs (psi : V) r : fits c n -> muldiv_ok n m s car len -> ctl_regs n cs s car len ->
    CMULDIV c false n m s car len cs (Some psi) r ->
    exists psi', r = Ok (Some psi') /\ basis_map n (reg_is car len 0) (controlled cs (mul_regs s car len m)) (fun _ => 1%amp) psi psi'.
  Proof.
    intros Hf Hm Hc HR. assert (Hn : n < 64) by apply Hf. pose proof Hm as [Hs [Hca _]]. pose proof Hc as [_ [ND Hcs]]. unfold CMULDIV in HR.
    rewrite !range_ok, throw_ok in HR by (auto; intros q Hq; now apply Hcs). cbn [orb] in HR. destruct HR as [m0 [m' [H0 [HL ->]]]]. exists m'. split; auto.
    apply skip_dom in HL; auto; [|intros q Hq; split; now apply Hcs].
    refine (ctl_scatter n cs _ _ psi m0 m' (mul_ctl_ok n m s car len cs Hn Hm Hc) (new_zero_ok c n m0 Hf H0) _ _ HL).
    intros x [Hx [Hzx Dx]]. cbn zeta. now rewrite mul_ctl_res.
  Qed.
  Theorem cmuldiv_inv n m s car len cs (psi : V) r : fits c n -> muldiv_ok n m s car len -> ctl_regs n cs s car len ->
    CMULDIV c true n m s car len cs (Some psi) r ->
    exists psi', r = Ok (Some psi') /\ pulled_back n (reg_is car len 0) (controlled cs (mul_regs s car len m)) psi psi'.
  Proof.
    intros Hf Hm Hc HR. assert (Hn : n < 64) by apply Hf. pose proof Hm as [Hs [Hca _]]. pose proof Hc as [_ [ND Hcs]]. unfold CMULDIV in HR.
    rewrite !range_ok, throw_ok in HR by (auto; intros q Hq; now apply Hcs). cbn [orb] in HR. destruct HR as [m0 [m' [H0 [HL ->]]]]. exists m'. split; auto.
    apply skip_dom in HL; auto; [|intros q Hq; split; now apply Hcs].
    refine (ctl_gather n cs _ _ psi m0 m' (mul_ctl_ok n m s car len cs Hn Hm Hc) (new_zero_ok c n m0 Hf H0) _ _ HL).
    intros x [Hx [Hzx Dx]]. cbn zeta. now rewrite mul_ctl_res.
  Qed.
  Lemma cmuldiv_any inv n m s car len cs (v : option V) : fits c n -> exists r, CMULDIV c inv n m s car len cs v r.
  Proof. intros Hf. unfold CMULDIV. destruct (_ || _); [eauto|]. destruct v as [psi|]; [|eauto]. cbv zeta. now apply mask_zero. Qed.

  (** ** CModNOut *)
  Lemma mod_ctl_ok n N0 s o len h cs : n < 64 -> mod_ok n N0 s o len -> ctl_regs n cs s o len -> (forall u, u < 2 ^ len -> h u < 2 ^ len) ->
    ctl_ok n cs (reg_is o len 0) (out_reg s o len h).
  Proof.
    intros Hn [Hs [Ho [Hd HN]]] [Hne [ND Hcs]] Hh. constructor; auto.
    - intros q Hq. now apply Hcs.
    - intros x. apply reg_ldiff. intros q Hq. apply Hcs in Hq. split; [lia|tauto].
    - intros x Hx Dx. now apply out_reg_lt.
    - intros x y Hx Hy Dx Dy. apply out_reg_inj; auto. apply reg_is_true in Dx. apply reg_is_true in Dy. congruence.
    - intros x _. unfold out_reg. apply all_set_put. apply Hh, get_reg_lt. intros q Hq. now apply Hcs.
  Qed.
  Lemma mod_ctl_res n N0 s o len kf cs x : n < 64 -> mod_ok n N0 s o len -> ctl_regs n cs s o len -> x < 2 ^ n -> reg_is o len 0 x = true ->
    N.lor (N.lor (N.lor (N.land x (rmask s len)) (shl64 (kf (get_reg x s len) mod w64 N0) o))
      (N.land x (N.lxor (2 ^ n - 1) (N.lor (N.lor (rmask s len) (rmask o len)) (or_pows cs))))) (or_pows cs) = out_reg s o len (fun u => kf u mod N0) (N.lor x (or_pows cs)).
  Proof.
    intros Hn [Hs [Ho [Hd HN]]] [Hne [ND Hcs]] Hx Dx. assert (H64 : forall q, In q cs -> q < 64) by (intros q Hq; apply Hcs in Hq; lia).
    assert (Hout : forall j, N.testbit (or_pows cs) j = true -> outside_reg j s len /\ outside_reg j o len).
    { intros j Hj. apply or_pows_bit in Hj; auto. now apply Hcs. }
    assert (HW : w64 N0 = N0) by (unfold w64; apply N.mod_small; pose proof (pow2_lt_mono len 64 ltac:(lia)); lia).
    rewrite HW. unfold rmask at 3. pose proof (pow2_pos len).
    rewrite (out_ok n s o len), lor_ldiff_same; auto; [|now apply mod_lt_len|rewrite lenMask by lia; lia].
    unfold out_reg. rewrite get_reg_lor by (intros; now apply Hout). symmetry. apply put_reg_lor. now apply mod_lt_len. intros; now apply Hout.
  Qed.
  Theorem cmodnout_fwd kf n N0 s o len cs (psi : V) r : fits c n -> mod_ok n N0 s o len -> ctl_regs n cs s o len ->
    CModNOut c kf n N0 s o len cs false (Some psi) r ->
    exists psi', r = Ok (Some psi') /\ basis_map n (reg_is o len 0) (controlled cs (out_reg s o len (fun u => kf u mod N0))) (fun _ => 1%amp) psi psi'.
  Proof.
    intros Hf Hm Hc HR. assert (Hn : n < 64) by apply Hf. pose proof Hm as [Hs [Ho [Hd HN]]]. pose proof Hc as [_ [ND Hcs]]. unfold CModNOut in HR.
    rewrite !range_ok, throw_ok in HR by (auto; intros q Hq; now apply Hcs). cbn [orb] in HR. destruct HR as [m0 [m' [H0 [HL ->]]]]. exists m'. split; auto.
    apply skip_dom in HL; auto; [|intros q Hq; split; now apply Hcs].
    refine (ctl_scatter n cs _ _ psi m0 m' (mod_ctl_ok n N0 s o len (fun u => kf u mod N0) cs Hn Hm Hc (fun u _ => mod_lt_len _ _ _ HN)) (new_zero_ok c n m0 Hf H0) _ _ HL).
    intros x [Hx [Hzx Dx]]. cbn zeta. change (shl64 (pow2Ocl len - 1) s) with (rmask s len). change (shl64 (pow2Ocl len - 1) o) with (rmask o len).
    rewrite field_ok by lia. now rewrite mod_ctl_res.
  Qed.
  Theorem cmodnout_inv kf n N0 s o len cs (psi : V) r : fits c n -> mod_ok n N0 s o len -> ctl_regs n cs s o len ->
    CModNOut c kf n N0 s o len cs true (Some psi) r ->
    exists psi', r = Ok (Some psi') /\ pulled_back n (reg_is o len 0) (controlled cs (out_reg s o len (fun u => kf u mod N0))) psi psi'.
  Proof.
    intros Hf Hm Hc HR. assert (Hn : n < 64) by apply Hf. pose proof Hm as [Hs [Ho [Hd HN]]]. pose proof Hc as [_ [ND Hcs]]. unfold CModNOut in HR.
    rewrite !range_ok, throw_ok in HR by (auto; intros q Hq; now apply Hcs). cbn [orb] in HR. destruct HR as [m0 [m' [H0 [HL ->]]]]. exists m'. split; auto.
    apply skip_dom in HL; auto; [|intros q Hq; split; now apply Hcs].
    refine (ctl_gather n cs _ _ psi m0 m' (mod_ctl_ok n N0 s o len (fun u => kf u mod N0) cs Hn Hm Hc (fun u _ => mod_lt_len _ _ _ HN)) (new_zero_ok c n m0 Hf H0) _ _ HL).
    intros x [Hx [Hzx Dx]]. cbn zeta. change (shl64 (pow2Ocl len - 1) s) with (rmask s len). change (shl64 (pow2Ocl len - 1) o) with (rmask o len).
    rewrite field_ok by lia. now rewrite mod_ctl_res.
  Qed.
  Lemma cmodnout_any kf inv n N0 s o len cs (v : option V) : fits c n -> exists r, CModNOut c kf n N0 s o len cs inv v r.
  Proof. intros Hf. unfold CModNOut. destruct (_ || _); [eauto|]. destruct v as [psi|]; [|eauto]. cbv zeta. now apply mask_zero. Qed.
End S.
