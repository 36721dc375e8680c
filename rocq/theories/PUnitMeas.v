(** Measurements of QUnit; proofs of PropMeas.v. *)
From Coq Require Import NArith List Bool Reals Lra.
From Verif Require Import Amp PAmp AmpC AmpC2 AmpQ8 AmpQ8b SpecState MShard MUnit SpecUnit SpecUnit2 PGates2 PUnit3 PUnit5 PUnit10 PUnit14 PUnit20 PUnit22 PUnit23 PUnit24 PUnitBug PUnitProg SpecUnit3 PUnit25 PUnit26.
Import ListNotations.
Local Open Scope N_scope.

(** The complex numbers: 1 / sqrt(p). *)
Definition nrmC (p : CC) : CC := ((/ sqrt (fst p))%R, 0%R).
Lemma nrmC_ok : normalizes nrmC.
Proof.
  intros l f. cbn zeta. intros H. pose proof (sum_im l f) as I. pose proof (sum_re_nonneg l f) as P. rewrite <- sum_re in P. rewrite c_anorm. unfold nrmC. destruct (asum (fun x => anorm (f x)) l) as [r i]. cbn [fst snd] in *. subst i.
  assert (Hr : (0 < r)%R). { destruct P as [P|P]; [exact P|]. destruct H. rewrite <- P. reflexivity. }
  change (c_mul ((/ sqrt r * / sqrt r + 0 * 0)%R, 0%R) (r, 0%R) = (1%R, 0%R)). unfold c_mul. cbn [fst snd]. pose proof (sqrt_lt_R0 r Hr) as S. assert (E : ((/ sqrt r * / sqrt r) * r = 1)%R) by (rewrite <- (sqrt_sqrt r) at 3 by lra; field; lra). f_equal; [|ring].
  rewrite <- E. ring.
Qed.
(** Examples: measurements after GetAmplitude; a measurement while a gate is waiting. *)
Definition bellM : list (@mcall CC) := [MCall (CGate (UH 0)); MCall (CGate (UCtrl [(0, true)] (mkMat 0 1 1 0)%amp 1)); MCall (CGetAmplitude 0); MMeasure 0; MMeasure 1; MCall (CGate (UH 1)); MMeasure 1].
Lemma bellM_proper : Forall (proper_mcall 2) bellM.
Proof.
  assert (X : proper_gate (K := CC) 2 (UCtrl [(0, true)] (mkMat 0 1 1 0)%amp 1)).
  { split; [repeat constructor; intros []|]. split; [intros cv [<-|[]]; split; [reflexivity|discriminate]|]. split; [reflexivity|]. unfold unitary2. apply mat2_eq; cbn; unfold c_add, c_mul, c_conj; cbn; f_equal; ring. }
  repeat (apply Forall_cons; [first [exact X|reflexivity]|]). apply Forall_nil.
Qed.
Lemma bellM_first : first_mcalls cxCC [] bellM.
Proof. cbn. repeat split; auto. Qed.
(** Example: a qubit is measured while a gate on the others is waiting. *)
Definition waitM : list (@mcall CC) := [MCall (CGate (UH 0)); MCall (CGate (UH 2)); MCall (CGate (UCtrl [(0, true)] (mkMat 1 0 0 (- (1)))%amp 1)); MMeasure 2; MCall (CGate (UH 1))].
Lemma waitM_proper : Forall (proper_mcall 3) waitM.
Proof.
  assert (X : proper_gate (K := CC) 3 (UCtrl [(0, true)] (mkMat 1 0 0 (- (1)))%amp 1)).
  { split; [repeat constructor; intros []|]. split; [intros cv [<-|[]]; split; [reflexivity|discriminate]|]. split; [reflexivity|]. unfold unitary2. apply mat2_eq; cbn; unfold c_add, c_mul, c_conj, c_opp; cbn; f_equal; ring. }
  repeat (apply Forall_cons; [first [exact X|reflexivity]|]). apply Forall_nil.
Qed.
Section W.
  Context (K : StarRing) (cx : Cplx K) (D : positive (K := K)).
  Add Ring KrCQ : (sr_ring K).
  Lemma sub_self : (1 - 1 = 0 :> K)%amp. Proof. ring. Qed.
  Lemma half_chance r : chance 1 0 r (ideal cx (UH 0) (ket 0)) <> 0%amp.
  Proof.
    intros E. pose proof (cx_h_sq _ cx) as H. destruct D as (D1 & _). apply D1. rewrite <- H. transitivity (anorm (cx_h cx) + anorm (cx_h cx))%amp; [unfold anorm; rewrite cx_h_conj; reflexivity|].
    assert (Z : anorm (cx_h cx) = 0%amp). { rewrite <- E. unfold chance.
      assert (Z0 : ideal cx (UH 0) (ket 0) 0 = cx_h cx) by (cbn; ring). assert (Z1 : ideal cx (UH 0) (ket 0) 1 = cx_h cx) by (cbn; ring).
      change (basis 1) with [0; 1]. cbn [asum]. change (N.testbit 0 0) with false. change (N.testbit 1 0) with true. rewrite Z0, Z1. destruct r; cbn [eqb]; ring. }
    rewrite Z. ring.
  Qed.
  Definition waitS : N -> K := ideal cx (UCtrl [(0, true)] (mkMat 1 0 0 (- (1)))%amp 1) (ideal cx (UH 2) (ideal cx (UH 0) (ket 0))).
  Lemma waitS_open (r : bool) : undecided 3 0 (collapse 2 r waitS).
  Proof.
    assert (H : (cx_h cx * cx_h cx)%amp <> 0%amp). { intros E. pose proof (cx_h_sq _ cx) as H. rewrite E in H. destruct D as (D1 & _). apply D1. rewrite <- H. ring. }
    intros v. exists ((if v then 1 else 0) + (if r then 4 else 0)). split; [destruct v, r; reflexivity|]. split; [destruct v, r; reflexivity|]. intros E. apply H. rewrite <- E. unfold collapse, waitS. cbn [ideal]. destruct v, r; cbn; ring.
  Qed.
End W.
Lemma waitM_safe rs : safe_mcalls cxCC 3 (fun _ _ => False) (ket 0) waitM rs.
Proof.
  cbn [waitM safe_mcalls safe_call links_after ideal_call relink hadamards]. split; [intros q p _ []|]. split; [intros q p _ H; tauto|]. split; [intros q p _ H; tauto|]. split; [|split; [|exact I]].
  - intros c t H. assert (E : c = 0) by (cbn [In map fst] in H; intuition congruence). subst c. apply (waitS_open CC cxCC cc_definite).
  - intros q p -> H. exfalso. cbn [In map fst] in H. intuition discriminate.
Qed.
(** The circuit of the refutation. *)
Definition wrongM : list (@mcall Q8) := [MCall (CGate (UH 1)); MCall (CGate (gCP 1 true p1 m1 2)); MCall (CGate (UH 0)); MForce 1 true; MCall (CGate (gCP 0 true p1 m1 2))].
Lemma wrongM_proper : Forall (proper_mcall 3) wrongM.
Proof. repeat (apply Forall_cons; [cbn; one_tac || reflexivity|]). apply Forall_nil. Qed.

Lemma l_c118_outcome : forall (K : StarRing) (cx : Cplx K) (nrm : K -> K), positive (K := K) -> normalizes nrm -> forall rgp n perm (ph : N -> K) rnd cs q, (forall j, anorm (ph j) = 1%amp) -> perm < 2 ^ n -> Forall (proper_call n) cs -> h_first_calls cx [] cs -> q < n -> let U := calls cx cs (new_unit rgp n perm ph rnd) in chosen rnd (chance n q true (ideal_calls cx cs (ket perm))) (fst (QM cx nrm (u_sw U q) U)).
Proof. intros K cx nrm D HN rgp n perm ph rnd cs q HP Hp HF HS Hq. cbn zeta. destruct (start_ok cx D rgp n perm ph rnd cs HP Hp HF (first_calls cx n cs [] (fun _ _ => False) (ket perm) (fun _ _ H => False_ind _ H) HS)) as (G & En & ER & HL).
  set (U := calls cx cs _) in *. clearbody U. subst n. assert (Hq' : u_sw U q < u_n U) by (apply (PUnit5.wf_sw _ (gd_wf cx _ G)); exact Hq).
  destruct (force_ok cx D nrm (u_sw U q) false false U G Hq' (normalizes_ok nrm _ _ _ HN)) as (r & V & E & _ & _ & F & _); [discriminate|]. unfold QM. rewrite E. rewrite chance_wt, <- (upto_wt _ q true _ _ HL), (logical_wt cx U q true G Hq), <- ER. exact (F eq_refl). Qed.

Lemma l_c118_possible : forall (K : StarRing) (cx : Cplx K) (nrm : K -> K), positive (K := K) -> normalizes nrm -> forall rgp n perm (ph : N -> K) cs q, (forall j, anorm (ph j) = 1%amp) -> perm < 2 ^ n -> Forall (proper_call n) cs -> h_first_calls cx [] cs -> q < n -> forall r, chance n q r (ideal_calls cx cs (ket perm)) <> 0%amp <-> (exists rnd, let U := calls cx cs (new_unit rgp n perm ph rnd) in fst (QM cx nrm (u_sw U q) U) = r).
Proof. intros K cx nrm D HN rgp n perm ph cs q HP Hp HF HS Hq r.
  assert (E1 : norm2 n (ideal_calls cx cs (ket perm)) = 1%amp).
  { destruct (start_ok cx D rgp n perm ph (fun _ _ => true) cs HP Hp HF (first_calls cx n cs [] (fun _ _ => False) (ket perm) (fun _ _ H => False_ind _ H) HS)) as (G & En & _ & HL). rewrite <- (upto_norm _ _ _ HL). clear - En G. set (U := calls cx cs _) in *. clearbody U. subst n. apply (logical_norm cx), G. }
  rewrite chance_wt. split.
  - intros Hr. exists (fun _ _ => r). cbn zeta. pose proof (l_c118_outcome K cx nrm D HN rgp n perm ph (fun _ _ => r) cs q HP Hp HF HS Hq) as H. cbn zeta in H. rewrite chance_wt in H. destruct H as [[H E]|[[H E]|(_ & _ & j & E)]]; [| |exact E]; rewrite E; destruct r; try reflexivity; exfalso; apply Hr.
    + rewrite <- (wt_other n q false _ E1), H. apply (sub_self K).
    + exact H.
  - intros (rnd & <-). cbn zeta. apply (chosen_weight D rnd n q); [exact E1|]. rewrite <- chance_wt. apply l_c118_outcome; assumption. Qed.

Lemma l_c118_outcomes : forall (K : StarRing) (cx : Cplx K) (nrm : K -> K), positive (K := K) -> normalizes nrm -> forall rgp n perm (ph : N -> K) rnd ms, (forall j, anorm (ph j) = 1%amp) -> perm < 2 ^ n -> Forall (proper_mcall n) ms -> first_mcalls cx [] ms -> let U := mcalls cx nrm ms (new_unit rgp n perm ph rnd) in possible cx n ms (fst U) (ket perm) -> drawn cx rnd n ms (fst U) (ket perm).
Proof. intros K cx nrm D HN rgp n perm ph rnd ms HP Hp HF HS. cbn zeta. intros HQ. destruct (mcalls cx nrm ms _) as [rs V] eqn:E. cbn [fst] in *. apply (start_mcalls cx D nrm rgp n perm ph rnd ms rs V HN HP Hp HF E HQ). apply (first_mcalls_ok cx n ms []); [intros c t []|exact HS]. Qed.

Lemma l_c118_again : forall (K : StarRing) (cx : Cplx K) (nrm : K -> K), positive (K := K) -> normalizes nrm -> forall rgp n perm (ph : N -> K) rnd ms q, (forall j, anorm (ph j) = 1%amp) -> perm < 2 ^ n -> Forall (proper_mcall n) ms -> q < n -> first_mcalls cx [] (ms ++ [MMeasure q; MMeasure q]) -> let U := mcalls cx nrm (ms ++ [MMeasure q; MMeasure q]) (new_unit rgp n perm ph rnd) in possible cx n (ms ++ [MMeasure q; MMeasure q]) (fst U) (ket perm) -> exists rs r, fst U = rs ++ [r; r].
Proof. intros K cx nrm D HN rgp n perm ph rnd ms q HP Hp HF Hq HS. cbn zeta. intros HQ. assert (HF' : Forall (proper_mcall n) (ms ++ [MMeasure q; MMeasure q])) by (apply Forall_app; split; [exact HF|repeat constructor; exact Hq]).
  destruct (mcalls cx nrm (ms ++ _) _) as [rs V] eqn:E. cbn [fst] in *. destruct (start_mcalls cx D nrm rgp n perm ph rnd _ rs V HN HP Hp HF' E HQ) as (_ & _ & _ & Dr & _); [apply (first_mcalls_ok cx n _ []); [intros c t []|exact HS]|].
  destruct (drawn_app cx rnd n ms _ rs (ket perm) Dr) as (r1 & r2 & phi & -> & Z). destruct r2 as [|r [|r' [|r'' r2]]]; try (cbn [drawn] in Z; tauto). rewrite (drawn_again cx D rnd n q r r' phi Z). exists r1, r. reflexivity. Qed.

Lemma l_c119_collapse_refuted : forall rgp, exists n (ms : list (@mcall Q8)), Forall (proper_mcall n) ms /\ (anorm (z_nrm (z_h * z_h)) * (z_h * z_h) = 1)%amp /\ let U := mcalls cxQ8 z_nrm ms (new_unit rgp n 0 (fun _ => z_i) (fun _ _ => true)) in fst U = [true] /\ possible cxQ8 n ms (fst U) (ket 0) /\ ~ normalized n (fun x => fst (GetAmplitude cxQ8 x (snd U))) (ideal_mcalls cxQ8 ms (fst U) (ket 0)).
Proof. intros rgp. exists 3, wrongM. split; [exact wrongM_proper|]. split; [apply eq_by; vm_compute; reflexivity|]. cbn zeta.
  assert (E : fst (mcalls cxQ8 z_nrm wrongM (new_unit rgp 3 0 (fun _ => z_i) (fun _ _ => true))) = [true]) by (destruct rgp; vm_compute; reflexivity). rewrite E. split; [reflexivity|]. split.
  - cbn [possible wrongM]. split; [|exact I]. exists 2. split; [reflexivity|]. split; [reflexivity|]. apply neq_by. vm_compute. reflexivity.
  - intros (_ & c & H). pose proof (H 2 eq_refl) as H2. pose proof (H 3 eq_refl) as H3. cbv beta in H2, H3.
    assert (E1 : ideal_mcalls cxQ8 wrongM [true] (ket 0) 2 = ideal_mcalls cxQ8 wrongM [true] (ket 0) 3) by (apply eq_by; vm_compute; reflexivity). rewrite <- E1, <- H2 in H3. revert H3. apply neq_by. destruct rgp; vm_compute; reflexivity. Qed.

Lemma l_c119_collapse_partial : forall (K : StarRing) (cx : Cplx K) (nrm : K -> K), positive (K := K) -> normalizes nrm -> forall rgp n perm (ph : N -> K) rnd ms, (forall j, anorm (ph j) = 1%amp) -> perm < 2 ^ n -> Forall (proper_mcall n) ms -> let U := mcalls cx nrm ms (new_unit rgp n perm ph rnd) in possible cx n ms (fst U) (ket perm) -> safe_mcalls cx n (fun _ _ => False) (ket perm) ms (fst U) -> normalized n (fun x => fst (GetAmplitude cx x (snd U))) (ideal_mcalls cx ms (fst U) (ket perm)).
Proof. intros K cx nrm D HN rgp n perm ph rnd ms HP Hp HF. cbn zeta. intros HQ HS. destruct (mcalls cx nrm ms _) as [rs V] eqn:E. cbn [fst snd] in *. destruct (start_mcalls cx D nrm rgp n perm ph rnd ms rs V HN HP Hp HF E HQ HS) as (G & En & _ & _ & z & HZ). apply (amps_normalized cx D n V _ z G En HZ). Qed.

Lemma l_c119_first_partial : forall (K : StarRing) (cx : Cplx K) (nrm : K -> K), positive (K := K) -> normalizes nrm -> forall rgp n perm (ph : N -> K) rnd ms, (forall j, anorm (ph j) = 1%amp) -> perm < 2 ^ n -> Forall (proper_mcall n) ms -> first_mcalls cx [] ms -> let U := mcalls cx nrm ms (new_unit rgp n perm ph rnd) in possible cx n ms (fst U) (ket perm) -> normalized n (fun x => fst (GetAmplitude cx x (snd U))) (ideal_mcalls cx ms (fst U) (ket perm)).
Proof. intros K cx nrm D HN rgp n perm ph rnd ms HP Hp HF HS. cbn zeta. intros HQ. apply l_c119_collapse_partial; auto. apply (first_mcalls_ok cx n ms []); [intros c t []|exact HS]. Qed.
