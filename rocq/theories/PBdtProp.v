(** QBdt; proofs of PropBdt.v. *)
From Coq Require Import NArith List Bool Lia Reals.
From Verif Require Import Amp PAmp AmpC AmpC2 AmpQ8 SpecState SpecUnit3 MBdt AmpBdt AmpBdt2 SpecBdt PUnitBug PBdt1 PBdt2 PBdt3 PBdt4 PBdt5 PBdt6 PBdt7 PBdt8 PBdt9 PBdt10.
Import ListNotations.
Local Open Scope N_scope.

(** Example: seven calls on four qubits. *)
Definition oneC : CC := 1%amp.
Lemma oneC_1 : anorm oneC = 1%amp. Proof. cbn. unfold c_mul, c_conj, oneC. cbn. f_equal; ring. Qed.
Lemma ccX_unitary : unitary2 (mkMat 0 1 1 0 : mat2 CC)%amp.
Proof. unfold unitary2. apply mat2_eq; cbn; unfold c_add, c_mul, c_conj; cbn; f_equal; ring. Qed.
Lemma ccH_unitary : unitary2 (h_mat arCC).
Proof. apply (h_unitary arCC arCC_exact). Qed.
Definition callsC : list (@bcall CC) := [BMtrx (h_mat arCC) 0; BMC [0; 2] (h_mat arCC) 1; BMCInvert [0] 1%amp 1%amp 3; BMCPhase [3; 1] 1%amp 1%amp 2; BMAC [3] (h_mat arCC) 0; BMAC [2; 1] (h_mat arCC) 3; BSwap 2 0].
Ltac ok_tac := split; [repeat constructor; cbn; intuition discriminate|cbn; intros c Hc; intuition (subst; reflexivity)].
Lemma adj21 : adjacent [2; 1].
Proof. exists 1, 2. split; [reflexivity|]. intros x. cbn. lia. Qed.
Lemma callsC_proper : Forall (proper_bcall 4) callsC.
Proof.
  unfold callsC. repeat (apply Forall_cons); try apply Forall_nil; (split; [cbn [in_range]|cbn [no_gaps]; try exact I]).
  - split; [reflexivity|exact ccH_unitary].
  - split; [ok_tac|exact ccH_unitary].
  - split; [ok_tac|]. split; exact oneC_1.
  - split; [ok_tac|]. split; exact oneC_1.
  - split; [ok_tac|exact ccH_unitary].
  - right. right. left. cbn. lia.
  - split; [ok_tac|exact ccH_unitary].
  - right. right. right. split; [exact adj21|]. cbn. intros c Hc. intuition (subst; reflexivity).
  - split; reflexivity.
Qed.
Definition bellB : list (@bcall CC) := [BMtrx (h_mat arCC) 0; BMCInvert [0] 1%amp 1%amp 1].
Lemma bellB_proper : Forall (proper_bcall 2) bellB.
Proof. repeat (apply Forall_cons); try apply Forall_nil; (split; [cbn [in_range]|exact I]); [split; [reflexivity|exact ccH_unitary]|split; [ok_tac|split; exact oneC_1]]. Qed.
Lemma yes2 : is_separable 1 (bcalls arCC [] (new_bdt 2 2 None false (fun _ => oneC) (fun _ _ => true))) = true.
Proof. reflexivity. Qed.
(** The refutations. *)
Definition ph8 : N -> Q8 := fun _ => z_i.
Definition H8 : mat2 Q8 := h_mat arQ8.
Definition one8 : Q8 := 1%amp.
Definition gap8 : list (@bcall Q8) := [BMtrx H8 0; BMtrx H8 1; BMtrx H8 2; BMAC [0; 2] H8 3].
Definition bell8 : list (@bcall Q8) := [BMtrx H8 0; BMCInvert [0] one8 one8 1].
Definition prod8 : list (@bcall Q8) := [BMtrx H8 0; BPhase one8 z_i 0; BMtrx H8 1].
Lemma H8_unitary : unitary2 H8. Proof. unfold unitary2. apply mat2_eq; apply eq_by; vm_compute; reflexivity. Qed.
Ltac u8_tac := apply eq_by; vm_compute; reflexivity.
Lemma gap8_range : Forall (in_range 4) gap8.
Proof. repeat (apply Forall_cons); try apply Forall_nil; cbn [in_range]; (split; [first [reflexivity|ok_tac]|exact H8_unitary]). Qed.
Lemma bell8_proper : Forall (proper_bcall 2) bell8.
Proof. repeat (apply Forall_cons); try apply Forall_nil; (split; [cbn [in_range]|exact I]); [split; [reflexivity|exact H8_unitary]|split; [ok_tac|split; u8_tac]]. Qed.
Lemma prod8_proper : Forall (proper_bcall 2) prod8.
Proof. repeat (apply Forall_cons); try apply Forall_nil; (split; [cbn [in_range]|exact I]); [split; [reflexivity|exact H8_unitary]|split; [reflexivity|split; u8_tac]|split; [reflexivity|exact H8_unitary]]. Qed.
Section H.
  Context (K : StarRing).
  Add Ring KrDA : (sr_ring K).
  Local Open Scope amp_scope.
  Lemma not_held (B : qbdt (K := K)) psi x : (x < 2 ^ bt_n B)%N -> get_amplitude B x = 0 -> psi x <> 0 -> ~ holds_state B psi.
  Proof.
    intros Hx Hf Hg (c & Hc & _ & H). apply Hg. specialize (H x Hx). rewrite Hf in H. unfold anorm in Hc.
    transitivity (c * sr_conj c * psi x); [rewrite Hc; ring|]. transitivity (sr_conj c * (c * psi x)); [ring|]. rewrite <- H. ring.
  Qed.
  Lemma norm_all n (psi : N -> K) : norm2 n psi = weight_of n (fun _ => true) psi. Proof. reflexivity. Qed.
  Lemma tensor_phase n a b (s c : K) x : sr_conj s * s = 1 -> s * c = tensor n a b x -> c = sr_conj s * tensor n a b x.
  Proof. intros H <-. transitivity (sr_conj s * s * c); [rewrite H; ring|ring]. Qed.
  Lemma times0 (x : K) : x * 0 = 0. Proof. ring. Qed.
  Lemma anorm_conj1 (x : K) : anorm (sr_conj x) = anorm x. Proof. unfold anorm. rewrite sr_conj_invol. ring. Qed.
  Lemma prod_swap (s d e a b : K) : s * (d * a * (e * b)) = s * (d * e) * (a * b). Proof. ring. Qed.
  Lemma mul1 (x : K) : 1 * x = x. Proof. ring. Qed.
  Lemma mul1r (x : K) : x * 1 = x. Proof. ring. Qed.
  Lemma mulC (x y : K) : x * y = y * x. Proof. ring. Qed.
  Lemma mulA (x y z : K) : x * (y * z) = x * y * z. Proof. ring. Qed.
  Lemma addC (x y : K) : x + y = y + x. Proof. ring. Qed.
  (** Qubit 0 is independent of the qubits below it. *)
  Lemma first_independent n r (psi : N -> K) : (forall x y : K, y <> 0 -> exists z, z * y = x) -> norm2 n psi <> 0 -> exists p, p * norm2 n psi = weight_of n (fun x => eqb (N.testbit x 0) r) psi /\ independent n 0 r p psi.
  Proof.
    intros D N0. destruct (D (weight_of n (fun x => eqb (N.testbit x 0) r) psi) _ N0) as [p E]. exists p. split; [exact E|]. intros i.
    assert (X : forall P, weight_of n (fun x => agree 0 i x && P x) psi = weight_of n P psi) by (intros P; apply asum_ext; intros x _; rewrite agree_0; reflexivity).
    assert (Y : weight_of n (agree 0 i) psi = norm2 n psi) by (apply asum_ext; intros x _; rewrite agree_0; reflexivity). rewrite X, Y. exact E.
  Qed.
  Lemma plus_independent (A : Arith K) : exact_arith A -> independent 2 1 true (ar_h A * ar_h A) (ideal_bcalls [BMtrx (h_mat A) 1%N] (ket 0)).
  Proof.
    intros (_ & _ & _ & H1 & H2) i. set (psi := ideal_bcalls _ _). assert (V0 : psi 0%N = ar_h A) by (unfold psi; cbn; ring). assert (V1 : psi 1%N = 0) by (unfold psi; cbn; ring). assert (V2 : psi 2%N = ar_h A) by (unfold psi; cbn; ring). assert (V3 : psi 3%N = 0) by (unfold psi; cbn; ring). clearbody psi.
    unfold weight_of. change (basis 2) with [0; 1; 2; 3]%N. cbn [asum]. rewrite V0, V1, V2, V3. change (N.testbit 0 1) with false. change (N.testbit 1 1) with false. change (N.testbit 2 1) with true. change (N.testbit 3 1) with true. unfold agree. change (2 ^ 1)%N with 2%N.
    change (0 mod 2)%N with 0%N. change (1 mod 2)%N with 1%N. change (2 mod 2)%N with 0%N. change (3 mod 2)%N with 1%N. unfold anorm. rewrite H2. cbn [eqb]. rewrite !andb_false_r, !andb_true_r.
    destruct (0 =? i mod 2)%N, (1 =? i mod 2)%N; try (transitivity (ar_h A * ar_h A * (ar_h A * ar_h A + ar_h A * ar_h A)); [ring|rewrite H1; ring]); ring.
  Qed.
  Lemma half_n0 (A : Arith K) : exact_arith A -> positive_sums (K := K) -> ar_h A * ar_h A <> 0.
  Proof. intros (_ & _ & _ & H & _) (P & _) E. apply P. rewrite <- H, E. ring. Qed.
End H.
Definition plusB : list (@bcall CC) := [BMtrx (h_mat arCC) 1].
Lemma range_of n (l : list (@bcall CC)) : Forall (proper_bcall n) l -> Forall (in_range n) l.
Proof. intros H. eapply Forall_impl; [|exact H]. intros c [X _]. exact X. Qed.
(** Example with controls of MACMtrx that are not next to each other. *)
Definition gapC : list (@bcall CC) := callsC ++ [BMAC [0; 2] (h_mat arCC) 3].
Lemma gapC_range : Forall (in_range 4) gapC.
Proof. apply Forall_app. split; [apply range_of, callsC_proper|]. constructor; [|constructor]. split; [ok_tac|exact ccH_unitary]. Qed.
Lemma plusB_proper : Forall (proper_bcall 2) plusB.
Proof. repeat constructor. exact ccH_unitary. Qed.
Lemma plus_held rgp : independent 2 1 true (ar_h arCC * ar_h arCC)%amp (get_amplitude (bcalls arCC plusB (new_bdt 2 0 None rgp (fun _ => oneC) (fun _ _ => true)))).
Proof.
  destruct (from_new arCC arCC_exact cc_sums 2 0 rgp (fun _ => oneC) (fun _ _ => true) plusB eq_refl eq_refl (fun _ => oneC_1) plusB_proper) as (_ & En & _ & _ & _ & _ & HS). cbn zeta in *.
  intros i. pose proof (fun P => held_weight _ _ P HS) as HW. rewrite En in HW. rewrite !HW. apply (plus_independent CC arCC arCC_exact).
Qed.

Lemma l_c120_set_permutation : forall (K : StarRing), positive_sums (K := K) -> forall (B : qbdt (K := K)) perm phf, 0 < bt_n B -> perm < 2 ^ bt_n B -> (forall j, anorm (bt_ph B j) = 1%amp) -> (forall p, phf = Some p -> anorm p = 1%amp) -> let B' := set_permutation perm phf B in bt_n B' = bt_n B /\ exists c, anorm c = 1%amp /\ (phf = None -> bt_rgp B = false -> c = 1%amp) /\ (forall p, phf = Some p -> c = p) /\ forall x, x < 2 ^ bt_n B -> get_amplitude B' x = (c * ket perm x)%amp.
Proof. intros K PS B perm phf N0 HP PH PF. cbn zeta. assert (U : anorm (start_phase phf B) = 1%amp) by (unfold start_phase; destruct phf as [p|]; [apply PF; reflexivity|destruct (bt_rgp B); [apply PH|apply anorm_one]]).
  destruct (set_perm_ok PS B perm phf N0 HP) as (F & E1 & E2 & E3 & E4); [apply (unit_n0 PS), U|]. cbn zeta in *. split; [exact E1|]. exists (start_phase phf B). split; [exact U|]. split; [intros -> R; cbn; rewrite R; reflexivity|]. split; [intros p ->; reflexivity|].
  intros x Hx. rewrite amp_get. apply E4, Hx. Qed.

Lemma l_c121_gates_refuted : forall rgp, exists n (l : list (@bcall Q8)) c, Forall (in_range n) (l ++ [c]) /\ Forall no_gaps l /\ let B := bcalls arQ8 l (new_bdt n 0 None rgp ph8 (fun _ _ => true)) in (forall x, x < 2 ^ n -> anorm (get_amplitude B x) = anorm (ideal_bcalls l (ket 0) x)) /\ ~ holds_state (bcall_run arQ8 c B) (ideal_bcalls (l ++ [c]) (ket 0)).
Proof. intros rgp. exists 4, [BMtrx H8 0; BMtrx H8 1; BMtrx H8 2], (BMAC [0; 2] H8 3). split; [exact gap8_range|]. split; [repeat constructor|]. cbn zeta. split.
  - intros x Hx. assert (forallb (fun x => sr_eqb (anorm (get_amplitude (bcalls arQ8 [BMtrx H8 0; BMtrx H8 1; BMtrx H8 2] (new_bdt 4 0 None rgp ph8 (fun _ _ => true))) x)) (anorm (ideal_bcalls [BMtrx H8 0; BMtrx H8 1; BMtrx H8 2] (ket 0) x))) (basis 4) = true) as X by (destruct rgp; vm_compute; reflexivity).
    rewrite forallb_forall in X. apply eq_by, X. apply PLoop.basis_In, Hx.
  - apply (not_held Q8) with (x := 10); [destruct rgp; vm_compute; reflexivity|apply eq_by; destruct rgp; vm_compute; reflexivity|apply neq_by; vm_compute; reflexivity]. Qed.

Lemma l_c121_gates_partial : forall (K : StarRing) (A : Arith K), exact_arith A -> positive_sums (K := K) -> forall n perm rgp (ph : N -> K) rnd l, 0 < n -> perm < 2 ^ n -> (forall j, anorm (ph j) = 1%amp) -> Forall (proper_bcall n) l -> let B := bcalls A l (new_bdt n perm None rgp ph rnd) in bt_n B = n /\ bt_rgp B = rgp /\ holds_state B (ideal_bcalls l (ket perm)).
Proof. intros K A EA PS n perm rgp ph rnd l N0 HP PH HF. cbn zeta. destruct (from_new A EA PS n perm rgp ph rnd l N0 HP PH HF) as (F & En & Er & Ed & Ep & Es & HS). cbn zeta in *. set (B := bcalls A l _) in *. clearbody B. subst n. split; [reflexivity|]. split; [exact Er|exact HS]. Qed.

Lemma l_c121_any_state_partial : forall (K : StarRing) (A : Arith K), exact_arith A -> positive_sums (K := K) -> forall (B0 : qbdt (K := K)) psi y l, y < 2 ^ bt_n B0 -> psi y <> 0%amp -> Forall (proper_bcall (bt_n B0)) l -> holds_state (bcalls A l (set_state A psi B0)) (ideal_bcalls l psi).
Proof. intros K A EA PS B0 psi y l Hy Hp HF. destruct (set_state_ok A EA PS B0 psi) as (_ & E1 & E2 & E3). cbn zeta in *. apply (program_ok A EA PS (set_state A psi B0) psi l (set_state_fit A EA PS B0 psi y Hy Hp)); rewrite E1; assumption. Qed.

Lemma l_c121_prob_partial : forall (K : StarRing) (A : Arith K), exact_arith A -> positive_sums (K := K) -> forall n perm rgp (ph : N -> K) rnd l, 0 < n -> perm < 2 ^ n -> (forall j, anorm (ph j) = 1%amp) -> Forall (proper_bcall n) l -> let B := bcalls A l (new_bdt n perm None rgp ph rnd) in (forall q, q < n -> prob B q = weight_of n (fun x => N.testbit x q) (ideal_bcalls l (ket perm))) /\ forall x, x < 2 ^ n -> prob_all B x = anorm (ideal_bcalls l (ket perm) x).
Proof. intros K A EA PS n perm rgp ph rnd l N0 HP PH HF. cbn zeta. destruct (from_new A EA PS n perm rgp ph rnd l N0 HP PH HF) as (F & En & Er & Ed & Ep & Es & HS). cbn zeta in *. set (B := bcalls A l _) in *. clearbody B. subst n. split; [intros q Hq; rewrite (prob_ok B q F Hq); apply held_weight, HS|]. intros x Hx. apply held_anorm; assumption. Qed.

Lemma l_c122_prob : forall (K : StarRing) (A : Arith K), exact_arith A -> positive_sums (K := K) -> forall n perm rgp (ph : N -> K) rnd l, 0 < n -> perm < 2 ^ n -> (forall j, anorm (ph j) = 1%amp) -> Forall (in_range n) l -> let B := bcalls A l (new_bdt n perm None rgp ph rnd) in forall q, q < n -> prob B q = weight_of n (fun x => N.testbit x q) (get_amplitude B).
Proof. intros K A EA PS n perm rgp ph rnd l N0 HP PH HF. cbn zeta. destruct (any_new A EA PS n perm rgp ph rnd l N0 HP PH HF) as (F & En & Er & Ed & Ep & Es). cbn zeta in *. set (B := bcalls A l _) in *. clearbody B. subst n. intros q Hq. exact (prob_ok B q F Hq). Qed.

Lemma l_c122_norm : forall (K : StarRing) (A : Arith K), exact_arith A -> positive_sums (K := K) -> forall n perm rgp (ph : N -> K) rnd l, 0 < n -> perm < 2 ^ n -> (forall j, anorm (ph j) = 1%amp) -> Forall (in_range n) l -> let B := bcalls A l (new_bdt n perm None rgp ph rnd) in norm2 n (get_amplitude B) = 1%amp.
Proof. intros K A EA PS n perm rgp ph rnd l N0 HP PH HF. cbn zeta. destruct (any_new A EA PS n perm rgp ph rnd l N0 HP PH HF) as (F & En & Er & Ed & Ep & Es). cbn zeta in *. set (B := bcalls A l _) in *. clearbody B. subst n. rewrite (norm_ok B F). exact Es. Qed.

Lemma l_c123_round_trip : forall (K : StarRing) (A : Arith K), exact_arith A -> positive_sums (K := K) -> forall (B : qbdt (K := K)) psi x, x < 2 ^ bt_n B -> get_state (set_state A psi B) x = psi x /\ get_amplitude (set_state A psi B) x = psi x.
Proof. intros K A EA PS B psi x Hx. destruct (set_state_ok A EA PS B psi) as (_ & _ & _ & E). cbn zeta in E. unfold get_state. rewrite amp_get. split; apply E, Hx. Qed.

Lemma l_c123_replaces : forall (K : StarRing) (A : Arith K), exact_arith A -> positive_sums (K := K) -> forall (B C : qbdt (K := K)) psi x, bt_n C = bt_n B -> x < 2 ^ bt_n B -> get_amplitude (set_state A (get_state (set_state A psi B)) C) x = psi x.
Proof. intros K A EA PS B C psi x E Hx. destruct (l_c123_round_trip K A EA PS C (get_state (set_state A psi B)) x) as [_ X]; [rewrite E; exact Hx|]. rewrite X. apply (l_c123_round_trip K A EA PS B psi x Hx). Qed.

Lemma l_c124_outcome : forall (K : StarRing) (A : Arith K), exact_arith A -> positive_sums (K := K) -> forall n perm rgp (ph : N -> K) rnd l, 0 < n -> perm < 2 ^ n -> (forall j, anorm (ph j) = 1%amp) -> Forall (in_range n) l -> let B := bcalls A l (new_bdt n perm None rgp ph rnd) in forall q want, q < n -> chosen rnd (weight_of n (fun x => N.testbit x q) (get_amplitude B)) (fst (force_m A q want false true B)).
Proof. intros K A EA PS n perm rgp ph rnd l N0 HP PH HF. cbn zeta. destruct (any_new A EA PS n perm rgp ph rnd l N0 HP PH HF) as (F & En & Er & Ed & Ep & Es). cbn zeta in *. set (B := bcalls A l _) in *. clearbody B. subst n. intros q want Hq. rewrite <- (prob_ok B q F Hq), <- Ed. unfold force_m. destruct (PAmp.eqb_spec K (prob B q) 1%amp) as [E|E]; [|destruct (PAmp.eqb_spec K (prob B q) 0%amp) as [E0|E0]]; cbn [negb]; unfold nonunitary_phase; cbn [next_draw bt_rgp]; destruct (bt_rgp B); cbn [fst].
  1,2: left; auto.
  1,2: right; left; auto.
  1,2: right; right; split; [exact E|]; split; [exact E0|]; exists (bt_draw B); reflexivity. Qed.

Lemma l_c124_collapse_refuted : forall rgp, exists n (l : list (@bcall Q8)) q, Forall (proper_bcall n) l /\ q < n /\ let B := bcalls arQ8 l (new_bdt n 0 None rgp ph8 (fun _ _ => false)) in holds_state B (ideal_bcalls l (ket 0)) /\ let R := force_m arQ8 q true true true B in fst R = true /\ weight_of n (fun x => N.testbit x q) (ideal_bcalls l (ket 0)) <> 0%amp /\ ~ normalized n (get_amplitude (snd R)) (collapse q true (ideal_bcalls l (ket 0))) /\ prob (snd R) q <> 1%amp /\ fst (force_m arQ8 q true false true (snd R)) = false.
Proof. intros rgp. exists 2, bell8, 1. split; [exact bell8_proper|]. split; [reflexivity|]. cbn zeta. split; [|split; [destruct rgp; vm_compute; reflexivity|split; [apply neq_by; vm_compute; reflexivity|split; [|split; [apply neq_by; destruct rgp; vm_compute; reflexivity|destruct rgp; vm_compute; reflexivity]]]]].
  - exists (if rgp then z_i else 1%amp). split; [apply eq_by; destruct rgp; vm_compute; reflexivity|]. split; [intros E; destruct rgp; [discriminate E|reflexivity]|]. intros x Hx. assert (Hx' : x < 2 ^ 2) by (destruct rgp; exact Hx). clear Hx.
    assert (forallb (fun x => sr_eqb (get_amplitude (bcalls arQ8 bell8 (new_bdt 2 0 None rgp ph8 (fun _ _ => false))) x) ((if rgp then z_i else 1%amp) * ideal_bcalls bell8 (ket 0) x)%amp) (basis 2) = true) as X by (destruct rgp; vm_compute; reflexivity).
    rewrite forallb_forall in X. apply eq_by, X. apply PLoop.basis_In, Hx'.
  - intros (_ & c & H). specialize (H 0 eq_refl). unfold collapse in H. cbn [N.testbit eqb] in H. assert (Z : (c * 0 = 0 :> Q8)%amp) by (clear; apply (f_equal (fun x => x) (times0 Q8 c))). rewrite Z in H. revert H. apply neq_by. destruct rgp; vm_compute; reflexivity. Qed.

Lemma l_c124_collapse_partial : forall (K : StarRing) (A : Arith K), exact_arith A -> positive_sums (K := K) -> forall n perm rgp (ph : N -> K) rnd l, 0 < n -> perm < 2 ^ n -> (forall j, anorm (ph j) = 1%amp) -> Forall (in_range n) l -> let B := bcalls A l (new_bdt n perm None rgp ph rnd) in forall q want doForce, q < n -> let '(r, B') := force_m A q want doForce true B in forall p, p <> 0%amp -> independent n q r p (get_amplitude B) -> bt_n B' = n /\ normalized n (get_amplitude B') (collapse q r (get_amplitude B)).
Proof. intros K A EA PS n perm rgp ph rnd l N0 HP PH HF. cbn zeta. destruct (any_new A EA PS n perm rgp ph rnd l N0 HP PH HF) as (F & En & Er & Ed & Ep & Es). cbn zeta in *. set (B := bcalls A l _) in *. clearbody B. subst n. intros q want df Hq. pose proof (force_m_ok A EA PS B q want df) as X. destruct (force_m A q want df true B) as [r B']. intros p P0 IND.
  destruct (X p F Hq) as (F' & E1 & E2 & c & V); [rewrite Ep; exact PH|exact IND|exact P0|]. split; [exact E1|]. split.
  - rewrite <- E1. transitivity (anorm (scl (bt_root B'))); [apply (norm_ok B' F')|exact E2].
  - exists c. intros x _. rewrite V. unfold collapse. destruct (eqb _ r); [reflexivity|]. rewrite (times0 K). reflexivity. Qed.

Lemma l_c124_first_partial : forall (K : StarRing) (A : Arith K), exact_arith A -> positive_sums (K := K) -> forall n perm rgp (ph : N -> K) rnd l, 0 < n -> perm < 2 ^ n -> (forall j, anorm (ph j) = 1%amp) -> Forall (in_range n) l -> let B := bcalls A l (new_bdt n perm None rgp ph rnd) in forall want doForce, let '(r, B') := force_m A 0 want doForce true B in weight_of n (fun x => eqb (N.testbit x 0) r) (get_amplitude B) <> 0%amp -> bt_n B' = n /\ normalized n (get_amplitude B') (collapse 0 r (get_amplitude B)).
Proof. intros K A EA PS n perm rgp ph rnd l N0 HP PH HF. cbn zeta. intros want df. pose proof (l_c124_collapse_partial K A EA PS n perm rgp ph rnd l N0 HP PH HF 0 want df N0) as X. pose proof (l_c122_norm K A EA PS n perm rgp ph rnd l N0 HP PH HF) as NN. cbn zeta in NN. set (B := bcalls A l _) in *. destruct (force_m A 0 want df true B) as [r B']. intros W.
  destruct (first_independent K n r (get_amplitude B)) as (p & E & IND); [intros x y Y; exists (ar_div A x y); apply (div_mul A EA), Y|rewrite NN; apply (proj1 PS)|].
  apply (X p); [|exact IND]. intros Z. apply W. rewrite <- E, Z, (mulC K). apply (times0 K). Qed.

Lemma l_c125_mall : forall (K : StarRing) (A : Arith K), exact_arith A -> positive_sums (K := K) -> forall n perm rgp (ph : N -> K) rnd l, 0 < n -> perm < 2 ^ n -> (forall j, anorm (ph j) = 1%amp) -> Forall (in_range n) l -> let B := bcalls A l (new_bdt n perm None rgp ph rnd) in let '(r, B') := mall A B in r < 2 ^ n /\ drawn_all rnd n (get_amplitude B) r /\ get_amplitude B r <> 0%amp /\ bt_n B' = n /\ exists c, anorm c = 1%amp /\ forall x, x < 2 ^ n -> get_amplitude B' x = (c * ket r x)%amp.
Proof. intros K A EA PS n perm rgp ph rnd l N0 HP PH HF. cbn zeta. destruct (any_new A EA PS n perm rgp ph rnd l N0 HP PH HF) as (F & En & Er & Ed & Ep & Es). cbn zeta in *. set (B := bcalls A l _) in *. clearbody B. subst n. pose proof (mall_ok A EA PS B F) as X. destruct (mall A B) as [r B']. destruct X as (Hr & D & V & F' & E & H). split; [exact Hr|]. split; [rewrite <- Ed; exact D|]. split; [exact V|]. split; [exact E|]. exists (scl (bt_root B)). split; [exact Es|exact H]. Qed.

Lemma l_c125_sample : forall (K : StarRing) (A : Arith K), exact_arith A -> positive_sums (K := K) -> forall n perm rgp (ph : N -> K) rnd l, 0 < n -> perm < 2 ^ n -> (forall j, anorm (ph j) = 1%amp) -> Forall (in_range n) l -> let B := bcalls A l (new_bdt n perm None rgp ph rnd) in forall qs, let '(s, B') := sample_clone A qs B in (forall x, get_amplitude B' x = get_amplitude B x) /\ exists r, r < 2 ^ n /\ drawn_all rnd n (get_amplitude B) r /\ get_amplitude B r <> 0%amp /\ forall j, N.testbit s j = match nth_error qs (N.to_nat j) with Some q => N.testbit r q | None => false end.
Proof. intros K A EA PS n perm rgp ph rnd l N0 HP PH HF. cbn zeta. destruct (any_new A EA PS n perm rgp ph rnd l N0 HP PH HF) as (F & En & Er & Ed & Ep & Es). cbn zeta in *. set (B := bcalls A l _) in *. clearbody B. subst n. intros qs. pose proof (sample_ok A EA PS B qs F) as X. destruct (sample_clone A qs B) as [s B']. destruct X as (E1 & E2 & r & Hr & D & V & H). split; [intros x; unfold get_amplitude; rewrite E1, E2; reflexivity|]. exists r. split; [exact Hr|]. split; [rewrite <- Ed; exact D|]. split; [exact V|exact H]. Qed.

Lemma l_c126_insert_refuted : forall rgp, let new n perm := new_bdt (K := Q8) n perm None rgp (fun _ => 1%amp) (fun _ _ => true) in exists nb nc pb pc s, s < nb /\ pb < 2 ^ nb /\ pc < 2 ^ nc /\ let D := compose (new nc pc) s (new nb pb) in norm2 (nb + nc) (get_amplitude D) <> 1%amp /\ exists x, x < 2 ^ (nb + nc) /\ get_amplitude D x <> tensor_at s nc (ket pb) (ket pc) x.
Proof. intros rgp. cbn zeta. exists 2, 1, 2, 0, 1. split; [reflexivity|]. split; [reflexivity|]. split; [reflexivity|]. split; [apply neq_by; destruct rgp; vm_compute; reflexivity|]. exists 0. split; [reflexivity|]. apply neq_by; destruct rgp; vm_compute; reflexivity. Qed.

Lemma l_c126_end_partial : forall (K : StarRing) (A : Arith K), exact_arith A -> positive_sums (K := K) -> forall n perm rgp (ph : N -> K) rnd l n' perm' rgp' (ph' : N -> K) rnd' l', 0 < n -> perm < 2 ^ n -> (forall j, anorm (ph j) = 1%amp) -> Forall (in_range n) l -> 0 < n' -> perm' < 2 ^ n' -> (forall j, anorm (ph' j) = 1%amp) -> Forall (in_range n') l' -> let B := bcalls A l (new_bdt n perm None rgp ph rnd) in let C := bcalls A l' (new_bdt n' perm' None rgp' ph' rnd') in let D := compose C n B in bt_n D = n + n' /\ exists c, anorm c = 1%amp /\ forall x, x < 2 ^ (n + n') -> get_amplitude D x = (c * tensor n (get_amplitude B) (get_amplitude C) x)%amp.
Proof. intros K A EA PS n perm rgp ph rnd l n' perm' rgp' ph' rnd' l' N0 HP PH HF N0' HP' PH' HF'. cbn zeta. destruct (any_new A EA PS n perm rgp ph rnd l N0 HP PH HF) as (F & En & _). destruct (any_new A EA PS n' perm' rgp' ph' rnd' l' N0' HP' PH' HF') as (F' & En' & _ & _ & _ & Es'). cbn zeta in *.
  set (B := bcalls A l _) in *. set (C := bcalls A l' _) in *. clearbody B C. subst n n'. destruct (compose_ok B C N0 N0' F F') as (_ & Q1 & _ & Q2). cbn zeta in *. split; [exact Q1|]. set (s := scl (bt_root C)) in *. exists (sr_conj s).
  assert (S1 : (sr_conj s * s = 1)%amp) by (rewrite (mulC K); exact Es').
  split; [rewrite (anorm_conj1 K); exact Es'|]. intros x Hx. exact (tensor_phase K _ _ _ s _ x S1 (Q2 x)). Qed.

Lemma l_c126_phase_refuted : exists (B C : qbdt (K := Q8)) x, bt_rgp B = false /\ bt_rgp C = false /\ B = new_bdt 1 0 None false ph8 (fun _ _ => true) /\ C = bcalls arQ8 [BPhase one8 z_i 0] (new_bdt 1 1 None false ph8 (fun _ _ => true)) /\ holds_state C (ideal_bcalls [BPhase one8 z_i 0] (ket 1)) /\ x < 4 /\ get_amplitude (compose C 1 B) x <> tensor 1 (get_amplitude B) (get_amplitude C) x.
Proof. eexists _, _, 2. split; [|split; [|split; [reflexivity|split; [reflexivity|]]]]; try reflexivity. split; [|split; [reflexivity|apply neq_by; vm_compute; reflexivity]].
  exists 1%amp. split; [apply eq_by; vm_compute; reflexivity|]. split; [reflexivity|]. intros x Hx. change (x < 2 ^ 1) in Hx. assert (x = 0 \/ x = 1) as [-> | ->] by (change (x < 2) in Hx; lia); apply eq_by; vm_compute; reflexivity. Qed.

Lemma l_c127_no_refuted : forall rgp, exists n (l : list (@bcall Q8)) s, Forall (proper_bcall n) l /\ 0 < s < n /\ is_separable s (bcalls arQ8 l (new_bdt n 0 None rgp ph8 (fun _ _ => true))) = false /\ exists a b, forall x, x < 2 ^ n -> ideal_bcalls l (ket 0) x = tensor s a b x.
Proof. intros rgp. exists 2, prod8, 1. split; [exact prod8_proper|]. split; [split; reflexivity|]. split; [destruct rgp; vm_compute; reflexivity|]. exists (ideal_bcalls [BMtrx H8 0; BPhase one8 z_i 0] (ket 0)), (ideal_bcalls [BMtrx H8 0] (ket 0)).
  intros x Hx. assert (forallb (fun x => sr_eqb (ideal_bcalls prod8 (ket 0) x) (tensor 1 (ideal_bcalls [BMtrx H8 0; BPhase one8 z_i 0] (ket 0)) (ideal_bcalls [BMtrx H8 0] (ket 0)) x)) (basis 2) = true) as X by (vm_compute; reflexivity). rewrite forallb_forall in X. apply eq_by, X, PLoop.basis_In, Hx. Qed.

Lemma l_c127_yes_partial : forall (K : StarRing) (A : Arith K), exact_arith A -> positive_sums (K := K) -> forall n perm rgp (ph : N -> K) rnd l, 0 < n -> perm < 2 ^ n -> (forall j, anorm (ph j) = 1%amp) -> Forall (in_range n) l -> let B := bcalls A l (new_bdt n perm None rgp ph rnd) in forall s, 0 < s < n -> is_separable s B = true -> exists a b, forall x, x < 2 ^ n -> get_amplitude B x = tensor s a b x.
Proof. intros K A EA PS n perm rgp ph rnd l N0 HP PH HF. cbn zeta. destruct (any_new A EA PS n perm rgp ph rnd l N0 HP PH HF) as (F & En & Er & Ed & Ep & Es). cbn zeta in *. set (B := bcalls A l _) in *. clearbody B. subst n. intros s Hs H. destruct (is_separable_ok B s F) as (a & b & X); [lia|exact H|]. exists a, b. intros x _. apply X. Qed.

Lemma l_c128_shift_refuted : exists n (psi : N -> Q8), norm2 n psi = 1%amp /\ exists s, In s (prune_shifts (N.to_nat n) (set_tree arQ8 psi n)) /\ 128 <= s.
Proof. exists 1, (ket 1). split; [apply eq_by; vm_compute; reflexivity|]. exists 255. split; [vm_compute; left; reflexivity|discriminate]. Qed.
