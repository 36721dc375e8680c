(** Property theorems C120 to C128: QBdt. *)
From Coq Require Import NArith List Bool.
From Verif Require Import Amp AmpC AmpC2 AmpQ8 SpecState SpecUnit3 MBdt AmpBdt AmpBdt2 SpecBdt PBdtProp.
Import ListNotations.
Local Open Scope N_scope.

(** * C120: basis states *)

(** SetPermutation: the amplitude of the given basis state is the given phase, or a random one (1 without randGlobalPhase); the others are 0. *)
Theorem c120_set_permutation : forall (K : StarRing), positive_sums (K := K) -> forall (B : qbdt (K := K)) perm phf, 0 < bt_n B -> perm < 2 ^ bt_n B -> (forall j, anorm (bt_ph B j) = 1%amp) -> (forall p, phf = Some p -> anorm p = 1%amp) -> let B' := set_permutation perm phf B in bt_n B' = bt_n B /\ exists c, anorm c = 1%amp /\ (phf = None -> bt_rgp B = false -> c = 1%amp) /\ (forall p, phf = Some p -> c = p) /\ forall x, x < 2 ^ bt_n B -> get_amplitude B' x = (c * ket perm x)%amp.
Proof. exact @PBdtProp.l_c120_set_permutation. Qed.
Print Assumptions c120_set_permutation.

Example c120_ex : get_amplitude (new_bdt 3 5 None false (fun _ => oneC) (fun _ _ => true)) 5 = oneC.
Proof.
  destruct (c120_set_permutation CC cc_sums (mkQB 3 BNull false (fun _ => oneC) (fun _ _ => true) 0) 5 None eq_refl eq_refl (fun _ => oneC_1)) as (_ & c & _ & C & _ & H); [discriminate|].
  rewrite (C eq_refl eq_refl) in H. exact (eq_trans (H 5 eq_refl) (mul1 CC _)).
Qed.

(** * C121: gates *)

(** H on qubits 0, 1, 2 of four, then MACMtrx with the controls 0 and 2 and the matrix of H on 3: the loop over the paths skips by the mask of the controls, also where the bits of the controls are not next to each other. *)
Theorem c121_gates_refuted : forall rgp, exists n (l : list (@bcall Q8)) c, Forall (in_range n) (l ++ [c]) /\ Forall no_gaps l /\ let B := bcalls arQ8 l (new_bdt n 0 None rgp ph8 (fun _ _ => true)) in (forall x, x < 2 ^ n -> anorm (get_amplitude B x) = anorm (ideal_bcalls l (ket 0) x)) /\ ~ holds_state (bcall_run arQ8 c B) (ideal_bcalls (l ++ [c]) (ket 0)).
Proof. exact @PBdtProp.l_c121_gates_refuted. Qed.
Print Assumptions c121_gates_refuted.

(** Programs of calls from a new simulator, with MACMtrx (for matrices that are neither diagonal nor anti-diagonal) only with one control or with controls next to each other and below the target.  Missing: the other calls of MACMtrx, for some of which the result is wrong (c121_gates_refuted). *)
Theorem c121_gates_partial : forall (K : StarRing) (A : Arith K), exact_arith A -> positive_sums (K := K) -> forall n perm rgp (ph : N -> K) rnd l, 0 < n -> perm < 2 ^ n -> (forall j, anorm (ph j) = 1%amp) -> Forall (proper_bcall n) l -> let B := bcalls A l (new_bdt n perm None rgp ph rnd) in bt_n B = n /\ bt_rgp B = rgp /\ holds_state B (ideal_bcalls l (ket perm)).
Proof. exact @PBdtProp.l_c121_gates_partial. Qed.
Print Assumptions c121_gates_partial.

Example c121_gates_ex : let B := (bcalls arCC callsC (new_bdt 4 5 None true (fun _ => oneC) (fun _ _ => true))) in bt_n B = 4 /\ bt_rgp B = true /\ holds_state B (ideal_bcalls callsC (ket 5)).
Proof. exact (c121_gates_partial CC arCC arCC_exact cc_sums 4 5 true (fun _ => oneC) (fun _ _ => true) callsC eq_refl eq_refl (fun _ => oneC_1) callsC_proper). Qed.

(** The same from any state other than 0, given by SetQuantumState.  Missing: as before. *)
Theorem c121_any_state_partial : forall (K : StarRing) (A : Arith K), exact_arith A -> positive_sums (K := K) -> forall (B0 : qbdt (K := K)) psi y l, y < 2 ^ bt_n B0 -> psi y <> 0%amp -> Forall (proper_bcall (bt_n B0)) l -> holds_state (bcalls A l (set_state A psi B0)) (ideal_bcalls l psi).
Proof. exact @PBdtProp.l_c121_any_state_partial. Qed.
Print Assumptions c121_any_state_partial.

Example c121_any_ex : holds_state (bcalls arCC callsC (set_state arCC (fun _ => oneC) (new_bdt 4 0 None false (fun _ => oneC) (fun _ _ => true)))) (ideal_bcalls callsC (fun _ => oneC)).
Proof. apply (c121_any_state_partial CC arCC arCC_exact cc_sums (new_bdt 4 0 None false (fun _ => oneC) (fun _ _ => true)) (fun _ => oneC) 0 callsC eq_refl (proj1 cc_sums) callsC_proper). Qed.

(** Prob and ProbAll are the probabilities of the ideal state.  Missing: the calls left out in c121_gates_partial. *)
Theorem c121_prob_partial : forall (K : StarRing) (A : Arith K), exact_arith A -> positive_sums (K := K) -> forall n perm rgp (ph : N -> K) rnd l, 0 < n -> perm < 2 ^ n -> (forall j, anorm (ph j) = 1%amp) -> Forall (proper_bcall n) l -> let B := bcalls A l (new_bdt n perm None rgp ph rnd) in (forall q, q < n -> prob B q = weight_of n (fun x => N.testbit x q) (ideal_bcalls l (ket perm))) /\ forall x, x < 2 ^ n -> prob_all B x = anorm (ideal_bcalls l (ket perm) x).
Proof. exact @PBdtProp.l_c121_prob_partial. Qed.
Print Assumptions c121_prob_partial.

Example c121_prob_ex : prob (bcalls arCC callsC (new_bdt 4 5 None true (fun _ => oneC) (fun _ _ => true))) 3 = weight_of 4 (fun x => N.testbit x 3) (ideal_bcalls callsC (ket 5)).
Proof. exact (proj1 (c121_prob_partial CC arCC arCC_exact cc_sums 4 5 true (fun _ => oneC) (fun _ _ => true) callsC eq_refl eq_refl (fun _ => oneC_1) callsC_proper) 3 eq_refl). Qed.

(** * C122: probabilities *)

(** Prob is the sum of the squared magnitudes of the amplitudes with a 1 at the qubit, after every program in range. *)
Theorem c122_prob : forall (K : StarRing) (A : Arith K), exact_arith A -> positive_sums (K := K) -> forall n perm rgp (ph : N -> K) rnd l, 0 < n -> perm < 2 ^ n -> (forall j, anorm (ph j) = 1%amp) -> Forall (in_range n) l -> let B := bcalls A l (new_bdt n perm None rgp ph rnd) in forall q, q < n -> prob B q = weight_of n (fun x => N.testbit x q) (get_amplitude B).
Proof. exact @PBdtProp.l_c122_prob. Qed.
Print Assumptions c122_prob.

Example c122_prob_ex : prob (bcalls arCC gapC (new_bdt 4 5 None true (fun _ => oneC) (fun _ _ => true))) 3 = weight_of 4 (fun x => N.testbit x 3) (get_amplitude (bcalls arCC gapC (new_bdt 4 5 None true (fun _ => oneC) (fun _ _ => true)))).
Proof. exact (c122_prob CC arCC arCC_exact cc_sums 4 5 true (fun _ => oneC) (fun _ _ => true) gapC eq_refl eq_refl (fun _ => oneC_1) gapC_range 3 eq_refl). Qed.

(** The squared magnitudes of the amplitudes sum to 1. *)
Theorem c122_norm : forall (K : StarRing) (A : Arith K), exact_arith A -> positive_sums (K := K) -> forall n perm rgp (ph : N -> K) rnd l, 0 < n -> perm < 2 ^ n -> (forall j, anorm (ph j) = 1%amp) -> Forall (in_range n) l -> let B := bcalls A l (new_bdt n perm None rgp ph rnd) in norm2 n (get_amplitude B) = 1%amp.
Proof. exact @PBdtProp.l_c122_norm. Qed.
Print Assumptions c122_norm.

Example c122_norm_ex : norm2 4 (get_amplitude (bcalls arCC gapC (new_bdt 4 5 None true (fun _ => oneC) (fun _ _ => true)))) = 1%amp.
Proof. exact (c122_norm CC arCC arCC_exact cc_sums 4 5 true (fun _ => oneC) (fun _ _ => true) gapC eq_refl eq_refl (fun _ => oneC_1) gapC_range). Qed.

(** * C123: SetQuantumState and GetQuantumState *)

(** GetQuantumState and GetAmplitude after SetQuantumState return the amplitudes given, whatever the simulator held before. *)
Theorem c123_round_trip : forall (K : StarRing) (A : Arith K), exact_arith A -> positive_sums (K := K) -> forall (B : qbdt (K := K)) psi x, x < 2 ^ bt_n B -> get_state (set_state A psi B) x = psi x /\ get_amplitude (set_state A psi B) x = psi x.
Proof. exact @PBdtProp.l_c123_round_trip. Qed.
Print Assumptions c123_round_trip.

Example c123_ex x : x < 8 -> get_amplitude (set_state arCC (fun x => if N.testbit x 1 then oneC else 0%amp) (new_bdt 3 7 None true (fun _ => oneC) (fun _ _ => true))) x = if N.testbit x 1 then oneC else 0%amp.
Proof. intros Hx. exact (proj2 (c123_round_trip CC arCC arCC_exact cc_sums (new_bdt 3 7 None true (fun _ => oneC) (fun _ _ => true)) (fun x => if N.testbit x 1 then oneC else 0%amp) x Hx)). Qed.

(** SetQuantumState and then a copy of the amplitudes into a second simulator: both have the same amplitudes. *)
Theorem c123_replaces : forall (K : StarRing) (A : Arith K), exact_arith A -> positive_sums (K := K) -> forall (B C : qbdt (K := K)) psi x, bt_n C = bt_n B -> x < 2 ^ bt_n B -> get_amplitude (set_state A (get_state (set_state A psi B)) C) x = psi x.
Proof. exact @PBdtProp.l_c123_replaces. Qed.
Print Assumptions c123_replaces.

Example c123_replaces_ex : get_amplitude (set_state arCC (get_state (set_state arCC (fun _ => oneC) (new_bdt 3 7 None true (fun _ => oneC) (fun _ _ => true)))) (new_bdt 3 2 None false (fun _ => oneC) (fun _ _ => true))) 4 = oneC.
Proof. exact (c123_replaces CC arCC arCC_exact cc_sums (new_bdt 3 7 None true (fun _ => oneC) (fun _ _ => true)) (new_bdt 3 2 None false (fun _ => oneC) (fun _ _ => true)) (fun _ => oneC) 4 eq_refl eq_refl). Qed.

(** * C124: measurement of one qubit *)

(** M after a program: the outcome is certain, or one comparison of a random number with the sum of the squared magnitudes of the amplitudes with a 1 at the qubit. *)
Theorem c124_outcome : forall (K : StarRing) (A : Arith K), exact_arith A -> positive_sums (K := K) -> forall n perm rgp (ph : N -> K) rnd l, 0 < n -> perm < 2 ^ n -> (forall j, anorm (ph j) = 1%amp) -> Forall (in_range n) l -> let B := bcalls A l (new_bdt n perm None rgp ph rnd) in forall q want, q < n -> chosen rnd (weight_of n (fun x => N.testbit x q) (get_amplitude B)) (fst (force_m A q want false true B)).
Proof. exact @PBdtProp.l_c124_outcome. Qed.
Print Assumptions c124_outcome.

Example c124_outcome_ex : chosen (fun _ _ => true) (weight_of 4 (fun x => N.testbit x 2) (get_amplitude (bcalls arCC gapC (new_bdt 4 5 None true (fun _ => oneC) (fun _ _ => true))))) (fst (force_m arCC 2 false false true (bcalls arCC gapC (new_bdt 4 5 None true (fun _ => oneC) (fun _ _ => true))))).
Proof. exact (c124_outcome CC arCC arCC_exact cc_sums 4 5 true (fun _ => oneC) (fun _ _ => true) gapC eq_refl eq_refl (fun _ => oneC_1) gapC_range 2 false eq_refl). Qed.

(** H(0), CNOT(0, 1), ForceM(1, true): the simulator still holds the Bell pair, the probability of 1 for qubit 1 is 1/2, and a second measurement may return 0.  A node whose branch for the outcome is zero keeps the other branch. *)
Theorem c124_collapse_refuted : forall rgp, exists n (l : list (@bcall Q8)) q, Forall (proper_bcall n) l /\ q < n /\ let B := bcalls arQ8 l (new_bdt n 0 None rgp ph8 (fun _ _ => false)) in holds_state B (ideal_bcalls l (ket 0)) /\ let R := force_m arQ8 q true true true B in fst R = true /\ weight_of n (fun x => N.testbit x q) (ideal_bcalls l (ket 0)) <> 0%amp /\ ~ normalized n (get_amplitude (snd R)) (collapse q true (ideal_bcalls l (ket 0))) /\ prob (snd R) q <> 1%amp /\ fst (force_m arQ8 q true false true (snd R)) = false.
Proof. exact @PBdtProp.l_c124_collapse_refuted. Qed.
Print Assumptions c124_collapse_refuted.

(** ForceM or M with the outcome r on a qubit that is independent of the qubits below it: given their values, the probability of r is some p other than 0, always the same.  The state is then the normalised projection.  Missing: the other qubits, for some of which the result is wrong (c124_collapse_refuted). *)
Theorem c124_collapse_partial : forall (K : StarRing) (A : Arith K), exact_arith A -> positive_sums (K := K) -> forall n perm rgp (ph : N -> K) rnd l, 0 < n -> perm < 2 ^ n -> (forall j, anorm (ph j) = 1%amp) -> Forall (in_range n) l -> let B := bcalls A l (new_bdt n perm None rgp ph rnd) in forall q want doForce, q < n -> let '(r, B') := force_m A q want doForce true B in forall p, p <> 0%amp -> independent n q r p (get_amplitude B) -> bt_n B' = n /\ normalized n (get_amplitude B') (collapse q r (get_amplitude B)).
Proof. exact @PBdtProp.l_c124_collapse_partial. Qed.
Print Assumptions c124_collapse_partial.

(** Qubit 1 in the state |+>. *)
Example c124_collapse_ex : let B := bcalls arCC plusB (new_bdt 2 0 None false (fun _ => oneC) (fun _ _ => true)) in let '(r, B') := force_m arCC 1 true true true B in r = true -> bt_n B' = 2 /\ normalized 2 (get_amplitude B') (collapse 1 true (get_amplitude B)).
Proof.
  pose proof (c124_collapse_partial CC arCC arCC_exact cc_sums 2 0 false (fun _ => oneC) (fun _ _ => true) plusB eq_refl eq_refl (fun _ => oneC_1) (range_of _ _ plusB_proper) 1 true true eq_refl) as X. cbn zeta in *. destruct (force_m arCC 1 true true true _) as [r B'].
  intros ->. exact (X _ (half_n0 CC arCC arCC_exact cc_sums) (plus_held false)).
Qed.

(** ForceM or M on qubit 0, if the outcome has a probability other than 0: the state is then the normalised projection.  Missing: as before. *)
Theorem c124_first_partial : forall (K : StarRing) (A : Arith K), exact_arith A -> positive_sums (K := K) -> forall n perm rgp (ph : N -> K) rnd l, 0 < n -> perm < 2 ^ n -> (forall j, anorm (ph j) = 1%amp) -> Forall (in_range n) l -> let B := bcalls A l (new_bdt n perm None rgp ph rnd) in forall want doForce, let '(r, B') := force_m A 0 want doForce true B in weight_of n (fun x => eqb (N.testbit x 0) r) (get_amplitude B) <> 0%amp -> bt_n B' = n /\ normalized n (get_amplitude B') (collapse 0 r (get_amplitude B)).
Proof. exact @PBdtProp.l_c124_first_partial. Qed.
Print Assumptions c124_first_partial.

Example c124_first_ex : let B := bcalls arCC bellB (new_bdt 2 0 None true (fun _ => oneC) (fun _ _ => true)) in let '(r, B') := force_m arCC 0 true true true B in weight_of 2 (fun x => eqb (N.testbit x 0) r) (get_amplitude B) <> 0%amp -> bt_n B' = 2 /\ normalized 2 (get_amplitude B') (collapse 0 r (get_amplitude B)).
Proof. exact (c124_first_partial CC arCC arCC_exact cc_sums 2 0 true (fun _ => oneC) (fun _ _ => true) bellB eq_refl eq_refl (fun _ => oneC_1) (range_of _ _ bellB_proper) true true). Qed.

(** * C125: measurement of all qubits *)

(** MAll: every bit of the outcome is certain or drawn with its probability given the bits below, the amplitude of the outcome is not 0, and the simulator then holds the basis state of the outcome. *)
Theorem c125_mall : forall (K : StarRing) (A : Arith K), exact_arith A -> positive_sums (K := K) -> forall n perm rgp (ph : N -> K) rnd l, 0 < n -> perm < 2 ^ n -> (forall j, anorm (ph j) = 1%amp) -> Forall (in_range n) l -> let B := bcalls A l (new_bdt n perm None rgp ph rnd) in let '(r, B') := mall A B in r < 2 ^ n /\ drawn_all rnd n (get_amplitude B) r /\ get_amplitude B r <> 0%amp /\ bt_n B' = n /\ exists c, anorm c = 1%amp /\ forall x, x < 2 ^ n -> get_amplitude B' x = (c * ket r x)%amp.
Proof. exact @PBdtProp.l_c125_mall. Qed.
Print Assumptions c125_mall.

Example c125_mall_ex : let B := (bcalls arCC gapC (new_bdt 4 5 None true (fun _ => oneC) (fun _ _ => true))) in let '(r, B') := mall arCC B in r < 16 /\ drawn_all (fun _ _ => true) 4 (get_amplitude B) r /\ get_amplitude B r <> 0%amp /\ bt_n B' = 4 /\ exists c, anorm c = 1%amp /\ forall x, x < 16 -> get_amplitude B' x = (c * ket r x)%amp.
Proof. exact (c125_mall CC arCC arCC_exact cc_sums 4 5 true (fun _ => oneC) (fun _ _ => true) gapC eq_refl eq_refl (fun _ => oneC_1) gapC_range). Qed.

(** SampleClone (the sampling of MultiShotMeasureMask): the bits are those of an outcome of MAll for the given qubits, and the state does not change. *)
Theorem c125_sample : forall (K : StarRing) (A : Arith K), exact_arith A -> positive_sums (K := K) -> forall n perm rgp (ph : N -> K) rnd l, 0 < n -> perm < 2 ^ n -> (forall j, anorm (ph j) = 1%amp) -> Forall (in_range n) l -> let B := bcalls A l (new_bdt n perm None rgp ph rnd) in forall qs, let '(s, B') := sample_clone A qs B in (forall x, get_amplitude B' x = get_amplitude B x) /\ exists r, r < 2 ^ n /\ drawn_all rnd n (get_amplitude B) r /\ get_amplitude B r <> 0%amp /\ forall j, N.testbit s j = match nth_error qs (N.to_nat j) with Some q => N.testbit r q | None => false end.
Proof. exact @PBdtProp.l_c125_sample. Qed.
Print Assumptions c125_sample.

Example c125_sample_ex : let B := (bcalls arCC gapC (new_bdt 4 5 None true (fun _ => oneC) (fun _ _ => true))) in let '(s, B') := sample_clone arCC [3; 0] B in (forall x, get_amplitude B' x = get_amplitude B x) /\ exists r, r < 16 /\ drawn_all (fun _ _ => true) 4 (get_amplitude B) r /\ get_amplitude B r <> 0%amp /\ forall j, N.testbit s j = match nth_error [3; 0] (N.to_nat j) with Some q => N.testbit r q | None => false end.
Proof. exact (c125_sample CC arCC arCC_exact cc_sums 4 5 true (fun _ => oneC) (fun _ _ => true) gapC eq_refl eq_refl (fun _ => oneC_1) gapC_range [3; 0]). Qed.

(** * C126: Compose *)

(** Compose of a qubit in |0> at position 1 into two qubits of which the second is in |1>: the norm is not 1, and what was behind the position is lost. *)
Theorem c126_insert_refuted : forall rgp, let new n perm := new_bdt (K := Q8) n perm None rgp (fun _ => 1%amp) (fun _ _ => true) in exists nb nc pb pc s, s < nb /\ pb < 2 ^ nb /\ pc < 2 ^ nc /\ let D := compose (new nc pc) s (new nb pb) in norm2 (nb + nc) (get_amplitude D) <> 1%amp /\ exists x, x < 2 ^ (nb + nc) /\ get_amplitude D x <> tensor_at s nc (ket pb) (ket pc) x.
Proof. exact @PBdtProp.l_c126_insert_refuted. Qed.
Print Assumptions c126_insert_refuted.

(** Compose at the end: the amplitudes are the products, up to a factor of magnitude 1.  Missing: other positions, for which the result is wrong (c126_insert_refuted), and the factor, which is lost (c126_phase_refuted). *)
Theorem c126_end_partial : forall (K : StarRing) (A : Arith K), exact_arith A -> positive_sums (K := K) -> forall n perm rgp (ph : N -> K) rnd l n' perm' rgp' (ph' : N -> K) rnd' l', 0 < n -> perm < 2 ^ n -> (forall j, anorm (ph j) = 1%amp) -> Forall (in_range n) l -> 0 < n' -> perm' < 2 ^ n' -> (forall j, anorm (ph' j) = 1%amp) -> Forall (in_range n') l' -> let B := bcalls A l (new_bdt n perm None rgp ph rnd) in let C := bcalls A l' (new_bdt n' perm' None rgp' ph' rnd') in let D := compose C n B in bt_n D = n + n' /\ exists c, anorm c = 1%amp /\ forall x, x < 2 ^ (n + n') -> get_amplitude D x = (c * tensor n (get_amplitude B) (get_amplitude C) x)%amp.
Proof. exact @PBdtProp.l_c126_end_partial. Qed.
Print Assumptions c126_end_partial.

Example c126_end_ex : let C := (bcalls arCC gapC (new_bdt 4 5 None true (fun _ => oneC) (fun _ _ => true))) in let B := bcalls arCC bellB (new_bdt 2 0 None true (fun _ => oneC) (fun _ _ => true)) in let D := compose C 2 B in bt_n D = 6 /\ exists c, anorm c = 1%amp /\ forall x, x < 64 -> get_amplitude D x = (c * tensor 2 (get_amplitude B) (get_amplitude C) x)%amp.
Proof. exact (c126_end_partial CC arCC arCC_exact cc_sums 2 0 true (fun _ => oneC) (fun _ _ => true) bellB 4 5 true (fun _ => oneC) (fun _ _ => true) gapC eq_refl eq_refl (fun _ => oneC_1) (range_of _ _ bellB_proper) eq_refl eq_refl (fun _ => oneC_1) gapC_range). Qed.

(** Without randGlobalPhase, Compose at the end drops the phase of the second state: i|1> appended to |0>. *)
Theorem c126_phase_refuted : exists (B C : qbdt (K := Q8)) x, bt_rgp B = false /\ bt_rgp C = false /\ B = new_bdt 1 0 None false ph8 (fun _ _ => true) /\ C = bcalls arQ8 [BPhase one8 z_i 0] (new_bdt 1 1 None false ph8 (fun _ _ => true)) /\ holds_state C (ideal_bcalls [BPhase one8 z_i 0] (ket 1)) /\ x < 4 /\ get_amplitude (compose C 1 B) x <> tensor 1 (get_amplitude B) (get_amplitude C) x.
Proof. exact @PBdtProp.l_c126_phase_refuted. Qed.
Print Assumptions c126_phase_refuted.

(** * C127: IsSeparable *)

(** H(0), S(0), H(1): the state is a product, but IsSeparable(1) says no.  The nodes of qubit 1 differ in the phase of their scale. *)
Theorem c127_no_refuted : forall rgp, exists n (l : list (@bcall Q8)) s, Forall (proper_bcall n) l /\ 0 < s < n /\ is_separable s (bcalls arQ8 l (new_bdt n 0 None rgp ph8 (fun _ _ => true))) = false /\ exists a b, forall x, x < 2 ^ n -> ideal_bcalls l (ket 0) x = tensor s a b x.
Proof. exact @PBdtProp.l_c127_no_refuted. Qed.
Print Assumptions c127_no_refuted.

(** If IsSeparable says yes, the state is a product.  Missing: the answer no, which may be wrong (c127_no_refuted). *)
Theorem c127_yes_partial : forall (K : StarRing) (A : Arith K), exact_arith A -> positive_sums (K := K) -> forall n perm rgp (ph : N -> K) rnd l, 0 < n -> perm < 2 ^ n -> (forall j, anorm (ph j) = 1%amp) -> Forall (in_range n) l -> let B := bcalls A l (new_bdt n perm None rgp ph rnd) in forall s, 0 < s < n -> is_separable s B = true -> exists a b, forall x, x < 2 ^ n -> get_amplitude B x = tensor s a b x.
Proof. exact @PBdtProp.l_c127_yes_partial. Qed.
Print Assumptions c127_yes_partial.

(** The answer yes. *)
Example c127_yes_ex : is_separable 1 (bcalls arQ8 [BMtrx H8 0; BMtrx H8 1] (new_bdt 2 0 None true ph8 (fun _ _ => true))) = true.
Proof. vm_compute. reflexivity. Qed.
Example c127_basis_ex : let B := bcalls arCC [] (new_bdt 2 2 None false (fun _ => oneC) (fun _ _ => true)) in exists a b : N -> CC, forall x, x < 4 -> get_amplitude B x = tensor 1 a b x.
Proof. apply (c127_yes_partial CC arCC arCC_exact cc_sums 2 2 false (fun _ => oneC) (fun _ _ => true) [] eq_refl eq_refl (fun _ => oneC_1) (Forall_nil _) 1 (conj eq_refl eq_refl)). exact yes2. Qed.

(** * C128: shifts *)

(** SetQuantumState with the state |1> on a simulator of one qubit: Prune shifts a 128-bit number by 255, which has no defined result. *)
Theorem c128_shift_refuted : exists n (psi : N -> Q8), norm2 n psi = 1%amp /\ exists s, In s (prune_shifts (N.to_nat n) (set_tree arQ8 psi n)) /\ 128 <= s.
Proof. exact @PBdtProp.l_c128_shift_refuted. Qed.
Print Assumptions c128_shift_refuted.
