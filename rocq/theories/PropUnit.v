(** Property theorems C108, C112-C117: programs of calls that QUnit computes correctly. *)
From Coq Require Import NArith List Bool.
From Verif Require Import Amp AmpC AmpC2 AmpQ8 AmpQ8b SpecState MShard MUnit SpecUnit SpecUnit2 PUnitBug PUnitProg.
Import ListNotations.
Local Open Scope N_scope.

(** * C108: sequences of gates *)

(** Whenever a Hadamard-like matrix is applied to a qubit from which or to which a controlled gate may be waiting, the other qubit has no certain value.  Missing: the other sequences of gates, for some of which the result is wrong (c108_gates_refuted). *)
Theorem c108_programs_partial : forall (K : StarRing) (cx : Cplx K), positive (K := K) -> forall rgp n perm (ph : N -> K) rnd gs, (forall j, anorm (ph j) = 1%amp) -> perm < 2 ^ n -> Forall (proper_gate n) gs -> h_open cx n (fun _ _ => False) (ket perm) gs -> upto_phase n (fun x => fst (GetAmplitude cx x (run cx gs (new_unit rgp n perm ph rnd)))) (ideal_run cx gs (ket perm)).
Proof. exact @PUnitProg.l_c108_programs_partial. Qed.
Print Assumptions c108_programs_partial.

(** H(0), H(1), CZ(0, 1), H(0): qubit 1 is undecided when the last gate is applied. *)
Example c108_programs_ex : upto_phase 2 (fun x => fst (GetAmplitude cxQ8 x (run cxQ8 [UH 0; UH 1; gCP 0 true p1 m1 1; UH 0] (new_unit true 2 0 (fun _ => z_i) (fun _ _ => true))))) (ideal_run cxQ8 [UH 0; UH 1; gCP 0 true p1 m1 1; UH 0] (ket 0)).
Proof.
  apply c108_programs_partial; [exact q8_definite|intros _; exact z_i_unit|reflexivity|proper_tac|]. unfold gCP; cbn [h_open relink hadamards]. split; [intros q p _ []|]. split; [intros q p _ H; tauto|]. split; [intros q p _ H; tauto|]. split; [|auto].
  intros q p -> H. assert (E : p = 1) by (cbn [In map fst] in H; tauto). subst p. intros v. exists (if v then 2 else 0). split; [destruct v; reflexivity|]. split; [destruct v; reflexivity|]. destruct v; apply neq_by; vm_compute; reflexivity.
Qed.

(** The same with calls of GetAmplitude, Prob and SetPermutation between the gates.  Missing: as above. *)
Theorem c108_safe_calls_partial : forall (K : StarRing) (cx : Cplx K), positive (K := K) -> forall rgp n perm (ph : N -> K) rnd cs, (forall j, anorm (ph j) = 1%amp) -> perm < 2 ^ n -> Forall (proper_call n) cs -> h_safe_calls cx n (fun _ _ => False) (ket perm) cs -> upto_phase n (fun x => fst (GetAmplitude cx x (calls cx cs (new_unit rgp n perm ph rnd)))) (ideal_calls cx cs (ket perm)).
Proof. exact @PUnitProg.l_c108_safe_calls_partial. Qed.
Print Assumptions c108_safe_calls_partial.

Example c108_safe_calls_ex : upto_phase 2 (fun x => fst (GetAmplitude cxQ8 x (calls cxQ8 [CGate (UH 0); CGate (UH 1); CGate (gCP 0 true p1 m1 1); CGate (UH 0); CProb 0] (new_unit true 2 0 (fun _ => z_i) (fun _ _ => true))))) (ideal_calls cxQ8 [CGate (UH 0); CGate (UH 1); CGate (gCP 0 true p1 m1 1); CGate (UH 0); CProb 0] (ket 0)).
Proof.
  apply c108_safe_calls_partial; [exact q8_definite|intros _; exact z_i_unit|reflexivity|repeat (apply Forall_cons; [cbn; one_tac || reflexivity|]); apply Forall_nil|]. unfold gCP; cbn [h_safe_calls safe_call links_after ideal_call relink hadamards]. split; [intros q p _ []|]. split; [intros q p _ H; tauto|]. split; [intros q p _ H; tauto|]. split; [|auto].
  intros q p -> H. assert (E : p = 1) by (cbn [In map fst] in H; tauto). subst p. intros v. exists (if v then 2 else 0). split; [destruct v; reflexivity|]. split; [destruct v; reflexivity|]. destruct v; apply neq_by; vm_compute; reflexivity.
Qed.

(** * C112: programs with Hadamard gates before controls *)

(** GetAmplitude returns the amplitudes of the ideal state, up to one global phase. *)
Theorem c112_amplitudes : forall (K : StarRing) (cx : Cplx K), positive (K := K) -> forall rgp n perm (ph : N -> K) rnd cs, (forall j, anorm (ph j) = 1%amp) -> perm < 2 ^ n -> Forall (proper_call n) cs -> h_first_calls cx [] cs -> upto_phase n (fun x => fst (GetAmplitude cx x (calls cx cs (new_unit rgp n perm ph rnd)))) (ideal_calls cx cs (ket perm)).
Proof. exact @PUnitProg.l_c112_amplitudes. Qed.
Print Assumptions c112_amplitudes.

Example c112_ex : upto_phase 3 (fun x => fst (GetAmplitude cxQ8 x (calls cxQ8 ghz (new_unit true 3 0 (fun _ => z_i) (fun _ _ => true))))) (ideal_calls cxQ8 ghz (ket 0)).
Proof. exact (c112_amplitudes Q8 cxQ8 q8_definite true 3 0 (fun _ => z_i) (fun _ _ => true) ghz (fun _ => z_i_unit) eq_refl ghz_proper ghz_first). Qed.
Example c112_ex_amplitudes : sr_eqb (ideal_calls cxQ8 ghz (ket 0) 0) z_h = true /\ sr_eqb (ideal_calls cxQ8 ghz (ket 0) 7) (z_i * z_h)%amp = true.
Proof. vm_compute. auto. Qed.
(** The complex numbers. *)
Example c112_ex_complex : upto_phase 2 (fun x => fst (GetAmplitude cxCC x (calls cxCC bellC (new_unit true 2 0 (fun _ => 1%amp) (fun _ _ => true))))) (ideal_calls cxCC bellC (ket 0)).
Proof. exact (c112_amplitudes CC cxCC cc_definite true 2 0 (fun _ => 1%amp) (fun _ _ => true) bellC (fun _ => oneC) eq_refl bellC_proper bellC_first). Qed.

(** * C113: Prob *)

(** Prob of a qubit is the sum of the squared magnitudes of the amplitudes with that qubit set. *)
Theorem c113_prob : forall (K : StarRing) (cx : Cplx K), positive (K := K) -> forall rgp n perm (ph : N -> K) rnd cs, (forall j, anorm (ph j) = 1%amp) -> perm < 2 ^ n -> Forall (proper_call n) cs -> h_first_calls cx [] cs -> exact_roots cx -> forall q, q < n -> let U := calls cx cs (new_unit rgp n perm ph rnd) in fst (Prob cx (u_sw U q) U) = asum (fun x => if N.testbit x q then anorm (ideal_calls cx cs (ket perm) x) else 0%amp) (basis n).
Proof. exact @PUnitProg.l_c113_prob. Qed.
Print Assumptions c113_prob.

Example c113_ex : let U := calls cxCC bellC (new_unit true 2 0 (fun _ => 1%amp) (fun _ _ => true)) in fst (Prob cxCC (u_sw U 1) U) = asum (fun x => if N.testbit x 1 then anorm (ideal_calls cxCC bellC (ket 0) x) else 0%amp) (basis 2).
Proof. exact (c113_prob CC cxCC cc_definite true 2 0 (fun _ => 1%amp) (fun _ _ => true) bellC (fun _ => oneC) eq_refl bellC_proper bellC_first cc_roots 1 eq_refl). Qed.

(** * C114: calls that read *)

(** Prob and GetAmplitude leave all amplitudes as they were, up to one global phase. *)
Theorem c114_reads : forall (K : StarRing) (cx : Cplx K), positive (K := K) -> forall rgp n perm (ph : N -> K) rnd cs, (forall j, anorm (ph j) = 1%amp) -> perm < 2 ^ n -> Forall (proper_call n) cs -> h_first_calls cx [] cs -> let U := calls cx cs (new_unit rgp n perm ph rnd) in (forall q, q < n -> upto_phase n (fun x => fst (GetAmplitude cx x (snd (Prob cx (u_sw U q) U)))) (fun x => fst (GetAmplitude cx x U))) /\ (forall y, upto_phase n (fun x => fst (GetAmplitude cx x (snd (GetAmplitude cx y U)))) (fun x => fst (GetAmplitude cx x U))).
Proof. exact @PUnitProg.l_c114_reads. Qed.
Print Assumptions c114_reads.

Example c114_ex : let U := calls cxQ8 ghz (new_unit true 3 0 (fun _ => z_i) (fun _ _ => true)) in forall q, q < 3 -> upto_phase 3 (fun x => fst (GetAmplitude cxQ8 x (snd (Prob cxQ8 (u_sw U q) U)))) (fun x => fst (GetAmplitude cxQ8 x U)).
Proof. exact (proj1 (c114_reads Q8 cxQ8 q8_definite true 3 0 (fun _ => z_i) (fun _ _ => true) ghz (fun _ => z_i_unit) eq_refl ghz_proper ghz_first)). Qed.

(** * C115: the norm *)

(** The squared magnitudes of all amplitudes returned by GetAmplitude have the sum 1. *)
Theorem c115_norm : forall (K : StarRing) (cx : Cplx K), positive (K := K) -> forall rgp n perm (ph : N -> K) rnd cs, (forall j, anorm (ph j) = 1%amp) -> perm < 2 ^ n -> Forall (proper_call n) cs -> h_first_calls cx [] cs -> asum (fun x => anorm (fst (GetAmplitude cx x (calls cx cs (new_unit rgp n perm ph rnd))))) (basis n) = 1%amp.
Proof. exact @PUnitProg.l_c115_norm. Qed.
Print Assumptions c115_norm.

Example c115_ex : asum (fun x => anorm (fst (GetAmplitude cxQ8 x (calls cxQ8 ghz (new_unit true 3 0 (fun _ => z_i) (fun _ _ => true)))))) (basis 3) = 1%amp.
Proof. exact (c115_norm Q8 cxQ8 q8_definite true 3 0 (fun _ => z_i) (fun _ _ => true) ghz (fun _ => z_i_unit) eq_refl ghz_proper ghz_first). Qed.

(** * C116: engines and shards *)

(** No null pointer is followed, and shards, engines and the swap map stay consistent. *)
Theorem c116_layout : forall (K : StarRing) (cx : Cplx K), positive (K := K) -> forall rgp n perm (ph : N -> K) rnd cs, (forall j, anorm (ph j) = 1%amp) -> perm < 2 ^ n -> Forall (proper_call n) cs -> h_first_calls cx [] cs -> let U := calls cx cs (new_unit rgp n perm ph rnd) in u_ub U = false /\ u_n U = n /\ well_placed U.
Proof. exact @PUnitProg.l_c116_layout. Qed.
Print Assumptions c116_layout.

Example c116_ex : let U := calls cxQ8 ghz (new_unit true 3 0 (fun _ => z_i) (fun _ _ => true)) in u_ub U = false /\ u_n U = 3 /\ well_placed U.
Proof. exact (c116_layout Q8 cxQ8 q8_definite true 3 0 (fun _ => z_i) (fun _ _ => true) ghz (fun _ => z_i_unit) eq_refl ghz_proper ghz_first). Qed.

(** * C117: SetPermutation *)

(** From every state of the simulator, SetPermutation makes the basis state. *)
Theorem c117_set_permutation : forall (K : StarRing) (cx : Cplx K), positive (K := K) -> forall perm (U : qunit K), (forall j, anorm (u_ph U j) = 1%amp) -> u_ub U = false -> perm < 2 ^ u_n U -> upto_phase (u_n U) (fun x => fst (GetAmplitude cx x (SetPermutation perm U))) (ket perm).
Proof. exact @PUnitProg.l_c117_set_permutation. Qed.
Print Assumptions c117_set_permutation.

(** After the circuit of c108_gates_refuted. *)
Example c117_ex : let U := run cxQ8 wrong5 (new_unit true 5 0 (fun _ => z_i) (fun _ _ => true)) in upto_phase (u_n U) (fun x => fst (GetAmplitude cxQ8 x (SetPermutation 9 U))) (ket 9).
Proof.
  intros U. apply c117_set_permutation; [exact q8_definite| | |].
  - intros j. replace (u_ph U j) with z_i by (apply eq_by; vm_compute; reflexivity). exact z_i_unit.
  - vm_compute. reflexivity.
  - vm_compute. reflexivity.
Qed.
