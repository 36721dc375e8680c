(** Property theorems C118, C119: measurements of QUnit. *)
From Coq Require Import NArith List Bool.
From Verif Require Import Amp AmpC AmpC2 AmpQ8 AmpQ8b SpecState MShard MUnit SpecUnit SpecUnit2 PUnitBug PUnitProg SpecUnit3 PUnitMeas.
Import ListNotations.
Local Open Scope N_scope.

(** * C118: the outcomes of measurements *)

(** M after a program of gates: the probability of 1 is that of the ideal state, and the outcome is certain or one comparison of a random number with this probability. *)
Theorem c118_outcome : forall (K : StarRing) (cx : Cplx K) (nrm : K -> K), positive (K := K) -> normalizes nrm -> forall rgp n perm (ph : N -> K) rnd cs q, (forall j, anorm (ph j) = 1%amp) -> perm < 2 ^ n -> Forall (proper_call n) cs -> h_first_calls cx [] cs -> q < n -> let U := calls cx cs (new_unit rgp n perm ph rnd) in chosen rnd (chance n q true (ideal_calls cx cs (ket perm))) (fst (QM cx nrm (u_sw U q) U)).
Proof. exact @PUnitMeas.l_c118_outcome. Qed.
Print Assumptions c118_outcome.

Example c118_outcome_ex : let U := calls cxCC bellC (new_unit true 2 0 (fun _ => 1%amp) (fun _ _ => false)) in chosen (fun _ _ => false) (chance 2 1 true (ideal_calls cxCC bellC (ket 0))) (fst (QM cxCC nrmC (u_sw U 1) U)).
Proof. exact (c118_outcome CC cxCC nrmC cc_definite nrmC_ok true 2 0 (fun _ => 1%amp) (fun _ _ => false) bellC 1 (fun _ => oneC) eq_refl bellC_proper bellC_first eq_refl). Qed.

(** M returns only outcomes that the ideal state allows, and each of them for some random numbers. *)
Theorem c118_possible : forall (K : StarRing) (cx : Cplx K) (nrm : K -> K), positive (K := K) -> normalizes nrm -> forall rgp n perm (ph : N -> K) cs q, (forall j, anorm (ph j) = 1%amp) -> perm < 2 ^ n -> Forall (proper_call n) cs -> h_first_calls cx [] cs -> q < n -> forall r, chance n q r (ideal_calls cx cs (ket perm)) <> 0%amp <-> (exists rnd, let U := calls cx cs (new_unit rgp n perm ph rnd) in fst (QM cx nrm (u_sw U q) U) = r).
Proof. exact @PUnitMeas.l_c118_possible. Qed.
Print Assumptions c118_possible.

(** Both outcomes after H. *)
Example c118_possible_ex r : exists rnd, let U := calls cxCC [CGate (UH 0)] (new_unit true 1 0 (fun _ => 1%amp) rnd) in fst (QM cxCC nrmC (u_sw U 0) U) = r.
Proof.
  apply (c118_possible CC cxCC nrmC cc_definite nrmC_ok true 1 0 (fun _ => 1%amp) [CGate (UH 0)] 0 (fun _ => oneC) eq_refl); [repeat constructor|cbn; auto|reflexivity|].
  destruct r; apply (half_chance CC cxCC cc_definite).
Qed.

(** The same for programs with measurements between the gates: every outcome is drawn with the conditional probability of the state after the outcomes before it. *)
Theorem c118_outcomes : forall (K : StarRing) (cx : Cplx K) (nrm : K -> K), positive (K := K) -> normalizes nrm -> forall rgp n perm (ph : N -> K) rnd ms, (forall j, anorm (ph j) = 1%amp) -> perm < 2 ^ n -> Forall (proper_mcall n) ms -> first_mcalls cx [] ms -> let U := mcalls cx nrm ms (new_unit rgp n perm ph rnd) in possible cx n ms (fst U) (ket perm) -> drawn cx rnd n ms (fst U) (ket perm).
Proof. exact @PUnitMeas.l_c118_outcomes. Qed.
Print Assumptions c118_outcomes.

Example c118_outcomes_ex rnd : drawn cxCC rnd 2 bellM (fst (mcalls cxCC nrmC bellM (new_unit true 2 0 (fun _ => 1%amp) rnd))) (ket 0).
Proof. apply (c118_outcomes CC cxCC nrmC cc_definite nrmC_ok true 2 0 (fun _ => 1%amp) rnd bellM (fun _ => oneC) eq_refl bellM_proper bellM_first). cbn [possible bellM]. exact I. Qed.

(** A second M on the same qubit returns the outcome of the first. *)
Theorem c118_again : forall (K : StarRing) (cx : Cplx K) (nrm : K -> K), positive (K := K) -> normalizes nrm -> forall rgp n perm (ph : N -> K) rnd ms q, (forall j, anorm (ph j) = 1%amp) -> perm < 2 ^ n -> Forall (proper_mcall n) ms -> q < n -> first_mcalls cx [] (ms ++ [MMeasure q; MMeasure q]) -> let U := mcalls cx nrm (ms ++ [MMeasure q; MMeasure q]) (new_unit rgp n perm ph rnd) in possible cx n (ms ++ [MMeasure q; MMeasure q]) (fst U) (ket perm) -> exists rs r, fst U = rs ++ [r; r].
Proof. exact @PUnitMeas.l_c118_again. Qed.
Print Assumptions c118_again.

Example c118_again_ex rnd : exists rs r, fst (mcalls cxCC nrmC (bellM ++ [MMeasure 0; MMeasure 0]) (new_unit true 2 0 (fun _ => 1%amp) rnd)) = rs ++ [r; r].
Proof. apply (c118_again CC cxCC nrmC cc_definite nrmC_ok true 2 0 (fun _ => 1%amp) rnd bellM 0 (fun _ => oneC) eq_refl bellM_proper eq_refl); [cbn; repeat split; auto|cbn [possible bellM app]; exact I]. Qed.

(** * C119: the state after measurements *)

(** H(1), CZ(1, 2), H(0), ForceM(1, true), CZ(0, 2) on three qubits: the amplitudes at 010 and 011 should be equal, but one is 0.  The measurement turns the waiting CZ round and keeps it with the control 2, which is certainly 0; a later read stores qubit 0 as a basis state of PauliX, which is then read as one of PauliZ. *)
Theorem c119_collapse_refuted : forall rgp, exists n (ms : list (@mcall Q8)), Forall (proper_mcall n) ms /\ (anorm (z_nrm (z_h * z_h)) * (z_h * z_h) = 1)%amp /\ let U := mcalls cxQ8 z_nrm ms (new_unit rgp n 0 (fun _ => z_i) (fun _ _ => true)) in fst U = [true] /\ possible cxQ8 n ms (fst U) (ket 0) /\ ~ normalized n (fun x => fst (GetAmplitude cxQ8 x (snd U))) (ideal_mcalls cxQ8 ms (fst U) (ket 0)).
Proof. exact @PUnitMeas.l_c119_collapse_refuted. Qed.
Print Assumptions c119_collapse_refuted.

(** Measured qubits leave the controls of waiting gates undecided.  Missing: measurements that decide the control of a waiting gate, for some of which the result is wrong (c119_collapse_refuted). *)
Theorem c119_collapse_partial : forall (K : StarRing) (cx : Cplx K) (nrm : K -> K), positive (K := K) -> normalizes nrm -> forall rgp n perm (ph : N -> K) rnd ms, (forall j, anorm (ph j) = 1%amp) -> perm < 2 ^ n -> Forall (proper_mcall n) ms -> let U := mcalls cx nrm ms (new_unit rgp n perm ph rnd) in possible cx n ms (fst U) (ket perm) -> safe_mcalls cx n (fun _ _ => False) (ket perm) ms (fst U) -> normalized n (fun x => fst (GetAmplitude cx x (snd U))) (ideal_mcalls cx ms (fst U) (ket perm)).
Proof. exact @PUnitMeas.l_c119_collapse_partial. Qed.
Print Assumptions c119_collapse_partial.

(** The CZ from 0 to 1 is waiting while qubit 2 is measured. *)
Example c119_collapse_ex rnd : let U := mcalls cxCC nrmC waitM (new_unit true 3 0 (fun _ => 1%amp) rnd) in normalized 3 (fun x => fst (GetAmplitude cxCC x (snd U))) (ideal_mcalls cxCC waitM (fst U) (ket 0)).
Proof. apply (c119_collapse_partial CC cxCC nrmC cc_definite nrmC_ok true 3 0 (fun _ => 1%amp) rnd waitM (fun _ => oneC) eq_refl waitM_proper); [exact I|]. apply waitM_safe. Qed.

(** Measurements only directly after a call of GetAmplitude or SetPermutation or before any controlled gate, possibly with gates without controls between.  Missing: the other measurements. *)
Theorem c119_first_partial : forall (K : StarRing) (cx : Cplx K) (nrm : K -> K), positive (K := K) -> normalizes nrm -> forall rgp n perm (ph : N -> K) rnd ms, (forall j, anorm (ph j) = 1%amp) -> perm < 2 ^ n -> Forall (proper_mcall n) ms -> first_mcalls cx [] ms -> let U := mcalls cx nrm ms (new_unit rgp n perm ph rnd) in possible cx n ms (fst U) (ket perm) -> normalized n (fun x => fst (GetAmplitude cx x (snd U))) (ideal_mcalls cx ms (fst U) (ket perm)).
Proof. exact @PUnitMeas.l_c119_first_partial. Qed.
Print Assumptions c119_first_partial.

Example c119_first_ex rnd : let U := mcalls cxCC nrmC bellM (new_unit true 2 0 (fun _ => 1%amp) rnd) in normalized 2 (fun x => fst (GetAmplitude cxCC x (snd U))) (ideal_mcalls cxCC bellM (fst U) (ket 0)).
Proof. apply (c119_first_partial CC cxCC nrmC cc_definite nrmC_ok true 2 0 (fun _ => 1%amp) rnd bellM (fun _ => oneC) eq_refl bellM_proper bellM_first). cbn [possible bellM]. exact I. Qed.
