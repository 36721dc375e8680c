(** Property theorems C108-C111: circuits on which QUnit gives wrong results. *)
From Coq Require Import NArith List Bool.
From Verif Require Import Amp AmpQ8 SpecState MShard MUnit SpecUnit PUnitBug.
Import ListNotations.
Local Open Scope N_scope.

(** * C108: sequences of gates *)

(** Thirteen gates on five qubits: H, controlled H, X, controlled phases and CNOT, the last one H(2).  Amplitude 6 is 0 but should not be.  QCommuteH applies a controlled phase whose control has become separable, which turns it into a gate on qubit 2 itself and changes the basis that H then reads. *)
Theorem c108_gates_refuted : forall rgp, exists n (gs : list (@ugate Q8)), Forall (proper_gate n) gs /\ ~ upto_phase n (fun x => fst (GetAmplitude cxQ8 x (run cxQ8 gs (new_unit rgp n 0 (fun _ => z_i) (fun _ _ => true))))) (ideal_run cxQ8 gs (ket 0)).
Proof. exact @PUnitBug.l_c108_gates_refuted. Qed.
Print Assumptions c108_gates_refuted.

(** * C109: outcomes of MAll *)

(** After H(0) and a controlled H from 0 to 1, the outcome 11 has probability 1/4, but MAll never returns it, whatever the random numbers: the measurement of qubit 0 leaves qubit 1 alone in the state |+>, which ProbBase stores as a basis state of PauliX, and MAll reads the stored amplitudes as if the basis were PauliZ. *)
Theorem c109_outcomes_refuted : exists n (gs : list (@ugate Q8)) x, Forall (proper_gate n) gs /\ (x < 2 ^ n)%N /\ (anorm (ideal_run cxQ8 gs (ket 0) x) + anorm (ideal_run cxQ8 gs (ket 0) x) = z_h * z_h)%amp /\ forall l, fst (MAll cxQ8 z_nrm (run cxQ8 gs (new_unit false n 0 (fun _ => z_i) (stream l)))) <> x.
Proof. exact @PUnitBug.l_c109_outcomes_refuted. Qed.
Print Assumptions c109_outcomes_refuted.

(** * C110: measurement without collapse *)

(** ForceM with doApply = false after H(0), H(1), CZ(0, 1): the buffered CZ is thrown away by ToPermBasisMeasure. *)
Theorem c110_no_collapse_refuted : forall rgp, exists n (gs : list (@ugate Q8)) q x, Forall (proper_gate n) gs /\ q < n /\ x < 2 ^ n /\ let U := run cxQ8 gs (new_unit rgp n 0 (fun _ => z_i) (fun _ _ => true)) in fst (GetAmplitude cxQ8 x (snd (ForceM cxQ8 z_nrm (u_sw U q) false true false U))) <> fst (GetAmplitude cxQ8 x U) /\ ~ upto_phase n (fun x => fst (GetAmplitude cxQ8 x (snd (ForceM cxQ8 z_nrm (u_sw U q) false true false U)))) (fun x => fst (GetAmplitude cxQ8 x U)).
Proof. exact @PUnitBug.l_c110_no_collapse_refuted. Qed.
Print Assumptions c110_no_collapse_refuted.

(** * C111: the global phase *)

(** Without random global phases, X(0), then -1 (both values of the qubit), then CNOT(0, 1): the amplitude of 11 is 1 instead of -1. *)
Theorem c111_phase_refuted : exists n (gs : list (@ugate Q8)) x, Forall (proper_gate n) gs /\ x < 2 ^ n /\ fst (GetAmplitude cxQ8 x (run cxQ8 gs (new_unit false n 0 (fun _ => z_i) (fun _ _ => true)))) <> ideal_run cxQ8 gs (ket 0) x.
Proof. exact @PUnitBug.l_c111_phase_refuted. Qed.
Print Assumptions c111_phase_refuted.
