(** Property theorems C159 to C164: QUnitClifford. *)
From Coq Require Import NArith List Bool.
From Verif Require Import Amp AmpQ8 AmpQ8b SpecState MTensor MUCliff SpecUCliff PUnit3 PUCliffBug PUCliffProp.
Import ListNotations.
Local Open Scope N_scope.

(** * Programs of gates *)

(** C159 is false.  X on qubit 0 and CNOT with control 0 and target 1, on two qubits: CGate sees that the control is certain and calls Mtrx(mtrx, target) of the unit of the target, but target is the number of the qubit in the register and not in its unit.  The unit has one qubit; the stabilizer reads and writes bit 1 of its rows. *)
Theorem c159_undefined_refuted : exists (n : N) (p : list (kcall Q8)), Forall (valid (kc_ok kz) (kc_ok2 kz) n) p /\ k_run z_i z_h kz p (set_permutation n 0 (1 : Q8)%amp) = Undef.
Proof. exact @PUCliffProp.l_c159_undefined_refuted. Qed.
Print Assumptions c159_undefined_refuted.

(** C159 is false, also where nothing is undefined: after H on qubits 0 and 1 and CZ between them (control 1, target 0), CNOT with qubit 2, which is 1, as control and qubit 0 as target applies X to qubit 1.  The amplitudes of the result differ from the ideal ones by more than a phase. *)
Theorem c159_wrong_qubit_refuted : exists (n : N) (p : list (kcall Q8)) V, Forall (valid (kc_ok kz) (kc_ok2 kz) n) p /\ k_run z_i z_h kz p (set_permutation n 0 (1 : Q8)%amp) = Ret V /\ ~ exists e : Q8, forall x, x < 2 ^ n -> k_amplitude x V = Ret (e * ideal_run z_i z_h p (fun y => (1 * ket 0 y)%amp) x)%amp.
Proof. exact @PUCliffProp.l_c159_wrong_qubit_refuted. Qed.
Print Assumptions c159_wrong_qubit_refuted.

(** C159 is false for FSim with theta = -pi/2: it joins the units of both qubits, but calls FSim of the joined unit with the numbers of the qubits in the register instead of their positions in the unit.  For the qubits 1 and 2 of three qubits the joined unit has no qubit 2. *)
Theorem c159_fsim_refuted : exists U : ucliff Q8, reached z_i z_h kz U /\ k_n U = 3 /\ k_fsim_iswap kz z_i 1 2 U = Undef.
Proof. exact @PUCliffProp.l_c159_fsim_refuted. Qed.
Print Assumptions c159_fsim_refuted.

(** C159 for programs in which no control is certain to let its gate act (unsure in SpecUCliff.v): GetAmplitude of every basis state is the amplitude of the ideal circuit, with its phase.  Missing: controls that are certain to let the gate act, see c159_undefined_refuted and c159_wrong_qubit_refuted. *)
Theorem c159_programs_partial : forall (K : StarRing) (ci ch : K) (c : kcfg K), definite (K := K) -> sep_ok c -> amps_ok ci ch -> forall n perm ph p, anorm ph = 1%amp -> perm < 2 ^ n -> Forall (valid (kc_ok c) (kc_ok2 c) n) p -> run_unsure ci ch n p (fun x => ph * ket perm x)%amp -> exists V, k_run ci ch c p (set_permutation n perm ph) = Ret V /\ forall x, x < 2 ^ n -> k_amplitude x V = Ret (ideal_run ci ch p (fun y => ph * ket perm y)%amp x).
Proof. exact @PUCliffProp.l_c159_programs_partial. Qed.
Print Assumptions c159_programs_partial.

Example c159_example : definite (K := Q8) /\ sep_ok kz /\ amps_ok z_i z_h /\ Forall (valid (kc_ok kz) (kc_ok2 kz) 3) ex_prog /\ run_unsure z_i z_h 3 ex_prog (fun x => (1 * ket 0 x)%amp).
Proof. split; [exact q8_definite|]. split; [exact kz_sep|]. split; [exact kz_amps|]. split; [exact ex_valid|exact ex_unsure]. Qed.

(** * Prob *)

(** C160: in every register that can be reached by gates, measurements and Compose, also with gates that went to a wrong qubit, the amplitudes are normalised and Prob(q) is the sum of the squares of those in which qubit q is set. *)
Theorem c160_prob : forall (K : StarRing) (ci ch : K) (c : kcfg K), definite (K := K) -> sep_ok c -> amps_ok ci ch -> forall U, reached ci ch c U -> norm2 (k_n U) (amps U) = 1%amp /\ forall q, q < k_n U -> k_prob q U = Ret (weight_at U q true).
Proof. exact @PUCliffProp.l_c160_prob. Qed.
Print Assumptions c160_prob.

Example c160_example : definite (K := Q8) /\ sep_ok kz /\ amps_ok z_i z_h /\ reached z_i z_h kz bell_reg /\ 1 < k_n bell_reg /\ nrm_ok kz bell_reg 1 /\ forall r, weight_at bell_reg 1 r <> 0%amp.
Proof. split; [exact q8_definite|]. split; [exact kz_sep|]. split; [exact kz_amps|]. split; [exact bell_reached|]. split; [rewrite bell_n; reflexivity|]. split; [exact bell_nrm|exact bell_nz]. Qed.

(** C159, read with Prob: the probability of the ideal circuit, for programs in which no control is certain to let its gate act. *)
Theorem c159_prob_partial : forall (K : StarRing) (ci ch : K) (c : kcfg K), definite (K := K) -> sep_ok c -> amps_ok ci ch -> forall n perm ph p, anorm ph = 1%amp -> perm < 2 ^ n -> Forall (valid (kc_ok c) (kc_ok2 c) n) p -> run_unsure ci ch n p (fun x => ph * ket perm x)%amp -> exists V, k_run ci ch c p (set_permutation n perm ph) = Ret V /\ forall q, q < n -> k_prob q V = Ret (weight_of n (fun x => N.testbit x q) (ideal_run ci ch p (fun y => ph * ket perm y)%amp)).
Proof. exact @PUCliffProp.l_c159_prob_partial. Qed.
Print Assumptions c159_prob_partial.

(** * Measurements *)

(** C161: ForceM returns the forced result or one of nonzero probability and leaves the normalised projection, up to a phase; forcing an impossible result throws; with doApply = false it leaves every amplitude as it is.  nrm_ok: 1 / sqrt of the probabilities of the qubit exists in the ring. *)
Theorem c161_measure : forall (K : StarRing) (ci ch : K) (c : kcfg K), definite (K := K) -> sep_ok c -> amps_ok ci ch -> forall U, reached ci ch c U -> forall q, q < k_n U -> (forall res force, nrm_ok c U q -> (force = true -> weight_at U q res <> 0%amp) -> exists r V g, k_force_m c q res force true U = Ret (r, V) /\ k_n V = k_n U /\ weight_at U q r <> 0%amp /\ (force = true -> r = res) /\ (anorm g * weight_at U q r = 1)%amp /\ forall x, x < 2 ^ k_n U -> k_amplitude x V = Ret (if eqb (N.testbit x q) r then g * amps U x else 0)%amp) /\ (forall res, weight_at U q res = 0%amp -> k_force_m c q res true true U = Throws) /\ (forall res force, exists r V, k_force_m c q res force false U = Ret (r, V) /\ k_n V = k_n U /\ (forall x, x < 2 ^ k_n U -> k_amplitude x V = k_amplitude x U) /\ (force = true -> r = res) /\ (force = false -> weight_at U q r <> 0%amp)).
Proof. exact @PUCliffProp.l_c161_measure. Qed.
Print Assumptions c161_measure.

Example c161_example : definite (K := Q8) /\ sep_ok kz /\ amps_ok z_i z_h /\ reached z_i z_h kz bell_reg /\ 1 < k_n bell_reg /\ nrm_ok kz bell_reg 1 /\ forall r, weight_at bell_reg 1 r <> 0%amp.
Proof. split; [exact q8_definite|]. split; [exact kz_sep|]. split; [exact kz_amps|]. split; [exact bell_reached|]. split; [rewrite bell_n; reflexivity|]. split; [exact bell_nrm|exact bell_nz]. Qed.

(** * ProbMask *)

(** C162 is false.  ProbMask adds the probabilities of the qubits of the mask instead of combining them: two qubits that are 0 have the values 00 with probability 1 + 1, and the empty mask has probability 0. *)
Theorem c162_mask_refuted : exists U : ucliff Q8, reached z_i z_h kz U /\ k_n U = 2 /\ k_prob_mask 3 0 U = Ret (1 + 1)%amp /\ weight_of 2 (fun x => N.land x 3 =? 0) (amps U) = 1%amp /\ k_prob_mask 0 0 U = Ret 0%amp /\ weight_of 2 (fun x => N.land x 0 =? 0) (amps U) = 1%amp.
Proof. exact @PUCliffProp.l_c162_mask_refuted. Qed.
Print Assumptions c162_mask_refuted.

(** C162 for masks of one qubit.  Missing: other masks, see c162_mask_refuted. *)
Theorem c162_one_partial : forall (K : StarRing) (ci ch : K) (c : kcfg K), definite (K := K) -> sep_ok c -> amps_ok ci ch -> forall U, reached ci ch c U -> forall q perm, q < k_n U -> k_prob_mask (2 ^ q) perm U = Ret (weight_at U q (N.testbit perm q)).
Proof. exact @PUCliffProp.l_c162_one_partial. Qed.
Print Assumptions c162_one_partial.

Example c162_example : definite (K := Q8) /\ sep_ok kz /\ amps_ok z_i z_h /\ reached z_i z_h kz bell_reg /\ 1 < k_n bell_reg /\ nrm_ok kz bell_reg 1 /\ forall r, weight_at bell_reg 1 r <> 0%amp.
Proof. split; [exact q8_definite|]. split; [exact kz_sep|]. split; [exact kz_amps|]. split; [exact bell_reached|]. split; [rewrite bell_n; reflexivity|]. split; [exact bell_nrm|exact bell_nz]. Qed.

(** * Compose *)

(** C163 is false with the phase: Compose drops phaseOffset of the register that is added.  A qubit with amplitude i, added to a qubit with amplitude 1, gives the amplitude 1. *)
Theorem c163_phase_refuted : exists U T V : ucliff Q8, reached z_i z_h kz U /\ reached z_i z_h kz T /\ k_n U = 1 /\ k_n T = 1 /\ k_compose T 1 U = Ret V /\ k_amplitude 0 V = Ret 1%amp /\ k_amplitude 0 U = Ret 1%amp /\ k_amplitude 0 T = Ret z_i.
Proof. exact @PUCliffProp.l_c163_phase_refuted. Qed.
Print Assumptions c163_phase_refuted.

(** C163 up to one phase for all amplitudes: Compose at any position gives the product of the states.  Missing: the phase, see c163_phase_refuted. *)
Theorem c163_compose_partial : forall (K : StarRing) (ci ch : K) (c : kcfg K), definite (K := K) -> sep_ok c -> amps_ok ci ch -> forall U T start, reached ci ch c U -> reached ci ch c T -> start <= k_n U -> exists V e, k_compose T start U = Ret V /\ k_n V = k_n U + k_n T /\ anorm e = 1%amp /\ forall x, x < 2 ^ (k_n U + k_n T) -> k_amplitude x V = Ret (e * (amps U (outside x start (k_n T)) * amps T (get_reg x start (k_n T))))%amp.
Proof. exact @PUCliffProp.l_c163_compose_partial. Qed.
Print Assumptions c163_compose_partial.

Example c163_example : definite (K := Q8) /\ sep_ok kz /\ amps_ok z_i z_h /\ reached z_i z_h kz bell_reg /\ 1 <= k_n bell_reg.
Proof. split; [exact q8_definite|]. split; [exact kz_sep|]. split; [exact kz_amps|]. split; [exact bell_reached|]. rewrite bell_n. discriminate. Qed.

(** * Decompose *)

(** C164 is false.  Three qubits in (|000> + |111>) / sqrt 2, qubit 0 measured as 1, qubit 2 decomposed: the unit of the qubits 1 and 2 is split, but the shard that the destination gets keeps the position 1 in a unit of one qubit.  Prob(0) of the destination throws, and Prob(2) was 1. *)
Theorem c164_decompose_refuted : exists U V T : ucliff Q8, reached z_i z_h kz U /\ k_n U = 3 /\ k_prob 2 U = Ret 1%amp /\ detach kz 2 1 U = Ret (V, T) /\ k_prob 0 T = Throws.
Proof. exact @PUCliffProp.l_c164_decompose_refuted. Qed.
Print Assumptions c164_decompose_refuted.
