(** Property theorems C129 to C135: QTensorNetwork. *)
From Coq Require Import NArith List Bool.
From Verif Require Import Amp AmpC AmpC2 AmpQ8 SpecState SpecUnit3 MQCircuit MBdt AmpBdt AmpBdt2 SpecBdt PBdtProp MTensor SpecTensor PTensorProp.
Import ListNotations.
Local Open Scope N_scope.

(** * QTensorNetwork *)

(** C129, QTensorNetwork: a program of gates and reads on a basis state, on up to 126 qubits, with any layer stack and any threshold: no call fails, and the amplitudes (up to one phase) and the probabilities read afterwards are those of the state vector. *)
Theorem c129_gates : forall (K : StarRing) (A : Arith K) (ci : K) (c : @tcfg K), exact_arith A -> positive_sums (K := K) -> (tc_rgp c = true -> forall d, anorm (tc_ph c d) = 1%amp) -> forall n perm phaseFac l, n <= 126 -> perm < 2 ^ n -> Forall (in_range_t n) l -> forallb (fun a => is_gate a || is_read a) l = true -> exists T, tsteps A ci c l (new_tn ci c n perm phaseFac) = Ret ([], T) /\ tn_n T = n /\ reads_as A ci c T (after l (ket perm)).
Proof. exact @PTensorProp.l_c129_gates. Qed.
Print Assumptions c129_gates.

Example c129_hyps : exact_arith arCC /\ positive_sums (K := CC) /\ (forall eng, tc_rgp (cfgC 2 eng true) = true -> forall d, anorm (tc_ph (cfgC 2 eng true) d) = 1%amp) /\ Forall (in_range_t 3) gatesC /\ forallb (fun a => is_gate a || is_read a) gatesC = true /\ length gatesC = 7%nat.
Proof. split; [exact arCC_exact|]. split; [exact cc_sums|]. split; [intros eng; apply cfgC_unit|]. split; [exact gatesC_range|]. split; reflexivity. Qed.


(** C130, programs of gates and measurements, the programs of the class [ordered] (SpecTensor.v), with at most as many qubits as the threshold: the results of the measurements, the amplitudes and the probabilities are those of a correct simulator, and only a forced result of probability 0 fails.  Missing: the other programs (see the three theorems below), and more qubits than the threshold (C132). *)
Theorem c130_programs_partial : forall (K : StarRing) (A : Arith K) (ci : K) (c : @tcfg K), exact_arith A -> positive_sums (K := K) -> (tc_rgp c = true -> forall d, anorm (tc_ph c d) = 1%amp) -> forall n perm phaseFac l, n <= 126 -> n <= tc_thr c -> perm < 2 ^ n -> Forall (in_range_t n) l -> ordered (tc_engine c) [] [] l -> exists o, runs_to n (tc_rnd c) l (ket perm) o /\ agrees A ci c (tsteps A ci c l (new_tn ci c n perm phaseFac)) o.
Proof. exact @PTensorProp.l_c130_programs_partial. Qed.
Print Assumptions c130_programs_partial.

Example c130_hyps : forall eng, Forall (in_range_t 3) progC /\ ordered (tc_engine (cfgC 20 eng true)) [] [] progC /\ 3 <= tc_thr (cfgC 20 eng true) /\ length progC = 13%nat.
Proof. intros eng. split; [exact progC_range|]. split; [apply progC_ordered|]. split; [discriminate|reflexivity]. Qed.


(** C130 fails: on |000>, measuring qubit 0, then X on 0, CNOT 0 1 and CNOT 1 2 should give |111>, but CNOT 1 2 has no measured qubit and is put into the layer before the measurement (GetCircuit, include/qtensornetwork.hpp:51-77), before the gates on which it depends: the state read is |011>.  No superposition is needed, and every layer stack is affected. *)
Theorem c130_layers_refuted : forall eng, let c := cfg8 9 eng false [] in exists n l, n <= tc_thr c /\ Forall (in_range_t n) l /\ ~ (exists o, runs_to n (tc_rnd c) l (ket 0) o /\ agrees arQ8 z_i c (tsteps arQ8 z_i c l (new_tn z_i c n 0 None)) o).
Proof. exact @PTensorProp.l_c130_layers_refuted. Qed.
Print Assumptions c130_layers_refuted.

(** C130 fails: ForceM deletes every gate of a later layer that only puts a phase on the measured qubit (DeletePhaseTarget), although its controls still see the phase.  H on 0, measure 1, H on 1, CZ with control 1 and target 0, measure 0 with result 1, H on 1, measure 1: the last result must be 1, the code gives 0. *)
Theorem c130_phase_refuted : let c := cfg8 9 false false [true] in exists n l, n <= tc_thr c /\ Forall (in_range_t n) l /\ (exists T, tsteps arQ8 z_i c l (new_tn z_i c n 0 None) = Ret ([false; true; false], T)) /\ ~ (exists o, runs_to n (tc_rnd c) l (ket 0) o /\ agrees arQ8 z_i c (tsteps arQ8 z_i c l (new_tn z_i c n 0 None)) o).
Proof. exact @PTensorProp.l_c130_phase_refuted. Qed.
Print Assumptions c130_phase_refuted.

(** C130 fails: after H on 2, measure 0, X on 0, CNOT 0 1, measure 1, measure 0, X on 2 no call fails, but reading any amplitude throws (with an engine as layer stack: divides by zero), since the rebuilt layers hold contradicting measurements. *)
Theorem c130_stuck_refuted : forall eng, let c := cfg8 9 eng false [true; false] in exists n l bs T, n <= tc_thr c /\ Forall (in_range_t n) l /\ tsteps arQ8 z_i c l (new_tn z_i c n 0 None) = Ret (bs, T) /\ forall x, tn_amp arQ8 z_i c x T = if eng then Undef else Throws.
Proof. exact @PTensorProp.l_c130_stuck_refuted. Qed.
Print Assumptions c130_stuck_refuted.

(** * Repeated measurement *)

(** C131, after a program of the class [ordered] with at most as many qubits as the threshold, measuring a qubit twice gives the same result twice.  Missing: other programs, more qubits than the threshold. *)
Theorem c131_repeat_partial : forall (K : StarRing) (A : Arith K) (ci : K) (c : @tcfg K), exact_arith A -> positive_sums (K := K) -> (tc_rgp c = true -> forall d, anorm (tc_ph c d) = 1%amp) -> forall n perm phaseFac l q, n <= 126 -> n <= tc_thr c -> perm < 2 ^ n -> Forall (in_range_t n) l -> ordered (tc_engine c) [] [] l -> q < n -> let M := TMeas q false false true in match tsteps A ci c (l ++ [M; M]) (new_tn ci c n perm phaseFac) with Ret (bs, _) => exists bs0 b, bs = bs0 ++ [b; b] | Throws => runs_to n (tc_rnd c) l (ket perm) Throws | Undef => False end.
Proof. exact @PTensorProp.l_c131_repeat_partial. Qed.
Print Assumptions c131_repeat_partial.

(** C131 fails with an engine as layer stack: measuring qubit 0, then X on qubit 2, then measuring qubit 0 again.  The X drops the layer stack; replaying the single measurement calls ForceM with the list of one qubit, which QEngine hands to ForceM without forcing the value (src/qengine/qengine.cpp:123-125 drops the result), so the first result is drawn anew. *)
Theorem c131_repeat_refuted : let c := cfg8 9 true false [true; false] in exists n l q t T, n <= tc_thr c /\ Forall (in_range_t n) l /\ q <> t /\ t < n /\ tsteps arQ8 z_i c (l ++ [tM q; tX t; tM q]) (new_tn z_i c n 0 None) = Ret ([true; false], T).
Proof. exact @PTensorProp.l_c131_repeat_refuted. Qed.
Print Assumptions c131_repeat_refuted.

(** * More qubits than the threshold *)

(** C132, measurements with more qubits than the threshold, the first one: after a program of gates and reads a measurement has a result of the right distribution, and fails only if a result of probability 0 is forced; with a layer stack that is not an engine, the amplitudes read afterwards are those of the projected state.  Missing: any second measurement, probabilities after the first one, and the state with an engine as layer stack (see below). *)
Theorem c132_one_partial : forall (K : StarRing) (A : Arith K) (ci : K) (c : @tcfg K), exact_arith A -> positive_sums (K := K) -> (tc_rgp c = true -> forall d, anorm (tc_ph c d) = 1%amp) -> forall n perm phaseFac l q r f ap, n <= 126 -> tc_thr c < n -> perm < 2 ^ n -> Forall (in_range_t n) l -> forallb (fun a => is_gate a || is_read a) l = true -> q < n -> let psi := after l (ket perm) in match tsteps A ci c (l ++ [TMeas q r f ap]) (new_tn ci c n perm phaseFac) with Ret (bs, T) => exists b phi, bs = [b] /\ (if f then b = r else chosen (tc_rnd c) (chance n q true psi) b) /\ chance n q b psi <> 0%amp /\ (if ap then normalized n phi (collapse q b psi) else phi = psi) /\ (ap && tc_engine c = false -> exists ph, anorm ph = 1%amp /\ forall x, x < 2 ^ n -> exists T1, tn_amp A ci c x T = Ret ((ph * phi x)%amp, T1)) | Throws => f = true /\ chance n q r psi = 0%amp | Undef => False end.
Proof. exact @PTensorProp.l_c132_one_partial. Qed.
Print Assumptions c132_one_partial.

Example c132_hyps : forall eng, tc_thr (cfgC 2 eng true) < 3 /\ Forall (in_range_t 3) gatesC /\ forallb (fun a => is_gate a || is_read a) gatesC = true.
Proof. intros eng. split; [reflexivity|]. split; [exact gatesC_range|reflexivity]. Qed.


(** C132 fails: with more qubits than the threshold, H on 0, H on 1, measure 0, measure 1 (nothing forced): the second measurement throws, since the light cone of qubit 1 leaves out the gates on qubit 0 but replays its measurement. *)
Theorem c132_second_refuted : let c := cfg8 1 false false [true; false] in exists n l, tc_thr c < n /\ Forall (in_range_t n) l /\ tsteps arQ8 z_i c l (new_tn z_i c n 0 None) = Throws /\ ~ (exists o, runs_to n (tc_rnd c) l (ket 0) o /\ agrees arQ8 z_i c (tsteps arQ8 z_i c l (new_tn z_i c n 0 None)) o).
Proof. exact @PTensorProp.l_c132_second_refuted. Qed.
Print Assumptions c132_second_refuted.

(** C132 fails with an engine as layer stack: the two qubits of a Bell pair (1/sqrt 2 times |00> plus |11>), measured one after the other with more qubits than the threshold, give different results. *)
Theorem c132_bell_refuted : let c := cfg8 1 true false [true; false] in exists n l, tc_thr c < n /\ Forall (in_range_t n) l /\ (exists T, tsteps arQ8 z_i c l (new_tn z_i c n 0 None) = Ret ([true; false], T)) /\ ~ (exists o, runs_to n (tc_rnd c) l (ket 0) o /\ agrees arQ8 z_i c (tsteps arQ8 z_i c l (new_tn z_i c n 0 None)) o).
Proof. exact @PTensorProp.l_c132_bell_refuted. Qed.
Print Assumptions c132_bell_refuted.

(** * MAll *)

(** C133, MAll after a program of the class [ordered] with at most as many qubits as the threshold: the result is a basis state with an amplitude that is not 0, and afterwards the state is that basis state.  Missing: other programs, and more qubits than the threshold. *)
Theorem c133_mall_partial : forall (K : StarRing) (A : Arith K) (ci : K) (c : @tcfg K), exact_arith A -> positive_sums (K := K) -> (tc_rgp c = true -> forall d, anorm (tc_ph c d) = 1%amp) -> forall n perm phaseFac l, n <= 126 -> n <= tc_thr c -> perm < 2 ^ n -> picks c n -> Forall (in_range_t n) l -> ordered (tc_engine c) [] [] l -> match tsteps A ci c l (new_tn ci c n perm phaseFac) with Ret (bs, T) => exists psi, runs_to n (tc_rnd c) l (ket perm) (Ret (bs, psi)) /\ exists x T1, tn_mall A ci c T = Ret (x, T1) /\ x < 2 ^ n /\ psi x <> 0%amp /\ reads_as A ci c T1 (ket x) | Throws => runs_to n (tc_rnd c) l (ket perm) Throws | Undef => False end.
Proof. exact @PTensorProp.l_c133_mall_partial. Qed.
Print Assumptions c133_mall_partial.

Example c133_hyps : forall eng, picks (cfgC 20 eng true) 3 /\ Forall (in_range_t 3) progC /\ ordered (tc_engine (cfgC 20 eng true)) [] [] progC.
Proof. intros eng. split; [apply cfgC_picks|]. split; [exact progC_range|apply progC_ordered]. Qed.


(** C133 fails with more qubits than the threshold: MAll after H on 0 and H on 1 throws. *)
Theorem c133_mall_refuted : let c := cfg8 1 false false [true; false; true] in exists n l T, tc_thr c < n /\ Forall (in_range_t n) l /\ tsteps arQ8 z_i c l (new_tn z_i c n 0 None) = Ret ([], T) /\ tn_mall arQ8 z_i c T = Throws.
Proof. exact @PTensorProp.l_c133_mall_refuted. Qed.
Print Assumptions c133_mall_refuted.

(** * SetPermutation *)

(** C134, SetPermutation at any time, after any calls, gives the basis state; a program of gates and reads that follows gives what it gives on that basis state. *)
Theorem c134_set_permutation : forall (K : StarRing) (A : Arith K) (ci : K) (c : @tcfg K), exact_arith A -> positive_sums (K := K) -> (tc_rgp c = true -> forall d, anorm (tc_ph c d) = 1%amp) -> forall n perm phaseFac l (T : @tn K), n <= 126 -> tn_n T = n -> Forall (in_range_t n) l -> forallb (fun a => is_gate a || is_read a) l = true -> exists T1, tsteps A ci c l (tn_set_permutation ci c perm phaseFac T) = Ret ([], T1) /\ reads_as A ci c T1 (after l (ket (perm mod 2 ^ n))).
Proof. exact @PTensorProp.l_c134_set_permutation. Qed.
Print Assumptions c134_set_permutation.

Example c134_hyps : forall eng, tn_n (new_tn 1%amp (cfgC 2 eng true) 3 5 None) = 3 /\ Forall (in_range_t 3) gatesC /\ forallb (fun a => is_gate a || is_read a) gatesC = true.
Proof. intros eng. split; [reflexivity|]. split; [exact gatesC_range|reflexivity]. Qed.


(** C134, the phase argument of SetPermutation and of the constructor is stored and never used: SetPermutation(1, i) leaves the amplitude 1, although random global phases are switched off. *)
Theorem c134_phase_refuted : forall eng, let c := cfg8 9 eng false [] in exists n perm (p : Q8) T1, anorm p = 1%amp /\ perm < 2 ^ n /\ tn_amp arQ8 z_i c perm (tn_set_permutation z_i c perm (Some p) (new_tn z_i c n 0 None)) = Ret (1%amp, T1) /\ p <> 1%amp.
Proof. exact @PTensorProp.l_c134_phase_refuted. Qed.
Print Assumptions c134_phase_refuted.

(** * Allocate *)

(** C135, Allocate after a program of gates (and, when the new qubits do not go at the end, reads): the new qubits are inserted at the position, in state 0.  Missing: reads before, with the new qubits at the end (see below); measurements before. *)
Theorem c135_allocate_partial : forall (K : StarRing) (A : Arith K) (ci : K) (c : @tcfg K), exact_arith A -> positive_sums (K := K) -> (tc_rgp c = true -> forall d, anorm (tc_ph c d) = 1%amp) -> forall n len start perm phaseFac l, n + len <= 126 -> 0 < len -> start <= n -> perm < 2 ^ n -> Forall (in_range_t n) l -> forallb (fun a => is_gate a || is_read a) l = true -> (start < n \/ forallb is_gate l = true) -> exists T, tsteps A ci c l (new_tn ci c n perm phaseFac) = Ret ([], T) /\ let T1 := tn_allocate ci start len T in tn_n T1 = n + len /\ reads_as A ci c T1 (tensor_at start len (after l (ket perm)) (ket 0)).
Proof. exact @PTensorProp.l_c135_allocate_partial. Qed.
Print Assumptions c135_allocate_partial.

Example c135_hyps : forall eng, 3 + 2 <= 126 /\ 1 < 3 /\ Forall (in_range_t 3) gatesC /\ forallb (fun a => is_gate a || is_read a) gatesC = true /\ tc_rgp (cfgC 2 eng true) = true.
Proof. intros eng. split; [discriminate|]. split; [reflexivity|]. split; [exact gatesC_range|]. split; reflexivity. Qed.


(** C135 fails: reading an amplitude builds the layer stack; Allocate at the end does not drop it or enlarge it, and reading the probability of the new qubit throws. *)
Theorem c135_allocate_refuted : forall eng, let c := cfg8 9 eng false [] in exists n x len T, x < 2 ^ n /\ tsteps arQ8 z_i c [TAmp x] (new_tn z_i c n 0 None) = Ret ([], T) /\ tn_n (tn_allocate z_i n len T) = n + len /\ tn_prob arQ8 z_i c n (tn_allocate z_i n len T) = Throws.
Proof. exact @PTensorProp.l_c135_allocate_refuted. Qed.
Print Assumptions c135_allocate_refuted.

(** C130, one program outside the class [ordered]: gates and reads, then a measurement of a qubit, X on this qubit, a second measurement of it (forced or not), then a program of the class for one measured qubit.  The layer stack is not an engine. *)
Theorem c130_flip_partial : forall (K : StarRing) (A : Arith K) (ci : K) (c : @tcfg K), exact_arith A -> positive_sums (K := K) -> (tc_rgp c = true -> forall d, anorm (tc_ph c d) = 1%amp) -> forall n perm phaseFac l l2 q r f r2 f2, n <= 126 -> n <= tc_thr c -> tc_engine c = false -> perm < 2 ^ n -> Forall (in_range_t n) (l ++ l2) -> forallb (fun a => is_gate a || is_read a) l = true -> q < n -> ordered false [q] [] l2 -> let p := l ++ TMeas q r f true :: TGate (mkMat 0 1 1 0)%amp q :: TMeas q r2 f2 true :: l2 in exists o, runs_to n (tc_rnd c) p (ket perm) o /\ agrees A ci c (tsteps A ci c p (new_tn ci c n perm phaseFac)) o.
Proof. exact @PTensorProp.l_c130_flip_partial. Qed.
Print Assumptions c130_flip_partial.

Example c130_flip_hyps : Forall (in_range_t 3) (gatesC ++ flipC) /\ ordered false [2] [] flipC /\ tc_engine (cfgC 20 false true) = false.
Proof. split; [apply Forall_app; split; [exact gatesC_range|exact flipC_range]|]. split; [|reflexivity]. unfold flipC, cM, cX, cCX. cbn. repeat split; intros; discriminate. Qed.


(** C130, another one: gates and reads, then a measurement of a qubit t, CNOT with target t, the result 1 forced at the control, then a program of the class for these two measured qubits.  The layer stack is not an engine.  With the result 0 the code fails (next theorem). *)
Theorem c130_cnot_partial : forall (K : StarRing) (A : Arith K) (ci : K) (c : @tcfg K), exact_arith A -> positive_sums (K := K) -> (tc_rgp c = true -> forall d, anorm (tc_ph c d) = 1%amp) -> forall n perm phaseFac l l2 q t r f, n <= 126 -> n <= tc_thr c -> tc_engine c = false -> perm < 2 ^ n -> Forall (in_range_t n) (l ++ l2) -> forallb (fun a => is_gate a || is_read a) l = true -> q < n -> t < n -> q <> t -> ordered false [q; t] [t] l2 -> let p := l ++ TMeas t r f true :: TMC [q] (mkMat 0 1 1 0)%amp t :: TMeas q true true true :: l2 in exists o, runs_to n (tc_rnd c) p (ket perm) o /\ agrees A ci c (tsteps A ci c p (new_tn ci c n perm phaseFac)) o.
Proof. exact @PTensorProp.l_c130_cnot_partial. Qed.
Print Assumptions c130_cnot_partial.

Example c130_cnot_hyps : Forall (in_range_t 3) (gatesC ++ [cX 1; cM 1; TProb 2]) /\ ordered false [0; 1] [1] [cX 1; cM 1; TProb 2].
Proof. split; [apply Forall_app; split; [exact gatesC_range|exact cnotC_range]|]. unfold cM, cX. cbn. repeat split; intros; discriminate. Qed.


(** C130 fails: on |000>, measure 1, CNOT 0 1, measure 0, X on 2: no call fails, but reading an amplitude then uses a null pointer.  Fixing the control of the CNOT to 0 leaves a gate without controls and without payload (PostSelectControl, include/qcircuit.hpp:573-598), whose matrix QCircuit::Run reads from the empty map (src/qcircuit.cpp:222).  No superposition is needed, and every layer stack is affected. *)
Theorem c130_null_refuted : forall eng, let c := cfg8 9 eng false [] in exists n l bs T, n <= tc_thr c /\ Forall (in_range_t n) l /\ tsteps arQ8 z_i c l (new_tn z_i c n 0 None) = Ret (bs, T) /\ forall x, tn_amp arQ8 z_i c x T = Undef.
Proof. exact @PTensorProp.l_c130_null_refuted. Qed.
Print Assumptions c130_null_refuted.

(** C131, with more qubits than the threshold: after gates and reads, a qubit measured twice gives the same result twice, with every layer stack. *)
Theorem c131_wide_partial : forall (K : StarRing) (A : Arith K) (ci : K) (c : @tcfg K), exact_arith A -> positive_sums (K := K) -> (tc_rgp c = true -> forall d, anorm (tc_ph c d) = 1%amp) -> forall n perm phaseFac l q r f, n <= 126 -> tc_thr c < n -> perm < 2 ^ n -> Forall (in_range_t n) l -> forallb (fun a => is_gate a || is_read a) l = true -> q < n -> match tsteps A ci c (l ++ [TMeas q r f true; TMeas q false false true]) (new_tn ci c n perm phaseFac) with Ret (bs, _) => exists b, bs = [b; b] | Throws => f = true /\ chance n q r (after l (ket perm)) = 0%amp | Undef => False end.
Proof. exact @PTensorProp.l_c131_wide_partial. Qed.
Print Assumptions c131_wide_partial.

(** C133, with more qubits than the threshold: MAll right after SetPermutation(0) gives 0 and leaves that state, with every layer stack. *)
Theorem c133_zero_partial : forall (K : StarRing) (A : Arith K) (ci : K) (c : @tcfg K), exact_arith A -> positive_sums (K := K) -> (tc_rgp c = true -> forall d, anorm (tc_ph c d) = 1%amp) -> forall n phaseFac (T : @tn K), n <= 126 -> tc_thr c < n -> tn_n T = n -> exists T1, tn_mall A ci c (tn_set_permutation ci c 0 phaseFac T) = Ret (0, T1) /\ reads_as A ci c T1 (ket 0).
Proof. exact @PTensorProp.l_c133_zero_partial. Qed.
Print Assumptions c133_zero_partial.

(** C133 fails with more qubits than the threshold already for basis states: MAll after SetPermutation(3) throws (with an engine as layer stack and three qubits or more, SetPermutation(7): divides by zero).  The light cone of the second qubit has no gate on the first one, but its result 1 is forced. *)
Theorem c133_basis_refuted : forall eng, let c := cfg8 1 eng false [] in exists n perm, tc_thr c < n /\ perm < 2 ^ n /\ tn_mall arQ8 z_i c (new_tn z_i c n perm None) = if eng then Undef else Throws.
Proof. exact @PTensorProp.l_c133_basis_refuted. Qed.
Print Assumptions c133_basis_refuted.
