(** Property theorems C49-C52 and C78-C82: circuit objects (QCircuit) and their runs on the state-vector engine.  [K] is any
    ring of amplitudes, [c] any number of cores and stride, [rgp] whether the global phase is random; [every_run] says that
    the call has an outcome and that every outcome, whatever the thread schedule, satisfies the condition.  [effects] is the
    meaning of a list of gates (SpecQCircuit.v); [phase_equal] is equality up to a global phase.  The outcome of Run is
    [None] when a null pointer is read. *)
From Coq Require Import NArith ZArith List Bool Lia.
From Verif Require Import MFunctions SpecFunctions MParFor MKernel Amp SpecState MEngine SpecEngine MAlu SpecAlu MQCircuit SpecQCircuit PQCirc8.
Import ListNotations.
Local Open Scope N_scope.

(** * C49: AppendGate *)

(** Gates appended to any circuit (of good gates): the run does what the old circuit and then the gates do, up to a global phase; with and without collapsing, in both Clifford modes ([i] is the imaginary unit; it is only compared with). *)
Theorem c49_append_run : forall (K : StarRing) (c : cfg) rgp maxQB (i : K) (qc : @qcirc K) n gs (psi : mem K), fits c n -> qc_count qc <= n -> Forall (good_gate n) (qc_gates qc) -> Forall (good_gate n) gs ->
  every_run (Run c rgp maxQB (AppendGates i qc gs) (mkEng n (Some psi))) (fun r =>
    exists psi', r = Some (Ok (mkEng n (Some psi'))) /\ phase_equal n (effects (qc_gates qc ++ gs) psi) psi').
Proof. exact @PQCirc8.l_c49_append_run. Qed.
Print Assumptions c49_append_run.

(** A Hadamard-like circuit over Gaussian integers: CNOT, a phase, the CNOT again, and their inverses. *)
Example c49_hyps : fits (mkCfg 4 2) 3 /\ Forall (good_gate 3) ([gate_c 0 mat_X [2] 1; gate_1 2 (mkMat (K := GI) (1, 0) (0, 0) (0, 0) (0, 1))%Z; gate_c 0 mat_X [2] 1] : list (@qgate GI)).
Proof.
  split; [vm_compute; repeat split; discriminate|]. apply goodb_all. reflexivity.
Qed.
Example c49_example : qc_gates (AppendGates (K := GI) (0, 1)%Z (qc_new true false) ([gate_c 0 mat_X [2] 1; gate_1 2 (mkMat (K := GI) (1, 0) (0, 0) (0, 0) (0, 1))%Z; gate_c 0 mat_X [2] 1] : list (@qgate GI)))
  = [gate_1 2 (mkMat (K := GI) (1, 0) (0, 0) (0, 0) (0, 1))%Z].
Proof. reflexivity. Qed.

(** A fresh collapsing circuit on an engine that has too few qubits: Run adds qubits in state |0> and does what the gates do. *)
Theorem c49_append_run_wide : forall (K : StarRing) (c : cfg) rgp maxQB (i : K) clifford m n gs (psi : mem K), let qc := AppendGates i (qc_new true clifford) gs in Forall (good_gate m) gs -> m <= 126 ->
  n < qc_count qc -> 0 < n -> fits c (qc_count qc) -> qc_count qc <= maxQB ->
  every_run (Run c rgp maxQB qc (mkEng n (Some psi))) (fun r =>
    exists psi', r = Some (Ok (mkEng (qc_count qc) (Some psi'))) /\ phase_equal (qc_count qc) (effects gs (tensor n psi (ket 0))) psi').
Proof. exact @PQCirc8.l_c49_append_run_wide. Qed.
Print Assumptions c49_append_run_wide.

Example c49_wide_example : qc_count (AppendGates (K := GI) (0, 1)%Z (qc_new true false) ([gate_1 1 mat_X; gate_c 0 mat_X [2] 1] : list (@qgate GI))) = 3.
Proof. reflexivity. Qed.

(** The model's bound on the nesting of AppendGate is never reached: any larger bound gives the same circuit. *)
Theorem c49_recursion_bound : forall (K : StarRing) (i : K) (qc : @qcirc K) fuel g, (length (qc_gates qc) < fuel)%nat ->
  append i (qc_clifford qc) fuel (qc_count qc, qc_gates qc) g = append i (qc_clifford qc) (S (length (qc_gates qc))) (qc_count qc, qc_gates qc) g.
Proof. exact @PQCirc8.l_c49_recursion_bound. Qed.
Print Assumptions c49_recursion_bound.

(** Without the phase the statement fails even when the engine keeps global phases: a gate that is a phase times the identity is dropped. *)
Theorem c49_exact_refuted : exists c n gs (psi : mem GI), fits c n /\ Forall (good_gate n) gs /\
  ~ every_run (Run c false 64 (AppendGates (K := GI) (0, 1)%Z (qc_new true false) gs) (mkEng n (Some psi))) (fun r =>
      exists psi', r = Some (Ok (mkEng n (Some psi'))) /\ eqv n psi' (effects gs psi)).
Proof. exact @PQCirc8.l_c49_exact_refuted. Qed.
Print Assumptions c49_exact_refuted.

(** * C50: Inverse *)

(** Running a circuit and then its inverse gives the state back; exactly when the engine keeps global phases.  Circuits may also contain swap gates. *)
Theorem c50_inverse : forall (K : StarRing) (c : cfg) rgp maxQB (qc : @qcirc K) n (psi : mem K), fits c n -> qc_count qc <= n -> Forall (fun g => good_gate n g \/ good_swap n g) (qc_gates qc) ->
  every_run (Run c rgp maxQB qc (mkEng n (Some psi))) (fun r => exists e1, r = Some (Ok e1) /\
    every_run (Run c rgp maxQB (Inverse qc) e1) (fun r2 => exists psi2 ph, r2 = Some (Ok (mkEng n (Some psi2))) /\ anorm ph = 1%amp /\ (rgp = false -> ph = 1%amp) /\
      forall x, x < 2 ^ n -> psi x = (ph * psi2 x)%amp)).
Proof. exact @PQCirc8.l_c50_inverse. Qed.
Print Assumptions c50_inverse.

Example c50_hyps : fits (mkCfg 4 2) 3 /\ Forall (fun g => good_gate 3 g \/ good_swap 3 g)
  ([gate_uc 1 [(0%N, mkMat (K := GI) (1, 0) (0, 0) (0, 0) (0, 1)); (3%N, mkMat (K := GI) (0, 0) (0, -1) (0, 1) (0, 0))]%Z [0; 2]; swap_gate 0 2] : list (@qgate GI)).
Proof.
  split; [vm_compute; repeat split; discriminate|]. constructor; [left|constructor; [right|constructor]].
  - apply goodb_ok. reflexivity.
  - split; [reflexivity|]. exists 2. cbn. repeat split; lia.
Qed.

(** * C51: Swap *)

(** QCircuit::Swap after any circuit of good gates exchanges the two qubits, up to a global phase. *)
Theorem c51_swap : forall (K : StarRing) (c : cfg) rgp maxQB (i : K) (qc : @qcirc K) n q1 q2 (psi : mem K), fits c n -> qc_count qc <= n -> Forall (good_gate n) (qc_gates qc) -> q1 < n -> q2 < n ->
  every_run (Run c rgp maxQB (qc_Swap i qc q1 q2) (mkEng n (Some psi))) (fun r =>
    exists psi', r = Some (Ok (mkEng n (Some psi'))) /\ phase_equal n (fun x => effects (qc_gates qc) psi (swap_bits q1 q2 x)) psi').
Proof. exact @PQCirc8.l_c51_swap. Qed.
Print Assumptions c51_swap.

Example c51_example : map (swap_bits 0 2) [0; 1; 4; 5; 6] = [0; 4; 1; 5; 3] /\
  qc_gates (qc_Swap (K := GI) (0, 1)%Z (qc_new true false) 2 0 : @qcirc GI) = [gate_c 0 mat_X [2] 1; gate_c 2 mat_X [0] 1; gate_c 0 mat_X [2] 1].
Proof. split; reflexivity. Qed.

(** Without collapsing, a gate made by the swap constructor is executed. *)
Theorem c51_swap_gate_uncollapsed : forall (K : StarRing) (c : cfg) rgp maxQB (i : K) clifford n q1 q2 (psi : mem K), fits c n -> q1 < n -> q2 < n -> q1 <> q2 ->
  every_run (Run c rgp maxQB (AppendGate i (qc_new false clifford) (swap_gate q1 q2)) (mkEng n (Some psi))) (fun r =>
    exists psi', r = Some (Ok (mkEng n (Some psi'))) /\ phase_equal n (fun x => psi (swap_bits q1 q2 x)) psi').
Proof. exact @PQCirc8.l_c51_swap_gate_uncollapsed. Qed.
Print Assumptions c51_swap_gate_uncollapsed.

Example c51_uncollapsed_hyps : fits (mkCfg 4 2) 3 /\ 0 < 3 /\ 2 < 3 /\ 0 <> 2.
Proof. split; [vm_compute; repeat split; discriminate|]. repeat split; lia. Qed.

(** In a collapsing circuit a gate made by the swap constructor is taken for the identity and dropped, whatever the circuit; on |01> the run is wrong. *)
Theorem c51_swap_gate_refuted : (forall (K : StarRing) (i : K) (qc : @qcirc K) q1 q2, qc_collapsed qc = true -> AppendGate i qc (swap_gate q1 q2) = qc) /\
  exists c, fits c 2 /\
  ~ every_run (Run c false 64 (AppendGate (K := GI) (0, 1)%Z (qc_new true false) (swap_gate 0 1)) (mkEng 2 (Some (ket 1 : mem GI)))) (fun r =>
      exists psi', r = Some (Ok (mkEng 2 (Some psi'))) /\ phase_equal 2 (fun x => ket 1 (swap_bits 0 1 x)) psi').
Proof. exact @PQCirc8.l_c51_swap_gate_refuted. Qed.
Print Assumptions c51_swap_gate_refuted.

(** * C52: text form *)

(** Reading back the text of a circuit gives its qubit count and its gates, provided every key is below 2^64 and every matrix entry survives printing ([fmt] is the value of the printed entry).  The flags are those of the circuit read into. *)
Theorem c52_round_trip : forall (K : StarRing) (fmt : K -> K) (c0 c : @qcirc K) n l, n < 256 -> qc_count c <= n -> N.of_nat (length (qc_gates c)) < 2 ^ 64 ->
  Forall (fun g => good_gate n g \/ good_swap n g) (qc_gates c) ->
  (forall g e, In g (qc_gates c) -> In e (qg_pl g) -> fst e < 2 ^ 64 /\ fmt (m00 (snd e)) = m00 (snd e) /\ fmt (m01 (snd e)) = m01 (snd e) /\
     fmt (m10 (snd e)) = m10 (snd e) /\ fmt (m11 (snd e)) = m11 (snd e)) ->
  get_circ c0 (put_circ fmt c ++ l) = Some (mkQC (qc_collapsed c0) (qc_clifford c0) (qc_count c) (qc_gates c), l).
Proof. exact @PQCirc8.l_c52_round_trip. Qed.
Print Assumptions c52_round_trip.

Example c52_example : get_circ (qc_new true false) (put_circ (fun a => a) (mkQC true false 3 [gate_c 0 mat_X [1; 2] 2; gate_1 2 (mkMat (K := GI) (1, 0) (0, 0) (0, 0) (0, 1))%Z] : @qcirc GI)) =
  Some (mkQC true false 3 [gate_c 0 mat_X [1; 2] 2; gate_1 2 (mkMat (K := GI) (1, 0) (0, 0) (0, 0) (0, 1))%Z], []).
Proof. vm_compute. reflexivity. Qed.

(** A key of 2^64 or more is cut to 64 bits when it is written: a gate on 65 controls comes back as a different gate. *)
Theorem c52_wide_key_refuted : exists (c c' : @qcirc GI), Forall (good_gate 66) (qc_gates c) /\ qc_count c = 66 /\ get_circ (qc_new true false) (put_circ (fun a => a) c) = Some (c', []) /\
  exists x, x < 2 ^ 66 /\ effects (qc_gates c') (ket 0) x <> effects (qc_gates c) (ket 0) x.
Proof. exact @PQCirc8.l_c52_wide_key_refuted. Qed.
Print Assumptions c52_wide_key_refuted.

(** An entry that printing does not preserve (the stream prints six digits) does not come back. *)
Theorem c52_precision_refuted : forall (K : StarRing) (fmt : K -> K) (a : K), fmt a <> a -> exists c : @qcirc K, qc_count c = 1 /\
  get_circ c (put_circ fmt c) <> Some (c, []).
Proof. exact @PQCirc8.l_c52_precision_refuted. Qed.
Print Assumptions c52_precision_refuted.

(** * C78: qubit count *)

(** In a collapsing circuit the qubit count covers the qubits of all gates, whatever gates were appended. *)
Theorem c78_count_covers : forall (K : StarRing) (i : K) clifford m gs, m <= 126 -> Forall (good_gate m) gs ->
  let qc := AppendGates i (qc_new true clifford) gs in qc_count qc <= m /\ Forall (good_gate (qc_count qc)) (qc_gates qc).
Proof. exact @PQCirc8.l_c78_count_covers. Qed.
Print Assumptions c78_count_covers.

Example c78_example : qc_count (AppendGates (K := GI) (0, 1)%Z (qc_new true false) ([gate_c 5 mat_X [2; 9] 1] : list (@qgate GI))) = 10.
Proof. reflexivity. Qed.

(** Without collapsing the count stays what it was: a fresh circuit reports no qubits and Run does not allocate any. *)
Theorem c78_uncollapsed_refuted : forall (K : StarRing) (i : K) clifford gs, qc_count (AppendGates i (qc_new false clifford) gs : @qcirc K) = 0 /\ qc_gates (AppendGates i (qc_new false clifford) gs) = gs.
Proof. exact @PQCirc8.l_c78_uncollapsed_refuted. Qed.
Print Assumptions c78_uncollapsed_refuted.

(** * C79: past light cone *)

(** The past light cone of a set of qubits gives every outcome on those qubits the same weight as the whole circuit. *)
Theorem c79_light_cone : forall (K : StarRing) (c : cfg) rgp maxQB (qc : @qcirc K) n qs P (psi : mem K), fits c n -> qc_count qc <= n -> Forall (fun g => good_gate n g \/ good_swap n g) (qc_gates qc) -> depends_on qs P ->
  every_run (Run c rgp maxQB qc (mkEng n (Some psi))) (fun r => exists psi1, r = Some (Ok (mkEng n (Some psi1))) /\
    every_run (Run c rgp maxQB (fst (PastLightCone qc qs)) (mkEng n (Some psi))) (fun r2 => exists psi2, r2 = Some (Ok (mkEng n (Some psi2))) /\
      weight_of n P psi2 = weight_of n P psi1)).
Proof. exact @PQCirc8.l_c79_light_cone. Qed.
Print Assumptions c79_light_cone.

Example c79_example : PastLightCone (mkQC true false 4 [gate_c 1 mat_X [0] 1; gate_c 2 mat_X [1] 1; gate_1 3 mat_X] : @qcirc GI) [1] =
    (mkQC true false 4 [gate_c 1 mat_X [0] 1; gate_c 2 mat_X [1] 1], [0; 1; 2]) /\ depends_on [1] (fun x => N.testbit x 1).
Proof. split; [reflexivity|]. intros x y H. apply H. now left. Qed.

(** The set returned holds the given qubits and the qubits of every kept gate, and the kept gates are gates of the circuit. *)
Theorem c79_cone_set : forall (K : StarRing) (qc : @qcirc K) n qs, Forall (fun g => good_gate n g \/ good_swap n g) (qc_gates qc) ->
  let r := PastLightCone qc qs in (forall q, In q qs -> In q (snd r)) /\
  forall g, In g (qc_gates (fst r)) -> In g (qc_gates qc) /\ forall q, In q (qg_t g :: qg_ctl g) -> In q (snd r).
Proof. exact @PQCirc8.l_c79_cone_set. Qed.
Print Assumptions c79_cone_set.

(** * C80: addition circuit *)

(** QCircuit::INC after any circuit of good gates adds the constant to the register modulo 2^len, up to a global phase. *)
Theorem c80_inc : forall (K : StarRing) (c : cfg) rgp maxQB (i : K) (qc : @qcirc K) n a s len (psi : mem K), fits c n -> qc_count qc <= n -> Forall (good_gate n) (qc_gates qc) -> s + len <= n ->
  every_run (Run c rgp maxQB (qc_INC i qc a s len) (mkEng n (Some psi))) (fun r => exists psi' spec, r = Some (Ok (mkEng n (Some psi'))) /\
    basis_map n always (add_reg s len a) (fun _ => 1%amp) (effects (qc_gates qc) psi) spec /\ phase_equal n spec psi').
Proof. exact @PQCirc8.l_c80_inc. Qed.
Print Assumptions c80_inc.

Example c80_example : map (add_reg 1 3 27) [0; 10; 15; 31] = [6; 0; 5; 21] /\ fits (mkCfg 4 2) 5 /\ 1 + 3 <= 5 /\
  length (qc_gates (qc_INC (K := GI) (0, 1)%Z (qc_new true false) 5 1 3 : @qcirc GI)) = 3%nat.
Proof. split; [reflexivity|]. split; [vm_compute; repeat split; discriminate|]. split; [lia|reflexivity]. Qed.

(** * C81: DeletePhaseTarget *)

(** When no gate targets the qubit and every gate it controls keeps a matrix for the given value, the shortened circuit does the same on every state in which the qubit has that value. *)
Theorem c81_delete_controls : forall (K : StarRing) (qc : @qcirc K) n q b (psi : mem K), n <= 126 ->
  Forall (fun g => good_gate n g /\ qg_t g <> q /\ (In q (qg_ctl g) -> exists e, In e (qg_pl g) /\ N.testbit (fst e) (spos q (qg_ctl g)) = b)) (qc_gates qc) ->
  (forall x, N.testbit x q <> b -> psi x = 0%amp) ->
  Forall (good_gate n) (qc_gates (DeletePhaseTarget qc q b)) /\ (forall g, In g (qc_gates (DeletePhaseTarget qc q b)) -> ~ In q (qg_t g :: qg_ctl g)) /\
  forall x, effects (qc_gates (DeletePhaseTarget qc q b)) psi x = effects (qc_gates qc) psi x.
Proof. exact @PQCirc8.l_c81_delete_controls. Qed.
Print Assumptions c81_delete_controls.

Example c81_example : qc_gates (DeletePhaseTarget (mkQC true false 3 [gate_c 0 mat_X [1; 2] 2] : @qcirc GI) 2 true) = [gate_c 0 mat_X [1] 0] /\
  spos 2 [1; 2] = 1 /\ N.testbit 2 1 = true.
Proof. repeat split. Qed.

(** A CNOT whose control is known to be 0 leaves a gate with neither controls nor matrices: Run reads a null pointer. *)
Theorem c81_null_matrix_refuted : exists (c : cfg) (qc : @qcirc GI), Forall (good_gate 2) (qc_gates qc) /\ IsNonPhaseTarget qc 1 = false /\
  Run c false 64 (DeletePhaseTarget qc 1 false) (mkEng 2 (Some (ket 0))) None.
Proof. exact @PQCirc8.l_c81_null_matrix_refuted. Qed.
Print Assumptions c81_null_matrix_refuted.

(** A doubly controlled X with one control known to be 0 becomes a swap gate. *)
Theorem c81_swap_refuted : exists (qc : @qcirc GI), Forall (good_gate 3) (qc_gates qc) /\ IsNonPhaseTarget qc 2 = false /\
  exists x, x < 2 ^ 3 /\ effects (qc_gates (DeletePhaseTarget qc 2 false)) (ket 1) x <> effects (qc_gates qc) (ket 1) x.
Proof. exact @PQCirc8.l_c81_swap_refuted. Qed.
Print Assumptions c81_swap_refuted.

(** A controlled phase gate on the qubit is dropped although it gives the control a phase. *)
Theorem c81_phase_refuted : exists (qc : @qcirc GI) (psi : mem GI), Forall (good_gate 2) (qc_gates qc) /\ IsNonPhaseTarget qc 1 = false /\ (forall x, N.testbit x 1 <> true -> psi x = 0%amp) /\
  ~ phase_equal 2 (effects (qc_gates qc) psi) (effects (qc_gates (DeletePhaseTarget qc 1 true)) psi).
Proof. exact @PQCirc8.l_c81_phase_refuted. Qed.
Print Assumptions c81_phase_refuted.

(** * C82: joining circuits *)

(** Append: the run does what the first circuit and then the second do. *)
Theorem c82_append : forall (K : StarRing) (c : cfg) rgp maxQB (q1 q2 : @qcirc K) n (psi : mem K), fits c n -> qc_count q1 <= n -> qc_count q2 <= n ->
  Forall (fun g => good_gate n g \/ good_swap n g) (qc_gates q1) -> Forall (fun g => good_gate n g \/ good_swap n g) (qc_gates q2) ->
  every_run (Run c rgp maxQB (qc_Append q1 q2) (mkEng n (Some psi))) (fun r =>
    exists psi', r = Some (Ok (mkEng n (Some psi'))) /\ phase_equal n (effects (qc_gates q2) (effects (qc_gates q1) psi)) psi').
Proof. exact @PQCirc8.l_c82_append. Qed.
Print Assumptions c82_append.

Example c82_example : qc_gates (qc_Combine (K := GI) (0, 1)%Z (mkQC true false 2 [gate_c 0 mat_X [1] 1]) (mkQC true false 2 [gate_c 0 mat_X [1] 1; gate_1 1 mat_X]) : @qcirc GI) = [gate_1 1 mat_X].
Proof. reflexivity. Qed.

(** Combine: the same, gate by gate with merging. *)
Theorem c82_combine : forall (K : StarRing) (c : cfg) rgp maxQB (i : K) (q1 q2 : @qcirc K) n (psi : mem K), fits c n -> qc_count q1 <= n -> qc_count q2 <= n -> Forall (good_gate n) (qc_gates q1) -> Forall (good_gate n) (qc_gates q2) ->
  every_run (Run c rgp maxQB (qc_Combine i q1 q2) (mkEng n (Some psi))) (fun r =>
    exists psi', r = Some (Ok (mkEng n (Some psi'))) /\ phase_equal n (effects (qc_gates q2) (effects (qc_gates q1) psi)) psi').
Proof. exact @PQCirc8.l_c82_combine. Qed.
Print Assumptions c82_combine.
