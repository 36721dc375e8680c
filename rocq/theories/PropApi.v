(** Property theorems C136 to C148: the C interface. *)
From Coq Require Import NArith ZArith List Bool Sorted.
From Verif Require Import Amp AmpC AmpC2 AmpQ8 SpecState SpecUnit3 MQCircuit SpecQCircuit PQCirc1 MTensor PUnitMeas SpecApi MApi SpecApi2 PApi8 PApiProp.
Import ListNotations.
Local Open Scope N_scope.

(** * Programs on named qubits *)

(** C136: a new simulator of fewer than 256 qubits, from any state of the interface, and any program of allocateQubit, release, gates with controls of value 0 or 1, SWAP, M and Prob with IDs below 256 that are in use (a new ID is unused, a released qubit has a certain value, a gate is unitary with different qubits): every call returns, its result is one that the state of the named qubits allows, the simulator holds the named state (up to a phase) afterwards, no error is reported and no other simulator changes.  Missing: IDs of 256 and more, see below. *)
Theorem c136_programs_partial : forall (K : StarRing) (c : @acfg K), proper c -> forall n a0 l, n < 256 -> allowed_all 256 (ac_max c) l (first_ids n) (nzero (first_ids n)) -> let (sid, a1) := init_count n a0 in exists rs a ids Psi, api_calls c sid l a1 = Ret (rs, a) /\ nsteps (first_ids n) (nzero (first_ids n)) l rs ids Psi /\ holds a sid ids Psi /\ only_at sid a1 a.
Proof. exact @PApiProp.l_c136_programs_partial. Qed.
Print Assumptions c136_programs_partial.

Example c136_example : proper (cfgC 7) /\ allowed_all 256 (ac_max (cfgC 7)) progC (first_ids 3) (nzero (first_ids 3)) /\ length progC = 8%nat.
Proof. split; [exact (cfgC_proper 7)|]. split; [exact progC_ok|reflexivity]. Qed.

(** C136 fails for IDs of 256 and more: they are cut to eight bits when they are looked up.  With the qubits 0 and 256, X on 256 flips qubit 0. *)
Theorem c136_large_refuted : forall rnd small nrm, let c := cfg GI 7 rnd small nrm in let l := [NAlloc 0; NAlloc 256; NGate true [] x_mat 256; NProb 0] in allowed_all 300 64 l [] (nzero []) /\ (forall rs ids Psi, nsteps [] (nzero []) l rs ids Psi -> rs = [RNone; RNone; RNone; RVal 0%amp]) /\ answer (api_calls c 0 l (snd (init_count 0 no_sims))) = Ret [RNone; RNone; RNone; RVal 1%amp].
Proof. exact @PApiProp.l_c136_large_refuted. Qed.
Print Assumptions c136_large_refuted.

(** * Simulator IDs *)

(** C137: a new simulator gets an ID that is not in use, all other simulators stay, and it holds its qubits in state 0.  Missing: the end of the range of valid IDs, and destroyed IDs, see below. *)
Theorem c137_new_partial : forall (K : StarRing) n (a0 : @api K), n < 256 -> let (sid, a) := init_count n a0 in holds a sid (first_ids n) (nzero (first_ids n)) /\ a_meta a = a_meta a0 /\ (forall i, i <> N.to_nat sid -> nth_error (a_slots a) i = nth_error (a_slots a0) i) /\ (forall s, nth_error (a_slots a0) (N.to_nat sid) = Some s -> sl_res s = false).
Proof. exact @PApiProp.l_c137_new_partial. Qed.
Print Assumptions c137_new_partial.

Example c137_example : fst (init_count (K := CC) 2 (snd (init_count 3 no_sims))) = 1 /\ 3 < 256.
Proof. split; reflexivity. Qed.

(** C137 fails at the end of the range: the number of simulators is taken for a valid ID by every call (`sid > simulators.size()`), which reads behind the vector; larger IDs set the error code. *)
Theorem c137_bound_refuted : forall (K : StarRing) (c : @acfg K) (a : @api K) want cs m q1 q2, (forall sid, count a < sid -> api_gate sid want cs m q1 a = Ret (meta_error a) /\ api_prob sid q1 a = Ret (None, meta_error a) /\ api_m c sid q1 a = Ret (None, meta_error a)) /\ api_gate (count a) want cs m q1 a = Undef /\ api_swap (count a) q1 q2 a = Undef /\ api_prob (count a) q1 a = Undef /\ api_m c (count a) q1 a = Undef.
Proof. exact @PApiProp.l_c137_bound_refuted. Qed.
Print Assumptions c137_bound_refuted.

(** C137 fails for destroyed IDs: the comment of destroy says that the ID will not be reused, but the next new simulator gets it when all lower IDs are in use. *)
Theorem c137_reuse_refuted : forall (K : StarRing) (a : @api K) sid s n, nth_error (a_slots a) (N.to_nat sid) = Some s -> (forall i s, (i < N.to_nat sid)%nat -> nth_error (a_slots a) i = Some s -> sl_res s = true) -> exists a', destroy sid a = Ret a' /\ fst (init_count n a') = sid.
Proof. exact @PApiProp.l_c137_reuse_refuted. Qed.
Print Assumptions c137_reuse_refuted.

(** * init_clone *)

(** C138: after a program from a new simulator that does not allocate or release, init_clone gives a new simulator that holds the same named qubits in the same state; the others stay.  Missing: other maps of IDs, see below. *)
Theorem c138_clone_partial : forall (K : StarRing) (c : @acfg K), proper c -> forall n a0 l, n < 256 -> allowed_all 256 (ac_max c) l (first_ids n) (nzero (first_ids n)) -> let (sid, a1) := init_count n a0 in exists rs a ids Psi, api_calls c sid l a1 = Ret (rs, a) /\ nsteps (first_ids n) (nzero (first_ids n)) l rs ids Psi /\ holds a sid ids Psi /\ (forallb (keeps_ids (K := K)) l = true -> n <> 0 -> exists sid' a', init_clone sid a = Ret (sid', a') /\ holds a' sid' ids Psi /\ holds a' sid ids Psi /\ a_meta a' = a_meta a /\ (forall i, i <> N.to_nat sid' -> nth_error (a_slots a') i = nth_error (a_slots a) i)).
Proof. exact @PApiProp.l_c138_clone_partial. Qed.
Print Assumptions c138_clone_partial.

Example c138_example : proper (cfgC 7) /\ allowed_all 256 (ac_max (cfgC 7)) gatesC (first_ids 3) (nzero (first_ids 3)) /\ forallb (keeps_ids (K := CC)) gatesC = true.
Proof. split; [exact (cfgC_proper 7)|]. split; [exact gatesC_ok|reflexivity]. Qed.

(** C138 fails in general: the clone numbers its qubits from 0 by position.  With the qubits 1 and 0, allocated in this order, and X on qubit 0, the simulator has qubit 0 set and its clone has qubit 1 set. *)
Theorem c138_clone_refuted : forall rnd small nrm, let c := cfg GI 7 rnd small nrm in let run f := answer (let (s, a) := init_count 0 no_sims in do a <- alloc_all c s [1; 0] a; do a <- api_gate s true [] x_mat 0 a; do (s2, a) <- init_clone s a; f s s2 a) in run (fun s _ => api_prob s 0) = Ret (Some 1%amp) /\ run (fun s _ => api_prob s 1) = Ret (Some 0%amp) /\ run (fun _ s => api_prob s 0) = Ret (Some 0%amp) /\ run (fun _ s => api_prob s 1) = Ret (Some 1%amp).
Proof. exact @PApiProp.l_c138_clone_refuted. Qed.
Print Assumptions c138_clone_refuted.

(** * Dispose, Decompose, Separate *)

(** C139 fails: the disposed qubits are exchanged with the last ones, but the map of IDs is changed as if the gap had been closed.  Of three qubits with qubit 1 set, after Dispose of qubit 0, which is clear, qubit 2 is set and qubit 1 is clear. *)
Theorem c139_dispose_refuted : forall rnd small nrm, let c := cfg GI 7 rnd small nrm in let run f := answer (let (s, a) := init_count 3 no_sims in do a <- api_gate s true [] x_mat 1 a; do a <- f s a; do (p1, a) <- api_prob s 1 a; do (p2, a) <- api_prob s 2 a; Ret ((p1, p2), a)) in run (fun s a => Ret a) = Ret (Some 1%amp, Some 0%amp) /\ run (fun s => api_dispose c s [0]) = Ret (Some 0%amp, Some 1%amp).
Proof. exact @PApiProp.l_c139_dispose_refuted. Qed.
Print Assumptions c139_dispose_refuted.

(** C140 fails in the same way: after Decompose of qubit 0 into a new simulator, qubits 1 and 2 are exchanged. *)
Theorem c140_decompose_refuted : forall rnd small nrm, let c := cfg GI 7 rnd small nrm in let run f := answer (let (s, a) := init_count 3 no_sims in do a <- api_gate s true [] x_mat 1 a; do a <- f s a; do (p1, a) <- api_prob s 1 a; do (p2, a) <- api_prob s 2 a; Ret ((p1, p2), a)) in run (fun s a => Ret a) = Ret (Some 1%amp, Some 0%amp) /\ run (fun s a => do (s2, a) <- api_decompose c s [0] a; Ret a) = Ret (Some 0%amp, Some 1%amp).
Proof. exact @PApiProp.l_c140_decompose_refuted. Qed.
Print Assumptions c140_decompose_refuted.

(** C141 fails: the range that is taken out starts one qubit too low.  Of two qubits with qubit 0 set, Separate of qubit 1 leaves qubit 1 set and qubit 0 clear. *)
Theorem c141_separate_refuted : forall rnd small nrm, let c := cfg GI 7 rnd small nrm in let run f := answer (let (s, a) := init_count 2 no_sims in do a <- api_gate s true [] x_mat 0 a; do a <- f s a; do (p0, a) <- api_prob s 0 a; do (p1, a) <- api_prob s 1 a; Ret ((p0, p1), a)) in run (fun s a => Ret a) = Ret (Some 1%amp, Some 0%amp) /\ run (fun s => api_separate c s [1]) = Ret (Some 0%amp, Some 1%amp).
Proof. exact @PApiProp.l_c141_separate_refuted. Qed.
Print Assumptions c141_separate_refuted.

(** * Arithmetic *)

(** C142, with bitCapInt of 64 bits (QBCAPPOW 6): after a program from a new simulator, ADD of a number to a register of qubits listed in the order of allocation adds it modulo the size of the register and leaves the other qubits.  Missing: other orders and wider integers, see below. *)
Theorem c142_add_partial : forall (K : StarRing) (c : @acfg K), proper c -> ac_cap c = 6 -> forall n a0 l, n < 256 -> allowed_all 256 (ac_max c) l (first_ids n) (nzero (first_ids n)) -> let (sid, a1) := init_count n a0 in exists rs a ids Psi, api_calls c sid l a1 = Ret (rs, a) /\ nsteps (first_ids n) (nzero (first_ids n)) l rs ids Psi /\ holds a sid ids Psi /\ forall q k, q <> [] -> incl q ids -> StronglySorted (earlier ids) q -> exists a' Psi', api_add c sid [k] q a = Ret a' /\ holds a' sid ids Psi' /\ only_at sid a a' /\ forall f, Psi' (write_value q ((value_of q f + k) mod 2 ^ N.of_nat (length q)) f) = Psi f.
Proof. exact @PApiProp.l_c142_add_partial. Qed.
Print Assumptions c142_add_partial.

Example c142_example : proper (cfgC 6) /\ ac_cap (cfgC 6) = 6 /\ allowed_all 256 (ac_max (cfgC 6)) progC (first_ids 3) (nzero (first_ids 3)) /\ StronglySorted (earlier [2; 1; 0]) [0; 2].
Proof. split; [exact (cfgC_proper 6)|]. split; [reflexivity|]. split; [exact progC_ok|]. constructor; [constructor; constructor|]. constructor; [|constructor]. exists [], [1], []. reflexivity. Qed.

(** C142, for Hash with a one-to-one table: the register, in the order of allocation, is mapped by the table. *)
Theorem c142_hash_partial : forall (K : StarRing) (c : @acfg K), proper c -> forall n a0 l, n < 256 -> allowed_all 256 (ac_max c) l (first_ids n) (nzero (first_ids n)) -> let (sid, a1) := init_count n a0 in exists rs a ids Psi, api_calls c sid l a1 = Ret (rs, a) /\ nsteps (first_ids n) (nzero (first_ids n)) l rs ids Psi /\ holds a sid ids Psi /\ forall q t, q <> [] -> incl q ids -> StronglySorted (earlier ids) q -> (forall v, v < 2 ^ N.of_nat (length q) -> t v < 2 ^ N.of_nat (length q)) -> (forall v w, v < 2 ^ N.of_nat (length q) -> w < 2 ^ N.of_nat (length q) -> t v = t w -> v = w) -> exists a' Psi', api_hash sid q t a = Ret a' /\ holds a' sid ids Psi' /\ only_at sid a a' /\ forall f, Psi' (write_value q (t (value_of q f)) f) = Psi f.
Proof. exact @PApiProp.l_c142_hash_partial. Qed.
Print Assumptions c142_hash_partial.

Example c142_table : let t v := N.lxor v 2 in forall v, v < 4 -> t v < 4 /\ (forall w, w < 4 -> t v = t w -> v = w).
Proof. cbv zeta. intros v Hv. split. { assert (C : v = 0 \/ v = 1 \/ v = 2 \/ v = 3) by Lia.lia. destruct C as [->|[->|[->| ->]]]; reflexivity. } intros w _ E. assert (X : N.lxor (N.lxor v 2) 2 = N.lxor (N.lxor w 2) 2) by now rewrite E. now rewrite !N.lxor_assoc, N.lxor_nilpotent, !N.lxor_0_r in X. Qed.

(** C142 fails for qubits that are not listed in the order of allocation: ADD of 1 to the clear register [1; 0] sets qubit 0, which is its high bit, and leaves qubit 1 clear; the same for Hash. *)
Theorem c142_order_refuted : forall rnd small nrm, let c := cfg GI 6 rnd small nrm in let run f := answer (let (s, a) := init_count 2 no_sims in do a <- f s a; do (p0, a) <- api_prob s 0 a; do (p1, a) <- api_prob s 1 a; Ret ((p0, p1), a)) in run (fun s => api_add c s [1] [0; 1]) = Ret (Some 1%amp, Some 0%amp) /\ run (fun s => api_add c s [1] [1; 0]) = Ret (Some 1%amp, Some 0%amp) /\ run (fun s => api_hash s [1; 0] (N.lxor 1)) = Ret (Some 1%amp, Some 0%amp).
Proof. exact @PApiProp.l_c142_order_refuted. Qed.
Print Assumptions c142_order_refuted.

(** C142 fails with bitCapInt wider than 64 bits, which is the default (QBCAPPOW 7): the words of the number are combined with a shift by the width of the type, which is undefined. *)
Theorem c142_wide_refuted : forall (K : StarRing) (c : @acfg K) a sid ids Psi k q, ac_cap c = 7 -> holds a sid ids Psi -> ids <> [] -> api_add c sid [k] q a = Undef.
Proof. exact @PApiProp.l_c142_wide_refuted. Qed.
Print Assumptions c142_wide_refuted.

Example c142_wide_example : let (sid, a) := init_count (K := CC) 3 no_sims in holds a sid (first_ids 3) (nzero (first_ids 3)).
Proof. exact (proj1 (PApiProp.l_c137_new_partial CC 3 no_sims eq_refl)). Qed.

(** C143 fails for registers that are interleaved: of four qubits, MUL by 3 of the register [0; 2] with value 1 into [1; 3] should set qubits 0 and 2, but sets qubits 0 and 1. *)
Theorem c143_mul_refuted : forall rnd small nrm, let c := cfg GI 6 rnd small nrm in let run f := answer (let (s, a) := init_count 4 no_sims in do a <- api_gate s true [] x_mat 0 a; do a <- f s a; do (p0, a) <- api_prob s 0 a; do (p1, a) <- api_prob s 1 a; do (p2, a) <- api_prob s 2 a; do (p3, a) <- api_prob s 3 a; Ret ((p0, p1, p2, p3), a)) in run (fun s => api_mul c s [3] [0; 1] [2; 3]) = Ret (Some 1%amp, Some 1%amp, Some 0%amp, Some 0%amp) /\ run (fun s => api_mul c s [3] [0; 2] [1; 3]) = Ret (Some 1%amp, Some 1%amp, Some 0%amp, Some 0%amp).
Proof. exact @PApiProp.l_c143_mul_refuted. Qed.
Print Assumptions c143_mul_refuted.

(** C144: after a program from a new simulator, LDA into a clear register, with the qubits of the index register followed by those of the value register in the order of allocation, loads the table value of the index.  Missing: other orders, see below. *)
Theorem c144_lda_partial : forall (K : StarRing) (c : @acfg K), proper c -> forall n a0 l, n < 256 -> allowed_all 256 (ac_max c) l (first_ids n) (nzero (first_ids n)) -> let (sid, a1) := init_count n a0 in exists rs a ids Psi, api_calls c sid l a1 = Ret (rs, a) /\ nsteps (first_ids n) (nzero (first_ids n)) l rs ids Psi /\ holds a sid ids Psi /\ forall qi qv t, qi <> [] -> qv <> [] -> incl (qi ++ qv) ids -> StronglySorted (earlier ids) (qi ++ qv) -> (forall v, v < 2 ^ N.of_nat (length qi) -> t v < 2 ^ N.of_nat (length qv)) -> (forall f, value_of qv f <> 0 -> Psi f = 0%amp) -> exists a', api_lda sid qi qv t a = Ret a' /\ holds a' sid ids (fun f => if value_of qv f =? t (value_of qi f) then Psi (write_value qv 0 f) else 0%amp) /\ only_at sid a a'.
Proof. exact @PApiProp.l_c144_lda_partial. Qed.
Print Assumptions c144_lda_partial.

Example c144_example : StronglySorted (earlier [2; 1; 0]) ([0; 1] ++ [2]) /\ (forall v, v < 4 -> N.odd v = N.odd v /\ N.b2n (N.odd v) < 2) /\ (forall f, value_of [2] f <> 0 -> nzero (K := CC) (first_ids 3) f = 0%amp).
Proof. split; [|split].
  - repeat match goal with |- StronglySorted _ _ => constructor | |- Forall _ _ => constructor | |- earlier _ _ _ => first [exists [2], [], []; reflexivity|exists [], [1], []; reflexivity|exists [], [], [0]; reflexivity] end.
  - intros v _. split; [reflexivity|]. destruct (N.odd v); reflexivity.
  - intros f H. change (first_ids 3) with [2; 1; 0]. unfold nzero. cbn [forallb value_of] in *. destruct (f 2); [reflexivity|]. now destruct H. Qed.

(** C144 fails for registers that are interleaved: of four qubits, with index register [0; 2] of value 1 and value register [1; 3], loading the table value 1 should set qubit 1, but sets qubit 2. *)
Theorem c144_lda_refuted : let run f := answer (let (s, a) := init_count (K := GI) 4 no_sims in do a <- api_gate s true [] x_mat 0 a; do a <- f s a; do (p0, a) <- api_prob s 0 a; do (p1, a) <- api_prob s 1 a; do (p2, a) <- api_prob s 2 a; do (p3, a) <- api_prob s 3 a; Ret ((p0, p1, p2, p3), a)) in run (fun s => api_lda s [0; 1] [2; 3] (fun v => v)) = Ret (Some 1%amp, Some 0%amp, Some 1%amp, Some 0%amp) /\ run (fun s => api_lda s [0; 2] [1; 3] (fun v => v)) = Ret (Some 1%amp, Some 0%amp, Some 1%amp, Some 0%amp).
Proof. exact @PApiProp.l_c144_lda_refuted. Qed.
Print Assumptions c144_lda_refuted.

(** * Exponentials of Pauli operators *)

(** C145 fails for two or more Pauli operators: the mask and the controls of the parity rotation are IDs, not positions.  With the qubits 2, 0, 1 allocated in this order, Exp of X on qubits 2 and 0 with the angle pi/2 should flip both, but leaves qubit 0. *)
Theorem c145_mask_refuted : forall rnd small nrm, let c := cfg Q8 7 rnd small nrm in let run ids := answer (let (s, a) := init_count 0 no_sims in do a <- alloc_all c s ids a; do a <- api_exp z_i z_h s [(PX, 2); (PX, 0)] 0%amp 1%amp (z_h - z_i * z_h)%amp [] a; api_prob s 0 a) in run [0; 1; 2] = Ret (Some 1%amp) /\ run [2; 0; 1] = Ret (Some 0%amp).
Proof. exact @PApiProp.l_c145_mask_refuted. Qed.
Print Assumptions c145_mask_refuted.

(** C145 fails for the identity: MCExp of the identity with the angle phi should multiply by exp(i phi) when the controls are set, but multiplies by exp(-i phi / 2).  With phi = pi/2, twice between two H gates on the control, the control should be set with certainty; its probability is 1/2. *)
Theorem c145_identity_refuted : forall rnd small nrm, let c := cfg Q8 7 rnd small nrm in let run f := answer (let (s, a) := init_count 2 no_sims in do a <- api_gate s true [] h_mat8 0 a; do a <- f s a; do a <- f s a; do a <- api_gate s true [] h_mat8 0 a; api_prob s 0 a) in run (fun s => api_gate s true [0] (mkMat z_i 0 0 z_i)%amp 1) = Ret (Some 1%amp) /\ run (fun s => api_exp z_i z_h s [(PI, 1)] 0%amp 1%amp (z_h - z_i * z_h)%amp [0]) = Ret (Some (z_h * z_h)%amp).
Proof. exact @PApiProp.l_c145_identity_refuted. Qed.
Print Assumptions c145_identity_refuted.

(** * qcircuit_append_mc *)

(** C146: for controls in ascending order the gate that is appended is applied where control i has the value of bit i of the permutation. *)
Theorem c146_sorted_partial : forall (K : StarRing) (m : mat2 K) cs q p psi x, StronglySorted N.lt cs -> (forall z, In z (q :: cs) -> z < 256) -> p < 2 ^ N.of_nat (length cs) -> effect (mc_gate m cs q p) psi x = gate1 (fun y => ctrl_value 0 cs y =? p) q m psi x.
Proof. exact @PApiProp.l_c146_sorted_partial. Qed.
Print Assumptions c146_sorted_partial.

Example c146_example : StronglySorted N.lt [1; 4; 6] /\ (forall z, In z [0; 1; 4; 6] -> z < 256) /\ 5 < 2 ^ N.of_nat (length [1; 4; 6]).
Proof. split; [repeat constructor|]. split; [|reflexivity]. cbn. intros z H. intuition (subst; reflexivity). Qed.

(** C146: the same for two controls in any order. *)
Theorem c146_two_partial : forall (K : StarRing) (m : mat2 K) a b q p psi x, a <> b -> (forall z, In z [q; a; b] -> z < 256) -> p < 4 -> effect (mc_gate m [a; b] q p) psi x = gate1 (fun y => ctrl_value 0 [a; b] y =? p) q m psi x.
Proof. exact @PApiProp.l_c146_two_partial. Qed.
Print Assumptions c146_two_partial.

Example c146_two_example : 7 <> 2 /\ (forall z, In z [0; 7; 2] -> z < 256) /\ 1 < 4.
Proof. split; [discriminate|]. split; [|reflexivity]. cbn. intros z H. intuition (subst; reflexivity). Qed.

(** C146 fails for three controls: the bits of the permutation are moved by the inverse of the right permutation.  With the controls 2, 0, 1 and the permutation 1 (control 2 is set, controls 0 and 1 are clear), X is not applied where control 2 is set but where control 1 is set. *)
Theorem c146_three_refuted : let psi := effect (mc_gate (K := GI) x_mat [2; 0; 1] 3 1) (ket 4) in let phi := gate1 (K := GI) (fun y => ctrl_value 0 [2; 0; 1] y =? 1) 3 x_mat (ket 4) in psi 12 = 0%amp /\ phi 12 = 1%amp /\ psi 4 = 1%amp /\ phi 4 = 0%amp.
Proof. exact @PApiProp.l_c146_three_refuted. Qed.
Print Assumptions c146_three_refuted.

(** * MAll *)

(** C147: after a program from a new simulator, on 1 to 64 qubits, MAll returns the values of the qubits in the order of allocation, lowest first, of an assignment whose amplitude is not 0, and leaves that basis state.  Missing: after arithmetic, see below. *)
Theorem c147_mall_partial : forall (K : StarRing) (c : @acfg K), proper c -> picks_ok c -> forall n a0 l, n < 256 -> allowed_all 256 (ac_max c) l (first_ids n) (nzero (first_ids n)) -> let (sid, a1) := init_count n a0 in exists rs a ids Psi, api_calls c sid l a1 = Ret (rs, a) /\ nsteps (first_ids n) (nzero (first_ids n)) l rs ids Psi /\ holds a sid ids Psi /\ (ids <> [] -> N.of_nat (length ids) <= 64 -> exists f a', api_mall c sid a = Ret (Some (value_of (rev ids) f), a') /\ Psi f <> 0%amp /\ holds a' sid ids (nket ids f) /\ only_at sid a a').
Proof. exact @PApiProp.l_c147_mall_partial. Qed.
Print Assumptions c147_mall_partial.

Example c147_example : proper (cfgC 7) /\ picks_ok (cfgC 7) /\ allowed_all 256 (ac_max (cfgC 7)) progC (first_ids 3) (nzero (first_ids 3)).
Proof. split; [exact (cfgC_proper 7)|]. split; [exact (cfgC_picks 7)|exact progC_ok]. Qed.

(** C147 fails after arithmetic: the qubits of a register are moved next to each other.  Of three qubits, after Hash of qubits 0 and 2 with the identity as table, and X on qubit 1, which was allocated second, MAll returns 4 instead of 2. *)
Theorem c147_mall_refuted : forall rnd small nrm, let c := cfg GI 7 rnd small nrm in let run f := answer (let (s, a) := init_count 3 no_sims in do a <- f s a; do a <- api_gate s true [] x_mat 1 a; api_mall c s a) in run (fun s a => Ret a) = Ret (Some 2) /\ run (fun s => api_hash s [0; 2] (fun v => v)) = Ret (Some 4).
Proof. exact @PApiProp.l_c147_mall_refuted. Qed.
Print Assumptions c147_mall_refuted.

(** * Compose *)

(** C148: a simulator that holds a state, and a second, new one after any program: Compose gives the first simulator all qubits, those of the second one under the given new names in the order of allocation, in the product state; the second one stays. *)
Theorem c148_compose : forall (K : StarRing) (c : @acfg K), proper c -> forall sid1 ids1 Psi1 a0 s1, holds a0 sid1 ids1 Psi1 -> ids1 <> [] -> nth_error (a_slots a0) (N.to_nat sid1) = Some s1 -> sl_res s1 = true -> forall n l, n < 256 -> allowed_all 256 (ac_max c) l (first_ids n) (nzero (first_ids n)) -> let (sid2, a1) := init_count n a0 in exists rs a ids2 Psi2, api_calls c sid2 l a1 = Ret (rs, a) /\ nsteps (first_ids n) (nzero (first_ids n)) l rs ids2 Psi2 /\ forall q, ids2 <> [] -> length q = length ids2 -> NoDup q -> (forall x, In x q -> ~ In x ids1) -> N.of_nat (length ids1) + N.of_nat (length ids2) <= ac_max c -> exists a', api_compose c sid1 sid2 q a = Ret a' /\ holds a' sid1 (rev q ++ ids1) (nboth Psi1 (fun f => Psi2 (rename (rev ids2) q f))) /\ holds a' sid2 ids2 Psi2 /\ only_at sid1 a a'.
Proof. exact @PApiProp.l_c148_compose. Qed.
Print Assumptions c148_compose.

Example c148_example : let (sid, a) := init_count (K := CC) 3 no_sims in holds a sid (first_ids 3) (nzero (first_ids 3)) /\ (exists s, nth_error (a_slots a) (N.to_nat sid) = Some s /\ sl_res s = true) /\ proper (cfgC 7) /\ allowed_all 256 (ac_max (cfgC 7)) progC (first_ids 3) (nzero (first_ids 3)).
Proof. split; [exact (proj1 (PApiProp.l_c137_new_partial CC 3 no_sims eq_refl))|]. split; [eexists; split; reflexivity|]. split; [exact (cfgC_proper 7)|exact progC_ok]. Qed.
