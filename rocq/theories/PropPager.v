(** Property theorems C62-C65 and C90-C98: the paged simulator QPager. *)
From Coq Require Import NArith ZArith List Bool Lia Ring.
From Verif Require Import Amp MParFor MKernel MEngine MCircuit MPager MPager2 SpecState SpecAlu SpecEngine SpecPager SpecPager2 PPager13.
Import ListNotations.
Local Open Scope N_scope.

(** Concrete pagers: n qubits in pages of q, amplitude x is 1 + x i; and one with basis state k, the other pages null. *)
Definition ex_pager (n q : N) : pager GI := mkPager n q (2 ^ (n - q)) (fun i => Some (fun x => (1, Z.of_N (i * 2 ^ q + x))%Z : GI)).
Definition ex_ket (n q k : N) : pager GI := mkPager n q (2 ^ (n - q)) (fun i => if i =? k / 2 ^ q then Some (ket (k mod 2 ^ q)) else None).
Example ex_flat : map (flat (ex_pager 4 2)) [0; 3; 4; 15] = [(1, 0)%Z; (1, 3)%Z; (1, 4)%Z; (1, 15)%Z] :> list GI.
Proof. vm_compute. reflexivity. Qed.
Example ex_flat_ket : map (flat (ex_ket 4 2 9)) [0; 8; 9; 10] = [(0, 0)%Z; (0, 0)%Z; (1, 0)%Z; (0, 0)%Z] :> list GI.
Proof. vm_compute. reflexivity. Qed.

(** * C62: changes of the page size *)

(** CombineEngines: larger pages, the same concatenated vector, for every page size. *)
Theorem c62_combine : forall (K : StarRing) (c : cfg) q bit (p : pager K), paged q p -> fits c (pg_n p) ->
  every_run (CombineEngines c bit p) (paged_result (pg_n p) (N.max q (N.min bit (pg_n p))) p (flat p)).
Proof. exact @PPager13.l_c62_combine. Qed.
Print Assumptions c62_combine.

Example c62_hyps : paged 2 (ex_pager 5 2) /\ fits (mkCfg 4 2) 5 /\ N.max 2 (N.min 4 5) = 4.
Proof. split; [split; vm_compute; congruence|]. split; [vm_compute; repeat split; discriminate|]. reflexivity. Qed.

(** SeparateEngines: smaller pages, the same concatenated vector. *)
Theorem c62_separate : forall (K : StarRing) (c : cfg) q bits noBaseFloor (p : pager K), paged q p -> fits c (pg_n p) ->
  every_run (SeparateEngines c bits noBaseFloor p) (paged_result (pg_n p) (N.min q (if noBaseFloor : bool then bits else N.max bits (pg_base p))) p (flat p)).
Proof. exact @PPager13.l_c62_separate. Qed.
Print Assumptions c62_separate.

Example c62_separate_hyps : paged 4 (ex_pager 5 4) /\ fits (mkCfg 4 2) 5 /\ N.min 4 1 = 1.
Proof. split; [split; vm_compute; congruence|]. split; [vm_compute; repeat split; discriminate|]. reflexivity. Qed.

(** Combining and separating again: the same vector at every step. *)
Theorem c62_round_trip : forall (K : StarRing) (c : cfg) q bit bits noBaseFloor (p : pager K), paged q p -> fits c (pg_n p) ->
  every_run (andthen (CombineEngines c bit) (SeparateEngines c bits noBaseFloor) p) (fun r => exists p' q', r = Ok p' /\ pg_n p' = pg_n p /\ paged q' p' /\ eqv (pg_n p) (flat p') (flat p)).
Proof. exact @PPager13.l_c62_round_trip. Qed.
Print Assumptions c62_round_trip.

(** * C63: gates *)

(** A single-qubit gate on any qubit, inside the pages or a page bit. *)
Theorem c63_single : forall (K : StarRing) (c : cfg) q (m : mat2 K) t (p : pager K), paged q p -> fits c (pg_n p) -> 0 < q -> t < pg_n p ->
  every_run (PMtrx c m t p) (paged_result (pg_n p) q p (gate1 always t m (flat p))).
Proof. exact @PPager13.l_c63_single. Qed.
Print Assumptions c63_single.

Example c63_hyps : paged 2 (ex_pager 5 2) /\ fits (mkCfg 4 2) 5 /\ 0 < 2 /\ 4 < 5.
Proof. split; [split; vm_compute; congruence|]. split; [vm_compute; repeat split; discriminate|]. split; reflexivity. Qed.

(** Any number of controls and anti-controls, in and above the pages.  Missing: a target inside the pages together with a control nine or more places above the page size (refuted below). *)
Theorem c63_controlled_partial : forall (K : StarRing) (c : cfg) q anti controls (m : mat2 K) target (p : pager K), paged q p -> fits c (pg_n p) -> 0 < q -> NoDup (controls ++ [target]) ->
  (forall y, In y (controls ++ [target]) -> y < pg_n p) -> (target < q -> forall y, In y controls -> y < q + 8) ->
  every_run (PEitherMtrx c anti controls m target p)
    (paged_result (pg_n p) q p (gate1 (if anti : bool then all_clear controls else all_set controls) target m (flat p))).
Proof. exact @PPager13.l_c63_controlled_partial. Qed.
Print Assumptions c63_controlled_partial.

Example c63_controlled_hyps : paged 2 (ex_pager 5 2) /\ fits (mkCfg 4 2) 5 /\ NoDup ([0; 4; 2] ++ [1]) /\ (forall y, In y ([0; 4; 2] ++ [1]) -> y < 5) /\ (1 < 2 -> forall y, In y [0; 4; 2] -> y < 2 + 8).
Proof. split; [split; vm_compute; congruence|]. split; [vm_compute; repeat split; discriminate|]. split. repeat constructor; cbn; intuition discriminate. split; cbn; intuition subst; lia. Qed.

(** Any circuit of such gates and XMask calls. *)
Theorem c63_circuit_partial : forall (K : StarRing) (c : cfg) q (l : circ K) (p : pager K), paged q p -> fits c (pg_n p) -> 0 < q -> Forall (gate_allowed (pg_n p) q) l ->
  every_run (pcrun c l p) (paged_result (pg_n p) q p (circuit_action l (flat p))).
Proof. exact @PPager13.l_c63_circuit_partial. Qed.
Print Assumptions c63_circuit_partial.

Example c63_circuit_hyps : Forall (gate_allowed (K := GI) 5 2) [GM [0; 4] (mkMat 0 1 1 0)%amp 2; GXM 21; GM [] (mkMat 1 0 0 (- (1)))%amp 4; GM [3] (mkMat 0 1 1 0)%amp 1].
Proof. repeat constructor; cbn; try (intuition discriminate); intuition subst; lia. Qed.

(** A control nine places above the page size acts as an anti-control. *)
Theorem c63_far_control : forall (K : StarRing) (c : cfg) q t (m : mat2 K) (p : pager K), paged q p -> fits c (pg_n p) -> 0 < q -> pg_n p = q + 9 -> t < q ->
  every_run (PEitherMtrx c false [q + 8] m t p) (paged_result (pg_n p) q p (gate1 (all_clear [q + 8]) t m (flat p))).
Proof. exact @PPager13.l_c63_far_control. Qed.
Print Assumptions c63_far_control.

Example c63_far_hyps : paged 2 (ex_pager 11 2) /\ fits (mkCfg 4 2) 11 /\ pg_n (ex_pager 11 2) = 2 + 9.
Proof. split; [split; vm_compute; congruence|]. split; [vm_compute; repeat split; discriminate|]. reflexivity. Qed.

(** CNOT from qubit 9 to qubit 0 of a 10-qubit simulator with one-qubit pages leaves 10 0000 0000 unchanged. *)
Theorem c63_controlled_refuted : exists (c : cfg) q t (m : mat2 GI) (p : pager GI), paged q p /\ fits c (pg_n p) /\ 0 < q /\ NoDup ([q + 8] ++ [t]) /\ (forall y, In y ([q + 8] ++ [t]) -> y < pg_n p) /\
  ~ every_run (PEitherMtrx c false [q + 8] m t p) (paged_result (pg_n p) q p (gate1 (all_set [q + 8]) t m (flat p))).
Proof. exact @PPager13.l_c63_controlled_refuted. Qed.
Print Assumptions c63_controlled_refuted.

(** * C64: construction *)

(** SetPermutation gives the requested basis state with the requested phase, on any layout. *)
Theorem c64_setpermutation : forall (K : StarRing) (c : cfg) q perm (ph : K) (p : pager K), paged q p -> fits c (pg_n p) ->
  every_run (PSetPermutation c perm ph p) (paged_result (pg_n p) q p (fun x => if x =? perm mod 2 ^ pg_n p then ph else 0%amp)).
Proof. exact @PPager13.l_c64_setpermutation. Qed.
Print Assumptions c64_setpermutation.

Example c64_hyps : paged 2 (ex_pager 5 2) /\ fits (mkCfg 4 2) 5 /\ 77 mod 2 ^ 5 = 13.
Proof. split; [split; vm_compute; congruence|]. split; [vm_compute; repeat split; discriminate|]. reflexivity. Qed.

(** The constructor ignores the requested permutation: all amplitudes of a new pager are zero, for every qubit count, threshold and initial permutation. *)
Theorem c64_constructor_zero : forall (K : StarRing) (c : cfg) n thr init, fits c n -> every_run (Constructor (K := K) c n thr init) (fun r => exists p, r = Ok p /\ pg_n p = n /\ forall x, flat p x = 0%amp).
Proof. exact @PPager13.l_c64_constructor_zero. Qed.
Print Assumptions c64_constructor_zero.

Example c64_zero_hyps : fits (mkCfg 4 2) 5. Proof. vm_compute; repeat split; discriminate. Qed.

(** In particular the requested basis state is never produced. *)
Theorem c64_constructor_refuted : forall (K : StarRing) (c : cfg) n thr init, fits c n -> init < 2 ^ n -> (1 <> 0 :> K)%amp -> ~ every_run (Constructor (K := K) c n thr init) (fun r => exists p, r = Ok p /\ eqv n (flat p) (ket init)).
Proof. exact @PPager13.l_c64_constructor_refuted. Qed.
Print Assumptions c64_constructor_refuted.

Example c64_refuted_hyps : fits (mkCfg 4 2) 5 /\ 13 < 2 ^ 5 /\ (1 <> 0 :> GI)%amp.
Proof. split; [vm_compute; repeat split; discriminate|]. split. reflexivity. discriminate. Qed.

(** * C65: ranges of amplitudes *)

(** Reading a range that starts not after its length and lies in the first page.  Missing: other ranges (refuted below). *)
Theorem c65_get_partial : forall (K : StarRing) (c : cfg) q offset len (p : pager K) (out : mem K), paged q p -> fits c (pg_n p) -> offset <= len -> offset + len <= 2 ^ q -> 0 < len ->
  every_run (PGetAmplitudePage c offset len p out) (fun r => exists out', r = Ok out' /\ forall i, i < len -> out' i = flat p (offset + i)).
Proof. exact @PPager13.l_c65_get_partial. Qed.
Print Assumptions c65_get_partial.

Example c65_hyps : paged 3 (ex_pager 5 3) /\ fits (mkCfg 4 2) 5 /\ 2 <= 4 /\ 2 + 4 <= 2 ^ 3.
Proof. split; [split; vm_compute; congruence|]. split; [vm_compute; repeat split; discriminate|]. split; discriminate. Qed.

(** Writing such a range: exactly these amplitudes change. *)
Theorem c65_set_partial : forall (K : StarRing) (c : cfg) q offset len (page : mem K) (p : pager K), paged q p -> fits c (pg_n p) -> offset <= len -> offset + len <= 2 ^ q -> 0 < len ->
  every_run (PSetAmplitudePage c offset len page p) (paged_result (pg_n p) q p (overwrite offset len page (flat p))).
Proof. exact @PPager13.l_c65_set_partial. Qed.
Print Assumptions c65_set_partial.

Example c65_set_example : map (overwrite 2 4 (fun i => (7, Z.of_N i)%Z : GI) (flat (ex_pager 5 3))) [1; 2; 5; 6] = [(1, 1)%Z; (7, 0)%Z; (7, 3)%Z; (1, 6)%Z].
Proof. vm_compute. reflexivity. Qed.

(** A range that starts after its length is never read, on any layout. *)
Theorem c65_get_nothing : forall (K : StarRing) (c : cfg) offset len (p : pager K) (out : mem K) r, len < offset -> PGetAmplitudePage c offset len p out r <-> r = Ok out.
Proof. exact @PPager13.l_c65_get_nothing. Qed.
Print Assumptions c65_get_nothing.

Example c65_nothing_hyps : 2 < 4. Proof. reflexivity. Qed.

(** Nor written. *)
Theorem c65_set_nothing : forall (K : StarRing) (c : cfg) offset len (page : mem K) (p : pager K) r, len < offset -> PSetAmplitudePage c offset len page p r <-> r = Ok p.
Proof. exact @PPager13.l_c65_set_nothing. Qed.
Print Assumptions c65_set_nothing.

(** Reading amplitudes 4 and 5 of a 3-qubit simulator: the caller's array is untouched. *)
Theorem c65_get_refuted : exists (c : cfg) q offset len (p : pager GI) out, paged q p /\ fits c (pg_n p) /\ 0 < len /\ offset + len <= 2 ^ pg_n p /\
  ~ every_run (PGetAmplitudePage c offset len p out) (fun r => exists out', r = Ok out' /\ forall i, i < len -> out' i = flat p (offset + i)).
Proof. exact @PPager13.l_c65_get_refuted. Qed.
Print Assumptions c65_get_refuted.

(** Writing amplitudes 4 and 5 of a 3-qubit simulator has no effect. *)
Theorem c65_set_refuted : exists (c : cfg) q offset len (page : mem GI) (p : pager GI), paged q p /\ fits c (pg_n p) /\ 0 < len /\ offset + len <= 2 ^ pg_n p /\
  ~ every_run (PSetAmplitudePage c offset len page p) (paged_result (pg_n p) q p (overwrite offset len page (flat p))).
Proof. exact @PPager13.l_c65_set_refuted. Qed.
Print Assumptions c65_set_refuted.

(** * C90: whole states *)

(** GetAmplitude and ProbAll read the concatenated vector. *)
Theorem c90_amplitudes : forall (K : StarRing) q (p : pager K) x, paged q p -> pg_n p < 64 -> PGetAmplitude p x = flat p x /\ PProbAll p x = anorm (flat p x).
Proof. exact @PPager13.l_c90_amplitudes. Qed.
Print Assumptions c90_amplitudes.

Example c90_example : PGetAmplitude (ex_pager 5 2) 13 = (1, 13)%Z /\ PProbAll (ex_pager 5 2) 3 = (10, 0)%Z.
Proof. split; vm_compute; reflexivity. Qed.

(** GetQuantumState copies exactly the 2^n amplitudes. *)
Theorem c90_get_state : forall (K : StarRing) q (p : pager K) (out : mem K), paged q p -> pg_n p < 64 ->
  every_run (PGetQuantumState p out) (fun out' => forall x, out' x = if x <? 2 ^ pg_n p then flat p x else out x).
Proof. exact @PPager13.l_c90_get_state. Qed.
Print Assumptions c90_get_state.

(** SetQuantumState stores the given vector. *)
Theorem c90_set_state : forall (K : StarRing) (c : cfg) q (inp : mem K) (p : pager K), paged q p -> fits c (pg_n p) -> every_run (PSetQuantumState inp p) (paged_result (pg_n p) q p inp).
Proof. exact @PPager13.l_c90_set_state. Qed.
Print Assumptions c90_set_state.

Example c90_hyps : paged 2 (ex_ket 5 2 9) /\ fits (mkCfg 4 2) 5.
Proof. split; [split; vm_compute; congruence|]. vm_compute; repeat split; discriminate. Qed.

(** * C91: single amplitudes *)

(** SetAmplitude changes exactly one amplitude, if its page is not null, or the page's norm is not tracked.  Missing: null pages after SetPermutation (refuted below). *)
Theorem c91_set_amplitude_partial : forall (K : StarRing) (c : cfg) q tracked perm (amp : K) (p : pager K), paged q p -> fits c (pg_n p) -> perm < 2 ^ pg_n p ->
  (pg_page p (perm / 2 ^ q) = None -> tracked = false /\ (anorm amp = 0%amp -> amp = 0%amp)) ->
  every_run (PSetAmplitude c tracked perm amp p) (paged_result (pg_n p) q p (fun x => if x =? perm then amp else flat p x)).
Proof. exact @PPager13.l_c91_set_amplitude_partial. Qed.
Print Assumptions c91_set_amplitude_partial.

Example c91_hyps : paged 2 (ex_pager 5 2) /\ fits (mkCfg 4 2) 5 /\ 13 < 2 ^ 5 /\ (pg_page (ex_pager 5 2) (13 / 2 ^ 2) = None -> true = false /\ (anorm (1 : GI) = 0 -> (1 : GI) = 0)%amp).
Proof. split; [split; vm_compute; congruence|]. split; [vm_compute; repeat split; discriminate|]. split. reflexivity. discriminate. Qed.

(** After SetPermutation(0) on a simulator with several pages, setting an amplitude in the second page to a nonzero value reads a null state vector, for every layout (ZeroAmplitudes leaves the norm tracked). *)
Theorem c91_set_amplitude_refuted : forall (K : StarRing) (c : cfg) q (ph amp : K) (p : pager K), paged q p -> fits c (pg_n p) -> q < pg_n p -> anorm amp <> 0%amp ->
  every_run (andthen (PSetPermutation c 0 ph) (PSetAmplitude c true (2 ^ q) amp) p) (fun r => r = Throw).
Proof. exact @PPager13.l_c91_set_amplitude_refuted. Qed.
Print Assumptions c91_set_amplitude_refuted.

Example c91_refuted_hyps : paged 2 (ex_pager 5 2) /\ fits (mkCfg 4 2) 5 /\ 2 < pg_n (ex_pager 5 2) /\ anorm (1 : GI)%amp <> 0%amp.
Proof. split; [split; vm_compute; congruence|]. split; [vm_compute; repeat split; discriminate|]. split. reflexivity. discriminate. Qed.

(** * C92: masks *)

(** XMask flips exactly the bits of the mask. *)
Theorem c92_xmask : forall (K : StarRing) (c : cfg) q mask (p : pager K), paged q p -> fits c (pg_n p) -> 0 < q -> mask < 2 ^ pg_n p ->
  every_run (PXMask c mask p) (paged_result (pg_n p) q p (fun x => flat p (N.lxor x mask))).
Proof. exact @PPager13.l_c92_xmask. Qed.
Print Assumptions c92_xmask.

Example c92_hyps : paged 2 (ex_pager 5 2) /\ fits (mkCfg 4 2) 5 /\ 0 < 2 /\ 21 < 2 ^ 5.
Proof. split; [split; vm_compute; congruence|]. split; [vm_compute; repeat split; discriminate|]. split; reflexivity. Qed.

(** PhaseParity multiplies by one phase for odd and by the other for even parity under the mask, across page boundaries. *)
Theorem c92_phase_parity : forall (K : StarRing) (c : cfg) q (ph phA : K) mask (p : pager K), paged q p -> fits c (pg_n p) -> 0 < q -> mask < 2 ^ pg_n p ->
  every_run (PPhaseParity c ph phA mask p) (paged_result (pg_n p) q p (parity_phase mask ph phA (flat p))).
Proof. exact @PPager13.l_c92_phase_parity. Qed.
Print Assumptions c92_phase_parity.

Example c92_example : map (parity_phase (K := GI) 21 (2, 0)%Z (3, 0)%Z (fun _ => (1, 0)%Z : GI)) [0; 1; 5; 21] = [(3, 0)%Z; (2, 0)%Z; (3, 0)%Z; (2, 0)%Z].
Proof. vm_compute. reflexivity. Qed.

(** * C93: swaps and rotations *)

(** Swap of any two qubits.  Missing: a page qubit with a page bit nine or more places above the page size (refuted below). *)
Theorem c93_swap_partial : forall (K : StarRing) (c : cfg) a b (p : pager K), regular p -> fits c (pg_n p) -> 0 < pg_thr p -> a < pg_n p -> b < pg_n p -> (b < pg_base p -> a < pg_base p + 8) -> (a < pg_base p -> b < pg_base p + 8) ->
  every_run (PSwap c a b p) (paged_any (pg_n p) p (fun x => flat p (swap_bits a b x))).
Proof. exact @PPager13.l_c93_swap_partial. Qed.
Print Assumptions c93_swap_partial.

Example c93_hyps : regular (ex_pager 5 2) /\ fits (mkCfg 4 2) 5 /\ 0 < pg_thr (ex_pager 5 2) /\ 1 < 5 /\ 4 < 5 /\ (4 < pg_base (ex_pager 5 2) -> 1 < pg_base (ex_pager 5 2) + 8) /\ (1 < pg_base (ex_pager 5 2) -> 4 < pg_base (ex_pager 5 2) + 8).
Proof. split; [exists 2; split; [split; vm_compute; congruence|vm_compute; discriminate]|]. split; [vm_compute; repeat split; discriminate|]. split; [reflexivity|]. vm_compute. repeat split; intros; congruence. Qed.

(** ISwap (f = i) and IISwap (f = -i). *)
Theorem c93_iswap_partial : forall (K : StarRing) (c : cfg) (f : K) a b (p : pager K), regular p -> fits c (pg_n p) -> 0 < pg_thr p -> a < pg_n p -> b < pg_n p -> (b < pg_base p -> a < pg_base p + 8) -> (a < pg_base p -> b < pg_base p + 8) ->
  every_run (PISwap c f a b p) (paged_any (pg_n p) p (gate_swap always a b (mkMat 0%amp f f 0%amp) (flat p))).
Proof. exact @PPager13.l_c93_iswap_partial. Qed.
Print Assumptions c93_iswap_partial.

(** ROL moves register bit j to bit (j + shift) mod length.  Missing: more than eight page bits. *)
Theorem c93_rol_partial : forall (K : StarRing) (c : cfg) shift s len (p : pager K), regular p -> fits c (pg_n p) -> 0 < pg_thr p -> pg_n p <= pg_base p + 8 -> s + len <= pg_n p ->
  every_run (PROL c shift s len p) (fun r => exists p' f, r = Ok p' /\ pg_n p' = pg_n p /\ pg_thr p' = pg_thr p /\ regular p' /\
    basis_map (pg_n p) always f (fun _ => 1%amp) (flat p) (flat p') /\ forall x, x < 2 ^ pg_n p -> rotated s len shift x (f x)).
Proof. exact @PPager13.l_c93_rol_partial. Qed.
Print Assumptions c93_rol_partial.

Example c93_rol_hyps : regular (ex_pager 5 2) /\ fits (mkCfg 4 2) 5 /\ 0 < pg_thr (ex_pager 5 2) /\ pg_n (ex_pager 5 2) <= pg_base (ex_pager 5 2) + 8 /\ 1 + 4 <= 5.
Proof. split; [exists 2; split; [split; vm_compute; congruence|vm_compute; discriminate]|]. split; [vm_compute; repeat split; discriminate|]. split; [reflexivity|]. split; discriminate. Qed.

(** ROR is the opposite rotation. *)
Theorem c93_ror_partial : forall (K : StarRing) (c : cfg) shift s len (p : pager K), regular p -> fits c (pg_n p) -> 0 < pg_thr p -> pg_n p <= pg_base p + 8 -> s + len <= pg_n p ->
  every_run (PROR c shift s len p) (fun r => exists p' f, r = Ok p' /\ pg_n p' = pg_n p /\ pg_thr p' = pg_thr p /\ regular p' /\
    basis_map (pg_n p) always f (fun _ => 1%amp) (flat p) (flat p') /\ forall x, x < 2 ^ pg_n p -> rotated s len shift (f x) x).
Proof. exact @PPager13.l_c93_ror_partial. Qed.
Print Assumptions c93_ror_partial.

(** Swap of qubits 0 and 9 of a 10-qubit simulator with one-qubit pages turns 0 into 10 0000 0001. *)
Theorem c93_swap_refuted : exists (c : cfg) a b (p : pager GI), regular p /\ fits c (pg_n p) /\ 0 < pg_thr p /\ a < pg_n p /\ b < pg_n p /\
  ~ every_run (PSwap c a b p) (paged_any (pg_n p) p (fun x => flat p (swap_bits a b x))).
Proof. exact @PPager13.l_c93_swap_refuted. Qed.
Print Assumptions c93_swap_refuted.

(** * C94: probabilities and measurement *)

(** Prob of any qubit is the weight of the basis states with that bit set. *)
Theorem c94_prob : forall (K : StarRing) (c : cfg) q simd t (p : pager K), paged q p -> fits c (pg_n p) -> t < pg_n p ->
  every_run (PProb c simd t p) (fun r => r = weight_of (pg_n p) (fun x => N.testbit x t) (flat p)).
Proof. exact @PPager13.l_c94_prob. Qed.
Print Assumptions c94_prob.

Example c94_example : weight_of 3 (fun x => N.testbit x 2) (flat (ex_pager 3 1)) = (130, 0)%Z.
Proof. vm_compute. reflexivity. Qed.

(** The state update of a measurement: amplitudes with the other outcome vanish, the rest is scaled. *)
Theorem c94_measure : forall (K : StarRing) (c : cfg) q t result (nrm : K) (p : pager K), paged q p -> fits c (pg_n p) -> 0 < q -> t < pg_n p ->
  every_run (PApplyResult c t result nrm p) (paged_result (pg_n p) q p (project (fun x => Bool.eqb (N.testbit x t) result) nrm (flat p))).
Proof. exact @PPager13.l_c94_measure. Qed.
Print Assumptions c94_measure.

Example c94_hyps : paged 2 (ex_pager 5 2) /\ fits (mkCfg 4 2) 5 /\ 0 < 2 /\ 3 < 5.
Proof. split; [split; vm_compute; congruence|]. split; [vm_compute; repeat split; discriminate|]. split; reflexivity. Qed.

(** * C95: composition *)

(** Compose and ComposeNoClone: the tensor product, for every pair of sizes.  Missing: a larger second operand with a total more than eight qubits above the threshold, an operand without qubits. *)
Theorem c95_compose_partial : forall (K : StarRing) (c : cfg) willDestroy maxPaging maxQB (p p2 : pager K), regular p -> regular p2 -> fits c (pg_n p + pg_n p2) -> 0 < pg_thr p -> pg_thr p2 = pg_thr p -> 0 < pg_n p -> 0 < pg_n p2 ->
  pg_n p + pg_n p2 <= maxPaging -> N.min (pg_thr p) (pg_n p + pg_n p2) <= maxQB -> (pg_n p < pg_n p2 -> pg_n p + pg_n p2 <= pg_thr p + 8) ->
  every_run (ComposeEither c willDestroy maxPaging maxQB p2 p) (paged_any (pg_n p + pg_n p2) p (tensor (pg_n p) (flat p) (flat p2))).
Proof. exact @PPager13.l_c95_compose_partial. Qed.
Print Assumptions c95_compose_partial.

Example c95_hyps : regular (ex_pager 3 2) /\ regular (ex_pager 4 2) /\ fits (mkCfg 4 2) 7 /\ pg_thr (ex_pager 4 2) = pg_thr (ex_pager 3 2) /\ 3 + 4 <= pg_thr (ex_pager 3 2) + 8.
Proof. split; [exists 2; split; [split; vm_compute; congruence|vm_compute; discriminate]|]. split; [exists 2; split; [split; vm_compute; congruence|vm_compute; discriminate]|]. split; [vm_compute; repeat split; discriminate|]. split. reflexivity. discriminate. Qed.

(** Compose at a position, for an operand that is not larger: the qubits of the second operand are inserted there. *)
Theorem c95_compose_at_partial : forall (K : StarRing) (c : cfg) maxPaging maxQB start (p p2 : pager K), regular p -> regular p2 -> fits c (pg_n p + pg_n p2) -> 0 < pg_thr p -> 0 < pg_n p -> 0 < pg_n p2 ->
  pg_n p + pg_n p2 <= maxPaging -> N.min (pg_thr p) (pg_n p + pg_n p2) <= maxQB -> start <= pg_n p -> pg_n p + pg_n p2 <= pg_thr p + 8 ->
  every_run (ComposeFitAt c maxPaging maxQB p2 start p) (paged_any (pg_n p + pg_n p2) p (tensor_at start (pg_n p2) (flat p) (flat p2))).
Proof. exact @PPager13.l_c95_compose_at_partial. Qed.
Print Assumptions c95_compose_at_partial.

(** * C96: disposal *)

(** Dispose(start, length, perm) keeps exactly the amplitudes in which the register holds perm, at any position.  Missing: more than eight page bits. *)
Theorem c96_dispose_partial : forall (K : StarRing) (c : cfg) s len perm (p : pager K), regular p -> fits c (pg_n p) -> 0 < pg_thr p -> s + len <= pg_n p -> 0 < len < pg_n p -> perm < 2 ^ len -> pg_n p <= pg_base p + 8 ->
  every_run (PDispose c s len perm p) (paged_any (pg_n p - len) p (slice s len perm (flat p))).
Proof. exact @PPager13.l_c96_dispose_partial. Qed.
Print Assumptions c96_dispose_partial.

Example c96_hyps : regular (ex_pager 5 2) /\ fits (mkCfg 4 2) 5 /\ 0 < pg_thr (ex_pager 5 2) /\ 2 + 2 <= 5 /\ 0 < 2 < 5 /\ 3 < 2 ^ 2 /\ pg_n (ex_pager 5 2) <= pg_base (ex_pager 5 2) + 8.
Proof. split; [exists 2; split; [split; vm_compute; congruence|vm_compute; discriminate]|]. split; [vm_compute; repeat split; discriminate|]. split; [reflexivity|]. repeat split; discriminate. Qed.
Example c96_example : map (slice 2 2 3 (flat (ex_pager 5 2))) [0; 3; 4; 7] = [(1, 12)%Z; (1, 15)%Z; (1, 28)%Z; (1, 31)%Z] :> list GI.
Proof. vm_compute. reflexivity. Qed.

(** Composing with a basis state at a position and disposing of it there restores the state. *)
Theorem c96_compose_then_dispose_partial : forall (K : StarRing) (c : cfg) maxPaging maxQB start perm (p p2 : pager K), regular p -> regular p2 -> fits c (pg_n p + pg_n p2) -> 0 < pg_thr p -> 0 < pg_n p -> 0 < pg_n p2 ->
  pg_n p + pg_n p2 <= maxPaging -> N.min (pg_thr p) (pg_n p + pg_n p2) <= maxQB -> start <= pg_n p -> pg_n p + pg_n p2 <= pg_thr p + 8 ->
  perm < 2 ^ pg_n p2 -> eqv (pg_n p2) (flat p2) (ket perm) ->
  every_run (andthen (ComposeFitAt c maxPaging maxQB p2 start) (PDispose c start (pg_n p2) perm) p) (paged_any (pg_n p) p (flat p)).
Proof. exact @PPager13.l_c96_compose_then_dispose_partial. Qed.
Print Assumptions c96_compose_then_dispose_partial.

Example c96_compose_hyps : eqv 2 (flat (ex_ket 2 1 2)) (ket 2 : mem GI) /\ regular (ex_ket 2 1 2).
Proof. split. intros x Hx. change (2 ^ 2) with 4 in Hx. assert (x = 0 \/ x = 1 \/ x = 2 \/ x = 3) as [->|[->|[->| ->]]] by lia; vm_compute; reflexivity. exists 1. split. split; vm_compute; congruence. discriminate. Qed.

(** * C97: comparison of states *)

(** With one page, SumSqrDiff is 1 - |inner product|^2 of the two vectors.  Missing: several pages (refuted below). *)
Theorem c97_one_page_partial : forall (K : StarRing) (c : cfg) (p p2 : pager K) a b, pg_count p = 1 -> fits c (pg_n p) -> pg_page p 0 = Some a -> pg_page p2 0 = Some b ->
  every_run (PSumSqrDiff c p p2) (fun r => r = (1 - anorm (asum (fun x => sr_conj (a x) * b x) (basis (pg_n p))))%amp).
Proof. exact @PPager13.l_c97_one_page_partial. Qed.
Print Assumptions c97_one_page_partial.

Example c97_hyps : pg_count (ex_pager 3 3) = 1 /\ fits (mkCfg 4 2) 3. Proof. split. reflexivity. vm_compute; repeat split; discriminate. Qed.

(** A normalized two-page state differs from itself (computed as a separate copy): the sum over pages of 1 - |inner product of the pages|^2 is 1, not 0. *)
Theorem c97_pages_refuted : exists (c : cfg) q (p : pager GI), paged q p /\ fits c (pg_n p) /\ norm2 (pg_n p) (flat p) = 1%amp /\ every_run (PSumSqrDiff c p p) (fun r => r = 1%amp /\ r <> 0%amp).
Proof. exact @PPager13.l_c97_pages_refuted. Qed.
Print Assumptions c97_pages_refuted.

(** * C98: conversion from and to an engine *)

(** A pager made from an engine holds its state, in pages of the threshold size. *)
Theorem c98_from_engine : forall (K : StarRing) (c : cfg) n thr (v : option (mem K)), fits c n ->
  every_run (FromEngine c n thr v) (fun r => exists p, r = Ok p /\ pg_n p = n /\ pg_thr p = thr /\ paged (N.min n thr) p /\ eqv n (flat p) (vread v)).
Proof. exact @PPager13.l_c98_from_engine. Qed.
Print Assumptions c98_from_engine.

(** ReleaseEngine returns an engine with the state of the pager. *)
Theorem c98_release : forall (K : StarRing) (c : cfg) q (p : pager K), paged q p -> fits c (pg_n p) -> every_run (ReleaseEngine c p) (fun r => exists v, r = Ok v /\ eqv (pg_n p) (vread v) (flat p)).
Proof. exact @PPager13.l_c98_release. Qed.
Print Assumptions c98_release.

(** Engine to pager, a circuit there, and back to an engine: the action of the circuit on the engine's state, whatever the threshold. *)
Theorem c98_through_pages_partial : forall (K : StarRing) (c : cfg) n thr (l : circ K) (v : option (mem K)), fits c n -> 0 < N.min n thr -> Forall (gate_allowed n (N.min n thr)) l ->
  every_run (fun r => exists r1, FromEngine c n thr v r1 /\ match r1 with Throw => r = Throw | Ok p => exists r2, pcrun c l p r2 /\ match r2 with Throw => r = Throw | Ok p' => ReleaseEngine c p' r end end)
    (fun r => exists v', r = Ok v' /\ eqv n (vread v') (circuit_action l (vread v))).
Proof. exact @PPager13.l_c98_through_pages_partial. Qed.
Print Assumptions c98_through_pages_partial.

Example c98_hyps : fits (mkCfg 4 2) 5 /\ 0 < N.min 5 2 /\ Forall (gate_allowed (K := GI) 5 (N.min 5 2)) [GM [0; 4] (mkMat 0 1 1 0)%amp 2; GXM 21].
Proof. split; [vm_compute; repeat split; discriminate|]. split. reflexivity. repeat constructor; cbn; try (intuition discriminate); intuition subst; lia. Qed.

(** Fails for a control nine places above the page size: engine to pager, CNOT from qubit q + 8 to a qubit inside the pages, and back, does not flip the target of the basis state in which only the control is set. *)
Theorem c98_far_refuted : forall (K : StarRing) (c : cfg) q t, fits c (q + 9) -> 0 < q -> t < q -> (1 <> 0 :> K)%amp -> let l := [GM [q + 8] (mkMat 0 1 1 0)%amp t] in let v := Some (ket (2 ^ (q + 8))) : option (mem K) in
  ~ every_run (fun r => exists r1, FromEngine c (q + 9) q v r1 /\ match r1 with Throw => r = Throw | Ok p => exists r2, pcrun c l p r2 /\ match r2 with Throw => r = Throw | Ok p' => ReleaseEngine c p' r end end)
    (fun r => exists v', r = Ok v' /\ eqv (q + 9) (vread v') (circuit_action l (vread v))).
Proof. exact @PPager13.l_c98_far_refuted. Qed.
Print Assumptions c98_far_refuted.

Example c98_far_hyps : fits (mkCfg 4 2) (1 + 9) /\ (1 <> 0 :> GI)%amp. Proof. split; [vm_compute; repeat split; discriminate|discriminate]. Qed.
