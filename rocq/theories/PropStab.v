(** Property theorems C55-C61 and C84-C89: the stabilizer simulator QStabilizer. *)
From Coq Require Import NArith ZArith List Bool Lia Reals Lra Psatz.
From Verif Require Import Amp AmpF AmpC MParFor MEngine MStab SpecState SpecStab SpecStab2 PStab13 PStab14.
Import ListNotations.
Local Open Scope N_scope.

(** The hypotheses on amplitudes hold for the complex numbers, and for a field of 49 elements (without axioms). *)
Example rings : ((cc_i * cc_i = - (1)) /\ (cc_h * cc_h + cc_h * cc_h = 1) /\ sr_conj cc_i = - cc_i)%amp /\ no_torsion CC /\ domain CC.
Proof.
  split; [split; [exact cc_i_ok|split]|split].
  - assert (H := cc_h_ok). cbn in H |- *. unfold c_mul, c_add in *. cbn [fst snd] in *. injection H as H _. f_equal; [|cbn; ring]. cbn [cc_h fst snd] in *. rewrite <- H. ring.
  - cbn. unfold c_conj, c_opp, cc_i. cbn [fst snd]. f_equal; ring.
  - intros [a b] H. cbn in *. unfold c_add in H. cbn [fst snd] in H. injection H as H1 H2. f_equal; lra.
  - intros [a b] [c d] H. cbn in *. unfold c_mul in H. cbn [fst snd] in H. injection H as H1 H2.
    destruct (Req_dec (a * a + b * b) 0) as [E|E].
    + left. assert (a = 0)%R by nra. assert (b = 0)%R by nra. subst. reflexivity.
    + right. assert (c * (a * a + b * b) = 0)%R by (replace (c * (a * a + b * b))%R with (a * (a * c - b * d) + b * (a * d + b * c))%R by ring; rewrite H1, H2; ring).
      assert (d * (a * a + b * b) = 0)%R by (replace (d * (a * a + b * b))%R with (a * (a * d + b * c) - b * (a * c - b * d))%R by ring; rewrite H1, H2; ring).
      f_equal; [apply Rmult_integral in H; tauto|apply Rmult_integral in H0; tauto].
Qed.
Example rings_finite : ((q_i * q_i = - (1)) /\ (q_h * q_h + q_h * q_h = 1) /\ sr_conj q_i = - q_i)%amp /\ no_torsion F49 /\ domain F49.
Proof. exact (conj (conj q_i_ok (conj q_h_ok q_i_conj)) (conj q_tors q_dom)). Qed.
(** The tableau after a circuit on n qubits in state 0. *)
Definition after (n : N) (l : list cgate) : tab := match sg_circuit true (tab_zero n) l with Ok T => T | Throw => tab_zero n end.
Definition fits_b (n : N) (g : cgate) : bool :=
  match g with
  | GX t | GY t | GZ t | GS t | GIS t | GH t => t <? n
  | GCNOT c t | GACNOT c t | GCY c t | GACY c t | GCZ c t | GACZ c t | GSWAP c t | GISWAP c t | GIISWAP c t => (c <? n) && (t <? n) && negb (c =? t)
  end.
Example after_reachable n l : n <= 127 -> forallb (fits_b n) l = true -> reachable (after n l).
Proof.
  intros Hn H. unfold after. destruct (sg_circuit true (tab_zero n) l) as [|T] eqn:E; [now apply reach_zero|]. apply (reach_circuit true l (tab_zero n)); auto; [now apply reach_zero|].
  apply Forall_forall. intros g Hg. rewrite forallb_forall in H. specialize (H g Hg). change (t_n (tab_zero n)) with n.
  destruct g; cbn [fits_b gate_fits] in *; rewrite ?andb_true_iff, ?N.ltb_lt, ?negb_true_iff, ?N.eqb_neq in H; tauto.
Qed.
(** A Bell pair with a phase, as stabilizer rows (x mask, z mask, power of i): X0 Y1 and Z0 Z1. *)
Example bell_rows : map (t_row (after 2 [GH 0; GCNOT 0 1; GS 0; GS 0; GS 1])) [2; 3] = [mkRow 3 2 2; mkRow 0 3 0].
Proof. vm_compute. reflexivity. Qed.

(** * C55: gates *)

(** In the default mode (random global phase) a gate replaces every row, destabilizer or stabilizer, by its conjugate: gate after row = new row after gate, with the exact power of i.  (Z reduces the tableau afterwards.) *)
Theorem c55_conjugates : forall T g, t_n T <= 127 -> (forall i, i < 2 * t_n T -> row_fits (t_n T) (t_row T i)) -> gate_fits (t_n T) g ->
  exists T1, sg_run true T g = Ok (match g with GZ _ => reduced T1 | _ => T1 end) /\ t_n T1 = t_n T /\
  forall (K : StarRing) (im h : K) i psi y, (im * im = - (1))%amp -> i < 2 * t_n T ->
    gate_act im h g (row_op im (t_n T) (t_row T i) psi) y = row_op im (t_n T) (t_row T1 i) (gate_act im h g psi) y.
Proof. exact @PStab14.l_c55_conjugates. Qed.
Print Assumptions c55_conjugates.

Example c55_conjugates_hyps : t_n (after 2 [GH 0; GCNOT 0 1]) <= 127 /\ (forall i, i < 4 -> row_fits 2 (t_row (after 2 [GH 0; GCNOT 0 1]) i)) /\ gate_fits 2 (GISWAP 0 1).
Proof. split; [vm_compute; discriminate|]. split; [|cbn; lia]. intros i Hi. assert (i = 0 \/ i = 1 \/ i = 2 \/ i = 3) as [->|[->|[->| ->]]] by lia; split; vm_compute; reflexivity. Qed.

(** The tableau follows the state through any circuit, in both phase modes. *)
Theorem c55_circuit : forall (K : StarRing) (im h : K), (im * im = - (1))%amp -> (h * h + h * h = 1)%amp -> no_torsion K -> forall rgp T l, reachable T -> Forall (gate_fits (t_n T)) l ->
  exists T', sg_circuit rgp T l = Ok T' /\ t_n T' = t_n T /\ reachable T' /\ forall psi, describes im T psi -> describes im T' (circuit_act im h l psi).
Proof. exact @PStab14.l_c55_circuit. Qed.
Print Assumptions c55_circuit.

Example c55_circuit_hyps : reachable (after 3 [GH 0]) /\ Forall (gate_fits (t_n (after 3 [GH 0]))) [GCNOT 0 1; GCY 1 2; GIISWAP 0 2; GIS 1].
Proof. split; [now apply after_reachable|]. repeat apply Forall_cons; try apply Forall_nil; cbn; lia. Qed.

(** Starting from a basis state: SetPermutation and then any circuit. *)
Theorem c55_from_basis_state : forall (K : StarRing) (im h : K), (im * im = - (1))%amp -> (h * h + h * h = 1)%amp -> no_torsion K -> forall rgp n perm l, n <= 127 -> Forall (gate_fits n) l ->
  exists T T', set_permutation rgp n perm = Ok T /\ sg_circuit rgp T l = Ok T' /\ t_n T' = n /\ describes im T' (circuit_act im h l (ket (perm mod 2 ^ n))).
Proof. exact @PStab14.l_c55_from_basis_state. Qed.
Print Assumptions c55_from_basis_state.

Example c55_from_basis_example : match set_permutation true 2 1 with Ok T => match sg_circuit true T [GH 0; GCNOT 0 1] with Ok T => map (t_row T) [2; 3] | Throw => [] end | Throw => [] end = [mkRow 3 0 2; mkRow 0 3 0].
Proof. vm_compute. reflexivity. Qed.

(** With 128 qubits the 8-bit row count is 0 and gates do nothing: after X on qubit 0 of state 0 the qubit measures 0, whatever the random bit. *)
Theorem c55_wide_refuted : exists T T', set_permutation true 128 0 = Ok T /\ sg_run true T (GX 0) = Ok T' /\ (forall rnd, exists T'', force_m true rnd T' 0 false false true = Ok (false, T'')) /\
  has_value 128 0 true (gate_act gim 0%amp (GX 0) (@ket GI 0)).
Proof. exact @PStab14.l_c55_wide_refuted. Qed.
Print Assumptions c55_wide_refuted.

(** * C56: the invariant *)

(** In every reachable tableau destabilizer i anticommutes with stabilizer i and all other pairs of rows commute, as operators; there are at most 127 qubits and all masks fit. *)
Theorem c56_pattern : forall T, reachable T -> t_n T <= 127 /\ (forall i, i < 2 * t_n T -> row_fits (t_n T) (t_row T i) /\ rr (t_row T i) < 4) /\
  forall (K : StarRing) (im : K), (im * im = - (1))%amp -> commutation_pattern im T.
Proof. exact @PStab14.l_c56_pattern. Qed.
Print Assumptions c56_pattern.

(** Over the field of 49 elements -1 is not 1, so an anticommuting pair does not commute. *)
Example c56_distinct : ~ op_commute 1 (row_op q_i 1 (mkRow 1 0 0)) (row_op q_i 1 (mkRow 0 1 0)).
Proof. intros H. specialize (H (fun _ => 1%amp) 0 ltac:(cbn; lia)). discriminate H. Qed.

(** The two row operations used by elimination (multiplying stabilizer k by stabilizer i together with destabilizer i by destabilizer k; exchanging both) keep the pattern and the described states. *)
Theorem c56_row_operations : forall T i k, reachable T -> i < t_n T -> k < t_n T -> i <> k ->
  let n := t_n T in
  let T1 := rowmult (rowmult T (n + k) (n + i)) i k in
  let T2 := rowswap (rowswap T (n + i) (n + k)) i k in
  forall (K : StarRing) (im : K), (im * im = - (1))%amp -> commutation_pattern im T1 /\ commutation_pattern im T2 /\
    forall psi, (describes im T1 psi <-> describes im T psi) /\ (describes im T2 psi <-> describes im T psi).
Proof. exact @PStab14.l_c56_row_operations. Qed.
Print Assumptions c56_row_operations.

Example c56_row_hyps : reachable (after 3 [GH 0; GCNOT 0 2; GH 1]) /\ 0 < 3 /\ 2 < 3 /\ 0 <> 2.
Proof. split; [now apply after_reachable|lia]. Qed.

(** A reachable tableau describes exactly one state up to a factor: there is a described state with an amplitude 1 (already over the Gaussian integers), and any two described states are multiples of each other. *)
Theorem c56_one_state : forall T, reachable T -> (exists psi : N -> GI, describes gim T psi /\ exists y, y < 2 ^ t_n T /\ psi y = 1%amp) /\
  exists s, s < 2 ^ t_n T /\ forall (K : StarRing) (im : K), (im * im = - (1))%amp -> no_torsion K -> forall psi psi', describes im T psi -> describes im T psi' ->
    forall y, y < 2 ^ t_n T -> (psi s * psi' y = psi' s * psi y)%amp.
Proof. exact @PStab14.l_c56_one_state. Qed.
Print Assumptions c56_one_state.

(** * C57: row multiplication *)

(** rowmult(i, k) replaces row i by the operator product, row i first, then row k, with the exact power of i; other rows stay. *)
Theorem c57_rowmult : forall T i k, row_fits (t_n T) (t_row T i) -> row_fits (t_n T) (t_row T k) ->
  (forall (K : StarRing) (im : K) psi y, (im * im = - (1))%amp ->
     row_op im (t_n T) (t_row (rowmult T i k) i) psi y = row_op im (t_n T) (t_row T k) (row_op im (t_n T) (t_row T i) psi) y) /\
  (forall j, j <> i -> t_row (rowmult T i k) j = t_row T j).
Proof. exact @PStab14.l_c57_rowmult. Qed.
Print Assumptions c57_rowmult.

(** X0 Y1 times Z0 Z1, and Y times X = -i Z. *)
Example c57_example : clifford 2 (mkRow 3 2 0) (mkRow 0 3 2) = 2 /\ row_mul 1 (mkRow 1 0 0) (mkRow 1 1 0) = mkRow 0 1 3.
Proof. split; reflexivity. Qed.

(** * C58: measurement *)

(** An applied measurement gives a described projection onto the reported outcome, and only states with that outcome are described afterwards.  It throws only when the forced outcome is impossible. *)
Theorem c58_measure : forall (K : StarRing) (im : K), (im * im = - (1))%amp -> no_torsion K -> forall rgp rnd T t result doForce psi, reachable T -> t < t_n T -> describes im T psi ->
  match force_m rgp rnd T t result doForce true with
  | Ok (b, T') => reachable T' /\ t_n T' = t_n T /\ (doForce = true -> b = result) /\ describes im T' (collapsed t b psi) /\
      (forall psi', describes im T' psi' -> has_value (t_n T) t b psi')
  | Throw => doForce = true /\ has_value (t_n T) t (negb result) psi
  end.
Proof. exact @PStab14.l_c58_measure. Qed.
Print Assumptions c58_measure.

Example c58_hyps : reachable (after 2 [GH 0; GCNOT 0 1]) /\ 1 < 2 /\ describes q_i (after 2 [GH 0; GCNOT 0 1]) (circuit_act q_i q_h [GH 0; GCNOT 0 1] (ket 0)).
Proof. split; [now apply after_reachable|]. split; [lia|]. intros p Hp y Hy. change (y < 4) in Hy. change (p < 2) in Hp.
  assert (p = 0 \/ p = 1) as [->| ->] by lia; assert (y = 0 \/ y = 1 \/ y = 2 \/ y = 3) as [->|[->|[->| ->]]] by lia; vm_compute; reflexivity. Qed.
(** The other qubit of the pair follows. *)
Example c58_bell : match force_m true true (after 2 [GH 0; GCNOT 0 1]) 1 false false true with Ok (b, T) => (b, match force_m true false T 0 false false true with Ok (c, _) => Some c | Throw => None end) | Throw => (false, None) end = (true, Some true).
Proof. vm_compute. reflexivity. Qed.

(** Without a definite value both outcomes have the same weight, and the result is the random bit or the forced bit. *)
Theorem c58_random : forall (K : StarRing) (im : K), imaginary im -> no_torsion K -> forall rgp rnd T t result doForce psi, reachable T -> t < t_n T -> describes im T psi -> (forall b, ~ has_value (t_n T) t b psi) ->
  outcome_weight (t_n T) t true psi = outcome_weight (t_n T) t false psi /\
  exists T', force_m rgp rnd T t result doForce true = Ok (if doForce then result else rnd, T') /\ describes im T' (collapsed t (if doForce then result else rnd) psi).
Proof. exact @PStab14.l_c58_random. Qed.
Print Assumptions c58_random.

(** With a definite value that value is reported and the tableau stays as it is; forcing the other one throws. *)
Theorem c58_determined : forall (K : StarRing) (im : K), (im * im = - (1))%amp -> no_torsion K -> forall rgp rnd T t result doForce doApply b psi, reachable T -> t < t_n T -> describes im T psi -> nonzero (t_n T) psi -> has_value (t_n T) t b psi -> doForce = false \/ doApply = true ->
  force_m rgp rnd T t result doForce doApply = if doForce && negb (Bool.eqb result b) then Throw else Ok (b, T).
Proof. exact @PStab14.l_c58_determined. Qed.
Print Assumptions c58_determined.

Example c58_determined_hyps : reachable (after 2 [GX 1; GH 0]) /\ force_m true false (after 2 [GX 1; GH 0]) 1 true true true = Ok (true, after 2 [GX 1; GH 0]) /\ force_m true false (after 2 [GX 1; GH 0]) 1 false true true = Throw.
Proof. split; [now apply after_reachable|split; vm_compute; reflexivity]. Qed.

(** Measuring again gives the same result and changes nothing; forcing the other result throws. *)
Theorem c58_twice : forall rgp rnd T t result doForce b T', reachable T -> t < t_n T -> force_m rgp rnd T t result doForce true = Ok (b, T') ->
  forall rgp2 rnd2 r2 doForce2 doApply2, doForce2 = false \/ doApply2 = true ->
  force_m rgp2 rnd2 T' t r2 doForce2 doApply2 = if doForce2 && negb (Bool.eqb r2 b) then Throw else Ok (b, T').
Proof. exact @PStab14.l_c58_twice. Qed.
Print Assumptions c58_twice.

(** * C59: elimination *)

(** gaussian keeps the described states, gives an echelon form, keeps the invariant, and is idempotent. *)
Theorem c59_gaussian : forall T, reachable T -> let '(T', g) := gaussian T in
  reachable T' /\ t_n T' = t_n T /\ echelon T' g /\ gaussian T' = (T', g) /\
  forall (K : StarRing) (im : K), (im * im = - (1))%amp -> commutation_pattern im T' /\ forall psi, describes im T' psi <-> describes im T psi.
Proof. exact @PStab14.l_c59_gaussian. Qed.
Print Assumptions c59_gaussian.

Example c59_example : let T := after 3 [GH 2; GCNOT 2 0; GX 1] in (map (t_row T) [3; 4; 5], gauss_rank T, map (t_row (reduced T)) [3; 4; 5]) =
  ([mkRow 0 5 0; mkRow 0 2 2; mkRow 5 0 0], 1, [mkRow 5 0 0; mkRow 0 5 0; mkRow 0 2 2]).
Proof. vm_compute. reflexivity. Qed.

(** * C60: disposing *)

(** When CanDecomposeDispose says yes, the state is a product; Decompose and Dispose leave a tableau of the rest, and Decompose writes one of the part.  Missing: separable qubits for which CanDecomposeDispose says no (Dispose does not ask; refuted below). *)
Theorem c60_split_partial : forall (K : StarRing) (im : K), (im * im = - (1))%amp -> no_torsion K -> forall rgp dest T s m T1, reachable T -> 0 < m -> can_dispose T s m = Ok (true, T1) ->
  exists Rest Part, decompose_dispose rgp dest T1 s m = Ok (Rest, Part) /\ t_n Rest = t_n T - m /\ t_n Part = m /\ reachable Rest /\ reachable Part /\
   forall psi, describes im T psi -> exists a b, eqv (t_n T) psi (tensor_at s m a b) /\ describes im Rest a /\ describes im Part b.
Proof. exact @PStab14.l_c60_split_partial. Qed.
Print Assumptions c60_split_partial.

(** A Bell pair on qubits 0 and 2 around qubit 1 in state -: qubit 1 can be split off, the pair remains. *)
Example c60_example : let T := after 3 [GH 0; GX 1; GH 1; GCNOT 0 2] in
  match can_dispose T 1 1 with Ok (b, T1) => match decompose_dispose true true T1 1 1 with Ok (A, B) => (b, map (t_row A) [2; 3], map (t_row B) [1]) | Throw => (false, [], []) end | Throw => (false, [], []) end
  = (true, [mkRow 3 0 0; mkRow 0 3 0], [mkRow 1 0 2]).
Proof. vm_compute. reflexivity. Qed.

(** Qubits 0 and 2 in state +, qubit 1 in state 0: qubit 1 is separable, but Dispose(1, 1) loses a generator.  The rest should be ++; afterwards the tableau also describes +0, and measuring the last qubit always gives 0. *)
Theorem c60_dispose_refuted : exists T R, reachable T /\ stab_dispose true T 1 1 = Ok R /\
  describes gim T (tensor_at 1 1 (fun _ => 1%amp) (@ket GI 0)) /\
  describes gim R (fun y => if N.testbit y 1 then 0%amp else (1 : GI)%amp) /\
  ~ proportional 2 (fun y => if N.testbit y 1 then 0%amp else (1 : GI)%amp) (fun _ => 1%amp) /\
  forall rnd, match force_m true rnd R 1 false false true with Ok (b, _) => b = false | Throw => False end.
Proof. exact @PStab14.l_c60_dispose_refuted. Qed.
Print Assumptions c60_dispose_refuted.

(** * C61: composing *)

(** Composing at any position gives the tensor product. *)
Theorem c61_compose : forall T C s, reachable T -> reachable C -> t_n T + t_n C <= 127 -> s <= t_n T ->
  exists R, stab_compose T C s = Ok R /\ reachable R /\ t_n R = t_n T + t_n C /\
  forall (K : StarRing) (im : K) a b, (im * im = - (1))%amp -> describes im T a -> describes im C b -> describes im R (tensor_at s (t_n C) a b).
Proof. exact @PStab14.l_c61_compose. Qed.
Print Assumptions c61_compose.

Example c61_example : match stab_compose (after 2 [GH 0; GCNOT 0 1]) (after 1 [GX 0; GH 0]) 1 with Ok R => map (t_row R) [0; 1; 2; 3; 4; 5] | Throw => [] end =
  [mkRow 0 1 0; mkRow 0 2 0; mkRow 4 0 0; mkRow 5 0 0; mkRow 2 0 2; mkRow 0 5 0].
Proof. vm_compute. reflexivity. Qed.

(** * C84: reading amplitudes *)

(** GetAmplitude reports every described state up to one common factor: the amplitude of y is a power of i or 0, and exactly 2^g basis states (g = the rank) have a nonzero amplitude, each reported once. *)
Theorem c84_amplitudes : forall (K : StarRing) (im : K), (im * im = - (1))%amp -> no_torsion K -> forall T, reachable T ->
  length (all_amps T) = N.to_nat (2 ^ gauss_rank T) /\ NoDup (map fst (all_amps T)) /\ gauss_rank T <= t_n T /\
  exists s, s < 2 ^ t_n T /\ forall psi, describes im T psi ->
    forall y, y < 2 ^ t_n T -> psi y = (psi s * match get_amplitude T y with Some e => apow im (N.to_nat e) | None => 0 end)%amp.
Proof. exact @PStab14.l_c84_amplitudes. Qed.
Print Assumptions c84_amplitudes.

(** H0, S0, CZ 0 1, H1 on 00 gives 00 + i 11. *)
Example c84_example : all_amps (after 2 [GH 0; GH 1; GS 0; GCZ 0 1; GH 1]) = [(0, 0); (3, 1)].
Proof. vm_compute. reflexivity. Qed.

(** * C85: separability tests *)

(** IsSeparable returns 1, 2 or 3 exactly when the qubit is in an eigenstate of Z, X or Y, else 0, and keeps the state. *)
Theorem c85_is_separable : forall (K : StarRing) (im h : K), (im * im = - (1))%amp -> (h * h + h * h = 1)%amp -> no_torsion K -> forall rgp T t psi, reachable T -> t < t_n T -> describes im T psi -> notzero (t_n T) psi ->
  exists c T', is_separable rgp T t = Ok (c, T') /\ t_n T' = t_n T /\ reachable T' /\ describes im T' psi /\
    ((c = 1 /\ eigen (t_n T) t matZ psi) \/ (c = 2 /\ eigen (t_n T) t matX psi) \/ (c = 3 /\ eigen (t_n T) t (matY im) psi) \/
     (c = 0 /\ ~ eigen (t_n T) t matZ psi /\ ~ eigen (t_n T) t matX psi /\ ~ eigen (t_n T) t (matY im) psi)).
Proof. exact @PStab14.l_c85_is_separable. Qed.
Print Assumptions c85_is_separable.

Example c85_example : map (fun t => match is_separable true (after 5 [GX 0; GH 1; GH 2; GS 2; GH 3; GCNOT 3 4]) t with Ok (c, _) => Some c | Throw => None end) [0; 1; 2; 3; 4; 5] = [Some 1; Some 2; Some 3; Some 0; Some 0; None].
Proof. vm_compute. reflexivity. Qed.

(** When IsSeparable returns 0 the qubit really is entangled with the others: the state is no product of a state of the qubit and a state of the rest. *)
Theorem c85_zero_means_entangled : forall (K : StarRing) (im h : K), (im * im = - (1))%amp -> (h * h + h * h = 1)%amp -> no_torsion K -> domain K -> forall rgp T t psi T', reachable T -> t < t_n T -> describes im T psi -> notzero (t_n T) psi -> is_separable rgp T t = Ok (0, T') ->
  forall a b, ~ eqv (t_n T) psi (tensor_at t 1 a b).
Proof. exact @PStab14.l_c85_zero_means_entangled. Qed.
Print Assumptions c85_zero_means_entangled.

(** * C86: probability of one qubit *)

(** Prob is 0, 1/2 or 1 as the qubit is 0, undetermined with equal weights, or 1, and leaves the tableau alone (the model returns twice the value). *)
Theorem c86_prob : forall (K : StarRing) (im : K), imaginary im -> no_torsion K -> forall rgp T t, reachable T -> t < t_n T ->
  exists r, prob2 rgp T t = Ok (r, T) /\ forall psi, describes im T psi ->
    (r = 0 /\ has_value (t_n T) t false psi) \/ (r = 2 /\ has_value (t_n T) t true psi) \/ (r = 1 /\ outcome_weight (t_n T) t true psi = outcome_weight (t_n T) t false psi).
Proof. exact @PStab14.l_c86_prob. Qed.
Print Assumptions c86_prob.

Example c86_example : map (fun t => match prob2 true (after 3 [GX 0; GH 1]) t with Ok (r, _) => r | Throw => 9 end) [0; 1; 2; 3] = [2; 1; 0; 9].
Proof. vm_compute. reflexivity. Qed.

(** * C87: SetPermutation *)

(** SetPermutation gives the tableau of the basis state (bits at and above the qubit count are ignored), in both phase modes. *)
Theorem c87_set_permutation : forall (K : StarRing) (im h : K), (im * im = - (1))%amp -> (h * h + h * h = 1)%amp -> no_torsion K -> forall rgp n perm, n <= 127 -> exists T, set_permutation rgp n perm = Ok T /\ t_n T = n /\ reachable T /\ describes im T (ket (perm mod 2 ^ n)).
Proof. exact @PStab14.l_c87_set_permutation. Qed.
Print Assumptions c87_set_permutation.

Example c87_example : match set_permutation true 3 13 with Ok T => map (t_row T) [3; 4; 5] | Throw => [] end = [mkRow 0 1 2; mkRow 0 2 0; mkRow 0 4 2].
Proof. vm_compute. reflexivity. Qed.

(** * C88: CanDecomposeDispose *)

(** A positive answer of CanDecomposeDispose is right, and it keeps the state.  Missing: the converse, refuted below. *)
Theorem c88_yes_partial : forall (K : StarRing) (im : K), (im * im = - (1))%amp -> no_torsion K -> forall T s m T1 psi, reachable T -> 0 < m -> can_dispose T s m = Ok (true, T1) -> describes im T psi ->
  describes im T1 psi /\ exists a b, eqv (t_n T) psi (tensor_at s m a b).
Proof. exact @PStab14.l_c88_yes_partial. Qed.
Print Assumptions c88_yes_partial.

(** It says no for qubit 1 of + 0 +, which is a product. *)
Theorem c88_no_refuted : exists T T1, reachable T /\ can_dispose T 1 1 = Ok (false, T1) /\ describes gim T (tensor_at 1 1 (fun _ => 1%amp) (@ket GI 0)).
Proof. exact @PStab14.l_c88_no_refuted. Qed.
Print Assumptions c88_no_refuted.

(** * C89: whole runs *)

(** Any sequence of gates, measurements and forced measurements: the final tableau describes the state after the same gates and the projections onto the reported outcomes.  It stops with an exception only at a forced outcome that is impossible. *)
Theorem c89_runs : forall (K : StarRing) (im h : K), (im * im = - (1))%amp -> (h * h + h * h = 1)%amp -> no_torsion K -> forall rgp cs T psi, reachable T -> Forall (command_fits (t_n T)) cs -> describes im T psi ->
  match run_commands rgp T cs with
  | Ok (bs, T') => length bs = count_meas cs /\ t_n T' = t_n T /\ reachable T' /\ describes im T' (commands_act im h cs bs psi)
  | Throw => exists cs1 t b cs2 bs, cs = cs1 ++ Force t b :: cs2 /\ length bs = count_meas cs1 /\ has_value (t_n T) t (negb b) (commands_act im h cs1 bs psi)
  end.
Proof. exact @PStab14.l_c89_runs. Qed.
Print Assumptions c89_runs.

(** Teleportation of the state - from qubit 0 to qubit 2, with outcomes 1 and 1 and the corrections. *)
Example c89_example : match run_commands true (tab_zero 3) [Gate (GX 0); Gate (GH 0); Gate (GH 1); Gate (GCNOT 1 2); Gate (GCNOT 0 1); Gate (GH 0); Measure 0 true; Measure 1 true; Gate (GX 2); Gate (GZ 2); Gate (GH 2); Force 2 true] with Ok (bs, _) => bs | Throw => [] end = [true; true; true].
Proof. vm_compute. reflexivity. Qed.
