(** Property theorems C169 to C172: expectation values, variances and marginal distributions of QInterface.  A mean is over the
    distribution |psi(x)|^2 of the basis states; [val] is the conversion from integers to real numbers. *)
From Coq Require Import NArith ZArith Arith List Bool Lia Reals Lra.
From Verif Require Import Amp AmpC SpecState MTensor MApi SpecApi3 SpecCircuit2 MExpect SpecExpect PExpProp.
Import ListNotations.
Local Open Scope N_scope.

(** * C169: expectation values and variances of integers *)

(** ExpectationBitsFactorized returns the mean of the offset plus the entries that the bits select.  Missing for the full statement: the empty list, for which it fails ([c169_empty_refuted]). *)
Theorem c169_expectation_partial : forall (K : StarRing) (val : N -> K) n bits perms offset (psi : N -> K), proper_bits n bits -> bits <> [] -> (length bits * 2 <= length perms)%nat ->
  norm2 n psi = 1%amp -> (forall x, x < 2 ^ n -> offset + chosen bits perms x < 2 ^ 128) ->
  exp_bits val n bits perms offset psi = Ret (mean n psi (fun x => val (offset + chosen bits perms x))).
Proof. exact @PExpProp.l_c169_expectation_partial. Qed.
Print Assumptions c169_expectation_partial.

Example c169_hyps : proper_bits 3 [2; 0] /\ [2; 0] <> [] /\ (length [2; 0] * 2 <= length [5; 7; 1; 100])%nat /\ norm2 3 (ket 4 : N -> GI) = 1%amp /\
  forall x, x < 2 ^ 3 -> 10 + chosen [2; 0] [5; 7; 1; 100] x < 2 ^ 128.
Proof.
  split. { split. repeat constructor; cbn; intuition discriminate. intros q [<-|[<-|[]]]; lia. }
  split; [discriminate|]. split; [cbn; lia|]. split; [vm_compute; reflexivity|]. intros x _. cbn [chosen]. change (2 ^ 128) with 340282366920938463463374607431768211456. destruct (N.testbit x 2), (N.testbit x 0); lia.
Qed.
Example c169_example : exp_bits (fun v => (Z.of_N v, 0%Z) : GI) 3 [2; 0] [5; 7; 1; 100] 10 (ket 4) = Ret (18, 0)%Z /\ var_bits (fun v => (Z.of_N v, 0%Z) : GI) 3 [2; 0] [5; 7; 1; 100] 10 (ket 4) = Ret (0, 0)%Z.
Proof. vm_compute. split; reflexivity. Qed.


(** VarianceBitsFactorized returns their variance.  Missing for the full statement: the empty list. *)
Theorem c169_variance_partial : forall (K : StarRing) (val : N -> K) n bits perms offset (psi : N -> K), proper_bits n bits -> bits <> [] -> (length bits * 2 <= length perms)%nat ->
  norm2 n psi = 1%amp -> (forall x, x < 2 ^ n -> offset + chosen bits perms x < 2 ^ 128) ->
  var_bits val n bits perms offset psi = Ret (variance n psi (fun x => val (offset + chosen bits perms x))).
Proof. exact @PExpProp.l_c169_variance_partial. Qed.
Print Assumptions c169_variance_partial.

(** ExpectationBitsAll and VarianceBitsAll are the mean and the variance of the number that the listed bits hold, plus the offset.  Missing for the full statement: the empty list. *)
Theorem c169_all_partial : forall (K : StarRing) (val : N -> K) n bits offset (psi : N -> K), proper_bits n bits -> bits <> [] -> norm2 n psi = 1%amp -> offset + 2 ^ N.of_nat (length bits) <= 2 ^ 128 ->
  exp_bits_all val n bits offset psi = Ret (mean n psi (fun x => val (offset + ctrl_value 0 bits x))) /\
  var_bits_all val n bits offset psi = Ret (variance n psi (fun x => val (offset + ctrl_value 0 bits x))).
Proof. exact @PExpProp.l_c169_all_partial. Qed.
Print Assumptions c169_all_partial.

Example c169_all_example : exp_bits_all (fun v => (Z.of_N v, 0%Z) : GI) 3 [2; 0] 10 (ket 4) = Ret (11, 0)%Z /\ exp_bits_all (fun v => (Z.of_N v, 0%Z) : GI) 3 [0; 2] 10 (ket 4) = Ret (12, 0)%Z.
Proof. vm_compute. split; reflexivity. Qed.


(** The calls throw exactly for lists with a repeated or nonexistent qubit and for too few entries. *)
Theorem c169_throws : forall (K : StarRing) (val : N -> K) n bits perms offset (psi : N -> K),
  (exp_bits val n bits perms offset psi = Throws <-> (length perms < length bits * 2)%nat \/ ~ proper_bits n bits) /\
  (var_bits val n bits perms offset psi = Throws <-> (length perms < length bits * 2)%nat \/ ~ proper_bits n bits).
Proof. exact @PExpProp.l_c169_throws. Qed.
Print Assumptions c169_throws.

Example c169_throws_example : exp_bits (fun v => (Z.of_N v, 0%Z) : GI) 3 [2; 2] [5; 7; 1; 100] 10 (ket 4) = Throws /\ var_bits (fun v => (Z.of_N v, 0%Z) : GI) 3 [2; 0] [5; 7; 1] 10 (ket 4) = Throws.
Proof. split; reflexivity. Qed.


(** For no bits, the value is the offset and its variance is 0, but both calls return 1. *)
Theorem c169_empty_refuted : forall (K : StarRing) (val : N -> K) n offset (psi : N -> K), exp_bits val n [] [] offset psi = Ret 1%amp /\ var_bits val n [] [] offset psi = Ret 1%amp /\
  (norm2 n psi = 1%amp -> mean n psi (fun x => val (offset + chosen [] [] x)) = val offset /\ variance n psi (fun x => val (offset + chosen [] [] x)) = 0%amp).
Proof. exact @PExpProp.l_c169_empty_refuted. Qed.
Print Assumptions c169_empty_refuted.

(** * C170: expectation values and variances of real numbers *)

(** ExpectationFloatsFactorized returns the mean of the sum of the weights that the bits select.  Missing for the full statement: the empty list, for which it fails. *)
Theorem c170_expectation_partial : forall (K : StarRing) n bits (ws : list K) (psi : N -> K), proper_bits n bits -> bits <> [] -> (length bits * 2 <= length ws)%nat -> norm2 n psi = 1%amp ->
  exp_floats n bits ws psi = Ret (mean n psi (total bits ws)).
Proof. exact @PExpProp.l_c170_expectation_partial. Qed.
Print Assumptions c170_expectation_partial.

Example c170_hyps : proper_bits 3 [2; 0] /\ [2; 0] <> [] /\ (length [2; 0] * 2 <= length [(5, 0); (7, 0); (1, 0); (100, 0)]%Z)%nat /\ norm2 3 (ket 4 : N -> GI) = 1%amp.
Proof. split. { split. repeat constructor; cbn; intuition discriminate. intros q [<-|[<-|[]]]; lia. } split; [discriminate|]. split; [cbn; lia|vm_compute; reflexivity]. Qed.
Example c170_example : @exp_floats GI 3 [2; 0] [(5, 0); (7, 0); (1, 0); (100, 0)]%Z (ket 4) = Ret (8, 0)%Z.
Proof. vm_compute. reflexivity. Qed.


(** The call throws exactly for lists with a repeated or nonexistent qubit and for too few weights. *)
Theorem c170_throws : forall (K : StarRing) n bits (ws : list K) (psi : N -> K), exp_floats n bits ws psi = Throws <-> (length ws < length bits * 2)%nat \/ ~ proper_bits n bits.
Proof. exact @PExpProp.l_c170_throws. Qed.
Print Assumptions c170_throws.

Example c170_throws_example : @exp_floats GI 3 [2; 3] [(5, 0); (7, 0); (1, 0); (100, 0)]%Z (ket 4) = Throws.
Proof. reflexivity. Qed.


(** For one bit, VarianceFloatsFactorized returns the variance.  Missing for the full statement: more bits, for which it fails. *)
Theorem c170_variance_partial : forall (K : StarRing) n q (ws : list K) (psi : N -> K), q < n -> (2 <= length ws)%nat -> norm2 n psi = 1%amp ->
  var_floats n [q] ws psi = Ret (variance n psi (total [q] ws)).
Proof. exact @PExpProp.l_c170_variance_partial. Qed.
Print Assumptions c170_variance_partial.

Example c170_one_hyps : 1 < 3 /\ (2 <= length [(5, 0); (7, 0)]%Z)%nat /\ norm2 3 (ket 4 : N -> GI) = 1%amp.
Proof. split; [lia|]. split; [cbn; lia|vm_compute; reflexivity]. Qed.


(** For two bits or more the result is the mean of the product of the weights. *)
Theorem c170_variance_is_partial : forall (K : StarRing) n bits (ws : list K) (psi : N -> K), proper_bits n bits -> (2 <= length bits)%nat -> (length bits * 2 <= length ws)%nat -> norm2 n psi = 1%amp ->
  var_floats n bits ws psi = Ret (mean n psi (product bits ws)).
Proof. exact @PExpProp.l_c170_variance_is_partial. Qed.
Print Assumptions c170_variance_is_partial.

Example c170_many_hyps : proper_bits 3 [2; 0] /\ (2 <= length [2; 0])%nat /\ (length [2; 0] * 2 <= length [(5, 0); (7, 0); (1, 0); (100, 0)]%Z)%nat /\ norm2 3 (ket 4 : N -> GI) = 1%amp.
Proof. split. { split. repeat constructor; cbn; intuition discriminate. intros q [<-|[<-|[]]]; lia. } split; [cbn; lia|]. split; [cbn; lia|vm_compute; reflexivity]. Qed.


(** The sum of two constants has variance 0, but VarianceFloatsFactorized returns their product, e.g. 6 for the constants 2 and 3 on |00>. *)
Theorem c170_variance_refuted : @var_floats GI 2 [0; 1] [(2, 0); (2, 0); (3, 0); (3, 0)]%Z (ket 0) = Ret (6, 0)%Z /\ variance 2 (ket 0 : N -> GI) (@total GI [0; 1] [(2, 0); (2, 0); (3, 0); (3, 0)]%Z) = (0, 0)%Z.
Proof. exact @PExpProp.l_c170_variance_refuted. Qed.
Print Assumptions c170_variance_refuted.

(** The sum of no weights is 0, but ExpectationFloatsFactorized returns 1. *)
Theorem c170_empty_refuted : forall (K : StarRing) n (psi : N -> K), exp_floats n [] [] psi = Ret 1%amp /\ mean n psi (total [] []) = 0%amp.
Proof. exact @PExpProp.l_c170_empty_refuted. Qed.
Print Assumptions c170_empty_refuted.

(** * C171: expectation values and variances of Pauli operators *)

(** The calls leave the state as it was, for every list of distinct qubits. *)
Theorem c171_restores : forall (K : StarRing) (ci ch : K) n l (psi : N -> K) r w, (ci * ci = - (1))%amp -> (sr_conj ci = - ci)%amp -> (ch * ch + ch * ch = 1)%amp -> sr_conj ch = ch ->
  NoDup (map snd l) -> exp_pauli ci ch n l psi = Ret (r, w) \/ var_pauli ci ch n l psi = Ret (r, w) -> forall x, w x = psi x.
Proof. exact @PExpProp.l_c171_restores. Qed.
Print Assumptions c171_restores.

Example c171_constants : (cc_i * cc_i = - (1))%amp /\ sr_conj cc_i = (- cc_i)%amp /\ (cc_h * cc_h + cc_h * cc_h = 1)%amp /\ sr_conj cc_h = cc_h.
Proof. split; [exact cc_i_ok|]. split. { cbn. unfold c_conj, c_opp, cc_i; cbn [fst snd]. f_equal; ring. } split; [apply two_sq; exact cc_h_ok|]. cbn. unfold c_conj, cc_h; cbn [fst snd]. f_equal; ring. Qed.
Example c171_list : NoDup (map snd [(PX, 2); (PY, 0); (PI, 1); (PZ, 3)]).
Proof. repeat constructor; cbn; intuition discriminate. Qed.


(** Without identities, ExpectationPauliAll returns the sum of the expectation values of the single Pauli operators; for one operator that is the expectation value of the list.  Missing for the full statement: the expectation value of the product, for which it fails. *)
Theorem c171_expectation_is_partial : forall (K : StarRing) (ci ch : K) n l (psi : N -> K), (ci * ci = - (1))%amp -> (sr_conj ci = - ci)%amp -> (ch * ch + ch * ch = 1)%amp -> sr_conj ch = ch ->
  l <> [] -> forallb (fun e => negb (is_pi (fst e))) l = true -> proper_bits n (map snd l) -> norm2 n psi = 1%amp ->
  exists w, exp_pauli ci ch n l psi = Ret (asum (fun e => pauli_exp n ci [e] psi) l, w) /\ forall x, w x = psi x.
Proof. exact @PExpProp.l_c171_expectation_is_partial. Qed.
Print Assumptions c171_expectation_is_partial.

Example c171_hyps : [(PX, 2); (PY, 0)] <> [] /\ forallb (fun e => negb (is_pi (fst e))) [(PX, 2); (PY, 0)] = true /\ proper_bits 3 (map snd [(PX, 2); (PY, 0)]) /\ norm2 3 (ket 4 : N -> GI) = 1%amp.
Proof. split; [discriminate|]. split; [reflexivity|]. split. { split. repeat constructor; cbn; intuition discriminate. intros q [<-|[<-|[]]]; reflexivity. } vm_compute; reflexivity. Qed.


(** For one Pauli operator other than the identity, ExpectationPauliAll is its expectation value and VariancePauliAll its variance. *)
Theorem c171_one_partial : forall (K : StarRing) (ci ch : K) n b q (psi : N -> K), (ci * ci = - (1))%amp -> (sr_conj ci = - ci)%amp -> (ch * ch + ch * ch = 1)%amp -> sr_conj ch = ch ->
  is_pi b = false -> q < n -> norm2 n psi = 1%amp ->
  exists w w', exp_pauli ci ch n [(b, q)] psi = Ret (pauli_exp n ci [(b, q)] psi, w) /\ var_pauli ci ch n [(b, q)] psi = Ret (pauli_var n ci [(b, q)] psi, w').
Proof. exact @PExpProp.l_c171_one_partial. Qed.
Print Assumptions c171_one_partial.

(** For two or more operators without identities, VariancePauliAll returns the expectation value of their product. *)
Theorem c171_variance_is_partial : forall (K : StarRing) (ci ch : K) n l (psi : N -> K), (ci * ci = - (1))%amp -> (sr_conj ci = - ci)%amp -> (ch * ch + ch * ch = 1)%amp -> sr_conj ch = ch ->
  (2 <= length l)%nat -> forallb (fun e => negb (is_pi (fst e))) l = true -> proper_bits n (map snd l) -> norm2 n psi = 1%amp ->
  exists w, var_pauli ci ch n l psi = Ret (pauli_exp n ci l psi, w) /\ forall x, w x = psi x.
Proof. exact @PExpProp.l_c171_variance_is_partial. Qed.
Print Assumptions c171_variance_is_partial.

Example c171_many : (2 <= length [(PX, 2); (PY, 0)])%nat.
Proof. cbn. lia. Qed.


(** Z on each of two qubits in |00> has expectation value 1 and variance 0; ExpectationPauliAll returns 2 and VariancePauliAll 1. *)
Theorem c171_product_refuted : forall (K : StarRing) (ci ch : K), exp_pauli ci ch 2 [(PZ, 0); (PZ, 1)] (ket 0) = Ret ((1 + 1)%amp, ket 0) /\ var_pauli ci ch 2 [(PZ, 0); (PZ, 1)] (ket 0) = Ret (1%amp, ket 0) /\
  pauli_exp 2 ci [(PZ, 0); (PZ, 1)] (ket 0) = 1%amp /\ pauli_var 2 ci [(PZ, 0); (PZ, 1)] (ket 0) = 0%amp.
Proof. exact @PExpProp.l_c171_product_refuted. Qed.
Print Assumptions c171_product_refuted.

(** Two identities on |01> (qubit 0 is 1) have expectation value 1, but ExpectationPauliAll returns -1: the loop that removes identities shortens the list while counting from its end, misses one of them, and the rest is measured as Z. *)
Theorem c171_identity_refuted : forall (K : StarRing) (ci ch : K), exp_pauli ci ch 2 [(PI, 0); (PI, 1)] (ket 1) = Ret ((- (1))%amp, ket 1) /\ pauli_exp 2 ci [(PI, 0); (PI, 1)] (ket 1) = 1%amp.
Proof. exact @PExpProp.l_c171_identity_refuted. Qed.
Print Assumptions c171_identity_refuted.

(** * C172: marginal distributions *)

(** ProbMaskAll is the distribution of the masked bits, packed in order. *)
Theorem c172_mask : forall (K : StarRing) n mask (psi : N -> K) j, mask < 2 ^ 64 -> prob_mask_all n mask psi j = weight_of n (fun x => ctrl_value 0 (bits_of mask) x =? j) psi.
Proof. exact @PExpProp.l_c172_mask. Qed.
Print Assumptions c172_mask.

Example c172_example : 22 < 2 ^ 64 /\ bits_of 22 = [1; 2; 4] /\ map (prob_mask_all 5 22 (ket 20 : N -> GI)) [0; 3; 6] = [(0, 0); (0, 0); (1, 0)]%Z.
Proof. split; [lia|]. vm_compute. split; reflexivity. Qed.


(** ProbBitsAll is the distribution of the listed bits, packed in the order of the list. *)
Theorem c172_bits : forall (K : StarRing) n bits (psi : N -> K) j, j < 2 ^ N.of_nat (length bits) -> prob_bits_all n bits psi j = weight_of n (fun x => ctrl_value 0 bits x =? j) psi.
Proof. exact @PExpProp.l_c172_bits. Qed.
Print Assumptions c172_bits.

Example c172_bits_example : 3 < 2 ^ N.of_nat (length [4; 2; 1]) /\ map (prob_bits_all 5 [4; 2; 1] (ket 20 : N -> GI)) [0; 3; 6] = [(0, 0); (1, 0); (0, 0)]%Z.
Proof. split; [cbn; lia|]. vm_compute. reflexivity. Qed.

