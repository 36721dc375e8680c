(** Expectation values and marginal distributions; proofs of PropExpect.v. *)
From Coq Require Import NArith ZArith Arith List Bool Lia Ring.
From Verif Require Import Bits Amp PAmp SpecState MTensor MApi SpecCircuit2 MExpect SpecExpect PExpect1 PExpect2 PExpect3.
Import ListNotations.
Local Open Scope N_scope.

Lemma l_c169_expectation_partial : forall (K : StarRing) (val : N -> K) n bits perms offset (psi : N -> K), proper_bits n bits -> bits <> [] -> (length bits * 2 <= length perms)%nat ->
  norm2 n psi = 1%amp -> (forall x, x < 2 ^ n -> offset + chosen bits perms x < 2 ^ 128) ->
  exp_bits val n bits perms offset psi = Ret (mean n psi (fun x => val (offset + chosen bits perms x))).
Proof. intros. now apply exp_bits_ok. Qed.

Lemma l_c169_variance_partial : forall (K : StarRing) (val : N -> K) n bits perms offset (psi : N -> K), proper_bits n bits -> bits <> [] -> (length bits * 2 <= length perms)%nat ->
  norm2 n psi = 1%amp -> (forall x, x < 2 ^ n -> offset + chosen bits perms x < 2 ^ 128) ->
  var_bits val n bits perms offset psi = Ret (variance n psi (fun x => val (offset + chosen bits perms x))).
Proof. intros. now apply var_bits_ok. Qed.

Lemma l_c169_all_partial : forall (K : StarRing) (val : N -> K) n bits offset (psi : N -> K), proper_bits n bits -> bits <> [] -> norm2 n psi = 1%amp -> offset + 2 ^ N.of_nat (length bits) <= 2 ^ 128 ->
  exp_bits_all val n bits offset psi = Ret (mean n psi (fun x => val (offset + ctrl_value 0 bits x))) /\
  var_bits_all val n bits offset psi = Ret (variance n psi (fun x => val (offset + ctrl_value 0 bits x))).
Proof. intros. split; [now apply exp_all_ok|now apply var_all_ok]. Qed.

Lemma l_c169_throws : forall (K : StarRing) (val : N -> K) n bits perms offset (psi : N -> K),
  (exp_bits val n bits perms offset psi = Throws <-> (length perms < length bits * 2)%nat \/ ~ proper_bits n bits) /\
  (var_bits val n bits perms offset psi = Throws <-> (length perms < length bits * 2)%nat \/ ~ proper_bits n bits).
Proof. intros. split; [apply exp_bits_throws|apply var_bits_throws]. Qed.

Section R.
  Context {K : StarRing}.
  Add Ring KrER : (sr_ring K).
  Lemma two_sq (h : K) : ((1 + 1) * (h * h) = 1)%amp -> (h * h + h * h = 1)%amp.
  Proof. intros <-. ring. Qed.
  Lemma two_ne_one : (1 : K)%amp <> 0%amp -> (1 + 1)%amp <> (1 : K)%amp.
  Proof. intros H E. apply H. transitivity ((1 + 1) - 1 : K)%amp; [ring|]. rewrite E. ring. Qed.
  Lemma anorm_1 : anorm (1 : K)%amp = 1%amp.
  Proof. unfold anorm. rewrite conj_1. ring. Qed.
  Lemma ket0_norm : norm2 2 (ket 0 : N -> K) = 1%amp.
  Proof. unfold norm2, basis. change (N.to_nat (2 ^ 2)) with 4%nat. cbn [upto app asum N.of_nat Pos.of_succ_nat Pos.succ ket N.eqb Pos.eqb]. rewrite anorm_0, anorm_1. ring. Qed.
  Lemma ket1_norm : norm2 2 (ket 1 : N -> K) = 1%amp.
  Proof. unfold norm2, basis. change (N.to_nat (2 ^ 2)) with 4%nat. cbn [upto app asum N.of_nat Pos.of_succ_nat Pos.succ ket N.eqb Pos.eqb]. rewrite anorm_0, anorm_1. ring. Qed.
  Lemma mean_ket0 f : mean 2 (ket 0 : N -> K) f = f 0.
  Proof. unfold mean, basis. change (N.to_nat (2 ^ 2)) with 4%nat. cbn [upto app asum N.of_nat Pos.of_succ_nat Pos.succ ket N.eqb Pos.eqb]. rewrite anorm_0, anorm_1. ring. Qed.
  Lemma mean_ket1 f : mean 2 (ket 1 : N -> K) f = f 1.
  Proof. unfold mean, basis. change (N.to_nat (2 ^ 2)) with 4%nat. cbn [upto app asum N.of_nat Pos.of_succ_nat Pos.succ ket N.eqb Pos.eqb]. rewrite anorm_0, anorm_1. ring. Qed.
  Lemma inner_ket0 f : inner 2 (ket 0 : N -> K) f = f 0.
  Proof. unfold inner, basis. change (N.to_nat (2 ^ 2)) with 4%nat. cbn [upto app asum N.of_nat Pos.of_succ_nat Pos.succ ket N.eqb Pos.eqb]. rewrite conj_0, conj_1. ring. Qed.
  Lemma inner_ket1 f : inner 2 (ket 1 : N -> K) f = f 1.
  Proof. unfold inner, basis. change (N.to_nat (2 ^ 2)) with 4%nat. cbn [upto app asum N.of_nat Pos.of_succ_nat Pos.succ ket N.eqb Pos.eqb]. rewrite conj_0, conj_1. ring. Qed.
  Lemma proper_01 : proper_bits 2 [0; 1].
  Proof. split. repeat constructor; cbn; intuition discriminate. intros q [<-|[<-|[]]]; lia. Qed.
  Lemma l_zz_exp ci ch : exp_pauli ci ch 2 [(PZ, 0); (PZ, 1)] (ket 0 : N -> K) = Ret ((1 + 1)%amp, ket 0).
  Proof. unfold exp_pauli. rewrite pauli_all_is by (reflexivity || discriminate). cbn [map snd flat_map app]. rewrite exp_floats_ok; [|exact proper_01|discriminate|cbn; lia|exact ket0_norm]. cbn [bind turn_in turn_out]. rewrite mean_ket0. cbn [total N.testbit]. f_equal. f_equal. ring. Qed.
  Lemma l_zz_var ci ch : var_pauli ci ch 2 [(PZ, 0); (PZ, 1)] (ket 0 : N -> K) = Ret (1%amp, ket 0).
  Proof. unfold var_pauli. rewrite pauli_all_is by (reflexivity || discriminate). cbn [map snd flat_map app]. rewrite var_many_is; [|exact proper_01|cbn; lia|cbn; lia|exact ket0_norm]. cbn [bind turn_in turn_out]. rewrite mean_ket0. cbn [product N.testbit]. f_equal. f_equal. ring. Qed.
  Lemma l_zz_spec ci : pauli_exp 2 ci [(PZ, 0); (PZ, 1)] (ket 0 : N -> K) = 1%amp /\ pauli_var 2 ci [(PZ, 0); (PZ, 1)] (ket 0 : N -> K) = 0%amp.
  Proof.
    assert (E : forall v : N -> K, paulis ci [(PZ, 0); (PZ, 1)] v 0 = v 0) by (intros v; cbn; ring).
    assert (P1 : pauli_exp 2 ci [(PZ, 0); (PZ, 1)] (ket 0 : N -> K) = 1%amp) by (unfold pauli_exp; rewrite inner_ket0, E; reflexivity). split; auto. unfold pauli_var. rewrite P1, inner_ket0, !E. cbn. ring.
  Qed.
  Lemma l_ii ci ch : exp_pauli ci ch 2 [(PI, 0); (PI, 1)] (ket 1 : N -> K) = Ret ((- (1))%amp, ket 1).
  Proof.
    unfold exp_pauli, pauli_all. cbn [length drop_pi Nat.ltb Nat.leb Nat.sub Nat.add nth fst is_pi remove_at firstn skipn app]. cbv zeta. cbn [map snd flat_map app].
    rewrite exp_floats_ok; [|split; [repeat constructor; intros []|intros q [<-|[]]; lia]|discriminate|cbn; lia|exact ket1_norm]. cbn [bind turn_in turn_out]. rewrite mean_ket1. cbn [total N.testbit Pos.testbit]. f_equal. f_equal. ring.
  Qed.
  Lemma l_ii_spec ci : pauli_exp 2 ci [(PI, 0); (PI, 1)] (ket 1 : N -> K) = 1%amp.
  Proof. unfold pauli_exp. rewrite inner_ket1. cbn. ring. Qed.
End R.

Section R0.
  Context {K : StarRing}.
  Add Ring KrES : (sr_ring K).
  Lemma mul1r (c : K) : (c * 1)%amp = c. Proof. ring. Qed.
  Lemma sub_mul0 (c : K) : ((c - c) * (c - c))%amp = 0%amp. Proof. ring. Qed.
End R0.

Lemma l_c169_empty_refuted : forall (K : StarRing) (val : N -> K) n offset (psi : N -> K), exp_bits val n [] [] offset psi = Ret 1%amp /\ var_bits val n [] [] offset psi = Ret 1%amp /\
  (norm2 n psi = 1%amp -> mean n psi (fun x => val (offset + chosen [] [] x)) = val offset /\ variance n psi (fun x => val (offset + chosen [] [] x)) = 0%amp).
Proof. intros. split; [reflexivity|]. split; [reflexivity|]. intros H.
  assert (M : forall c : K, mean n psi (fun _ => c) = c) by (intros c; unfold mean; rewrite asum_scale; fold (norm2 n psi); rewrite H; apply mul1r).
  cbn [chosen]. rewrite N.add_0_r, M. split; [reflexivity|]. unfold variance. cbv zeta. rewrite !M. apply sub_mul0. Qed.

Lemma l_c170_expectation_partial : forall (K : StarRing) n bits (ws : list K) (psi : N -> K), proper_bits n bits -> bits <> [] -> (length bits * 2 <= length ws)%nat -> norm2 n psi = 1%amp ->
  exp_floats n bits ws psi = Ret (mean n psi (total bits ws)).
Proof. intros. now apply exp_floats_ok. Qed.

Lemma l_c170_throws : forall (K : StarRing) n bits (ws : list K) (psi : N -> K), exp_floats n bits ws psi = Throws <-> (length ws < length bits * 2)%nat \/ ~ proper_bits n bits.
Proof. intros. apply exp_floats_throws. Qed.

Lemma l_c170_variance_partial : forall (K : StarRing) n q (ws : list K) (psi : N -> K), q < n -> (2 <= length ws)%nat -> norm2 n psi = 1%amp ->
  var_floats n [q] ws psi = Ret (variance n psi (total [q] ws)).
Proof. intros. now apply var_one_ok. Qed.

Lemma l_c170_variance_is_partial : forall (K : StarRing) n bits (ws : list K) (psi : N -> K), proper_bits n bits -> (2 <= length bits)%nat -> (length bits * 2 <= length ws)%nat -> norm2 n psi = 1%amp ->
  var_floats n bits ws psi = Ret (mean n psi (product bits ws)).
Proof. intros. now apply var_many_is. Qed.

Lemma l_c170_variance_refuted : @var_floats GI 2 [0; 1] [(2, 0); (2, 0); (3, 0); (3, 0)]%Z (ket 0) = Ret (6, 0)%Z /\ variance 2 (ket 0 : N -> GI) (@total GI [0; 1] [(2, 0); (2, 0); (3, 0); (3, 0)]%Z) = (0, 0)%Z.
Proof. vm_compute. split; reflexivity. Qed.

Section R2.
  Context {K : StarRing}.
  Add Ring KrEU : (sr_ring K).
  Lemma mul0l (c : K) : (0 * c)%amp = 0%amp. Proof. ring. Qed.
End R2.

Lemma l_c170_empty_refuted : forall (K : StarRing) n (psi : N -> K), exp_floats n [] [] psi = Ret 1%amp /\ mean n psi (total [] []) = 0%amp.
Proof. intros. split; [reflexivity|]. unfold mean. cbn [total]. apply asum_zero. intros x _. apply mul0l. Qed.

Lemma l_c171_restores : forall (K : StarRing) (ci ch : K) n l (psi : N -> K) r w, (ci * ci = - (1))%amp -> (sr_conj ci = - ci)%amp -> (ch * ch + ch * ch = 1)%amp -> sr_conj ch = ch ->
  NoDup (map snd l) -> exp_pauli ci ch n l psi = Ret (r, w) \/ var_pauli ci ch n l psi = Ret (r, w) -> forall x, w x = psi x.
Proof. intros K ci ch n l psi r w A B C D ND [E|E]; revert E; now apply pauli_restores. Qed.

Lemma l_c171_expectation_is_partial : forall (K : StarRing) (ci ch : K) n l (psi : N -> K), (ci * ci = - (1))%amp -> (sr_conj ci = - ci)%amp -> (ch * ch + ch * ch = 1)%amp -> sr_conj ch = ch ->
  l <> [] -> forallb (fun e => negb (is_pi (fst e))) l = true -> proper_bits n (map snd l) -> norm2 n psi = 1%amp ->
  exists w, exp_pauli ci ch n l psi = Ret (asum (fun e => pauli_exp n ci [e] psi) l, w) /\ forall x, w x = psi x.
Proof. intros. now apply exp_pauli_is. Qed.

Section R1.
  Context {K : StarRing}.
  Add Ring KrET : (sr_ring K).
  Lemma add0r (c : K) : (c + 0)%amp = c. Proof. ring. Qed.
End R1.

Lemma l_c171_one_partial : forall (K : StarRing) (ci ch : K) n b q (psi : N -> K), (ci * ci = - (1))%amp -> (sr_conj ci = - ci)%amp -> (ch * ch + ch * ch = 1)%amp -> sr_conj ch = ch ->
  is_pi b = false -> q < n -> norm2 n psi = 1%amp ->
  exists w w', exp_pauli ci ch n [(b, q)] psi = Ret (pauli_exp n ci [(b, q)] psi, w) /\ var_pauli ci ch n [(b, q)] psi = Ret (pauli_var n ci [(b, q)] psi, w').
Proof. intros K ci ch n b q psi A B C D HP Hq H1. destruct (exp_pauli_is K ci ch A B C D n [(b, q)] psi) as [w [E _]]; auto; try discriminate.
  cbn. now rewrite HP. split. repeat constructor. intros []. intros t [<-|[]]; auto.
  destruct (var_pauli_one K ci ch A B C D n b q psi HP Hq H1) as [w' [E' _]]. exists w, w'. split; auto. rewrite E. f_equal. f_equal. cbn [asum]. apply add0r. Qed.

Lemma l_c171_variance_is_partial : forall (K : StarRing) (ci ch : K) n l (psi : N -> K), (ci * ci = - (1))%amp -> (sr_conj ci = - ci)%amp -> (ch * ch + ch * ch = 1)%amp -> sr_conj ch = ch ->
  (2 <= length l)%nat -> forallb (fun e => negb (is_pi (fst e))) l = true -> proper_bits n (map snd l) -> norm2 n psi = 1%amp ->
  exists w, var_pauli ci ch n l psi = Ret (pauli_exp n ci l psi, w) /\ forall x, w x = psi x.
Proof. intros. now apply var_pauli_many. Qed.

Lemma l_c171_product_refuted : forall (K : StarRing) (ci ch : K), exp_pauli ci ch 2 [(PZ, 0); (PZ, 1)] (ket 0) = Ret ((1 + 1)%amp, ket 0) /\ var_pauli ci ch 2 [(PZ, 0); (PZ, 1)] (ket 0) = Ret (1%amp, ket 0) /\
  pauli_exp 2 ci [(PZ, 0); (PZ, 1)] (ket 0) = 1%amp /\ pauli_var 2 ci [(PZ, 0); (PZ, 1)] (ket 0) = 0%amp.
Proof. intros. split; [apply l_zz_exp|]. split; [apply l_zz_var|apply l_zz_spec]. Qed.

Lemma l_c171_identity_refuted : forall (K : StarRing) (ci ch : K), exp_pauli ci ch 2 [(PI, 0); (PI, 1)] (ket 1) = Ret ((- (1))%amp, ket 1) /\ pauli_exp 2 ci [(PI, 0); (PI, 1)] (ket 1) = 1%amp.
Proof. intros. split; [apply l_ii|apply l_ii_spec]. Qed.

Lemma l_c172_mask : forall (K : StarRing) n mask (psi : N -> K) j, mask < 2 ^ 64 -> prob_mask_all n mask psi j = weight_of n (fun x => ctrl_value 0 (bits_of mask) x =? j) psi.
Proof. intros. now apply mask_all_ok. Qed.

Lemma l_c172_bits : forall (K : StarRing) n bits (psi : N -> K) j, j < 2 ^ N.of_nat (length bits) -> prob_bits_all n bits psi j = weight_of n (fun x => ctrl_value 0 bits x =? j) psi.
Proof. intros. now apply bits_all_ok. Qed.
