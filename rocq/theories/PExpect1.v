(** Proofs about expectation values (MExpect.v). *)
From Coq Require Import NArith Arith List Bool Lia Ring.
From Verif Require Import Bits MFunctions PFunctions Amp PAmp SpecState PLoop PGates PGates2 PGates3 PUnit9 MCircuit PCircuit SpecApi MTensor MApi SpecApi3 PApi9 MCircuit2 SpecCircuit2 PCircuit14 MExpect SpecExpect.
Import ListNotations.
Local Open Scope N_scope.

Lemma land_pow2 x q : (N.land x (2 ^ q) =? 0) = negb (N.testbit x q).
Proof.
  destruct (N.testbit x q) eqn:E; cbn [negb].
  - apply N.eqb_neq. intros Z. assert (T : N.testbit (N.land x (2 ^ q)) q = true) by now rewrite N.land_spec, E, N.pow2_bits_true. rewrite Z, N.bits_0 in T. discriminate.
  - apply N.eqb_eq. apply N.bits_inj. intros j. rewrite N.land_spec, N.bits_0, N.pow2_bits_eqb. destruct (N.eqb_spec q j); [subst; now rewrite E|apply andb_false_r].
Qed.
Lemma ids_good n l : proper_bits n l -> ids_bad n l = false.
Proof.
  intros [ND HL]. induction ND as [|q l NI ND IH]; auto. cbn [ids_bad]. rewrite IH by (intros a Ha; apply HL; now right). destruct (N.leb_spec n q) as [L|L]. specialize (HL q (or_introl eq_refl)). lia.
  cbn [orb]. rewrite orb_false_r. apply not_true_is_false. rewrite existsb_exists. intros [a [Ha E]]. apply N.eqb_eq in E. now subst.
Qed.
Lemma ids_bad_iff n l : ids_bad n l = false -> proper_bits n l.
Proof.
  induction l as [|q l IH]; intros H; [split; [constructor|intros q []]|]. cbn [ids_bad] in H. apply orb_false_iff in H. destruct H as [H H3]. apply orb_false_iff in H. destruct H as [H1 H2]. destruct (IH H3) as [ND HL].
  split. constructor; auto. intros HI. assert (T : existsb (N.eqb q) l = true) by (apply existsb_exists; exists q; split; auto; apply N.eqb_refl). congruence.
  intros a [<-|Ha]; auto. apply N.leb_gt in H1. exact H1.
Qed.
Lemma add_perms_ok bits : forall perms acc x, acc + chosen bits perms x < 2 ^ 128 -> add_perms bits perms acc x = acc + chosen bits perms x.
Proof.
  induction bits as [|q bits IH]; intros perms acc x H; cbn [add_perms chosen] in *. now rewrite N.add_0_r. destruct perms as [|a [|b ps]]; try (now rewrite N.add_0_r). rewrite land_pow2.
  replace (if negb (N.testbit x q) then a else b) with (if N.testbit x q then b else a) by (now destruct (N.testbit x q)). set (e := if N.testbit x q then b else a) in *. unfold w128. rewrite N.mod_small by lia. rewrite IH by lia. lia.
Qed.
Lemma chosen_bits bits : forall k x, chosen bits (flat_map (fun i => [0; 2 ^ i]) (map (fun j => k + j) (upto (length bits)))) x = ctrl_value k bits x.
Proof.
  assert (U : forall m, upto (S m) = 0 :: map N.succ (upto m)). { induction m as [|m IH]; [reflexivity|]. cbn [upto] in *. rewrite IH at 1. cbn [app]. f_equal. rewrite map_app. cbn [map]. f_equal. f_equal. lia. }
  induction bits as [|q bits IH]; intros k x; [reflexivity|]. cbn [length]. rewrite U. cbn [map flat_map app chosen ctrl_value]. rewrite N.add_0_r. f_equal. rewrite <- IH. f_equal. f_equal. rewrite map_map. apply map_ext. intros j. lia.
Qed.
Lemma chosen_bit_perms bits x : chosen bits (bit_perms bits) x = ctrl_value 0 bits x.
Proof. unfold bit_perms. rewrite <- chosen_bits. f_equal. f_equal. rewrite <- (map_id (upto (length bits))) at 1. apply map_ext. intros j. lia. Qed.
Lemma ctrl_lt bits : forall k x, ctrl_value k bits x + 2 ^ k <= 2 ^ (k + N.of_nat (length bits)).
Proof.
  induction bits as [|q bits IH]; intros k x; cbn [ctrl_value length]. rewrite N.add_0_r. lia. specialize (IH (k + 1) x). replace (k + N.of_nat (S (length bits))) with (k + 1 + N.of_nat (length bits)) by lia.
  assert (E : 2 ^ (k + 1) = 2 * 2 ^ k) by (rewrite N.add_1_r; apply N.pow_succ_r'). destruct (N.testbit x q); lia.
Qed.
Lemma bit_perms_len bits : length (bit_perms bits) = (length bits * 2)%nat.
Proof.
  unfold bit_perms. assert (L : forall l : list N, length (flat_map (fun i => [0; 2 ^ i]) l) = (length l * 2)%nat) by (induction l as [|a l IH]; cbn [flat_map app length]; [reflexivity|rewrite IH; lia]). rewrite L. f_equal.
  generalize (length bits) as m. induction m as [|m IH]; [reflexivity|]. cbn [upto]. rewrite app_length, IH. cbn. lia.
Qed.
Lemma ret_ctrl bits : forall p x, ret_index p (map (N.pow 2) bits) x = ctrl_value p bits x /\ forall j, N.testbit (ctrl_value p bits x) j = true -> p <= j.
Proof.
  induction bits as [|q bits IH]; intros p x; cbn [map ret_index ctrl_value]. { split; auto. intros j H. now rewrite N.bits_0 in H. }
  destruct (IH (p + 1) x) as [I1 I2]. rewrite I1, land_pow2.
  assert (L : forall y, N.land (if y : bool then 2 ^ p else 0) (ctrl_value (p + 1) bits x) = 0).
  { intros y. apply N.bits_inj. intros j. rewrite N.land_spec, N.bits_0. destruct y; [|now rewrite N.bits_0]. rewrite N.pow2_bits_eqb. destruct (N.eqb_spec p j) as [<-|]; auto. cbn [andb]. apply not_true_is_false. intros Z. apply I2 in Z. lia. }
  replace (if negb (N.testbit x q) then 0 else 2 ^ p) with (if N.testbit x q then 2 ^ p else 0) by (now destruct (N.testbit x q)).
  pose proof (L (N.testbit x q)) as L'. set (e := if N.testbit x q then 2 ^ p else 0) in *.
  split. { rewrite (N.add_nocarry_lxor e _ L'). symmetry. apply N.lxor_lor. exact L'. }
  intros j. rewrite (N.add_nocarry_lxor e _ L'), N.lxor_spec. intros Z. destruct (N.testbit (ctrl_value (p + 1) bits x) j) eqn:E; [apply I2 in E; lia|]. rewrite xorb_false_r in Z. subst e. destruct (N.testbit x q); [|now rewrite N.bits_0 in Z].
  rewrite N.pow2_bits_eqb in Z. apply N.eqb_eq in Z. lia.
Qed.
(** The bit that v & (v - 1) clears. *)
Lemma powers_bits f : forall m, bit_powers f m = map (N.pow 2) (mask_bits f m).
Proof.
  induction f as [|f IH]; intros m; [reflexivity|]. cbn [bit_powers mask_bits]. destruct (N.eqb_spec m 0) as [|Hz]; [reflexivity|].
  destruct (PMaskBits.mask_step m Hz) as [b [Tb [Lb [EL EC]]]]. cbv zeta. rewrite EL, EC. cbn [map]. f_equal; [|apply IH].
  apply N.bits_inj. intros j. rewrite N.land_spec, N.lxor_spec, N.clearbit_eqb, N.pow2_bits_eqb. destruct (N.eqb_spec b j) as [<-|]; [now rewrite Tb|]. cbn [negb]. now destruct (N.testbit m j).
Qed.
Lemma mask_index m x : m < 2 ^ 64 -> ret_index 0 (bit_powers 128 m) x = ctrl_value 0 (bits_of m) x.
Proof. intros H. rewrite powers_bits, (mask_bits_of m H). apply ret_ctrl. Qed.
Lemma ctrl_all k : forall s x, (forall j, s + N.of_nat k <= j -> N.testbit x j = false) -> ctrl_value s (map (fun j => s + j) (upto k)) x = x / 2 ^ s * 2 ^ s.
Proof.
  assert (U : forall m, upto (S m) = 0 :: map N.succ (upto m)). { induction m as [|m IH]; [reflexivity|]. cbn [upto] in *. rewrite IH at 1. cbn [app]. f_equal. rewrite map_app. cbn [map]. f_equal. f_equal. lia. }
  induction k as [|k IH]; intros s x H.
  - cbn [upto map ctrl_value]. replace (x / 2 ^ s) with 0; [reflexivity|]. symmetry. apply N.div_small. apply lt_pow2_bits. intros j Hj. apply H. lia.
  - rewrite U. cbn [map ctrl_value]. rewrite N.add_0_r, map_map. replace (map (fun j => s + N.succ j) (upto k)) with (map (fun j => s + 1 + j) (upto k)) by (apply map_ext; intros; lia).
    rewrite IH by (intros j Hj; apply H; lia). rewrite N.add_1_r, N.pow_succ_r', (N.mul_comm 2), <- N.div_div by (try apply N.pow_nonzero; lia).
    assert (B := N.testbit_spec' x s). set (y := x / 2 ^ s) in *. assert (D := N.div_mod' y 2). rewrite <- B in D. destruct (N.testbit x s); cbn [N.b2n] in D; nia.
Qed.
