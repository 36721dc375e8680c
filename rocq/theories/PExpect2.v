(** Proofs about expectation values (MExpect.v), part 2: sums. *)
From Coq Require Import NArith Arith List Bool Lia Ring.
From Verif Require Import Bits MFunctions PFunctions Amp PAmp SpecState PLoop PGates PGates2 PGates3 PUnit9 MCircuit PCircuit SpecApi MTensor MApi SpecApi3 PApi9 MCircuit2 SpecCircuit2 PCircuit14 MExpect SpecExpect PExpect1.
Import ListNotations.
Local Open Scope N_scope.

Section E.
  Variable K : StarRing.
  Add Ring KrEP : (sr_ring K).
  Local Notation vec := (N -> K).
  Local Open Scope amp_scope.

  Lemma fold_sum (f : N -> K) l : forall a, fold_left (fun a x => a + f x) l a = a + asum f l.
  Proof. induction l as [|x l IH]; intros a; cbn [fold_left asum]. ring. rewrite IH. ring. Qed.
  Lemma sum_all_ok n (f : N -> K) : sum_all n f = asum f (basis n).
  Proof. unfold sum_all. rewrite fold_sum. fold (basis n). ring. Qed.
  Lemma prob_one_ok n (psi : vec) q : prob_one n psi q = weight_of n (fun x => N.testbit x q) psi.
  Proof.
    unfold prob_one, weight_of, prob_all. fold (basis n). assert (H : forall l (a : K), fold_left (fun a x => if N.testbit x q then a + anorm (psi x) else a) l a = a + asum (fun x => if N.testbit x q then anorm (psi x) else 0) l).
    { induction l as [|x l IH]; intros a; cbn [fold_left asum]. ring. rewrite IH. destruct (N.testbit x q); ring. }
    rewrite H. ring.
  Qed.
  Lemma collect_ok n idx (psi : vec) j : collect n idx psi j = weight_of n (fun x => (idx x =? j)%N) psi.
  Proof.
    unfold collect, weight_of, prob_all. fold (basis n).
    assert (H : forall l (a : N -> K), fold_left (fun a x j => if (j =? idx x)%N then a j + anorm (psi x) else a j) l a j = a j + asum (fun x => if (idx x =? j)%N then anorm (psi x) else 0) l).
    { induction l as [|x l IH]; intros a; cbn [fold_left asum]. ring. rewrite IH, (N.eqb_sym (idx x)). destruct (j =? idx x)%N; ring. }
    rewrite H. ring.
  Qed.
  Lemma weight_ext n P Q (psi : vec) : (forall x, (x < 2 ^ n)%N -> P x = Q x) -> weight_of n P psi = weight_of n Q psi.
  Proof. intros H. apply asum_ext. intros x Hx. apply basis_In in Hx. now rewrite H. Qed.
  Lemma mean_ext n (psi : vec) f g : (forall x, (x < 2 ^ n)%N -> f x = g x) -> mean n psi f = mean n psi g.
  Proof. intros H. apply asum_ext. intros x Hx. apply basis_In in Hx. now rewrite H. Qed.
  Lemma variance_ext n (psi : vec) f g : (forall x, (x < 2 ^ n)%N -> f x = g x) -> variance n psi f = variance n psi g.
  Proof. intros H. unfold variance. rewrite (mean_ext n psi f g H). cbv zeta. apply mean_ext. intros x Hx. now rewrite H. Qed.
  (** One qubit. *)
  Lemma mean_one n (psi : vec) q (a b : K) : norm2 n psi = 1 -> mean n psi (fun x => if N.testbit x q then b else a) = a * (1 - prob_one n psi q) + b * prob_one n psi q.
  Proof.
    intros H. rewrite prob_one_ok, <- H. unfold mean, weight_of, norm2. set (g := fun x => if N.testbit x q then anorm (psi x) else 0).
    transitivity (asum (fun x => a * anorm (psi x) + (b - a) * g x) (basis n)). apply asum_ext. intros x _. unfold g. destruct (N.testbit x q); ring.
    rewrite asum_add, !asum_scale. ring.
  Qed.
  Lemma wsum_ok bits : forall (ws : list K) acc x, weight_sum bits ws acc x = acc + total bits ws x.
  Proof.
    induction bits as [|q bits IH]; intros ws acc x; cbn [weight_sum total]. ring. destruct ws as [|a [|b t]]; try ring. rewrite IH, land_pow2. destruct (N.testbit x q); cbn [negb]; ring.
  Qed.
  Lemma wprod_ok bits : forall (ws : list K) acc x, weight_prod bits ws acc x = acc * product bits ws x.
  Proof.
    induction bits as [|q bits IH]; intros ws acc x; cbn [weight_prod product]. ring. destruct ws as [|a [|b t]]; try ring. rewrite IH, land_pow2. destruct (N.testbit x q); cbn [negb]; ring.
  Qed.

  (** ** Integers *)
  Lemma exp_bits_ok (val : N -> K) n bits perms offset (psi : vec) : proper_bits n bits -> bits <> [] -> (length bits * 2 <= length perms)%nat ->
    norm2 n psi = 1 -> (forall x, (x < 2 ^ n)%N -> (offset + chosen bits perms x < 2 ^ 128)%N) ->
    exp_bits val n bits perms offset psi = Ret (mean n psi (fun x => val (offset + chosen bits perms x)%N)).
  Proof.
    intros HB HN HL H1 HW. unfold exp_bits. replace (length perms <? length bits * 2)%nat with false by (symmetry; apply Nat.ltb_ge; lia). rewrite (ids_good n bits HB).
    destruct bits as [|q bits]; [congruence|]. destruct perms as [|a [|b ps]]; [cbn in HL; lia|cbn in HL; lia|].
    destruct bits as [|q2 bits].
    - cbv zeta. f_equal. rewrite <- mean_one by auto. destruct HB as [_ HB]. assert (Hq : (q < n)%N) by (apply HB; now left).
      apply mean_ext. intros x Hx. cbn [chosen]. rewrite N.add_0_r.
      assert (W : forall r : bool, (offset + (if r then b else a) < 2 ^ 128)%N).
      { intros r. destruct r. specialize (HW (2 ^ q)%N). cbn [chosen] in HW. rewrite N.pow2_bits_true, N.add_0_r in HW. apply HW. apply N.pow_lt_mono_r; lia.
        specialize (HW 0%N). cbn [chosen] in HW. rewrite N.bits_0, N.add_0_r in HW. apply HW. apply pow2_pos. }
      unfold w128. destruct (N.testbit x q); [specialize (W true)|specialize (W false)]; cbn in W; rewrite N.mod_small; try (f_equal; lia); lia.
    - f_equal. rewrite sum_all_ok. apply asum_ext. intros x Hx. apply basis_In in Hx. rewrite add_perms_ok; auto.
  Qed.
  Lemma var_bits_ok (val : N -> K) n bits perms offset (psi : vec) : proper_bits n bits -> bits <> [] -> (length bits * 2 <= length perms)%nat ->
    norm2 n psi = 1 -> (forall x, (x < 2 ^ n)%N -> (offset + chosen bits perms x < 2 ^ 128)%N) ->
    var_bits val n bits perms offset psi = Ret (variance n psi (fun x => val (offset + chosen bits perms x)%N)).
  Proof.
    intros HB HN HL H1 HW. unfold var_bits. rewrite (exp_bits_ok val n bits perms offset psi HB HN HL H1 HW).
    replace (length perms <? length bits * 2)%nat with false by (symmetry; apply Nat.ltb_ge; lia). rewrite (ids_good n bits HB).
    destruct bits as [|q bits]; [congruence|]. destruct perms as [|a [|b ps]]; [cbn in HL; lia|cbn in HL; lia|]. cbn [bind]. unfold variance. cbv zeta. set (m := mean n psi _).
    destruct bits as [|q2 bits].
    - f_equal. rewrite <- mean_one by auto. destruct HB as [_ HB]. assert (Hq : (q < n)%N) by (apply HB; now left).
      apply mean_ext. intros x Hx. cbn [chosen]. rewrite N.add_0_r.
      assert (W : forall r : bool, (offset + (if r then b else a) < 2 ^ 128)%N).
      { intros r. destruct r. specialize (HW (2 ^ q)%N). cbn [chosen] in HW. rewrite N.pow2_bits_true, N.add_0_r in HW. apply HW. apply N.pow_lt_mono_r; lia.
        specialize (HW 0%N). cbn [chosen] in HW. rewrite N.bits_0, N.add_0_r in HW. apply HW. apply pow2_pos. }
      unfold w128. destruct (N.testbit x q); [specialize (W true)|specialize (W false)]; cbn in W; rewrite N.mod_small; try (rewrite (N.add_comm offset); reflexivity); lia.
    - f_equal. rewrite sum_all_ok. apply asum_ext. intros x Hx. apply basis_In in Hx. rewrite add_perms_ok; auto.
  Qed.
  Lemma exp_bits_throws (val : N -> K) n bits perms offset (psi : vec) : exp_bits val n bits perms offset psi = Throws <-> (length perms < length bits * 2)%nat \/ ~ proper_bits n bits.
  Proof.
    unfold exp_bits. destruct (Nat.ltb_spec (length perms) (length bits * 2)) as [L|L]; [tauto|]. destruct (ids_bad n bits) eqn:E.
    - split; auto. intros _. right. intros H. apply ids_good in H. congruence.
    - apply ids_bad_iff in E. split; [|intros [H|H]; [lia|tauto]]. destruct bits as [|q [|q2 bits]], perms as [|a [|b ps]]; cbn in L; try lia; cbv zeta; discriminate.
  Qed.
  Lemma var_bits_throws (val : N -> K) n bits perms offset (psi : vec) : var_bits val n bits perms offset psi = Throws <-> (length perms < length bits * 2)%nat \/ ~ proper_bits n bits.
  Proof.
    unfold var_bits. destruct (Nat.ltb_spec (length perms) (length bits * 2)) as [L|L]; [tauto|]. destruct (ids_bad n bits) eqn:E.
    - split; auto. intros _. right. intros H. apply ids_good in H. congruence.
    - assert (E' := E). apply ids_bad_iff in E'. split; [|intros [H|H]; [lia|tauto]]. unfold exp_bits. rewrite E. replace (length perms <? length bits * 2)%nat with false by (symmetry; apply Nat.ltb_ge; lia).
      destruct bits as [|q [|q2 bits]], perms as [|a [|b ps]]; cbn in L; try lia; cbv zeta; cbn [bind]; discriminate.
  Qed.
  Lemma all_bits_wrap n bits offset : proper_bits n bits -> (offset + 2 ^ N.of_nat (length bits) <= 2 ^ 128)%N -> forall x, (offset + chosen bits (bit_perms bits) x < 2 ^ 128)%N.
  Proof. intros HB HO x. rewrite chosen_bit_perms. assert (L := ctrl_lt bits 0 x). change (2 ^ 0)%N with 1%N in L. rewrite N.add_0_l in L. lia. Qed.
  Lemma exp_all_ok (val : N -> K) n bits offset (psi : vec) : proper_bits n bits -> bits <> [] -> norm2 n psi = 1 -> (offset + 2 ^ N.of_nat (length bits) <= 2 ^ 128)%N ->
    exp_bits_all val n bits offset psi = Ret (mean n psi (fun x => val (offset + ctrl_value 0 bits x)%N)).
  Proof.
    intros HB HN H1 HO. unfold exp_bits_all. rewrite exp_bits_ok; auto. f_equal. apply mean_ext. intros x _. now rewrite chosen_bit_perms. rewrite bit_perms_len. lia. intros x _. now apply (all_bits_wrap n).
  Qed.
  Lemma var_all_ok (val : N -> K) n bits offset (psi : vec) : proper_bits n bits -> bits <> [] -> norm2 n psi = 1 -> (offset + 2 ^ N.of_nat (length bits) <= 2 ^ 128)%N ->
    var_bits_all val n bits offset psi = Ret (variance n psi (fun x => val (offset + ctrl_value 0 bits x)%N)).
  Proof.
    intros HB HN H1 HO. unfold var_bits_all. rewrite var_bits_ok; auto. f_equal. apply variance_ext. intros x _. now rewrite chosen_bit_perms. rewrite bit_perms_len. lia. intros x _. now apply (all_bits_wrap n).
  Qed.

  (** ** Real numbers *)
  Lemma exp_floats_ok n bits (ws : list K) (psi : vec) : proper_bits n bits -> bits <> [] -> (length bits * 2 <= length ws)%nat -> norm2 n psi = 1 ->
    exp_floats n bits ws psi = Ret (mean n psi (total bits ws)).
  Proof.
    intros HB HN HL H1. unfold exp_floats. replace (length ws <? length bits * 2)%nat with false by (symmetry; apply Nat.ltb_ge; lia). rewrite (ids_good n bits HB).
    destruct bits as [|q bits]; [congruence|]. destruct ws as [|a [|b t]]; [cbn in HL; lia|cbn in HL; lia|]. destruct bits as [|q2 bits].
    - cbv zeta. f_equal. rewrite <- mean_one by auto. apply mean_ext. intros x _. cbn [total]. ring.
    - f_equal. rewrite sum_all_ok. apply asum_ext. intros x _. rewrite wsum_ok. unfold prob_all. ring.
  Qed.
  Lemma var_one_ok n q (ws : list K) (psi : vec) : (q < n)%N -> (2 <= length ws)%nat -> norm2 n psi = 1 -> var_floats n [q] ws psi = Ret (variance n psi (total [q] ws)).
  Proof.
    intros Hq HL H1. assert (HB : proper_bits n [q]) by (split; [repeat constructor; intros []|intros a [<-|[]]; auto]).
    unfold var_floats. rewrite exp_floats_ok by (auto; discriminate). rewrite (ids_good n [q] HB). destruct ws as [|a [|b t]]; [cbn in HL; lia|cbn in HL; lia|]. cbn [length Nat.ltb Nat.leb Nat.mul Nat.add bind]. cbv zeta.
    unfold variance. cbv zeta. set (m := mean n psi _). f_equal. rewrite <- mean_one by auto. apply mean_ext. intros x _. cbn [total]. destruct (N.testbit x q); ring.
  Qed.
  Lemma var_many_is n bits (ws : list K) (psi : vec) : proper_bits n bits -> (2 <= length bits)%nat -> (length bits * 2 <= length ws)%nat -> norm2 n psi = 1 ->
    var_floats n bits ws psi = Ret (mean n psi (product bits ws)).
  Proof.
    intros HB HN HL H1. unfold var_floats. rewrite exp_floats_ok by (auto; intros ->; cbn in HN; lia). replace (length ws <? length bits * 2)%nat with false by (symmetry; apply Nat.ltb_ge; lia). rewrite (ids_good n bits HB).
    destruct bits as [|q [|q2 bits]]; [cbn in HN; lia|cbn in HN; lia|]. cbn [bind]. f_equal. rewrite sum_all_ok. apply asum_ext. intros x _. rewrite wprod_ok. unfold prob_all. ring.
  Qed.
  Lemma exp_floats_throws n bits (ws : list K) (psi : vec) : exp_floats n bits ws psi = Throws <-> (length ws < length bits * 2)%nat \/ ~ proper_bits n bits.
  Proof.
    unfold exp_floats. destruct (Nat.ltb_spec (length ws) (length bits * 2)) as [L|L]; [tauto|]. destruct (ids_bad n bits) eqn:E.
    - split; auto. intros _. right. intros H. apply ids_good in H. congruence.
    - apply ids_bad_iff in E. split; [|intros [H|H]; [lia|tauto]]. destruct bits as [|q [|q2 bits]], ws as [|a [|b ps]]; cbn in L; try lia; cbv zeta; discriminate.
  Qed.

  (** ** Marginals *)
  Lemma mask_all_ok n mask (psi : vec) j : (mask < 2 ^ 64)%N -> prob_mask_all n mask psi j = weight_of n (fun x => (ctrl_value 0 (bits_of mask) x =? j)%N) psi.
  Proof. intros H. unfold prob_mask_all. rewrite collect_ok. apply weight_ext. intros x _. now rewrite (mask_index mask x H). Qed.
  Lemma in_order bits : forall s, forallb (fun e => (fst e =? snd e)%N) (combine bits (map (fun j => (s + j)%N) (upto (length bits)))) = true -> bits = map (fun j => (s + j)%N) (upto (length bits)).
  Proof.
    assert (U : forall m, upto (S m) = 0%N :: map N.succ (upto m)). { induction m as [|m IH]; [reflexivity|]. cbn [upto] in *. rewrite IH at 1. cbn [app]. f_equal. rewrite map_app. cbn [map]. f_equal. f_equal. lia. }
    induction bits as [|q bits IH]; intros s; [reflexivity|]. cbn [length]. rewrite U. cbn [map combine forallb fst snd]. rewrite N.add_0_r, map_map. intros H. apply andb_true_iff in H. destruct H as [H1 H2]. apply N.eqb_eq in H1. subst. f_equal.
    replace (map (fun j => s + N.succ j)%N (upto (length bits))) with (map (fun j => (s + 1 + j)%N) (upto (length bits))) in * by (apply map_ext; intros; lia). now apply IH.
  Qed.
  Lemma single_weight n (psi : vec) j : (j < 2 ^ n)%N -> weight_of n (fun x => (x =? j)%N) psi = anorm (psi j).
  Proof.
    intros H. unfold weight_of, basis. assert (G : forall m, asum (fun x => if (x =? j)%N then anorm (psi x) else 0) (upto m) = if (j <? N.of_nat m)%N then anorm (psi j) else 0).
    { induction m as [|m IH]; [now destruct j|]. cbn [upto]. rewrite asum_app, IH. cbn [asum]. destruct (N.eqb_spec (N.of_nat m) j) as [E|E]; destruct (N.ltb_spec j (N.of_nat m)), (N.ltb_spec j (N.of_nat (S m))); try lia; subst; try ring. }
    rewrite G, N2Nat.id. destruct (N.ltb_spec j (2 ^ n)); [reflexivity|lia].
  Qed.
  Lemma bits_all_ok n bits (psi : vec) j : (j < 2 ^ N.of_nat (length bits))%N -> prob_bits_all n bits psi j = weight_of n (fun x => (ctrl_value 0 bits x =? j)%N) psi.
  Proof.
    intros Hj. unfold prob_bits_all. destruct (N.eqb_spec (N.of_nat (length bits)) n) as [E|E]; [|cbn [andb]; rewrite collect_ok; apply weight_ext; intros x _; now rewrite (proj1 (ret_ctrl bits 0 x))].
    cbn [andb]. destruct (forallb _ _) eqn:F; [|rewrite collect_ok; apply weight_ext; intros x _; now rewrite (proj1 (ret_ctrl bits 0 x))].
    rewrite <- (map_id (upto (length bits))) in F. rewrite (map_ext (fun j => j) (fun j => (0 + j)%N)) in F by reflexivity. apply in_order in F. rewrite E in Hj. unfold prob_all. rewrite <- (single_weight n psi j Hj).
    apply weight_ext. intros x Hx. rewrite F. rewrite ctrl_all. change (2 ^ 0)%N with 1%N. now rewrite N.div_1_r, N.mul_1_r. intros k Hk. apply (tb_high x n); auto. lia.
  Qed.
End E.
