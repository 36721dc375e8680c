(** Proofs for QUnit: norms and supports of engines, well-formed simulators. *)
From Coq Require Import Arith NArith List Bool Lia Ring Permutation FinFun.
From Verif Require Import Bits MFunctions SpecFunctions PFunctions MKernel PKernel Amp PAmp SpecState PApply PCompose PGates PGates2 PQCirc2 PQCirc3 PEngine MShard SpecShard MUnit PShard1 PShard2 PShard5 PUnit1 PUnit2 PUnit3.
Import ListNotations.
Local Open Scope N_scope.
Local Notation up n := (upto (N.to_nat n)).

Section P.
  Context {K : StarRing}.
  Add Ring KrBR : (sr_ring K).
  Local Notation vec := (N -> K).
  Local Notation unit1 x := (anorm x = 1%amp).
  Local Notation M2 := (mat2 K).
  Implicit Types (psi phi v : vec).

  (** ** Norms *)
  Lemma asum_grid (f : N -> K) (m : N) (k : nat) : asum f (upto (k * N.to_nat m)) = asum (fun i => asum (fun j => f (j + i * m)) (up m)) (upto k).
  Proof.
    assert (A : forall (j a : nat), upto (a + j) = upto a ++ map (fun i => i + N.of_nat a) (upto j)).
    { intros j a. induction j as [|j IH]; [rewrite Nat.add_0_r; cbn [upto map]; rewrite app_nil_r; reflexivity|].
      rewrite Nat.add_succ_r. cbn [upto]. rewrite IH, map_app, app_assoc. cbn [map]. do 2 f_equal. lia. }
    induction k as [|k IH]; [reflexivity|]. replace (S k * N.to_nat m)%nat with (k * N.to_nat m + N.to_nat m)%nat by lia.
    rewrite A, asum_app, IH, asum_map. cbn [upto]. rewrite asum_app. f_equal. unfold asum at 2. cbn [fold_right].
    transitivity (asum (fun j => f (j + N.of_nat k * m)) (up m)); [|rewrite (Radd_comm (sr_ring K)), (Radd_0_l (sr_ring K)); reflexivity]. apply asum_ext. intros j _. f_equal. lia.
  Qed.
  Lemma norm_tensor a b (v w : vec) : norm2 (a + b) (tensor a v w) = (norm2 a v * norm2 b w)%amp.
  Proof.
    unfold norm2, basis. rewrite N.pow_add_r, N.mul_comm, N2Nat.inj_mul, asum_grid. rewrite <- asum_scale. apply asum_ext. intros i _.
    transitivity (asum (fun j => anorm (w i) * anorm (v j))%amp (up (2 ^ a))).
    2:{ rewrite asum_scale. ring. }
    - apply asum_ext. intros j Hj. apply up_in in Hj. unfold tensor. pose proof (N.pow_nonzero 2 a). rewrite N.mod_add, N.mod_small, N.div_add, N.div_small, N.add_0_l by (try exact Hj; lia). rewrite anorm_mul. ring.
  Qed.
  Lemma norm_slice a m (b : bool) v : m < a -> esup a m b v -> norm2 (a - 1) (slice m 1 (if b then 1 else 0) v) = norm2 a v.
  Proof.
    intros Hm HZ. set (p := if b then 1 else 0). assert (Hp : p < 2 ^ 1) by (destruct b; reflexivity).
    transitivity (asum (fun x => anorm (v x)) (filter (fun x => eqb (N.testbit x m) b) (basis a))).
    - unfold norm2, basis. change (fun x => anorm (slice m 1 p v x)) with (fun x => anorm (v (slice_ix m 1 p x))).
      rewrite <- (asum_map K (fun x => anorm (v x)) (slice_ix m 1 p)). apply asum_perm, NoDup_Permutation.
      + apply FinFun.Injective_map_NoDup; [|apply upto_nodup]. intros x y E. rewrite <- (outside_slice m 1 p x Hp), <- (outside_slice m 1 p y Hp), E. reflexivity.
      + apply NoDup_filter, upto_nodup.
      + intros x. rewrite in_map_iff, filter_In, up_in. split.
        * intros (y & <- & Hy). apply up_in in Hy. split; [replace a with (a - 1 + 1) by lia; apply slice_ix_lt; [lia|exact Hp|exact Hy]|].
          rewrite tb_slice_ix by exact Hp. destruct (N.ltb_spec m m); [lia|]. destruct (N.ltb_spec m (m + 1)); [|lia]. rewrite N.sub_diag. unfold p. destruct b; reflexivity.
        * intros [Hx Hb]. apply eqb_prop in Hb. exists (outside x m 1). split; [|apply up_in, outside_lt; [lia|replace (a - 1 + 1) with a by lia; exact Hx]].
          replace p with (get_reg x m 1); [apply slice_outside|]. apply N.bits_inj. intros j. rewrite tb_get_reg. destruct (N.ltb_spec j 1).
          -- assert (j = 0) by lia. subst j. rewrite N.add_0_l, Hb. unfold p. destruct b; reflexivity.
          -- symmetry. apply (tb_high p 1); [exact Hp|lia].
    - rewrite asum_filter. unfold norm2. apply asum_ext. intros x Hx. apply up_in in Hx. destruct (eqb (N.testbit x m) b) eqn:E; [reflexivity|].
      rewrite (HZ x Hx); [symmetry; apply anorm_0|]. intros F. rewrite F, eqb_reflx in E. discriminate.
  Qed.
  Lemma norm_one v : norm2 1 v = (anorm (v 0%N) + anorm (v 1%N))%amp.
  Proof. unfold norm2, basis. change (N.to_nat (2 ^ 1)) with 2%nat. unfold asum. cbn [upto app fold_right map N.of_nat Pos.of_succ_nat]. ring. Qed.
  Lemma norm_zero v : norm2 0 v = anorm (v 0%N).
  Proof. unfold norm2, basis. change (N.to_nat (2 ^ 0)) with 1%nat. unfold asum. cbn [upto app fold_right map N.of_nat Pos.of_succ_nat]. ring. Qed.
  Lemma tab_ok n (f : vec) y : y < 2 ^ n -> tab n f y = f y.
  Proof.
    intros Hy. unfold tab, basis. assert (E : y = nth (N.to_nat y) (up (2 ^ n)) 0).
    { assert (G : forall k i, (i < k)%nat -> nth i (upto k) 0 = N.of_nat i).
      { induction k as [|k IH]; intros i Hi; [lia|]. cbn [upto]. assert (Lk : length (upto k) = k) by (clear; induction k as [|k IH]; [reflexivity|cbn [upto]; rewrite app_length, IH; cbn; lia]).
        destruct (Nat.eq_dec i k) as [->|Hik]; [rewrite app_nth2, Lk, Nat.sub_diag by lia; reflexivity|]. rewrite app_nth1 by lia. apply IH. lia. }
      rewrite G by lia. lia. }
    assert (Lk : forall k, length (upto k) = k) by (induction k as [|k IH]; [reflexivity|cbn [upto]; rewrite app_length, IH; cbn; lia]).
    rewrite (nth_indep _ _ (f 0)) by (rewrite map_length, Lk; lia). rewrite map_nth, <- E. reflexivity.
  Qed.
  Lemma norm_tab n (f : vec) : norm2 n (tab n f) = norm2 n f.
  Proof. apply norm2_eqv. intros y Hy. apply tab_ok, Hy. Qed.

  (** ** Supports of engines *)
  Lemma esup_eqv a j b v w : (forall y, y < 2 ^ a -> w y = v y) -> esup a j b w <-> esup a j b v.
  Proof. intros E. split; intros H y Hy Hb; [rewrite <- E by exact Hy|rewrite E by exact Hy]; apply H; assumption. Qed.
  Lemma esup_apart a j b P t (m : M2) v : t < a -> j <> t -> esup a j b v -> esup a j b (gate1 P t m v).
  Proof.
    intros Ht Hj H y Hy Hb. unfold gate1.
    assert (E1 : v (N.clearbit y t) = 0%amp). { apply H; [apply clearbit_lt, Hy|]. rewrite tb_clearbit. destruct (N.eqb_spec t j); [congruence|]. cbn [negb]. rewrite andb_true_r. exact Hb. }
    assert (E2 : v (N.setbit y t) = 0%amp). { apply H; [apply setbit_lt; assumption|]. rewrite tb_setbit. destruct (N.eqb_spec t j); [congruence|]. exact Hb. }
    rewrite E1, E2, (H y Hy Hb). destruct (P y), (N.testbit y t); ring.
  Qed.
  Lemma esup_apart_iff a j b P t (m : M2) v : t < a -> j <> t -> indep P t -> unitary2 m -> esup a j b (gate1 P t m v) <-> esup a j b v.
  Proof.
    intros Ht Hj HP Um. split; [|apply esup_apart; assumption]. intros H. apply (esup_eqv a j b (gate1 P t (mdag m) (gate1 P t m v))).
    - intros y _. symmetry. apply gate1_inverse; assumption.
    - apply esup_apart; assumption.
  Qed.
  Lemma esup_diag a j b P (m : M2) v : diag m -> esup a j b v -> esup a j b (gate1 P j m v).
  Proof. intros [E1 E2] H y Hy Hb. unfold gate1. rewrite E1, E2, (H y Hy Hb). destruct (P y), (N.testbit y j); ring. Qed.
  Lemma esup_diag_iff a j b P (m : M2) v : diag m -> indep P j -> unitary2 m -> esup a j b (gate1 P j m v) <-> esup a j b v.
  Proof.
    intros D HP Um. split; [|apply esup_diag, D]. intros H. apply (esup_eqv a j b (gate1 P j (mdag m) (gate1 P j m v))).
    - intros y _. symmetry. apply gate1_inverse; assumption.
    - apply esup_diag; [apply diag_dag, D|exact H].
  Qed.
  Lemma esup_anti a j b (m : M2) v : j < a -> anti m -> esup a j b v -> esup a j (negb b) (gate1 always j m v).
  Proof.
    intros Hj [E1 E2] H y Hy Hb. unfold gate1, always. rewrite E1, E2.
    assert (E : N.testbit y j = b) by (destruct (N.testbit y j), b; cbn in Hb; congruence). rewrite E. destruct b.
    - rewrite (H (N.clearbit y j)); [ring|apply clearbit_lt, Hy|]. rewrite tb_clearbit, N.eqb_refl, andb_false_r. discriminate.
    - rewrite (H (N.setbit y j)); [ring|apply setbit_lt; assumption|]. rewrite tb_setbit, N.eqb_refl. discriminate.
  Qed.
  Lemma esup_anti_iff a j b (m : M2) v : j < a -> anti m -> unitary2 m -> esup a j (negb b) (gate1 always j m v) <-> esup a j b v.
  Proof.
    intros Hj D Um. split; [|apply esup_anti; assumption]. intros H. apply (esup_eqv a j b (gate1 always j (mdag m) (gate1 always j m v))).
    - intros y _. symmetry. apply gate1_inverse; [apply indep_always|exact Um].
    - rewrite <- (negb_involutive b). apply esup_anti; [exact Hj|apply anti_dag, D|exact H].
  Qed.
  (** ** Weights of engines *)
  Definition mask (j : N) (b : bool) v : vec := fun y => if eqb (N.testbit y j) b then v y else 0%amp.
  Definition wt (a j : N) (b : bool) v : K := norm2 a (mask j b v).
  Lemma wt_weight a j b v : wt a j b v = weight_of a (fun y => eqb (N.testbit y j) b) v.
  Proof. unfold wt, norm2, weight_of, mask. apply asum_ext. intros y _. destruct (eqb (N.testbit y j) b); [reflexivity|apply anorm_0]. Qed.
  Lemma wt_true a j v : wt a j true v = weight_of a (fun y => N.testbit y j) v.
  Proof. rewrite wt_weight. unfold weight_of. apply asum_ext. intros y _. destruct (N.testbit y j); reflexivity. Qed.
  Lemma wt_split a j v : (wt a j false v + wt a j true v = norm2 a v)%amp.
  Proof. rewrite (weight_split a (fun y => N.testbit y j) v), wt_true, wt_weight. rewrite (Radd_comm (sr_ring K)). reflexivity. Qed.
  Lemma wt_eqv a j b v w : (forall y, y < 2 ^ a -> w y = v y) -> wt a j b w = wt a j b v.
  Proof. intros E. apply norm2_eqv. intros y Hy. unfold mask. rewrite E by exact Hy. reflexivity. Qed.
  Lemma wt_apart a j b P t (m : M2) v : t < a -> j <> t -> indep P t -> unitary2 m -> wt a j b (gate1 P t m v) = wt a j b v.
  Proof.
    intros Ht Hj HP Um. unfold wt. rewrite <- (gate1_norm a P t m (mask j b v) Ht HP Um). apply norm2_eqv. intros y _. unfold mask, gate1.
    rewrite tb_clearbit, tb_setbit. destruct (N.eqb_spec t j); [congruence|]. cbn [negb orb]. rewrite andb_true_r. destruct (eqb (N.testbit y j) b); [reflexivity|]. destruct (P y), (N.testbit y t); ring.
  Qed.
  Lemma wt_diag a j b P (m : M2) v : j < a -> diag m -> indep P j -> unitary2 m -> wt a j b (gate1 P j m v) = wt a j b v.
  Proof.
    intros Hj [E1 E2] HP Um. unfold wt. rewrite <- (gate1_norm a P j m (mask j b v) Hj HP Um). apply norm2_eqv. intros y _. unfold mask, gate1. rewrite E1, E2.
    destruct (P y); [|reflexivity]. destruct (N.testbit y j) eqn:Ey, b; cbn [eqb]; try ring.
  Qed.
  Lemma wt_anti a j b (m : M2) v : j < a -> anti m -> unitary2 m -> wt a j (negb b) (gate1 always j m v) = wt a j b v.
  Proof.
    intros Hj [E1 E2] Um. unfold wt. rewrite <- (gate1_norm a always j m (mask j b v) Hj (indep_always j) Um). apply norm2_eqv. intros y _. unfold mask, gate1, always. rewrite E1, E2.
    rewrite tb_clearbit, tb_setbit, N.eqb_refl, andb_false_r. cbn [negb orb]. destruct (N.testbit y j) eqn:Ey, b; cbn [eqb negb]; ring.
  Qed.
  Lemma wt_slice a m (c : bool) v j b : m < a -> j <> m -> esup a m c v -> wt (a - 1) (if m <? j then j - 1 else j) b (slice m 1 (if c then 1 else 0) v) = wt a j b v.
  Proof.
    intros Hm Hjm HZ. set (p := if c then 1 else 0). assert (Hp : p < 2 ^ 1) by (destruct c; reflexivity).
    assert (TB : forall y, N.testbit (slice_ix m 1 p y) j = N.testbit y (if m <? j then j - 1 else j)).
    { intros y. rewrite tb_slice_ix by exact Hp. destruct (N.ltb_spec j m); [destruct (N.ltb_spec m j); [lia|reflexivity]|].
      destruct (N.ltb_spec m j); [|lia]. destruct (N.ltb_spec j (m + 1)); [lia|reflexivity]. }
    unfold wt. rewrite <- (norm_slice a m c (mask j b v) Hm).
    - apply norm2_eqv. intros y _. unfold mask. change (slice m 1 (if c then 1 else 0) (fun x => if eqb (N.testbit x j) b then v x else 0%amp) y) with (if eqb (N.testbit (slice_ix m 1 p y) j) b then v (slice_ix m 1 p y) else 0%amp).
      rewrite TB. reflexivity.
    - intros y Hy Hb. unfold mask. rewrite (HZ y Hy Hb). destruct (eqb (N.testbit y j) b); reflexivity.
  Qed.
  Lemma wt_esup a j b v : esup a j b v -> wt a j b v = norm2 a v.
  Proof.
    intros H. apply norm2_eqv. intros y Hy. unfold mask. destruct (eqb (N.testbit y j) b) eqn:E; [reflexivity|]. symmetry. apply H; [exact Hy|]. intros F. rewrite F, eqb_reflx in E. discriminate.
  Qed.
  Lemma wt_esup_0 a j b v : esup a j (negb b) v -> wt a j b v = 0%amp.
  Proof.
    intros H. unfold wt, norm2. transitivity (asum (fun _ : N => 0 : K)%amp (basis a)); [|apply asum_zero; reflexivity]. apply asum_ext. intros y Hy. unfold mask.
    destruct (eqb (N.testbit y j) b) eqn:E; [|apply anorm_0]. rewrite (H y); [apply anorm_0|apply up_in, Hy|]. intros F. rewrite F in E. destruct b; discriminate.
  Qed.
  Lemma unit_zero (c x : K) : unit1 c -> (c * x = 0)%amp <-> x = 0%amp.
  Proof.
    intros Hc. split; [|intros ->; ring]. intros E. transitivity (anorm c * x)%amp; [rewrite Hc; ring|]. unfold anorm.
    transitivity (sr_conj c * (c * x))%amp; [ring|]. rewrite E. ring.
  Qed.
  Lemma unitary_diag (m : M2) : unitary2 m -> diag m -> unit1 (m00 m) /\ unit1 (m11 m).
  Proof.
    intros Um [E1 E2]. unfold unitary2, mmul, mdag, midn in Um. destruct m as [p q r s]. cbn [m00 m01 m10 m11] in *. subst q r. injection Um as U1 _ _ U4. unfold anorm.
    split; [rewrite <- U1|rewrite <- U4]; ring.
  Qed.
  Lemma unitary_anti (m : M2) : unitary2 m -> anti m -> unit1 (m01 m) /\ unit1 (m10 m).
  Proof.
    intros Um [E1 E2]. unfold unitary2, mmul, mdag, midn in Um. destruct m as [p q r s]. cbn [m00 m01 m10 m11] in *. subst p s. injection Um as U1 _ _ U4. unfold anorm.
    split; [rewrite <- U4|rewrite <- U1]; ring.
  Qed.
  Lemma diag_unitary (x y : K) : unit1 x -> unit1 y -> unitary2 (mkMat x 0%amp 0%amp y).
  Proof.
    intros Hx Hy. unfold unitary2, mmul, mdag, midn. cbn [m00 m01 m10 m11]. rewrite conj_0. unfold anorm in Hx, Hy. apply mat2_eq; cbn [m00 m01 m10 m11]; try ring.
    - rewrite <- Hx. ring. - rewrite <- Hy. ring.
  Qed.
  Lemma anti_unitary (x y : K) : unit1 x -> unit1 y -> unitary2 (mkMat 0%amp x y 0%amp).
  Proof.
    intros Hx Hy. unfold unitary2, mmul, mdag, midn. cbn [m00 m01 m10 m11]. rewrite conj_0. unfold anorm in Hx, Hy. apply mat2_eq; cbn [m00 m01 m10 m11]; try ring.
    - rewrite <- Hy. ring. - rewrite <- Hx. ring.
  Qed.
End P.
