(** Composition of tableaus and disposal of a block. *)
From Coq Require Import NArith ZArith List Bool Lia Ring.
From Verif Require Import Amp PAmp Bits MFunctions MParFor MQCircuit MEngine MStab SpecState SpecStab SpecStab2 PStab1 PStab2 PStab3 PStab4 PStab5 PStab6 PStab7 PStab8 PGates2 PLoop PCompose.
Import ListNotations.
Local Open Scope N_scope.

Lemma tb_ins s len v j : N.testbit (insert_cols s len v) j = if j <? s then N.testbit v j else if j <? s + len then false else N.testbit v (j - len).
Proof.
  replace (insert_cols s len v) with (slice_ix s len 0 v) by (unfold slice_ix, insert_cols; lia). rewrite tb_slice_ix by apply pow2_pos. rewrite N.bits_0.
  destruct (j <? s); auto.
Qed.
Lemma tb_era s len v j : N.testbit (erase_cols s len v) j = if j <? s then N.testbit v j else N.testbit v (j + len).
Proof. apply tb_outside. Qed.
Lemma tb_pad s v j : N.testbit (v * 2 ^ s) j = if j <? s then false else N.testbit v (j - s).
Proof. rewrite tb_mul2. destruct (N.ltb_spec j s); destruct (N.leb_spec s j); try lia; reflexivity. Qed.

(** Sums over the three parts. *)
Lemma sumf_app f a b : sumf f (a + b) = sumf f a + sumf (fun j => f (N.of_nat a + j)) b.
Proof.
  induction b as [|b IH]; [rewrite Nat.add_0_r; cbn [sumf]; lia|]. rewrite Nat.add_succ_r. cbn [sumf]. rewrite IH, <- N.add_assoc. do 2 f_equal. f_equal. lia.
Qed.
Lemma sumf_zero k : sumf (fun _ => 0) k = 0. Proof. induction k as [|k IH]; cbn [sumf]; [reflexivity|rewrite IH; reflexivity]. Qed.
Lemma sx_app f a b : sx f (a + b) = xorb (sx f a) (sx (fun j => f (N.of_nat a + j)) b).
Proof.
  induction b as [|b IH]; [rewrite Nat.add_0_r; cbn [sx]; now rewrite xorb_false_r|]. rewrite Nat.add_succ_r. cbn [sx]. rewrite IH, xorb_assoc. do 3 f_equal. lia.
Qed.
Lemma sumf_out f g n m s : s <= n -> (forall j, j < s -> f j = g j) -> (forall j, j < m -> f (s + j) = 0) -> (forall j, j < n - s -> f (s + m + j) = g (s + j)) ->
  sumf f (N.to_nat (n + m)) = sumf g (N.to_nat n).
Proof.
  intros Hs A B C. replace (N.to_nat (n + m)) with (N.to_nat s + N.to_nat m + N.to_nat (n - s))%nat by lia. replace (N.to_nat n) with (N.to_nat s + N.to_nat (n - s))%nat by lia.
  rewrite !sumf_app. rewrite (sumf_ext f g) by (intros j Hj; apply A; lia). rewrite (sumf_ext (fun j => f (N.of_nat (N.to_nat s) + j)) (fun _ => 0)) by (intros j Hj; rewrite N2Nat.id; apply B; lia).
  rewrite sumf_zero, N.add_0_r. f_equal. apply sumf_ext. intros j Hj. replace (N.of_nat (N.to_nat s + N.to_nat m)) with (s + m) by lia. rewrite N2Nat.id. apply C. lia.
Qed.
Lemma sx_out f g n m s : s <= n -> (forall j, j < s -> f j = g j) -> (forall j, j < m -> f (s + j) = false) -> (forall j, j < n - s -> f (s + m + j) = g (s + j)) ->
  sx f (N.to_nat (n + m)) = sx g (N.to_nat n).
Proof.
  intros Hs A B C. replace (N.to_nat (n + m)) with (N.to_nat s + N.to_nat m + N.to_nat (n - s))%nat by lia. replace (N.to_nat n) with (N.to_nat s + N.to_nat (n - s))%nat by lia.
  rewrite !sx_app. rewrite (sx_ext f g) by (intros j Hj; apply A; lia). rewrite (sx_false (fun j => f (N.of_nat (N.to_nat s) + j))) by (intros j Hj; rewrite N2Nat.id; apply B; lia).
  rewrite xorb_false_r. f_equal. apply sx_ext. intros j Hj. replace (N.of_nat (N.to_nat s + N.to_nat m)) with (s + m) by lia. rewrite N2Nat.id. apply C. lia.
Qed.
Lemma sumf_in f g n m s : s <= n -> (forall j, j < s -> f j = 0) -> (forall j, j < m -> f (s + j) = g j) -> (forall j, j < n - s -> f (s + m + j) = 0) ->
  sumf f (N.to_nat (n + m)) = sumf g (N.to_nat m).
Proof.
  intros Hs A B C. replace (N.to_nat (n + m)) with (N.to_nat s + N.to_nat m + N.to_nat (n - s))%nat by lia. rewrite !sumf_app.
  rewrite (sumf_ext f (fun _ => 0)) by (intros j Hj; apply A; lia). rewrite (sumf_ext (fun j => f (N.of_nat (N.to_nat s + N.to_nat m) + j)) (fun _ => 0)) by (intros j Hj; replace (N.of_nat (N.to_nat s + N.to_nat m)) with (s + m) by lia; apply C; lia).
  rewrite !sumf_zero, N.add_0_l, N.add_0_r. apply sumf_ext. intros j Hj. rewrite N2Nat.id. apply B. lia.
Qed.
Lemma sx_in f g n m s : s <= n -> (forall j, j < s -> f j = false) -> (forall j, j < m -> f (s + j) = g j) -> (forall j, j < n - s -> f (s + m + j) = false) ->
  sx f (N.to_nat (n + m)) = sx g (N.to_nat m).
Proof.
  intros Hs A B C. replace (N.to_nat (n + m)) with (N.to_nat s + N.to_nat m + N.to_nat (n - s))%nat by lia. rewrite !sx_app.
  rewrite (sx_false f) by (intros j Hj; apply A; lia). rewrite (sx_false (fun j => f (N.of_nat (N.to_nat s + N.to_nat m) + j))) by (intros j Hj; replace (N.of_nat (N.to_nat s + N.to_nat m)) with (s + m) by lia; apply C; lia).
  rewrite xorb_false_l, xorb_false_r. apply sx_ext. intros j Hj. rewrite N2Nat.id. apply B. lia.
Qed.

(** A row acts outside the block [s, s+m), or inside it. *)
Definition clean_out (s m : N) (w : row) : Prop := forall j, s <= j -> j < s + m -> N.testbit (rx w) j = false /\ N.testbit (rz w) j = false.
Definition clean_in (s m : N) (w : row) : Prop := forall j, j < s \/ s + m <= j -> N.testbit (rx w) j = false /\ N.testbit (rz w) j = false.
Definition era (s m : N) (w : row) : row := map_row (erase_cols s m) w.
Definition cut (s m : N) (w : row) : row := map_row (fun v => (v / 2 ^ s) mod 2 ^ m) w.
Lemma tb_cut s m v j : N.testbit ((v / 2 ^ s) mod 2 ^ m) j = (j <? m) && N.testbit v (j + s).
Proof. now rewrite tb_mod2, tb_div2. Qed.
Lemma fit_era n s m w : s <= n -> fitrow (n + m) w -> fitrow n (era s m w).
Proof.
  intros Hs [A B]. split; cbn [era map_row rx rz]; apply lt_pow2_bits; intros j Hj; rewrite tb_era; (destruct (N.ltb_spec j s); [lia|]); [apply (tb_high _ (n + m)); auto; lia..].
Qed.
Lemma fit_cut m s w : fitrow m (cut s m w).
Proof. split; cbn [cut map_row rx rz]; apply N.mod_lt, pow2_nz. Qed.
Lemma sym_era n m s w v : s <= n -> clean_out s m w -> sym (n + m) w v = sym n (era s m w) (era s m v).
Proof.
  intros Hs C. unfold sym. apply (sx_out _ _ n m s); auto.
  - intros j Hj. unfold symj. cbn [era map_row rx rz]. rewrite !tb_era. replace (j <? s) with true by (symmetry; apply N.ltb_lt; auto). reflexivity.
  - intros j Hj. unfold symj. destruct (C (s + j)) as [C1 C2]; [lia|lia|]. rewrite C1, C2. reflexivity.
  - intros j Hj. unfold symj. cbn [era map_row rx rz]. rewrite !tb_era. replace (s + j <? s) with false by (symmetry; apply N.ltb_ge; lia). replace (s + j + m) with (s + m + j) by lia. reflexivity.
Qed.
Lemma sym_cut n m s w v : s <= n -> clean_in s m w -> sym (n + m) w v = sym m (cut s m w) (cut s m v).
Proof.
  intros Hs C. unfold sym. apply (sx_in _ _ n m s); auto.
  - intros j Hj. unfold symj. destruct (C j) as [C1 C2]; [lia|]. rewrite C1, C2. reflexivity.
  - intros j Hj. unfold symj. cbn [cut map_row rx rz]. rewrite !tb_cut. replace (j <? m) with true by (symmetry; apply N.ltb_lt; auto). rewrite (N.add_comm j s). reflexivity.
  - intros j Hj. unfold symj. destruct (C (s + m + j)) as [C1 C2]; [lia|]. rewrite C1, C2. reflexivity.
Qed.
Lemma sym_cross n m s w v : s <= n -> clean_out s m w -> clean_in s m v -> sym (n + m) w v = false.
Proof.
  intros Hs A B. apply sx_false. intros j Hj. unfold symj. destruct (N.lt_ge_cases j s) as [L|L]; [|destruct (N.lt_ge_cases j (s + m)) as [M|M]].
  - destruct (B j) as [B1 B2]; [lia|]. rewrite B1, B2. unfold sym1. now rewrite !andb_false_r.
  - destruct (A j) as [B1 B2]; [lia|lia|]. rewrite B1, B2. reflexivity.
  - destruct (B j) as [B1 B2]; [lia|]. rewrite B1, B2. unfold sym1. now rewrite !andb_false_r.
Qed.
Lemma phi_era n m s w y : s <= n -> clean_out s m w -> phi (n + m) (rx w) (rz w) y = phi n (rx (era s m w)) (rz (era s m w)) (outside y s m).
Proof.
  intros Hs C. unfold phi. apply (sumf_out _ _ n m s); auto.
  - intros j Hj. unfold phij. cbn [era map_row rx rz]. rewrite !tb_era, tb_outside. replace (j <? s) with true by (symmetry; apply N.ltb_lt; auto). reflexivity.
  - intros j Hj. unfold phij. destruct (C (s + j)) as [C1 C2]; [lia|lia|]. rewrite C1, C2. reflexivity.
  - intros j Hj. unfold phij. cbn [era map_row rx rz]. rewrite !tb_era, tb_outside. replace (s + j <? s) with false by (symmetry; apply N.ltb_ge; lia). replace (s + j + m) with (s + m + j) by lia. reflexivity.
Qed.
Lemma phi_cut n m s w y : s <= n -> clean_in s m w -> phi (n + m) (rx w) (rz w) y = phi m (rx (cut s m w)) (rz (cut s m w)) (get_reg y s m).
Proof.
  intros Hs C. unfold phi. apply (sumf_in _ _ n m s); auto.
  - intros j Hj. unfold phij. destruct (C j) as [C1 C2]; [lia|]. rewrite C1, C2. reflexivity.
  - intros j Hj. unfold phij. cbn [cut map_row rx rz]. rewrite !tb_cut, tb_get_reg. replace (j <? m) with true by (symmetry; apply N.ltb_lt; auto). cbn [andb]. rewrite (N.add_comm j s). reflexivity.
  - intros j Hj. unfold phij. destruct (C (s + m + j)) as [C1 C2]; [lia|]. rewrite C1, C2. reflexivity.
Qed.
(** Flipping bits outside, or inside, the block. *)
Lemma outside_lxor_out s m y x : outside (N.lxor y x) s m = N.lxor (outside y s m) (erase_cols s m x).
Proof. apply N.bits_inj. intros j. rewrite tb_lxor, !tb_outside, tb_era, !tb_lxor. destruct (j <? s); reflexivity. Qed.
Lemma reg_lxor_out s m y x : (forall j, s <= j -> j < s + m -> N.testbit x j = false) -> get_reg (N.lxor y x) s m = get_reg y s m.
Proof. intros H. apply N.bits_inj. intros j. rewrite !tb_get_reg, tb_lxor. destruct (N.ltb_spec j m); cbn [andb]; auto. rewrite H by lia. apply xorb_false_r. Qed.
Lemma reg_lxor s m y x : get_reg (N.lxor y x) s m = N.lxor (get_reg y s m) ((x / 2 ^ s) mod 2 ^ m).
Proof. apply N.bits_inj. intros j. rewrite tb_lxor, !tb_get_reg, tb_cut, tb_lxor. destruct (j <? m); reflexivity. Qed.
Lemma outside_lxor_in s m y x : (forall j, j < s \/ s + m <= j -> N.testbit x j = false) -> outside (N.lxor y x) s m = outside y s m.
Proof.
  intros H. apply N.bits_inj. intros j. rewrite !tb_outside, !tb_lxor. destruct (N.ltb_spec j s).
  - rewrite (H j) by lia. apply xorb_false_r.
  - rewrite (H (j + m)) by lia. apply xorb_false_r.
Qed.

Section K.
  Context {K : StarRing}.
  Add Ring KrAN : (sr_ring K).
  Variable im : K.
  Hypothesis Him : (im * im = - (1))%amp.
  Local Notation vec := (N -> K).
  Local Notation good := (good im).

  Lemma stab_out n m s w (a b : vec) : s <= n -> fitrow (n + m) w -> clean_out s m w -> stab im n (era s m w) a -> stab im (n + m) w (tensor_at s m a b).
  Proof.
    intros Hs F C S y Hy. change (rop im (n + m) w (tensor_at s m a b) y = tensor_at s m a b y). rewrite (rop_closed im Him) by auto. unfold tensor_at.
    rewrite outside_lxor_out, reg_lxor_out by (intros j H1 H2; now apply C). assert (A := S (outside y s m)).
    change (outside y s m < 2 ^ n -> rop im n (era s m w) a (outside y s m) = a (outside y s m)) in A. rewrite (rop_closed im Him) in A by now apply fit_era. rewrite (phi_era n m s) by auto.
    rewrite <- A; [cbn [era map_row rx rz rr]; ring|]. apply lt_pow2_bits. intros j Hj. rewrite tb_outside. destruct (N.ltb_spec j s); [lia|]. apply (tb_high _ (n + m)); auto. lia.
  Qed.
  Lemma stab_in n m s w (a b : vec) : s <= n -> fitrow (n + m) w -> clean_in s m w -> stab im m (cut s m w) b -> stab im (n + m) w (tensor_at s m a b).
  Proof.
    intros Hs F C S y Hy. change (rop im (n + m) w (tensor_at s m a b) y = tensor_at s m a b y). rewrite (rop_closed im Him) by auto. unfold tensor_at.
    rewrite reg_lxor, outside_lxor_in by (intros j H1; now apply C). assert (A := S (get_reg y s m)).
    change (get_reg y s m < 2 ^ m -> rop im m (cut s m w) b (get_reg y s m) = b (get_reg y s m)) in A. rewrite (rop_closed im Him) in A by apply fit_cut. rewrite (phi_cut n m s) by auto.
    rewrite <- A; [cbn [cut map_row rx rz rr]; ring|]. unfold get_reg. apply N.mod_lt, pow2_nz.
  Qed.
  (** The other way: slices. *)
  Lemma stab_slice n m s w v (psi : vec) : s <= n -> v < 2 ^ m -> fitrow (n + m) w -> clean_out s m w -> stab im (n + m) w psi -> stab im n (era s m w) (slice s m v psi).
  Proof.
    intros Hs Hv F C S x Hx. change (rop im n (era s m w) (slice s m v psi) x = slice s m v psi x). rewrite (rop_closed im Him) by now apply fit_era. unfold slice. fold (slice_ix s m v x).
    fold (slice_ix s m v (N.lxor x (rx (era s m w)))). assert (A := S (slice_ix s m v x) (slice_ix_lt s m v x n Hs Hv Hx)). change (rop im (n + m) w psi (slice_ix s m v x) = psi (slice_ix s m v x)) in A.
    rewrite (rop_closed im Him) in A by auto. rewrite (phi_era n m s) in A by auto. rewrite outside_slice in A by auto. rewrite <- A. cbn [era map_row rx rz rr]. do 2 f_equal.
    apply N.bits_inj. intros j. rewrite tb_lxor, !tb_slice_ix by auto. rewrite !tb_lxor, !tb_era. destruct (N.ltb_spec j s) as [L|L]; auto. destruct (N.ltb_spec j (s + m)) as [M|M].
    - destruct (C j) as [C1 _]; [lia|lia|]. rewrite C1. now rewrite xorb_false_r.
    - replace (j - m <? s) with false by (symmetry; apply N.ltb_ge; lia). replace (j - m + m) with j by lia. reflexivity.
  Qed.
  Definition block_slice (s m u : N) (psi : vec) : vec := fun v => slice s m v psi u.
  Lemma stab_block n m s w u (psi : vec) : s <= n -> u < 2 ^ n -> fitrow (n + m) w -> clean_in s m w -> stab im (n + m) w psi -> stab im m (cut s m w) (block_slice s m u psi).
  Proof.
    intros Hs Hu F C S v Hv. change (rop im m (cut s m w) (block_slice s m u psi) v = block_slice s m u psi v). rewrite (rop_closed im Him) by apply fit_cut. unfold block_slice, slice. fold (slice_ix s m v u).
    fold (slice_ix s m (N.lxor v (rx (cut s m w))) u). assert (A := S (slice_ix s m v u) (slice_ix_lt s m v u n Hs Hv Hu)). change (rop im (n + m) w psi (slice_ix s m v u) = psi (slice_ix s m v u)) in A.
    rewrite (rop_closed im Him) in A by auto. rewrite (phi_cut n m s) in A by auto. rewrite reg_slice in A by auto. rewrite <- A. cbn [cut map_row rx rz rr]. do 2 f_equal.
    assert (B : (rx w / 2 ^ s) mod 2 ^ m < 2 ^ m) by apply N.mod_lt, pow2_nz.
    apply N.bits_inj. intros j. rewrite tb_lxor, !tb_slice_ix by (auto; now apply lxor_lt_pow2). rewrite !tb_lxor, tb_cut. destruct (N.ltb_spec j s) as [L|L].
    - destruct (C j) as [C1 _]; [lia|]. rewrite C1. now rewrite xorb_false_r.
    - destruct (N.ltb_spec j (s + m)) as [M|M].
      + replace (j - s <? m) with true by (symmetry; apply N.ltb_lt; lia). replace (j - s + s) with j by lia. reflexivity.
      + destruct (C j) as [C1 _]; [lia|]. rewrite C1. now rewrite xorb_false_r.
  Qed.
End K.
