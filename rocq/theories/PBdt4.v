(** QBdt: the loops of Mtrx and of the controlled gates. *)
From Coq Require Import NArith Arith List Bool Lia Ring Permutation.
From Verif Require Import Amp PAmp PGates2 PAlu SpecState MBdt SpecBdt PBdt1 PBdt2 PBdt3.
Import ListNotations.
Local Open Scope N_scope.

(** ** Indices *)
Lemma bits_cat a b n i : b < 2 ^ n -> N.testbit (a * 2 ^ n + b) i = if i <? n then N.testbit b i else N.testbit a (i - n).
Proof.
  intros H. assert (P : 2 ^ n <> 0) by (apply N.pow_nonzero; discriminate). destruct (N.ltb_spec i n) as [L|G].
  - rewrite <- (N.mod_pow2_bits_low (a * 2 ^ n + b) n i L). rewrite N.add_comm, N.mod_add, N.mod_small by assumption. reflexivity.
  - replace i with (i - n + n) at 1 by lia. rewrite <- N.div_pow2_bits. rewrite N.add_comm, N.div_add, N.div_small by assumption. reflexivity.
Qed.
Lemma lt_pow2_bits b n : (forall i, n <= i -> N.testbit b i = false) -> b < 2 ^ n.
Proof.
  intros H. destruct (N.lt_ge_cases b (2 ^ n)) as [L|G]; [exact L|]. exfalso. assert (B0 : b <> 0) by (intros ->; pose proof (N.pow_nonzero 2 n); lia).
  pose proof (N.bit_log2 b B0) as E. rewrite H in E; [discriminate|]. apply N.log2_le_pow2; lia.
Qed.
Lemma bits_high b n i : b < 2 ^ n -> n <= i -> N.testbit b i = false.
Proof. intros H L. destruct (N.eq_dec b 0) as [->|B0]; [apply N.bits_0|]. apply N.bits_above_log2. apply N.lt_le_trans with n; [apply N.log2_lt_pow2; lia|exact L]. Qed.
Lemma lor_small b d n : b < 2 ^ n -> d < 2 ^ n -> N.lor b d < 2 ^ n.
Proof. intros H1 H2. apply lt_pow2_bits. intros i L. rewrite N.lor_spec, !(bits_high _ n i) by assumption. reflexivity. Qed.
Lemma lor_cat a b c d n : b < 2 ^ n -> d < 2 ^ n -> N.lor (a * 2 ^ n + b) (c * 2 ^ n + d) = N.lor a c * 2 ^ n + N.lor b d.
Proof. intros H1 H2. apply N.bits_inj. intros i. rewrite N.lor_spec, !bits_cat by (try apply lor_small; assumption). destruct (i <? n); rewrite N.lor_spec; reflexivity. Qed.
Lemma cat_of x n : exists a b, b < 2 ^ n /\ x = a * 2 ^ n + b.
Proof. exists (x / 2 ^ n), (x mod 2 ^ n). split; [apply N.mod_lt, N.pow_nonzero; discriminate|]. rewrite N.mul_comm. apply N.div_mod, N.pow_nonzero. discriminate. Qed.
Lemma cat_inj a b c d n : b < 2 ^ n -> d < 2 ^ n -> a * 2 ^ n + b = c * 2 ^ n + d -> a = c /\ b = d.
Proof. intros H1 H2 E. assert (a = c) by nia. subst. lia. Qed.
Lemma land_ge x m : N.land x m = m -> m <= x.
Proof. intros E. rewrite <- E. apply N.ldiff_le. apply N.bits_inj. intros i. rewrite N.ldiff_spec, N.land_spec, N.bits_0. destruct (N.testbit x i), (N.testbit m i); reflexivity. Qed.

(** The loop with positive controls. *)
Section Pos.
  Variable M : N.
  Definition hit (j : N) : bool := N.eqb (N.land j M) M.
  Definition Ipos (j : N) : Prop := forall p, N.testbit M p = true -> N.testbit j p = false -> j mod 2 ^ p = 0.
  Lemma hit_bits j : hit j = true <-> forall p, N.testbit M p = true -> N.testbit j p = true.
  Proof.
    unfold hit. rewrite N.eqb_eq. split.
    - intros E p Hp. rewrite <- E, N.land_spec in Hp. apply andb_prop in Hp. apply Hp.
    - intros H. apply N.bits_inj. intros p. rewrite N.land_spec. specialize (H p). destruct (N.testbit M p); [rewrite H by reflexivity; reflexivity|apply andb_false_r].
  Qed.
  Lemma pos_miss j : Ipos j -> hit j = false -> hit (N.lor j (M - 1) + 1) = true /\ (forall x, j <= x -> x <= N.lor j (M - 1) -> hit x = false).
  Proof.
    intros I0 H. set (D := N.ldiff M j). assert (D0 : D <> 0).
    { intros E. assert (hit j = true); [|congruence]. apply hit_bits. intros p Hp. destruct (N.testbit j p) eqn:Ej; [reflexivity|]. assert (N.testbit D p = true) by (unfold D; rewrite N.ldiff_spec, Hp, Ej; reflexivity). rewrite E, N.bits_0 in H0. discriminate. }
    set (p := N.log2 D). assert (Dp : N.testbit D p = true) by (apply N.bit_log2, D0). assert (Da : forall i, p < i -> N.testbit D i = false) by (intros i L; apply N.bits_above_log2, L).
    unfold D in Dp, Da. rewrite N.ldiff_spec in Dp. apply andb_prop in Dp. destruct Dp as [Mp Jp]. apply negb_true_iff in Jp. clearbody p. clear D D0.
    destruct (cat_of M (p + 1)) as (M1 & R & HR & EM). destruct (cat_of j (p + 1)) as (J & r & Hr & EJ).
    assert (r = 0).
    { apply N.bits_inj. intros i. rewrite N.bits_0. destruct (N.lt_ge_cases i p) as [L|G].
      - assert (E : N.testbit j i = false). { rewrite <- (N.mod_pow2_bits_low j p i L). rewrite (I0 p Mp Jp). apply N.bits_0. }
        rewrite EJ, bits_cat in E by exact Hr. destruct (N.ltb_spec i (p + 1)); [exact E|lia].
      - destruct (N.eq_dec i p) as [->|NE]; [rewrite EJ, bits_cat in Jp by exact Hr; destruct (N.ltb_spec p (p + 1)); [exact Jp|lia]|]. apply (bits_high r (p + 1)); [exact Hr|lia]. }
    subst r. assert (R1 : R <> 0). { intros ->. rewrite EM, bits_cat in Mp by exact HR. destruct (N.ltb_spec p (p + 1)); [rewrite N.bits_0 in Mp; discriminate|lia]. }
    assert (JM : N.lor J M1 = J).
    { apply N.bits_inj. intros i. rewrite N.lor_spec. destruct (N.testbit J i) eqn:E1; [reflexivity|]. cbn. specialize (Da (i + (p + 1)) ltac:(lia)). rewrite N.ldiff_spec, EM, EJ, !bits_cat in Da by assumption.
      destruct (N.ltb_spec (i + (p + 1)) (p + 1)); [lia|]. replace (i + (p + 1) - (p + 1)) with i in Da by lia. rewrite E1 in Da. rewrite andb_true_r in Da. exact Da. }
    assert (V : N.lor j (M - 1) = J * 2 ^ (p + 1) + (R - 1)). { rewrite EJ, EM. replace (M1 * 2 ^ (p + 1) + R - 1) with (M1 * 2 ^ (p + 1) + (R - 1)) by lia. rewrite lor_cat by lia. rewrite JM, N.lor_0_l. reflexivity. }
    assert (G : forall y, y < 2 ^ (p + 1) -> hit (J * 2 ^ (p + 1) + y) = true <-> N.land y R = R).
    { intros y Hy. rewrite hit_bits. split.
      - intros HH. apply N.bits_inj. intros i. rewrite N.land_spec. destruct (N.testbit R i) eqn:E; [|apply andb_false_r]. rewrite andb_true_r.
        assert (L : i < p + 1) by (destruct (N.lt_ge_cases i (p + 1)) as [L|L]; [exact L|rewrite (bits_high R (p + 1)) in E by assumption; discriminate]).
        specialize (HH i). rewrite EM, !bits_cat in HH by assumption. destruct (N.ltb_spec i (p + 1)); [apply HH, E|lia].
      - intros HH i. rewrite EM, !bits_cat by assumption. destruct (N.ltb_spec i (p + 1)); intros E.
        + rewrite <- HH, N.land_spec in E. apply andb_prop in E. apply E.
        + rewrite <- JM, N.lor_spec, E. apply orb_true_r. }
    split.
    - rewrite V. replace (J * 2 ^ (p + 1) + (R - 1) + 1) with (J * 2 ^ (p + 1) + R) by lia. apply G; [exact HR|apply N.land_diag].
    - intros x X1 X2. rewrite V in X2. rewrite EJ in X1. destruct (hit x) eqn:E; [|reflexivity]. exfalso. replace x with (J * 2 ^ (p + 1) + (x - J * 2 ^ (p + 1))) in E by lia.
      apply G in E; [|lia]. apply land_ge in E. lia.
  Qed.
  Lemma pos_skip j : Ipos j -> hit j = false -> Ipos (N.lor j (M - 1) + 1) /\ (forall x, j <= x -> x <= N.lor j (M - 1) -> hit x = false).
  Proof. intros I0 H. destruct (pos_miss j I0 H) as [H1 H2]. split; [|exact H2]. intros p Hp Hj. rewrite (proj1 (hit_bits _) H1 p Hp) in Hj. discriminate. Qed.
  Lemma succ_bit u b : N.testbit u b = true -> N.testbit (u + 1) b = false -> (u + 1) mod 2 ^ b = 0.
  Proof.
    intros H1 H2. destruct (cat_of u b) as (a & r & Hr & E). destruct (N.eq_dec (r + 1) (2 ^ b)) as [E1|NE].
    - rewrite E. replace (a * 2 ^ b + r + 1) with ((a + 1) * 2 ^ b) by lia. apply N.mod_mul, N.pow_nonzero. discriminate.
    - exfalso. rewrite E in H1, H2. rewrite <- N.add_assoc in H2. rewrite bits_cat in H1, H2 by lia. rewrite N.ltb_irrefl in H1, H2. congruence.
  Qed.
  Lemma pos_next j a : hit j = true -> Ipos (N.lor j (2 ^ N.of_nat a - 1) + 1).
  Proof. intros H p Hp Hq. apply succ_bit; [|exact Hq]. rewrite N.lor_spec, (proj1 (hit_bits _) H p Hp). reflexivity. Qed.
End Pos.

(** The loop with negative controls: right when they are adjacent. *)
Section Neg.
  Variables a w : N.
  Hypothesis W : 0 < w.
  Let M := (2 ^ w - 1) * 2 ^ a.
  Lemma neg_hit x : N.eqb (N.land x M) 0 = true <-> forall i, a <= i -> i < a + w -> N.testbit x i = false.
  Proof.
    assert (B : forall i, N.testbit M i = (a <=? i) && (i <? a + w)).
    { intros i. unfold M. replace ((2 ^ w - 1) * 2 ^ a) with ((2 ^ w - 1) * 2 ^ a + 0) by lia. rewrite bits_cat by (apply N.neq_0_lt_0, N.pow_nonzero; discriminate). rewrite N.sub_1_r, <- N.ones_equiv.
      destruct (N.ltb_spec i a), (N.leb_spec a i); try lia; cbn [andb]; [apply N.bits_0|]. destruct (N.ltb_spec i (a + w)); [apply N.ones_spec_low; lia|apply N.ones_spec_high; lia]. }
    rewrite N.eqb_eq. split.
    - intros E i H1 H2. assert (E' : N.testbit (N.land x M) i = false) by (rewrite E; apply N.bits_0). rewrite N.land_spec, B in E'. apply N.leb_le in H1. apply N.ltb_lt in H2. rewrite H1, H2 in E'. cbn in E'. rewrite andb_true_r in E'. exact E'.
    - intros H. apply N.bits_inj. intros i. rewrite N.land_spec, B, N.bits_0. destruct (N.leb_spec a i); [|apply andb_false_r]. destruct (N.ltb_spec i (a + w)); [|apply andb_false_r]. rewrite H by assumption. reflexivity.
  Qed.
  Lemma neg_skip j : N.eqb (N.land j M) 0 = false -> forall x, j <= x -> x <= N.lor j (M - 1) -> N.eqb (N.land x M) 0 = false.
  Proof.
    intros H x X1 X2. assert (P : 2 ^ (a + w) = 2 ^ w * 2 ^ a) by (rewrite N.add_comm, N.pow_add_r; reflexivity). assert (PA : 2 ^ a <> 0) by (apply N.pow_nonzero; discriminate). assert (PW : 2 ^ w <> 0) by (apply N.pow_nonzero; discriminate).
    assert (ML : M - 1 < 2 ^ (a + w)) by (rewrite P; unfold M; nia). destruct (cat_of j (a + w)) as (J & r & Hr & EJ).
    assert (RA : 2 ^ a <= r).
    { destruct (N.lt_ge_cases r (2 ^ a)) as [L|G]; [|exact G]. exfalso. assert (N.eqb (N.land j M) 0 = true); [|congruence]. apply neg_hit. intros i H1 H2. rewrite EJ, bits_cat by exact Hr. destruct (N.ltb_spec i (a + w)); [|lia]. apply (bits_high r a); assumption. }
    assert (V : N.lor j (M - 1) = J * 2 ^ (a + w) + N.lor r (M - 1)). { rewrite EJ. replace (M - 1) with (0 * 2 ^ (a + w) + (M - 1)) at 1 by lia. rewrite lor_cat by assumption. rewrite N.lor_0_r. reflexivity. }
    pose proof (lor_small r (M - 1) (a + w) Hr ML) as LL. rewrite V in X2. destruct (N.eqb (N.land x M) 0) eqn:E; [|reflexivity]. exfalso. pose proof (proj1 (neg_hit x) E) as E'. replace x with (J * 2 ^ (a + w) + (x - J * 2 ^ (a + w))) in E' by lia.
    set (y := x - J * 2 ^ (a + w)) in *. assert (Y1 : 2 ^ a <= y) by lia. assert (Y2 : y < 2 ^ (a + w)) by lia. assert (Y3 : y < 2 ^ a).
    { apply lt_pow2_bits. intros i L. destruct (N.lt_ge_cases i (a + w)) as [L2|G2]; [|apply (bits_high y (a + w)); assumption]. specialize (E' i L L2). rewrite bits_cat in E' by exact Y2. destruct (N.ltb_spec i (a + w)); [exact E'|lia]. }
    lia.
  Qed.
End Neg.

(** The mask of the controls. *)
Definition cmask_of (k : N) (cs : list N) : N := fold_left (fun a c => N.lor a (2 ^ (k - (c + 1)))) cs 0.
Lemma cmask_bit k cs i : N.testbit (cmask_of k cs) i = existsb (fun c => (k - (c + 1)) =? i) cs.
Proof.
  unfold cmask_of. assert (G : forall a, N.testbit (fold_left (fun a c => N.lor a (2 ^ (k - (c + 1)))) cs a) i = N.testbit a i || existsb (fun c => (k - (c + 1)) =? i) cs).
  { induction cs as [|c cs IH]; intros a; cbn; [rewrite orb_false_r; reflexivity|]. rewrite IH, N.lor_spec, N.pow2_bits_eqb, orb_assoc. reflexivity. }
  rewrite G, N.bits_0. reflexivity.
Qed.
Lemma rv_bit k : forall x i, N.testbit (rv k x) i = (i <? N.of_nat k) && N.testbit x (N.of_nat k - 1 - i).
Proof.
  induction k as [|k IH]; intros x i; [cbn [rv]; rewrite N.bits_0; destruct (N.ltb_spec i (N.of_nat 0)); [lia|reflexivity]|]. cbn [rv].
  replace ((if N.odd x then 2 ^ N.of_nat k else 0) + rv k (N.div2 x)) with ((if N.odd x then 1 else 0) * 2 ^ N.of_nat k + rv k (N.div2 x)) by (destruct (N.odd x); lia).
  rewrite bits_cat by apply rv_lt. rewrite IH, Nat2N.inj_succ. destruct (N.ltb_spec i (N.of_nat k)) as [L|G]; cbn [andb].
  - replace (i <? N.succ (N.of_nat k)) with true by (symmetry; apply N.ltb_lt; lia). cbn [andb]. rewrite N.div2_spec, N.shiftr_spec' by lia. f_equal. lia.
  - destruct (N.ltb_spec i (N.succ (N.of_nat k))) as [L|G2]; cbn [andb].
    + replace i with (N.of_nat k) by lia. replace (N.of_nat k - N.of_nat k) with 0 by lia. replace (N.succ (N.of_nat k) - 1 - N.of_nat k) with 0 by lia. rewrite (N.bit0_odd x). destruct (N.odd x); reflexivity.
    + destruct (N.odd x); [|apply N.bits_0]. apply (bits_high 1 1); [reflexivity|lia].
Qed.
Lemma rv_pos k cs x : (forall c, In c cs -> c < N.of_nat k) -> hit (cmask_of (N.of_nat k) cs) (rv k x) = all_set cs x.
Proof.
  intros H. apply eq_true_iff_eq. rewrite hit_bits. unfold all_set. rewrite forallb_forall. split.
  - intros G c Hc. specialize (H c Hc). specialize (G (N.of_nat k - (c + 1))). rewrite cmask_bit, rv_bit in G. replace (N.of_nat k - 1 - (N.of_nat k - (c + 1))) with c in G by lia.
    assert (E : existsb (fun c0 => N.of_nat k - (c0 + 1) =? N.of_nat k - (c + 1)) cs = true) by (apply existsb_exists; exists c; split; [exact Hc|apply N.eqb_refl]). specialize (G E). apply andb_prop in G. apply G.
  - intros G p Hp. rewrite cmask_bit in Hp. apply existsb_exists in Hp. destruct Hp as (c & Hc & E). apply N.eqb_eq in E. specialize (H c Hc). rewrite rv_bit. replace (p <? N.of_nat k) with true by (symmetry; apply N.ltb_lt; lia). replace (N.of_nat k - 1 - p) with c by lia. apply G, Hc.
Qed.
Lemma rv_neg k cs x : (forall c, In c cs -> c < N.of_nat k) -> N.eqb (N.land (rv k x) (cmask_of (N.of_nat k) cs)) 0 = all_clear cs x.
Proof.
  intros H. apply eq_true_iff_eq. rewrite N.eqb_eq. unfold all_clear. rewrite forallb_forall. split.
  - intros G c Hc. specialize (H c Hc). assert (E : N.testbit (N.land (rv k x) (cmask_of (N.of_nat k) cs)) (N.of_nat k - (c + 1)) = false) by (rewrite G; apply N.bits_0). rewrite N.land_spec, cmask_bit, rv_bit in E.
    replace (existsb _ cs) with true in E by (symmetry; apply existsb_exists; exists c; split; [exact Hc|apply N.eqb_refl]). replace (N.of_nat k - (c + 1) <? N.of_nat k) with true in E by (symmetry; apply N.ltb_lt; lia).
    replace (N.of_nat k - 1 - (N.of_nat k - (c + 1))) with c in E by lia. rewrite andb_true_r in E. cbn in E. rewrite E. reflexivity.
  - intros G. apply N.bits_inj. intros p. rewrite N.land_spec, cmask_bit, rv_bit, N.bits_0. destruct (existsb _ cs) eqn:E; [|apply andb_false_r]. apply existsb_exists in E. destruct E as (c & Hc & E). apply N.eqb_eq in E. specialize (H c Hc). specialize (G c Hc).
    replace (N.of_nat k - 1 - p) with c by lia. apply negb_true_iff in G. rewrite G, andb_false_r. reflexivity.
Qed.

Lemma cmask_adj k cs : (forall c, In c cs -> c < k) -> adjacent cs -> exists a w, 0 < w /\ cmask_of k cs = (2 ^ w - 1) * 2 ^ a.
Proof.
  intros H (lo & w & W & E). assert (L : lo + w <= k) by (specialize (H (lo + w - 1)); rewrite E in H; lia). exists (k - (lo + w)), w. split; [exact W|]. apply N.bits_inj. intros i. rewrite cmask_bit.
  replace ((2 ^ w - 1) * 2 ^ (k - (lo + w))) with ((2 ^ w - 1) * 2 ^ (k - (lo + w)) + 0) by lia. rewrite bits_cat by (apply N.neq_0_lt_0, N.pow_nonzero; discriminate). rewrite N.sub_1_r, <- N.ones_equiv, N.bits_0.
  apply eq_true_iff_eq. rewrite existsb_exists. split.
  - intros (c & Hc & Ei). apply N.eqb_eq in Ei. apply E in Hc. destruct (N.ltb_spec i (k - (lo + w))); [lia|]. apply N.ones_spec_low. lia.
  - destruct (N.ltb_spec i (k - (lo + w))) as [|G]; [discriminate|]. intros T. destruct (N.lt_ge_cases (i - (k - (lo + w))) w) as [L2|G2]; [|rewrite N.ones_spec_high in T by exact G2; discriminate].
    exists (k - 1 - i). split; [apply E; lia|]. apply N.eqb_eq. lia.
Qed.

Section B.
  Context {K : StarRing} (A : Arith K).
  Hypothesis EA : exact_arith A.
  Hypothesis PS : positive_sums (K := K).
  Add Ring KrCU : (sr_ring K).
  Local Open Scope amp_scope.
  Local Notation bdt := (@bdt K).
  Local Notation qbdt := (@qbdt K).

  Lemma prune_null k (t : bdt) : is_null t = false -> is_null (prune A k t) = false.
  Proof.
    intros H. destruct t as [|s l r]; [discriminate|]. destruct k as [|k]; [reflexivity|]. cbn [prune]. destruct (is_null l); [reflexivity|]. unfold prune_top, normalize1. destruct (is_null (prune A k l)); [cbn; rewrite ?is0_0; cbn; repeat (destruct (is0 _)); reflexivity|].
    destruct (is0 _); [reflexivity|]. destruct (is0 _); reflexivity.
  Qed.
  Lemma leaf_null m e (t : bdt) : is_null t = false -> is_null (leaf_gate A m e t) = false.
  Proof.
    intros H. unfold leaf_gate. destruct (is_null (br t false) || is_null (br t true)); [reflexivity|]. unfold apply2x2. destruct e as [|e]; [exact H|]. destruct (is0 (m01 m) && is0 (m10 m)); [apply prune_null; reflexivity|]. destruct (is0 (m00 m) && is0 (m11 m)); [apply prune_null; reflexivity|].
    destruct (push _ _ _ _ _) as [l' r']. apply prune_null. reflexivity.
  Qed.
  Lemma leaf_gate_ok m e : unitary2 m -> leaf_ok e m (leaf_gate A m (S e)).
  Proof.
    intros U t H. unfold leaf_gate. destruct t as [|s l r]; [destruct H|]. pose proof H as H0. cbn in H. destruct H as [(-> & -> & ->)|(N & H1 & H2 & E)].
    - cbn [br is_null orb]. split; [exact H0|]. split; [reflexivity|]. split; [tauto|]. intros x. unfold gate1, always. rewrite !(val_0 _ zero_node), !(val_0 _ (BNode 0 BNull BNull)) by reflexivity. destruct (N.testbit x 0); ring.
    - cbn [br]. rewrite (tight_null _ _ H1), (tight_null _ _ H2). cbn [orb]. destruct (apply2x2_ok A EA PS m e (BNode s l r) U H0 N) as (T1 & T2 & T3 & T4 & T5). split; [exact T1|]. split; [exact T2|]. split; [intros _; exact T3|].
      intros x. unfold gate1, always. destruct (two_cases x) as [Ex|Ex]; rewrite Ex.
      + rewrite T4. unfold mix0. replace (N.testbit (N.double (N.div2 x)) 0) with false by (rewrite bits_d; reflexivity).
        replace (N.clearbit (N.double (N.div2 x)) 0) with (N.double (N.div2 x)). 2:{ apply N.bits_inj. intros i. rewrite N.clearbit_eqb, !bits_d. destruct (N.eqb_spec 0 i); destruct (N.eqb_spec i 0); try lia; cbn; rewrite ?andb_true_r; reflexivity. }
        replace (N.setbit (N.double (N.div2 x)) 0) with (N.succ_double (N.div2 x)). 2:{ apply N.bits_inj. intros i. rewrite N.setbit_eqb, bits_d, bits_s. destruct (N.eqb_spec 0 i); destruct (N.eqb_spec i 0); try lia; cbn; reflexivity. }
        reflexivity.
      + rewrite T5. unfold mix1. replace (N.testbit (N.succ_double (N.div2 x)) 0) with true by (rewrite bits_s; reflexivity).
        replace (N.clearbit (N.succ_double (N.div2 x)) 0) with (N.double (N.div2 x)). 2:{ apply N.bits_inj. intros i. rewrite N.clearbit_eqb, bits_s, bits_d. destruct (N.eqb_spec 0 i); destruct (N.eqb_spec i 0); try lia; cbn; rewrite ?andb_true_r; reflexivity. }
        replace (N.setbit (N.succ_double (N.div2 x)) 0) with (N.succ_double (N.div2 x)). 2:{ apply N.bits_inj. intros i. rewrite N.setbit_eqb, bits_s. destruct (N.eqb_spec 0 i); destruct (N.eqb_spec i 0); try lia; cbn; reflexivity. }
        reflexivity.
  Qed.

  (** The tree of a simulator. *)
  Definition fit (B : qbdt) : Prop := tight (N.to_nat (bt_n B)) (bt_root B) /\ scl (bt_root B) <> 0.
  Definition amp (B : qbdt) (x : N) : K := val (N.to_nat (bt_n B)) (bt_root B) x.
  (** The simulator [B'] holds the state [psi]. *)
  Definition holds (B B' : qbdt) (psi : N -> K) : Prop :=
    fit B' /\ bt_n B' = bt_n B /\ bt_rgp B' = bt_rgp B /\ anorm (scl (bt_root B')) = anorm (scl (bt_root B)) /\ forall x, amp B' x = psi x.

  Lemma loop_holds (B : qbdt) (M : N -> bool) skip (I : N -> Prop) m (q : N) : fit B -> (q < bt_n B)%N -> unitary2 m -> I 0%N ->
    (forall j, I j -> M j = false -> I (N.lor j skip + 1)%N /\ (forall x, (j <= x)%N -> (x <= N.lor j skip)%N -> M x = false)) ->
    (forall j a, I j -> M j = true -> I (N.lor j (2 ^ N.of_nat a - 1) + 1)%N) ->
    holds B (set_root (par_for_qbdt A q (fun i t => if negb (M i) then (skip, t) else at_leaf (N.to_nat q) i (leaf_gate A m (N.to_nat (bt_n B - q))) t) (bt_root B)) B)
      (gate1 (fun x => M (rv (N.to_nat q) x)) q m (amp B)).
  Proof.
    intros [T N] Hq U I0 Hs Hn. unfold par_for_qbdt, holds, fit, amp. cbn [bt_n bt_root bt_rgp set_root]. set (k := N.to_nat q). set (e := (N.to_nat (bt_n B) - k - 1)%nat).
    replace (N.to_nat (bt_n B - q)) with (S e) by lia. assert (ED : N.to_nat (bt_n B) = (k + S e)%nat) by lia. rewrite ED in *. rewrite (branch_tight A k (k + S e)) by (assumption || lia).
    assert (EL : par_loop (N.to_nat (2 ^ q)) (2 ^ q) 0 (fun i t => if negb (M i) then (skip, t) else at_leaf k i (leaf_gate A m (S e)) t) (bt_root B) = upd k M (leaf_gate A m (S e)) (bt_root B)).
    { replace q with (N.of_nat k) by lia. rewrite <- (loop_ok k M skip (leaf_gate A m (S e)) I) with (fuel := N.to_nat (2 ^ N.of_nat k)) (j := 0%N).
      - rewrite (upd_ext _ k (fun i => (i <? 0)%N && M i) (fun _ => false)); [rewrite upd_none; reflexivity|]. intros i _ _. destruct (N.ltb_spec i 0); [lia|reflexivity].
      - intros t. apply leaf_null.
      - intros j _. apply Hs.
      - intros j a _ _. apply Hn.
      - apply (tight_sym k (k + S e)); [lia|exact T].
      - exact I0.
      - lia. }
    rewrite EL. destruct (upd_ok e m _ (leaf_gate_ok m e U) k M (bt_root B) T) as (A1 & A2 & A3 & A4). cbn zeta in *.
    destruct (prune_ok A EA PS k (k + S e) _ (tight_loose k (k + S e) _ ltac:(lia) A1)) as (P1 & P2 & P3 & P4).
    split; [split; [apply semi_tight; [exact P1|apply P3, A3, N]|apply P3, A3, N]|]. split; [reflexivity|]. split; [reflexivity|]. split; [rewrite P2; exact A2|].
    intros x. rewrite P4, A4. replace (N.of_nat k) with q by lia. reflexivity.
  Qed.
  Lemma holds_ext (B B' : qbdt) psi phi : (forall x, psi x = phi x) -> holds B B' psi -> holds B B' phi.
  Proof. intros E (H1 & H2 & H3 & H4 & H5). repeat (split; [assumption|]). intros x. rewrite H5. apply E. Qed.
  Lemma holds_refl (B : qbdt) psi : fit B -> (forall x, amp B x = psi x) -> holds B B psi.
  Proof. intros H E. split; [exact H|]. split; [reflexivity|]. split; [reflexivity|]. split; [reflexivity|exact E]. Qed.
  Lemma gate1_cond P Q t m (psi : N -> K) x : P x = Q x -> gate1 P t m psi x = gate1 Q t m psi x.
  Proof. unfold gate1. intros ->. reflexivity. Qed.
  Lemma gate1_amp P t m (psi phi : N -> K) x : (forall x, psi x = phi x) -> gate1 P t m psi x = gate1 P t m phi x.
  Proof. intros E. unfold gate1. rewrite !E. reflexivity. Qed.

  (** Mtrx, when it is not skipped. *)
  Definition skipped (m : mat2 K) (B : qbdt) : bool := is0 (m01 m) && is0 (m10 m) && sr_eqb (m00 m) (m11 m) && (bt_rgp B || sr_eqb 1 (m00 m)).
  Lemma mtrx_run (B : qbdt) m q : fit B -> (q < bt_n B)%N -> unitary2 m -> skipped m B = false -> holds B (mtrx A m q B) (gate1 always q m (amp B)).
  Proof.
    intros H Hq U Sk. unfold mtrx. unfold skipped in Sk. rewrite Sk.
    apply (loop_holds B (fun _ => true) 0 (fun _ => True) m q H Hq U I); [intros; discriminate|auto].
  Qed.
  Lemma gate1_ident P t (psi : N -> K) x : gate1 P t midn psi x = psi x.
  Proof.
    unfold gate1, midn. cbn. destruct (P x); [|reflexivity]. destruct (N.testbit x t) eqn:E.
    - replace (N.setbit x t) with x; [ring|]. apply N.bits_inj. intros i. rewrite N.setbit_eqb. destruct (N.eqb_spec t i) as [<-|]; [rewrite E; reflexivity|reflexivity].
    - replace (N.clearbit x t) with x; [ring|]. apply N.bits_inj. intros i. rewrite N.clearbit_eqb. destruct (N.eqb_spec t i) as [<-|]; [rewrite E; reflexivity|rewrite andb_true_r; reflexivity].
  Qed.
  Lemma ctrl_pos (B : qbdt) m cs q : fit B -> (q < bt_n B)%N -> unitary2 m -> (forall c, In c cs -> (c < q)%N) -> holds B (ctrl_loop A m cs q false B) (gate1 (all_set cs) q m (amp B)).
  Proof.
    intros H Hq U Hc. unfold ctrl_loop. fold (cmask_of q cs). eapply holds_ext; [|apply (loop_holds B (hit (cmask_of q cs)) (cmask_of q cs - 1) (Ipos (cmask_of q cs)) m q H Hq U)].
    - intros x. apply gate1_cond. replace q with (N.of_nat (N.to_nat q)) at 1 by lia. apply rv_pos. intros c Hi. specialize (Hc c Hi). lia.
    - intros p _ _. apply N.mod_0_l, N.pow_nonzero. discriminate.
    - intros j. apply pos_skip.
    - intros j a _. apply pos_next.
  Qed.
  Lemma ctrl_neg (B : qbdt) m cs q : fit B -> (q < bt_n B)%N -> unitary2 m -> (forall c, In c cs -> (c < q)%N) -> adjacent cs -> holds B (ctrl_loop A m cs q true B) (gate1 (all_clear cs) q m (amp B)).
  Proof.
    intros H Hq U Hc AD. unfold ctrl_loop. fold (cmask_of q cs). destruct (cmask_adj q cs Hc AD) as (a & w & W & EM). set (M := cmask_of q cs) in *. eapply holds_ext; [|apply (loop_holds B (fun i => N.eqb (N.land i M) 0) (M - 1) (fun _ => True) m q H Hq U I)].
    - intros x. apply gate1_cond. unfold M. replace q with (N.of_nat (N.to_nat q)) at 2 by lia. apply rv_neg. intros c Hi. specialize (Hc c Hi). lia.
    - intros j _ E. split; [exact I|]. rewrite EM in *. apply (neg_skip a w W j E).
    - auto.
  Qed.
End B.
