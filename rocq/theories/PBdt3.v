(** QBdt: the loops over the leaves at the depth of the target qubit. *)
From Coq Require Import NArith Arith List Bool Lia Ring.
From Verif Require Import Amp PAmp PGates2 SpecState MBdt SpecBdt PBdt1 PBdt2.
Import ListNotations.
Local Open Scope N_scope.

Section B.
  Context {K : StarRing} (A : Arith K).
  Hypothesis EA : exact_arith A.
  Hypothesis PS : positive_sums (K := K).
  Add Ring KrCT : (sr_ring K).
  Local Open Scope amp_scope.
  Local Notation bdt := (@bdt K).

  (** [f] on the nodes at depth [k] with an index satisfying [P]. *)
  Fixpoint upd (k : nat) (P : N -> bool) (f : bdt -> bdt) (t : bdt) : bdt :=
    match t with
    | BNull => BNull
    | BNode s l r =>
        match k with
        | O => if P 0%N then f t else t
        | S k => BNode s (upd k P f l) (upd k (fun i => P (i + 2 ^ N.of_nat k)%N) f r)
        end
    end.
  (** The node with index [i] at depth [k] exists. *)
  Fixpoint reach (k : nat) (i : N) (t : bdt) : bool :=
    match t with
    | BNull => false
    | BNode _ l r => match k with O => true | S k => reach k (i mod 2 ^ N.of_nat k) (if N.testbit i (N.of_nat k) then r else l) end
    end.
  (** Either both branches are null or none. *)
  Fixpoint sym (k : nat) (t : bdt) : Prop :=
    match t with
    | BNull => False
    | BNode _ l r => match k with O => True | S k => (l = BNull /\ r = BNull) \/ (sym k l /\ sym k r) end
    end.
  Lemma sym_null k t : sym k t -> is_null t = false.
  Proof. destruct t; [destruct k; intros []|reflexivity]. Qed.
  Lemma tight_sym k : forall d t, (k <= d)%nat -> tight d t -> sym k t.
  Proof.
    induction k as [|k IH]; intros d t Hk H; (destruct t as [|s l r]; [destruct d; destruct H|]); [exact I|]. destruct d as [|d]; [lia|]. cbn in *. destruct H as [(_ & H1 & H2)|(_ & H1 & H2 & _)]; [left; auto|]. right.
    split; apply (IH d); auto; lia.
  Qed.
  Lemma upd_null k P f t : (forall t, is_null t = false -> is_null (f t) = false) -> is_null (upd k P f t) = is_null t.
  Proof. intros Hf. destruct t as [|s l r]; [destruct k; reflexivity|]. destruct k; [|reflexivity]. cbn [upd]. destruct (P 0%N); [|reflexivity]. apply Hf. reflexivity. Qed.
  Lemma sym_upd f : (forall t, is_null t = false -> is_null (f t) = false) -> forall k P t, sym k t -> sym k (upd k P f t).
  Proof.
    intros Hf. induction k as [|k IH]; intros P t H; (destruct t as [|s l r]; [destruct H|]).
    - cbn [upd]. destruct (P 0%N); [|exact I]. pose proof (Hf (BNode s l r) eq_refl) as N. destruct (f (BNode s l r)); [discriminate|exact I].
    - cbn in H. cbn [upd sym]. destruct H as [[-> ->]|[H1 H2]]; [left; destruct k; auto|]. right. split; apply IH; assumption.
  Qed.
  Lemma reach_upd f : (forall t, is_null t = false -> is_null (f t) = false) -> forall k P i t, reach k i (upd k P f t) = reach k i t.
  Proof.
    intros Hf. induction k as [|k IH]; intros P i t; (destruct t as [|s l r]; [reflexivity|]); cbn [upd].
    - destruct (P 0%N); [|reflexivity]. pose proof (Hf (BNode s l r) eq_refl) as N. destruct (f (BNode s l r)); [discriminate|reflexivity].
    - cbn [reach]. destruct (N.testbit i (N.of_nat k)); apply IH.
  Qed.
  Lemma pow_S k : (2 ^ N.of_nat (S k) = 2 ^ N.of_nat k + 2 ^ N.of_nat k)%N.
  Proof. rewrite Nat2N.inj_succ, N.pow_succ_r'. lia. Qed.
  Lemma pow_pos k : (0 < 2 ^ N.of_nat k)%N.
  Proof. apply N.neq_0_lt_0, N.pow_nonzero. discriminate. Qed.
  (** An index of [k] + 1 bits. *)
  Lemma top_low k i : (i < 2 ^ N.of_nat k)%N -> N.testbit i (N.of_nat k) = false /\ (i mod 2 ^ N.of_nat k = i)%N.
  Proof.
    intros H. split; [|apply N.mod_small, H]. destruct (N.testbit i (N.of_nat k)) eqn:E; [|reflexivity]. exfalso.
    destruct (N.eq_dec i 0) as [->|N0]; [rewrite N.bits_0 in E; discriminate|].
    assert (G : (N.log2 i < N.of_nat k)%N) by (apply N.log2_lt_pow2; lia). rewrite N.bits_above_log2 in E by exact G. discriminate.
  Qed.
  Lemma top_high k i : (i < 2 ^ N.of_nat k)%N -> N.testbit (i + 2 ^ N.of_nat k) (N.of_nat k) = true /\ ((i + 2 ^ N.of_nat k) mod 2 ^ N.of_nat k = i)%N.
  Proof.
    intros H. split.
    - rewrite N.testbit_eqb. replace (i + 2 ^ N.of_nat k)%N with (i + 1 * 2 ^ N.of_nat k)%N by lia. rewrite N.div_add by (apply N.pow_nonzero; discriminate). rewrite N.div_small by exact H. reflexivity.
    - replace (i + 2 ^ N.of_nat k)%N with (i + 1 * 2 ^ N.of_nat k)%N by lia. rewrite N.mod_add by (apply N.pow_nonzero; discriminate). apply N.mod_small, H.
  Qed.
  Lemma top_cases k i : (i < 2 ^ N.of_nat (S k))%N -> (i < 2 ^ N.of_nat k)%N \/ exists j, (j < 2 ^ N.of_nat k)%N /\ i = (j + 2 ^ N.of_nat k)%N.
  Proof. rewrite pow_S. intros H. destruct (N.lt_ge_cases i (2 ^ N.of_nat k)) as [L|G]; [left; exact L|]. right. exists (i - 2 ^ N.of_nat k)%N. lia. Qed.
  Lemma upd_ext f : forall k P Q t, (forall i, (i < 2 ^ N.of_nat k)%N -> reach k i t = true -> P i = Q i) -> upd k P f t = upd k Q f t.
  Proof.
    induction k as [|k IH]; intros P Q t H; (destruct t as [|s l r]; [reflexivity|]); cbn [upd].
    - rewrite (H 0%N); [reflexivity|lia|reflexivity].
    - f_equal; apply IH; intros i Hi R; apply H; try (rewrite pow_S; lia); cbn [reach].
      + destruct (top_low k i Hi) as [-> ->]. exact R.
      + destruct (top_high k i Hi) as [-> ->]. exact R.
  Qed.
  Lemma upd_none f : forall k t, upd k (fun _ => false) f t = t.
  Proof. induction k as [|k IH]; intros t; (destruct t as [|s l r]; [reflexivity|]); cbn [upd]; [reflexivity|]. f_equal; apply IH. Qed.
  Lemma upd_upd f : (forall t, is_null t = false -> is_null (f t) = false) -> forall k P Q t, (forall i, (i < 2 ^ N.of_nat k)%N -> P i && Q i = false) -> upd k Q f (upd k P f t) = upd k (fun i => P i || Q i) f t.
  Proof.
    intros Hf. induction k as [|k IH]; intros P Q t H; (destruct t as [|s l r]; [reflexivity|]); cbn [upd].
    - specialize (H 0%N ltac:(reflexivity)). destruct (P 0%N) eqn:EP; cbn [orb andb] in *; [|reflexivity]. destruct (f (BNode s l r)) as [|s' l' r']; rewrite ?H; reflexivity.
    - f_equal; apply IH; intros i Hi; apply H; rewrite pow_S; lia.
  Qed.

  Lemma lor_high i m k : (i < 2 ^ N.of_nat k)%N -> (m < 2 ^ N.of_nat k)%N -> (N.lor (i + 2 ^ N.of_nat k) m = N.lor i m + 2 ^ N.of_nat k)%N.
  Proof.
    intros Hi Hm. assert (D : forall y, (y < 2 ^ N.of_nat k)%N -> (y + 2 ^ N.of_nat k = N.lor y (2 ^ N.of_nat k))%N).
    { intros y Hy. rewrite N.add_nocarry_lxor.
      - apply N.lxor_lor. apply N.bits_inj. intros b. rewrite N.land_spec, N.bits_0, N.pow2_bits_eqb. destruct (N.eqb_spec (N.of_nat k) b) as [<-|]; [|apply andb_false_r]. rewrite (proj1 (top_low k y Hy)). reflexivity.
      - apply N.bits_inj. intros b. rewrite N.land_spec, N.bits_0, N.pow2_bits_eqb. destruct (N.eqb_spec (N.of_nat k) b) as [<-|]; [|apply andb_false_r]. rewrite (proj1 (top_low k y Hy)). reflexivity. }
    assert (L : (N.lor i m < 2 ^ N.of_nat k)%N).
    { destruct (N.eq_dec (N.lor i m) 0) as [->|N0]; [apply pow_pos|]. apply N.log2_lt_pow2; [lia|]. rewrite N.log2_lor. destruct (N.eq_dec i 0) as [->|Ni], (N.eq_dec m 0) as [->|Nm].
      - rewrite N.lor_0_l in N0. contradiction.
      - rewrite N.max_r by (cbn; lia). apply N.log2_lt_pow2; lia.
      - rewrite N.max_l by (cbn; lia). apply N.log2_lt_pow2; lia.
      - apply N.max_lub_lt; apply N.log2_lt_pow2; lia. }
    rewrite !D by assumption. rewrite <- N.lor_assoc, (N.lor_comm (2 ^ N.of_nat k) m), N.lor_assoc. reflexivity.
  Qed.
  Lemma lor_lt i m k : (i < 2 ^ N.of_nat k)%N -> (m < 2 ^ N.of_nat k)%N -> (N.lor i m < 2 ^ N.of_nat k)%N.
  Proof.
    intros Hi Hm. destruct (N.eq_dec (N.lor i m) 0) as [->|N0]; [apply pow_pos|]. apply N.log2_lt_pow2; [lia|]. rewrite N.log2_lor. destruct (N.eq_dec i 0) as [->|Ni], (N.eq_dec m 0) as [->|Nm].
      - rewrite N.lor_0_l in N0. contradiction.
      - rewrite N.max_r by (cbn; lia). apply N.log2_lt_pow2; lia.
      - rewrite N.max_l by (cbn; lia). apply N.log2_lt_pow2; lia.
      - apply N.max_lub_lt; apply N.log2_lt_pow2; lia.
  Qed.
  Lemma reach_below k i (l r : bdt) s : (i < 2 ^ N.of_nat k)%N -> reach (S k) i (BNode s l r) = reach k i l.
  Proof. intros H. cbn [reach]. destruct (top_low k i H) as [-> ->]. reflexivity. Qed.
  Lemma reach_above k i (l r : bdt) s : (i < 2 ^ N.of_nat k)%N -> reach (S k) (i + 2 ^ N.of_nat k) (BNode s l r) = reach k i r.
  Proof. intros H. cbn [reach]. destruct (top_high k i H) as [-> ->]. reflexivity. Qed.
  Lemma eqb_low i k : (i < 2 ^ N.of_nat k)%N -> forall j, (j < 2 ^ N.of_nat k)%N -> N.eqb i (j + 2 ^ N.of_nat k) = false.
  Proof. intros Hi j Hj. apply N.eqb_neq. lia. Qed.

  Lemma bit_mod i a b : (b < a)%N -> N.testbit (i mod 2 ^ a) b = N.testbit i b.
  Proof. intros H. apply N.mod_pow2_bits_low, H. Qed.
  Lemma at_leaf_mod (f : bdt -> bdt) : forall (k : nat) i (a : nat) (t : bdt), (k <= a)%nat -> at_leaf k (i mod 2 ^ N.of_nat a) f t = at_leaf k i f t.
  Proof.
    induction k as [|k IH]; intros i a t H; [reflexivity|]. cbn [at_leaf]. destruct t as [|s l r]; [reflexivity|]. rewrite bit_mod by lia. destruct (is_null _); [reflexivity|].
    destruct (N.testbit i (N.of_nat k)); rewrite IH by lia; reflexivity.
  Qed.
  (** Visiting one leaf: the mask returned skips only leaves that do not exist. *)
  Lemma at_leaf_ok (f : bdt -> bdt) : forall (k : nat) i (t : bdt), (i < 2 ^ N.of_nat k)%N -> sym k t -> exists a, (a <= k)%nat /\ at_leaf k i f t = ((2 ^ N.of_nat a - 1)%N, upd k (N.eqb i) f t) /\
    forall x, (i <= x)%N -> (x <= N.lor i (2 ^ N.of_nat a - 1))%N -> x = i \/ reach k x t = false.
  Proof.
    induction k as [|k IH]; intros i t Hi H.
    - assert (i = 0%N) by (cbn in Hi; lia). subst i. exists O. split; [lia|]. split; [destruct t; [destruct H|reflexivity]|]. intros x H1 H2. left. cbn in H2. lia.
    - destruct t as [|s l r]; [destruct H|]. cbn [at_leaf]. cbn in H. destruct H as [[-> ->]|[H1 H2]].
      + exists (S k). split; [lia|]. replace (if N.testbit i (N.of_nat k) then BNull else @BNull K) with (@BNull K) by (destruct (N.testbit i (N.of_nat k)); reflexivity). cbn [is_null].
        split; [f_equal; cbn [upd]; f_equal; destruct k; reflexivity|]. intros x _ _. right. cbn [reach]. destruct k; destruct (N.testbit x _); reflexivity.
      + destruct (top_cases k i Hi) as [L|(j & L & ->)].
        * destruct (top_low k i L) as [-> _]. rewrite (sym_null _ _ H1). destruct (IH i l L H1) as (a & A1 & A2 & A3). exists a. split; [lia|]. rewrite A2. split.
          -- f_equal. cbn [upd]. f_equal. rewrite (upd_ext f k _ (fun _ => false) r); [symmetry; apply upd_none|]. intros j Hj _. apply eqb_low; assumption.
          -- intros x X1 X2. pose proof (lor_lt i (2 ^ N.of_nat a - 1) k L) as LL. assert (AP : (2 ^ N.of_nat a <= 2 ^ N.of_nat k)%N) by (apply N.pow_le_mono_r; lia). pose proof (pow_pos a).
             rewrite reach_below by lia. apply A3; assumption.
        * destruct (top_high k j L) as [-> M]. rewrite (sym_null _ _ H2). rewrite <- (at_leaf_mod f k (j + 2 ^ N.of_nat k) k r) by lia. rewrite M. destruct (IH j r L H2) as (a & A1 & A2 & A3). exists a. split; [lia|]. rewrite A2.
          assert (AP : (2 ^ N.of_nat a <= 2 ^ N.of_nat k)%N) by (apply N.pow_le_mono_r; lia). pose proof (pow_pos a). split.
          -- f_equal. cbn [upd]. f_equal.
             ++ rewrite (upd_ext f k _ (fun _ => false) l); [symmetry; apply upd_none|]. intros i Hi' _. apply N.eqb_neq. lia.
             ++ apply upd_ext. intros i Hi' _. destruct (N.eqb_spec j i) as [->|NE]; [rewrite N.eqb_refl; reflexivity|]. symmetry. apply N.eqb_neq. lia.
          -- intros x X1 X2. rewrite lor_high in X2 by lia. pose proof (lor_lt j (2 ^ N.of_nat a - 1) k L). destruct (A3 (x - 2 ^ N.of_nat k)%N ltac:(lia) ltac:(lia)) as [E|R]; [left; lia|right].
             replace x with (x - 2 ^ N.of_nat k + 2 ^ N.of_nat k)%N by lia. rewrite reach_above by lia. exact R.
  Qed.

  (** The whole loop: [M] tells which indices are visited, [skip] is the mask for the others, [I] an invariant of the loop variable. *)
  Section Loop.
    Variables (k : nat) (M : N -> bool) (skip : N) (f : bdt -> bdt) (I : N -> Prop).
    Hypothesis Hf : forall t, is_null t = false -> is_null (f t) = false.
    Hypothesis Hskip : forall j, (j < 2 ^ N.of_nat k)%N -> I j -> M j = false -> I (N.lor j skip + 1)%N /\ (forall x, (j <= x)%N -> (x <= N.lor j skip)%N -> M x = false).
    Hypothesis Hnext : forall j a, (j < 2 ^ N.of_nat k)%N -> (a <= k)%nat -> I j -> M j = true -> I (N.lor j (2 ^ N.of_nat a - 1) + 1)%N.
    Let fn i t := if negb (M i) then (skip, t) else at_leaf k i f t.
    Lemma lor_ge a b : (a <= N.lor a b)%N.
    Proof. apply N.ldiff_le. apply N.bits_inj. intros i. rewrite N.ldiff_spec, N.lor_spec, N.bits_0. destruct (N.testbit a i), (N.testbit b i); reflexivity. Qed.
    Lemma loop_ok : forall fuel j t0, sym k t0 -> I j -> (2 ^ N.of_nat k <= j + N.of_nat fuel)%N ->
      par_loop fuel (2 ^ N.of_nat k) j fn (upd k (fun i => (i <? j)%N && M i) f t0) = upd k M f t0.
    Proof.
      induction fuel as [|fuel IH]; intros j t0 H Ij Hj.
      - cbn [par_loop]. apply upd_ext. intros i Hi _. replace (i <? j)%N with true by (symmetry; apply N.ltb_lt; lia). reflexivity.
      - cbn [par_loop]. destruct (N.ltb_spec j (2 ^ N.of_nat k)) as [L|G].
        2:{ apply upd_ext. intros i Hi _. replace (i <? j)%N with true by (symmetry; apply N.ltb_lt; lia). reflexivity. }
        unfold fn at 1. destruct (M j) eqn:EM; cbn [negb].
        + set (t := upd k (fun i => (i <? j)%N && M i) f t0). assert (ST : sym k t) by (apply sym_upd; assumption).
          destruct (at_leaf_ok f k j t L ST) as (a & A1 & A2 & A3). rewrite A2. pose proof (lor_ge j (2 ^ N.of_nat a - 1)).
          replace (upd k (N.eqb j) f t) with (upd k (fun i => (i <? N.lor j (2 ^ N.of_nat a - 1) + 1)%N && M i) f t0).
          { apply IH; [exact H|apply Hnext; assumption|lia]. }
          unfold t. rewrite upd_upd.
          2: exact Hf.
          2:{ intros i Hi. destruct (N.eqb_spec j i) as [->|]; [rewrite N.ltb_irrefl; reflexivity|apply andb_false_r]. }
          apply upd_ext. intros i Hi R. destruct (N.eqb_spec j i) as [->|NE].
          * rewrite N.ltb_irrefl, EM. cbn. rewrite andb_true_r. apply N.ltb_lt. lia.
          * rewrite orb_false_r. destruct (N.ltb_spec i j) as [Lj|Gj]; [replace (i <? _)%N with true by (symmetry; apply N.ltb_lt; lia); reflexivity|].
            destruct (N.ltb_spec i (N.lor j (2 ^ N.of_nat a - 1) + 1)) as [Lx|Gx]; [|reflexivity]. exfalso. destruct (A3 i ltac:(lia) ltac:(lia)) as [E|E]; [apply NE; symmetry; exact E|].
            unfold t in E. rewrite reach_upd in E by exact Hf. rewrite R in E. discriminate.
        + destruct (Hskip j L Ij EM) as [I' S]. pose proof (lor_ge j skip).
          replace (upd k (fun i => (i <? j)%N && M i) f t0) with (upd k (fun i => (i <? N.lor j skip + 1)%N && M i) f t0); [apply IH; [exact H|exact I'|lia]|].
          apply upd_ext. intros i Hi _. destruct (N.ltb_spec i j) as [Lj|Gj]; [replace (i <? _)%N with true by (symmetry; apply N.ltb_lt; lia); reflexivity|].
          destruct (N.ltb_spec i (N.lor j skip + 1)) as [Lx|Gx]; [|reflexivity]. rewrite S by lia. reflexivity.
    Qed.
  End Loop.

  (** ** The amplitudes after the loop *)
  (** The index of the leaf for a basis state: the lowest bit is the highest of the index. *)
  Fixpoint rv (k : nat) (x : N) : N :=
    match k with
    | O => 0%N
    | S k => ((if N.odd x then 2 ^ N.of_nat k else 0) + rv k (N.div2 x))%N
    end.
  Lemma rv_lt k : forall x, (rv k x < 2 ^ N.of_nat k)%N.
  Proof. induction k as [|k IH]; intros x; [cbn; lia|]. cbn [rv]. rewrite pow_S. specialize (IH (N.div2 x)). destruct (N.odd x); lia. Qed.
  Lemma testbit_d x k : N.testbit (N.double x) (N.succ k) = N.testbit x k.
  Proof. rewrite N.double_spec. apply N.testbit_even_succ, N.le_0_l. Qed.
  Lemma testbit_s x k : N.testbit (N.succ_double x) (N.succ k) = N.testbit x k.
  Proof. rewrite N.succ_double_spec. apply N.testbit_odd_succ, N.le_0_l. Qed.
  Lemma bits_d x i : N.testbit (N.double x) i = (negb (i =? 0)%N && N.testbit x (N.pred i)).
  Proof. destruct (N.eqb_spec i 0) as [->|N0]; [rewrite N.double_spec; apply N.testbit_even_0|]. cbn. rewrite <- (N.succ_pred i) at 1 by exact N0. apply testbit_d. Qed.
  Lemma bits_s x i : N.testbit (N.succ_double x) i = ((i =? 0)%N || N.testbit x (N.pred i)).
  Proof. destruct (N.eqb_spec i 0) as [->|N0]; [rewrite N.succ_double_spec; apply N.testbit_odd_0|]. cbn. rewrite <- (N.succ_pred i) at 1 by exact N0. apply testbit_s. Qed.
  Lemma setbit_d x k : N.setbit (N.double x) (N.succ k) = N.double (N.setbit x k).
  Proof.
    apply N.bits_inj. intros i. rewrite N.setbit_eqb, !bits_d, N.setbit_eqb. destruct (N.eqb_spec i 0) as [->|N0]; [cbn; destruct (N.eqb_spec (N.succ k) 0); [lia|reflexivity]|]. cbn [negb andb].
    f_equal. destruct (N.eqb_spec (N.succ k) i), (N.eqb_spec k (N.pred i)); try reflexivity; lia.
  Qed.
  Lemma setbit_s x k : N.setbit (N.succ_double x) (N.succ k) = N.succ_double (N.setbit x k).
  Proof.
    apply N.bits_inj. intros i. rewrite N.setbit_eqb, !bits_s, N.setbit_eqb. destruct (N.eqb_spec i 0) as [->|N0]; [cbn; apply orb_true_r|]. cbn [orb].
    f_equal. destruct (N.eqb_spec (N.succ k) i), (N.eqb_spec k (N.pred i)); try reflexivity; lia.
  Qed.
  Lemma clearbit_d x k : N.clearbit (N.double x) (N.succ k) = N.double (N.clearbit x k).
  Proof.
    apply N.bits_inj. intros i. rewrite N.clearbit_eqb, !bits_d, N.clearbit_eqb. destruct (N.eqb_spec i 0) as [->|N0]; [reflexivity|]. cbn [negb andb].
    f_equal. f_equal. destruct (N.eqb_spec (N.succ k) i), (N.eqb_spec k (N.pred i)); try reflexivity; lia.
  Qed.
  Lemma clearbit_s x k : N.clearbit (N.succ_double x) (N.succ k) = N.succ_double (N.clearbit x k).
  Proof.
    apply N.bits_inj. intros i. rewrite N.clearbit_eqb, !bits_s, N.clearbit_eqb. destruct (N.eqb_spec i 0) as [->|N0]; [cbn; destruct (N.eqb_spec (N.succ k) 0); [lia|reflexivity]|]. cbn [orb].
    f_equal. f_equal. destruct (N.eqb_spec (N.succ k) i), (N.eqb_spec k (N.pred i)); try reflexivity; lia.
  Qed.

  Definition leaf_ok (e : nat) (m : mat2 K) (f : bdt -> bdt) : Prop := forall t, tight (S e) t ->
    tight (S e) (f t) /\ anorm (scl (f t)) = anorm (scl t) /\ (scl t <> 0 -> scl (f t) <> 0) /\ forall x, val (S e) (f t) x = gate1 always 0 m (val (S e) t) x.
  Lemma upd_ok e m f : leaf_ok e m f -> forall k M t, tight (k + S e) t ->
    let t' := upd k M f t in tight (k + S e) t' /\ anorm (scl t') = anorm (scl t) /\ (scl t <> 0 -> scl t' <> 0) /\
    forall x, val (k + S e) t' x = gate1 (fun x => M (rv k x)) (N.of_nat k) m (val (k + S e) t) x.
  Proof.
    intros Hf. induction k as [|k IH]; intros M t H; (destruct t as [|s l r]; [destruct e; destruct H|]); cbn zeta; cbn [upd plus].
    - cbn [rv]. unfold gate1. destruct (M 0%N); [apply Hf, H|]. split; [exact H|]. split; [reflexivity|]. split; [tauto|]. reflexivity.
    - cbn [plus] in H. cbn [tight] in H. destruct H as [(-> & -> & ->)|(N & H1 & H2 & E)].
      + replace (upd k M f BNull) with (@BNull K) by (destruct k; reflexivity). replace (upd k (fun i => M (i + 2 ^ N.of_nat k)%N) f BNull) with (@BNull K) by (destruct k; reflexivity).
        split; [left; auto|]. split; [reflexivity|]. split; [tauto|]. intros x. unfold gate1. rewrite !(val_0 _ (BNode 0 BNull BNull)) by reflexivity. destruct (M _); [|reflexivity]. destruct (N.testbit _ _); ring.
      + destruct (IH M l H1) as (A1 & A2 & A3 & A4). destruct (IH (fun i => M (i + 2 ^ N.of_nat k)%N) r H2) as (B1 & B2 & B3 & B4). set (l' := upd k M f l) in *. set (r' := upd k _ f r) in *. clearbody l' r'.
        split; [|split; [reflexivity|split; [tauto|]]].
        * cbn [tight]. right. rewrite A2, B2. auto.
        * intros x. unfold gate1. rewrite Nat2N.inj_succ. destruct (two_cases x) as [Ex|Ex]; rewrite Ex; set (y := N.div2 x); cbn [rv].
          -- rewrite odd_double, div2_d, N.add_0_l, testbit_d, clearbit_d, setbit_d. rewrite !val_d by (eapply tight_null; eassumption). rewrite A4. unfold gate1. destruct (M (rv k y)); [|reflexivity]. destruct (N.testbit y _); ring.
          -- rewrite odd_succ, div2_s, testbit_s, clearbit_s, setbit_s. rewrite !val_s by (eapply tight_null; eassumption). rewrite B4. unfold gate1. replace (2 ^ N.of_nat k + rv k y)%N with (rv k y + 2 ^ N.of_nat k)%N by lia.
             destruct (M (rv k y + _)%N); [|reflexivity]. destruct (N.testbit y _); ring.
  Qed.
End B.
