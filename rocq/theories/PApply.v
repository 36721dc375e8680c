(** Apply2x2 and the gates built on it. *)
From Coq Require Import NArith List Bool Lia Permutation Ring Sorted.
From Verif Require Import Bits MFunctions SpecFunctions PFunctions MParFor SpecParFor PParFor MKernel PKernel Amp PAmp SpecState MEngine SpecEngine PLoop.
Import ListNotations.
Local Open Scope N_scope.

Lemma pow2Ocl_small q : q < 64 -> pow2Ocl q = 2 ^ q.
Proof.
  intros H. unfold pow2Ocl, w64. rewrite N.shiftl_1_l. apply N.mod_small. now apply pow2_lt_mono.
Qed.
Lemma w64_small x n : x < 2 ^ n -> n < 64 -> w64 x = x.
Proof. intros H Hn. unfold w64. apply N.mod_small. pose proof (pow2_lt_mono n 64 Hn). lia. Qed.

(** ** Sorting *)
Lemma ninsert_perm x l : Permutation (x :: l) (ninsert x l).
Proof.
  induction l as [|y l IH]; simpl; auto. destruct (x <=? y); auto.
  eapply Permutation_trans; [apply perm_swap|]. now apply perm_skip.
Qed.
Lemma nsort_perm l : Permutation l (nsort l).
Proof.
  induction l as [|x l IH]; simpl; auto. eapply Permutation_trans; [|apply ninsert_perm]. now apply perm_skip.
Qed.
Lemma nsort_In x l : In x (nsort l) <-> In x l.
Proof. split; apply Permutation_in; [symmetry|]; apply nsort_perm. Qed.

Fixpoint weakly_sorted (l : list N) : Prop :=
  match l with
  | x :: ((y :: _) as t) => x <= y /\ weakly_sorted t
  | _ => True
  end.
Lemma ninsert_sorted x l : weakly_sorted l -> weakly_sorted (ninsert x l).
Proof.
  induction l as [|y l IH]; intros H; simpl; auto.
  destruct (N.leb_spec x y). simpl. destruct l; auto.
  destruct l as [|z l]. simpl. split; auto. lia.
  destruct H as [H H']. specialize (IH H'). revert IH. cbn [ninsert]. destruct (N.leb_spec x z); cbn [weakly_sorted]; intros; split; try lia; tauto.
Qed.
Lemma nsort_sorted l : weakly_sorted (nsort l).
Proof. induction l; simpl; auto. now apply ninsert_sorted. Qed.

Lemma sorted_head x l : weakly_sorted (x :: l) -> forall y, In y l -> x <= y.
Proof.
  revert x. induction l as [|z l IH]; intros x H y Hy. destruct Hy.
  destruct H as [H1 H2]. destruct Hy as [->|Hy]; auto. specialize (IH z H2 y Hy). lia.
Qed.
Lemma sorted_tail x l : weakly_sorted (x :: l) -> weakly_sorted l.
Proof. destruct l; simpl; tauto. Qed.

Lemma sorted_increasing n l : forall lo, weakly_sorted l -> NoDup l -> (forall x, In x l -> lo <= x < n) -> increasing_below lo n l.
Proof.
  induction l as [|x l IH]; intros lo Hs ND Hin; simpl; auto. split. apply Hin; simpl; auto.
  apply NoDup_cons_iff in ND. destruct ND as [Hx ND]. apply IH; auto. eapply sorted_tail; eauto.
  intros y Hy. pose proof (sorted_head _ _ Hs y Hy). assert (y <> x) by congruence.
  split. lia. apply Hin; simpl; auto.
Qed.
Lemma nsort_increasing n l : NoDup l -> (forall x, In x l -> x < n) -> increasing_below 0 n (nsort l).
Proof.
  intros ND Hin. apply sorted_increasing. apply nsort_sorted.
  eapply Permutation_NoDup; [apply nsort_perm|auto]. intros x Hx. apply (proj1 (nsort_In x l)) in Hx. split; [lia | apply Hin, Hx].
Qed.

Lemma ninsert_pow x l : ninsert (2 ^ x) (map (fun q => 2 ^ q) l) = map (fun q => 2 ^ q) (ninsert x l).
Proof.
  induction l as [|y l IH]; simpl; auto.
  destruct (N.leb_spec x y).
  - pose proof (pow2_le_mono x y H). destruct (N.leb_spec (2 ^ x) (2 ^ y)); auto; lia.
  - pose proof (pow2_lt_mono y x H). destruct (N.leb_spec (2 ^ x) (2 ^ y)); try lia. simpl. now rewrite IH.
Qed.
Lemma nsort_pow l : nsort (map (fun q => 2 ^ q) l) = map (fun q => 2 ^ q) (nsort l).
Proof. induction l as [|x l IH]; simpl; auto. now rewrite IH, ninsert_pow. Qed.
Lemma map_pow2Ocl n l : n <= 64 -> (forall x, In x l -> x < n) -> map pow2Ocl l = map (fun q => 2 ^ q) l.
Proof. intros Hn H. apply map_ext_in. intros x Hx. apply pow2Ocl_small. specialize (H x Hx). lia. Qed.

Lemma adjacent_none n l : forall lo, increasing_below lo n l -> adjacent_equal (map (fun q => 2 ^ q) l) = false.
Proof.
  induction l as [|x l IH]; intros lo H; auto. destruct l as [|y l]; auto.
  destruct H as [H H']. cbn [map adjacent_equal]. apply orb_false_iff. split.
  - destruct H' as [H' _]. apply N.eqb_neq. assert (Hxy : x < y) by lia. pose proof (pow2_lt_mono x y Hxy). lia.
  - apply (IH (x + 1)); auto.
Qed.
Lemma adjacent_some l : ~ NoDup l -> adjacent_equal (nsort l) = true.
Proof.
  intros Hd. destruct (adjacent_equal (nsort l)) eqn:E; auto. exfalso. apply Hd.
  eapply Permutation_NoDup; [symmetry; apply nsort_perm|].
  pose proof (nsort_sorted l) as Hs. induction (nsort l) as [|x t IH]; constructor.
  - intros Hin. destruct t as [|y t]. destruct Hin.
    cbn [adjacent_equal] in E. apply orb_false_iff in E. destruct E as [E _]. apply N.eqb_neq in E.
    pose proof (sorted_head x (y :: t) Hs) as Hh. destruct Hs as [Hxy Hs]. destruct Hin as [->|Hin]; [lia|].
    pose proof (sorted_head y t Hs x Hin). lia.
  - apply IH. destruct t; auto. cbn [adjacent_equal] in E. apply orb_false_iff in E. tauto. eapply sorted_tail; eauto.
Qed.

(** ** The pair kernel *)
(** All set bits of [o] are listed. *)
Definition only_bits (ps : list N) (o : N) : Prop := forall i, N.testbit o i = true -> In i ps.
(** [x] and [o] agree on the listed bits. *)
Definition agree (ps : list N) (x o : N) : Prop := forall p, In p ps -> N.testbit x p = N.testbit o p.

Lemma agree_dec ps x o : {agree ps x o} + {~ agree ps x o}.
Proof.
  unfold agree. induction ps as [|p ps IH]. left; intros q [].
  destruct (bool_dec (N.testbit x p) (N.testbit o p)) as [E|E].
  - destruct IH as [IH|IH]. left. intros q [<-|Hq]; auto. right. intros H. apply IH. intros; apply H; simpl; auto.
  - right. intros H. apply E, H. simpl; auto.
Qed.

Section Pair.
  Context {K : StarRing}.
  Variable c : cfg.

  Lemma pair_index n ps o x : fits c n -> increasing_below 0 n ps -> only_bits ps o -> o < 2 ^ n -> x < 2 ^ n ->
    agree ps x o -> N.ldiff x o < 2 ^ n /\ zero_at ps (N.ldiff x o).
  Proof.
    intros Hf Hi Ho Hon Hx Ha. split.
    - apply lt_pow2_bits. intros m Hm. rewrite N.ldiff_spec, (tb_high x n) by auto. auto.
    - intros p Hp. rewrite N.ldiff_spec, Ha by auto. destruct (N.testbit o p); auto.
  Qed.
  Lemma idx_add n ps o i : fits c n -> only_bits ps o -> o < 2 ^ n -> i < 2 ^ n -> zero_at ps i -> w64 (i + o) = N.lor i o.
  Proof.
    intros [_ [_ [Hn _]]] Ho Hon Hi Hz. rewrite add_lor.
    - apply (w64_small _ n); auto. now apply lor_lt_pow2.
    - apply N.bits_inj. intros m. rewrite N.land_spec, N.bits_0. destruct (N.testbit o m) eqn:E.
      + rewrite Hz; auto.
      + now rewrite andb_false_r.
  Qed.
  Lemma lor_agree ps o i : only_bits ps o -> zero_at ps i -> agree ps (N.lor i o) o.
  Proof. intros Ho Hz p Hp. rewrite N.lor_spec, Hz by auto. reflexivity. Qed.
  Lemma lor_back ps o i : only_bits ps o -> zero_at ps i -> N.ldiff (N.lor i o) o = i.
  Proof.
    intros Ho Hz. apply N.bits_inj. intros m. rewrite N.ldiff_spec, N.lor_spec. destruct (N.testbit o m) eqn:E.
    - rewrite Hz; auto.
    - now rewrite orb_false_r, andb_true_r.
  Qed.
  Lemma ldiff_lor ps o x : only_bits ps o -> agree ps x o -> N.lor (N.ldiff x o) o = x.
  Proof.
    intros Ho Ha. apply N.bits_inj. intros m. rewrite N.lor_spec, N.ldiff_spec. destruct (N.testbit o m) eqn:E.
    - rewrite Ha by auto. rewrite E. auto.
    - now rewrite andb_true_r, orb_false_r.
  Qed.
  Lemma ldiff_lor_other ps o o' x : only_bits ps o -> only_bits ps o' -> agree ps x o ->
    N.lor (N.ldiff x o) o' = N.lxor x (N.lxor o o').
  Proof.
    intros Ho Ho' Ha. apply N.bits_inj. intros m. rewrite N.lor_spec, N.ldiff_spec, !N.lxor_spec.
    destruct (N.testbit o m) eqn:E, (N.testbit o' m) eqn:E'.
    - rewrite Ha by auto. rewrite E. auto.
    - rewrite Ha by auto. rewrite E. auto.
    - rewrite Ha by auto. rewrite E. auto.
    - destruct (N.testbit x m); auto.
  Qed.
  Lemma agree_neq ps o o' : only_bits ps o -> only_bits ps o' -> agree ps o o' -> o = o'.
  Proof.
    intros Ho Ho' Ha. apply N.bits_inj. intros m. destruct (in_dec N.eq_dec m ps) as [Hm|Hm]. now apply Ha.
    destruct (N.testbit o m) eqn:E; [exfalso; apply Hm; auto|]. destruct (N.testbit o' m) eqn:E'; [exfalso; apply Hm; auto | reflexivity].
  Qed.

  Theorem pair_effect n ps o1 o2 (f : K -> K -> K * K) psi psi' : fits c n -> increasing_below 0 n ps ->
    only_bits ps o1 -> only_bits ps o2 -> o1 < 2 ^ n -> o2 < 2 ^ n -> o1 <> o2 ->
    loop_mask c (2 ^ n) (map (fun q => 2 ^ q) ps) (a2_body o1 o2 f) psi psi' ->
    forall x, x < 2 ^ n ->
      (agree ps x o1 -> psi' x = fst (f (psi x) (psi (N.lxor x (N.lxor o1 o2))))) /\
      (agree ps x o2 -> psi' x = snd (f (psi (N.lxor x (N.lxor o1 o2))) (psi x))) /\
      (~ agree ps x o1 -> ~ agree ps x o2 -> psi' x = psi x).
  Proof.
    intros Hf Hi B1 B2 L1 L2 Hne HR. apply loop_mask_runs in HR; auto.
    apply (runs_local _ (fun i a => a = N.lor i o1 \/ a = N.lor i o2)) in HR.
    - destruct HR as [A B]. intros x Hx.
      assert (Hd : forall i, i < 2 ^ n -> zero_at ps i -> N.lor i o1 <> N.lor i o2).
      { intros i Hil Hz E. apply Hne. apply (agree_neq ps); auto.
        intros p Hp. pose proof (f_equal (fun z => N.testbit z p) E) as T. cbn beta in T. rewrite !N.lor_spec, !Hz in T; auto. }
      split; [|split].
      + intros Ha. destruct (pair_index n ps o1 x Hf Hi B1 L1 Hx Ha) as [Hl Hz].
        rewrite (A (N.ldiff x o1) x (conj Hl Hz)) by (left; symmetry; eapply ldiff_lor; eauto).
        cbn [a2_body exec]. rewrite (idx_add n ps o1), (idx_add n ps o2) by auto.
        rewrite (ldiff_lor ps o1 x) by auto. rewrite (ldiff_lor_other ps o1 o2 x) by auto.
        rewrite mset_neq, mset_eq; auto.
        specialize (Hd _ Hl Hz). rewrite (ldiff_lor ps o1 x), (ldiff_lor_other ps o1 o2 x) in Hd by auto. auto.
      + intros Ha. destruct (pair_index n ps o2 x Hf Hi B2 L2 Hx Ha) as [Hl Hz].
        rewrite (A (N.ldiff x o2) x (conj Hl Hz)) by (right; symmetry; eapply ldiff_lor; eauto).
        cbn [a2_body exec]. rewrite (idx_add n ps o1), (idx_add n ps o2) by auto.
        rewrite (ldiff_lor ps o2 x) by auto. rewrite (ldiff_lor_other ps o2 o1 x) by auto.
        rewrite mset_eq. now rewrite (N.lxor_comm o2 o1).
      + intros N1 N2. apply B. intros i [Hl Hz] [E|E].
        * apply N1. rewrite E. now apply lor_agree.
        * apply N2. rewrite E. now apply lor_agree.
    - intros i j a [Hi1 Hz1] [Hj1 Hz2] Fi Fj.
      assert (G : forall o o', only_bits ps o -> only_bits ps o' -> N.lor i o = N.lor j o' -> i = j).
      { intros o o' Ho Ho' E. apply N.bits_inj. intros m.
        pose proof (f_equal (fun z => N.testbit z m) E) as T. cbn beta in T. rewrite !N.lor_spec in T.
        destruct (in_dec N.eq_dec m ps) as [Hm|Hm].
        - now rewrite Hz1, Hz2.
        - assert (N.testbit o m = false) by (destruct (N.testbit o m) eqn:Q; auto; exfalso; apply Hm; auto).
          assert (N.testbit o' m = false) by (destruct (N.testbit o' m) eqn:Q; auto; exfalso; apply Hm; auto).
          rewrite H, H0, !orb_false_r in T. auto. }
      destruct Fi as [-> | ->], Fj as [E|E]; eapply G; [| |exact E| | |exact E| | |exact E| | |exact E]; auto.
    - intros i [Hil Hz]. unfold a2_body. rewrite (idx_add n ps o1), (idx_add n ps o2) by auto.
      cbn. repeat split; auto.
  Qed.

  Lemma a2_vals_ok (m : mat2 K) y0 y1 : a2_vals m y0 y1 = (m00 m * y0 + m01 m * y1, m10 m * y0 + m11 m * y1)%amp.
  Proof.
    Add Ring Kr : (sr_ring K).
    unfold a2_vals. destruct (eqb_spec K (m01 m) 0%amp) as [E1|E1]; destruct (eqb_spec K (m10 m) 0%amp) as [E2|E2]; cbn [andb];
    try (rewrite E1, E2; apply f_equal2; ring);
    destruct (eqb_spec K (m00 m) 0%amp) as [E3|E3]; destruct (eqb_spec K (m11 m) 0%amp) as [E4|E4]; cbn [andb]; auto;
    rewrite E3, E4; apply f_equal2; ring.
  Qed.
End Pair.
