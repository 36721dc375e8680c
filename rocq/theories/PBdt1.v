(** QBdt: the amplitudes of a tree, its invariant, and Branch and Prune. *)
From Coq Require Import NArith Arith List Bool Lia Ring.
From Verif Require Import Amp PAmp SpecState MBdt SpecBdt.
Import ListNotations.
Local Open Scope N_scope.

Section B.
  Context {K : StarRing} (A : Arith K).
  Hypothesis EA : exact_arith A.
  Hypothesis PS : positive_sums (K := K).
  Add Ring KrCR : (sr_ring K).
  Local Open Scope amp_scope.
  Local Notation bdt := (@bdt K).
  Local Notation "x / y" := (ar_div A x y) : amp_scope.
  Local Notation root := (ar_sqrt A).

  Lemma is0_spec (x : K) : reflect (x = 0) (is0 x).
  Proof. apply eqb_spec. Qed.
  Lemma is0_0 : is0 (0 : K) = true.
  Proof. apply eqb_refl. Qed.
  Lemma is0_n (x : K) : x <> 0 -> is0 x = false.
  Proof. intros H. destruct (is0_spec x); [contradiction|reflexivity]. Qed.
  Lemma one_n0 : (1 : K) <> 0. Proof. exact (proj1 PS). Qed.
  Lemma div_mul (x y : K) : y <> 0 -> x / y * y = x.
  Proof. apply (proj1 EA). Qed.
  Lemma no_zdiv (x y : K) : x * y = 0 -> x <> 0 -> y = 0.
  Proof.
    intros E H. replace y with ((1 / x) * x * y). 2:{ rewrite div_mul by exact H. ring. }
    replace ((1 / x) * x * y) with ((1 / x) * (x * y)) by ring. rewrite E. ring.
  Qed.
  Lemma mul_n0 (x y : K) : x <> 0 -> y <> 0 -> x * y <> 0.
  Proof. intros Hx Hy E. apply Hy, (no_zdiv x); assumption. Qed.
  Lemma cancel (x y z : K) : z <> 0 -> x * z = y * z -> x = y.
  Proof.
    intros Hz E. assert (D : z * (x - y) = 0). { replace (z * (x - y)) with (x * z - y * z) by ring. rewrite E. ring. }
    apply no_zdiv in D; [|exact Hz]. replace x with ((x - y) + y) by ring. rewrite D. ring.
  Qed.
  Lemma conj_n0 (x : K) : x <> 0 -> sr_conj x <> 0.
  Proof. intros H E. apply H. rewrite <- (sr_conj_invol K x), E. apply conj_0. Qed.
  Lemma anorm_n0 (x : K) : x <> 0 -> anorm x <> 0.
  Proof. intros H. apply mul_n0; [exact H|]. apply conj_n0, H. Qed.
  Lemma anorm_z (x : K) : anorm x = 0 -> x = 0.
  Proof. intros H. destruct (is0_spec x) as [|N]; [assumption|]. destruct (anorm_n0 x N H). Qed.
  Lemma div_1 (x : K) : x / 1 = x.
  Proof. apply (cancel _ _ 1); [exact one_n0|]. rewrite div_mul by exact one_n0. ring. Qed.
  Lemma div_n0 (x y : K) : y <> 0 -> x <> 0 -> x / y <> 0.
  Proof. intros Hy Hx E. apply Hx. rewrite <- (div_mul x y Hy), E. ring. Qed.
  Lemma div_0 (y : K) : y <> 0 -> 0 / y = 0.
  Proof. intros Hy. apply (cancel _ _ y Hy). rewrite div_mul by exact Hy. ring. Qed.
  Lemma root_sq (x y : K) : root (anorm x + anorm y) * root (anorm x + anorm y) = anorm x + anorm y.
  Proof. apply (proj1 (proj2 EA) x y). Qed.
  Lemma root_conj (x y : K) : sr_conj (root (anorm x + anorm y)) = root (anorm x + anorm y).
  Proof. apply (proj1 (proj2 EA) x y). Qed.
  Lemma anorm_root (x y : K) : anorm (root (anorm x + anorm y)) = anorm x + anorm y.
  Proof. unfold anorm at 1. rewrite root_conj. apply root_sq. Qed.
  Lemma anorm_add0 (x : K) : anorm x + anorm 0 = anorm x.
  Proof. rewrite anorm_0. ring. Qed.
  Lemma anorm_abs (x : K) : anorm (aabs A x) = anorm x.
  Proof. unfold aabs. rewrite <- (anorm_add0 x). rewrite anorm_root. reflexivity. Qed.
  Lemma abs_n0 (x : K) : x <> 0 -> aabs A x <> 0.
  Proof. intros H E. pose proof (anorm_abs x) as N. rewrite E, anorm_0 in N. symmetry in N. apply anorm_z in N. contradiction. Qed.
  Lemma abs_1 (x : K) : anorm x = 1 -> aabs A x = 1.
  Proof. intros H. unfold aabs. rewrite H. apply (proj1 (proj2 (proj2 EA))). Qed.
  Lemma root_1 : root 1 = 1. Proof. apply (proj1 (proj2 (proj2 EA))). Qed.
  Lemma anorm_div (x y : K) : y <> 0 -> anorm (x / y) * anorm y = anorm x.
  Proof. intros H. rewrite <- anorm_mul, div_mul by exact H. reflexivity. Qed.
  Lemma anorm_one : anorm (1 : K) = 1.
  Proof. unfold anorm. rewrite conj_1. ring. Qed.
  Lemma unit_div (x : K) : x <> 0 -> anorm (x / aabs A x) = 1.
  Proof.
    intros H. apply (cancel _ _ (anorm x)); [apply anorm_n0, H|]. rewrite <- (anorm_abs x) at 1. rewrite anorm_div by (apply abs_n0, H). ring.
  Qed.
  Lemma phase_unit (x : K) : anorm (phase_of A x) = 1.
  Proof. unfold phase_of. destruct (is0_spec x) as [|N]; [apply anorm_one|apply unit_div, N]. Qed.
  Lemma unit_n0 (x : K) : anorm x = 1 -> x <> 0.
  Proof. intros H E. rewrite E, anorm_0 in H. apply one_n0. symmetry. exact H. Qed.
  Lemma phase_n0 (x : K) : phase_of A x <> 0.
  Proof. apply unit_n0, phase_unit. Qed.
  Lemma phase_abs (x : K) : x <> 0 -> phase_of A x * aabs A x = x.
  Proof. intros H. unfold phase_of. rewrite is0_n by exact H. apply div_mul, abs_n0, H. Qed.
  Lemma anorm_div_unit (x p : K) : anorm p = 1 -> anorm (x / p) = anorm x.
  Proof. intros H. rewrite <- (anorm_div x p) by (apply unit_n0, H). rewrite H. ring. Qed.
  Lemma anorm_mul_unit (x p : K) : anorm p = 1 -> anorm (x * p) = anorm x.
  Proof. intros H. rewrite anorm_mul, H. ring. Qed.

  (** The amplitudes of a tree of depth [d]; the first qubit is the lowest bit. *)
  Fixpoint val (d : nat) (t : bdt) (x : N) : K :=
    match d with
    | O => scl t
    | S d => let c := br t (N.odd x) in if is_null c then scl t else scl t * val d c (N.div2 x)
    end.
  (** Normalised trees without superfluous nodes. *)
  Fixpoint tight (d : nat) (t : bdt) : Prop :=
    match t with
    | BNull => False
    | BNode s l r =>
        match d with
        | O => l = BNull /\ r = BNull
        | S d => (s = 0 /\ l = BNull /\ r = BNull) \/ (s <> 0 /\ tight d l /\ tight d r /\ anorm (scl l) + anorm (scl r) = 1)
        end
    end.
  (** The same, with any scale at the root. *)
  Definition semi (d : nat) (t : bdt) : Prop :=
    match t with
    | BNull => False
    | BNode s l r =>
        match d with
        | O => l = BNull /\ r = BNull
        | S d => (s = 0 /\ l = BNull /\ r = BNull) \/ (tight d l /\ tight d r /\ anorm (scl l) + anorm (scl r) = 1)
        end
    end.
  (** The same, with any scales in the [k] upper levels. *)
  Fixpoint loose (k d : nat) (t : bdt) : Prop :=
    match k with
    | O => tight d t
    | S k =>
        match d, t with
        | S d, BNode s l r => (s = 0 /\ l = BNull /\ r = BNull) \/ (loose k d l /\ loose k d r /\ anorm (scl l) + anorm (scl r) = 1)
        | _, _ => False
        end
    end.

  Lemma tight_semi d t : tight d t -> semi d t.
  Proof. destruct t as [|s l r]; destruct d; cbn; tauto. Qed.
  Lemma tight_loose k : forall d t, (k <= d)%nat -> tight d t -> loose k d t.
  Proof.
    induction k as [|k IH]; intros d t Hk H; [exact H|]. destruct d as [|d]; [lia|]. destruct t as [|s l r]; [destruct H|]. cbn in *. destruct H as [H|H]; [left; exact H|]. right.
    destruct H as (_ & H1 & H2 & H3). repeat split; [| |exact H3]; apply IH; auto; lia.
  Qed.
  Lemma semi_tight d t : semi d t -> scl t <> 0 -> tight d t.
  Proof. destruct t as [|s l r]; [intros []|]. destruct d; cbn; [tauto|]. intros [H|H] N; [destruct N; tauto|right; tauto]. Qed.
  Lemma tight_null d t : tight d t -> is_null t = false.
  Proof. destruct t; [destruct d; intros []|reflexivity]. Qed.
  Lemma loose_null k d t : loose k d t -> is_null t = false.
  Proof. destruct t; [|reflexivity]. destruct k; destruct d; intros []. Qed.
  Lemma semi_null d t : semi d t -> is_null t = false.
  Proof. destruct t; [intros []|reflexivity]. Qed.
  Lemma tight_scale d t s : tight d t -> (scl t = 0 -> d <> O -> s = 0) -> (scl t <> 0 -> s <> 0) -> tight d (set_scl s t).
  Proof.
    destruct t as [|s' l r]; [destruct d; intros []|]. destruct d; cbn; [tauto|]. intros [(H1 & H2 & H3)|H] E1 E2; [left|right].
    - split; [apply E1; [exact H1|discriminate]|split; assumption].
    - split; [apply E2, H|apply H].
  Qed.
  Lemma scl_set s (t : bdt) : is_null t = false -> scl (set_scl s t) = s.
  Proof. destruct t; [discriminate|reflexivity]. Qed.
  Lemma br_set s (t : bdt) b : br (set_scl s t) b = br t b.
  Proof. destruct t; reflexivity. Qed.
  Lemma null_set s (t : bdt) : is_null (set_scl s t) = is_null t.
  Proof. destruct t; reflexivity. Qed.
  Lemma set_same (t : bdt) : set_scl (scl t) t = t.
  Proof. destruct t; reflexivity. Qed.
  (** Changing the scale of the root by a factor. *)
  Lemma val_scale d t c x : is_null t = false -> val d (set_scl (c * scl t) t) x = c * val d t x.
  Proof.
    intros N. destruct d; cbn [val]; rewrite ?br_set, scl_set by exact N; [reflexivity|]. destruct (is_null (br t _)); [reflexivity|]. ring.
  Qed.
  Lemma val_0 d t x : scl t = 0 -> val d t x = 0.
  Proof. intros E. destruct d; cbn [val]; rewrite E; [reflexivity|]. destruct (is_null _); [reflexivity|]. ring. Qed.
  Lemma tight_zero : forall d t, tight d t -> scl t = 0 -> t = zero_node.
  Proof. intros [|d] [|s l r]; try (intros []; fail); cbn; intros H E; subst; [destruct H; subst; reflexivity|]. destruct H as [(_ & ? & ?)|H]; [subst; reflexivity|]. destruct (proj1 H eq_refl). Qed.
  Lemma zero_tight d : tight d zero_node.
  Proof. destruct d; cbn; auto. Qed.

  (** ** Branch does nothing to a tight tree *)
  Lemma branch_tight k : forall d t, (k <= d)%nat -> tight d t -> branch A k t = t.
  Proof.
    induction k as [|k IH]; intros d t Hk H; [reflexivity|]. destruct d as [|d]; [lia|]. destruct t as [|s l r]; [reflexivity|]. cbn [branch]. cbn in H. destruct H as [(-> & -> & ->)|(N & H1 & H2 & _)].
    - rewrite is0_0. reflexivity.
    - rewrite is0_n by exact N. rewrite (tight_null _ _ H1), (tight_null _ _ H2). cbn [orb]. f_equal; apply (IH d); auto; lia.
  Qed.

  (** ** Prune *)
  Lemma normalize1_id d s l r k : loose k d l -> loose k d r -> anorm (scl l) + anorm (scl r) = 1 -> normalize1 A (BNode s l r) = BNode s l r.
  Proof.
    intros H1 H2 E. cbn [normalize1]. rewrite (loose_null _ _ _ H1), E, root_1, !div_1, !set_same. reflexivity.
  Qed.
  Lemma prune_top_ok d s l r : semi d l -> semi d r -> anorm (scl l) + anorm (scl r) = 1 ->
    let t := prune_top A (BNode s l r) in semi (S d) t /\ anorm (scl t) = anorm s /\ (s <> 0 -> scl t <> 0) /\ forall x, val (S d) t x = val (S d) (BNode s l r) x.
  Proof.
    intros H1 H2 E. cbn [prune_top]. pose proof (semi_null _ _ H1) as N1. pose proof (semi_null _ _ H2) as N2. destruct (is0_spec (scl l)) as [Z|NZ].
    - assert (E2 : anorm (scl r) = 1). { rewrite Z, anorm_0 in E. rewrite <- E. ring. }
      assert (NR : scl r <> 0) by (apply unit_n0, E2). rewrite (abs_1 _ E2), div_1. cbn zeta. cbn [scl]. split; [|split; [|split]].
      + cbn [semi]. right. split; [apply zero_tight|]. split.
        * apply tight_scale; [apply semi_tight; assumption|tauto|]. intros _. exact one_n0.
        * cbn [scl zero_node]. rewrite scl_set by exact N2. rewrite anorm_0, anorm_one. ring.
      + apply anorm_mul_unit, E2.
      + intros Hs. apply mul_n0; assumption.
      + intros x. cbn [val br scl]. destruct (N.odd x); cbn [is_null zero_node].
        * rewrite null_set, N2. rewrite <- (set_same r) at 3. replace (scl r) with (scl r * scl (set_scl 1 r)) at 2 by (rewrite scl_set by exact N2; ring).
          replace (set_scl (scl r * scl (set_scl 1 r)) r) with (set_scl (scl r * scl (set_scl 1 r)) (set_scl 1 r)) by (destruct r; reflexivity).
          rewrite val_scale by (rewrite null_set; exact N2). ring.
        * rewrite N1, (val_0 d zero_node), (val_0 d l) by (assumption || reflexivity). ring.
    - destruct (is0_spec (scl r)) as [Z|NZ2].
      + assert (E2 : anorm (scl l) = 1). { rewrite Z, anorm_0 in E. rewrite <- E. ring. }
        rewrite (abs_1 _ E2), div_1. cbn zeta. cbn [scl]. split; [|split; [|split]].
        * cbn [semi]. right. split; [|split; [apply zero_tight|]].
          -- apply tight_scale; [apply semi_tight; assumption|tauto|]. intros _. exact one_n0.
          -- cbn [scl zero_node]. rewrite scl_set by exact N1. rewrite anorm_0, anorm_one. ring.
        * apply anorm_mul_unit, E2.
        * intros Hs. apply mul_n0; assumption.
        * intros x. cbn [val br scl]. destruct (N.odd x); cbn [is_null zero_node].
          -- rewrite N2, (val_0 d zero_node), (val_0 d r) by (assumption || reflexivity). ring.
          -- rewrite null_set, N1. rewrite <- (set_same l) at 3. replace (scl l) with (scl l * scl (set_scl 1 l)) at 2 by (rewrite scl_set by exact N1; ring).
             replace (set_scl (scl l * scl (set_scl 1 l)) l) with (set_scl (scl l * scl (set_scl 1 l)) (set_scl 1 l)) by (destruct l; reflexivity).
             rewrite val_scale by (rewrite null_set; exact N1). ring.
      + pose proof (phase_unit (scl r)) as U. pose proof (phase_n0 (scl r)) as P0. set (p := phase_of A (scl r)) in *. clearbody p. cbn zeta. cbn [scl].
        assert (V : forall t x, is_null t = false -> p * val d (set_scl (scl t / p) t) x = val d t x).
        { intros t x N. rewrite <- val_scale by (rewrite null_set; exact N). rewrite scl_set by exact N.
          replace (p * (scl t / p)) with (scl t / p * p) by ring. rewrite div_mul by exact P0. f_equal. destruct t; reflexivity. }
        split; [|split; [|split]].
        * cbn [semi]. right. split; [|split].
          -- apply tight_scale; [apply semi_tight; assumption|tauto|]. intros _. apply div_n0; assumption.
          -- apply tight_scale; [apply semi_tight; assumption|tauto|]. intros _. apply div_n0; assumption.
          -- rewrite !scl_set by assumption. rewrite !anorm_div_unit by exact U. exact E.
        * apply anorm_mul_unit, U.
        * intros Hs. apply mul_n0; assumption.
        * intros x. cbn [val br scl]. destruct (N.odd x); rewrite null_set; [rewrite N2, <- (V r) by exact N2|rewrite N1, <- (V l) by exact N1]; ring.
  Qed.
  Lemma prune_ok k : forall d t, loose k d t ->
    let t' := prune A k t in semi d t' /\ anorm (scl t') = anorm (scl t) /\ (scl t <> 0 -> scl t' <> 0) /\ forall x, val d t' x = val d t x.
  Proof.
    induction k as [|k IH]; intros d t H; cbn zeta.
    - cbn [prune]. cbn in H. split; [apply tight_semi, H|auto].
    - destruct d as [|d]; [destruct H|]. destruct t as [|s l r]; [destruct H|]. cbn [loose] in H. cbn [prune]. destruct H as [(-> & -> & ->)|(H1 & H2 & E)].
      + cbn [is_null]. split; [left; auto|]. split; [reflexivity|]. split; [intros N; destruct N; reflexivity|]. reflexivity.
      + rewrite (loose_null _ _ _ H1). destruct (IH _ _ H1) as (A1 & A2 & _ & A3). destruct (IH _ _ H2) as (B1 & B2 & _ & B3). set (l' := prune A k l) in *. set (r' := prune A k r) in *. clearbody l' r'.
        assert (E' : anorm (scl l') + anorm (scl r') = 1) by (rewrite A2, B2; exact E).
        assert (NI : normalize1 A (BNode s l' r') = BNode s l' r').
        { cbn [normalize1]. rewrite (semi_null _ _ A1), E', root_1, !div_1, !set_same. reflexivity. }
        rewrite NI. destruct (prune_top_ok d s l' r' A1 B1 E') as (C1 & C2 & C3 & C4). split; [exact C1|]. split; [exact C2|]. split; [exact C3|].
        intros x. rewrite C4. cbn [val br scl]. destruct (N.odd x).
        * rewrite (semi_null _ _ B1), (loose_null _ _ _ H2), B3. reflexivity.
        * rewrite (semi_null _ _ A1), (loose_null _ _ _ H1), A3. reflexivity.
  Qed.
End B.
