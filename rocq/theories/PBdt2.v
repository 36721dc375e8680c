(** QBdt: the norm of a tree, PopStateVector, PushStateVector and Apply2x2. *)
From Coq Require Import NArith Arith List Bool Lia Ring.
From Verif Require Import Amp PAmp PGates2 SpecState MBdt SpecBdt PBdt1.
Import ListNotations.
Local Open Scope N_scope.

Section B.
  Context {K : StarRing} (A : Arith K).
  Hypothesis EA : exact_arith A.
  Hypothesis PS : positive_sums (K := K).
  Add Ring KrCS : (sr_ring K).
  Local Open Scope amp_scope.
  Local Notation bdt := (@bdt K).
  Local Notation "x / y" := (ar_div A x y) : amp_scope.
  Local Notation root := (ar_sqrt A).

  (** Sums over the basis states of [d] qubits, lowest bit first. *)
  Fixpoint tsum (d : nat) (f : N -> K) : K :=
    match d with
    | O => f 0%N
    | S d => tsum d (fun x => f (N.double x)) + tsum d (fun x => f (N.succ_double x))
    end.
  Lemma tsum_ext d : forall f g, (forall x, f x = g x) -> tsum d f = tsum d g.
  Proof. induction d as [|d IH]; intros f g H; cbn [tsum]; [apply H|]. f_equal; apply IH; intros x; apply H. Qed.
  Lemma tsum_add d : forall f g, tsum d (fun x => f x + g x) = tsum d f + tsum d g.
  Proof. induction d as [|d IH]; intros f g; cbn [tsum]; [reflexivity|]. rewrite (IH (fun x => f (N.double x))), (IH (fun x => f (N.succ_double x))). ring. Qed.
  Lemma tsum_scale d c : forall f, tsum d (fun x => c * f x) = c * tsum d f.
  Proof. induction d as [|d IH]; intros f; cbn [tsum]; [reflexivity|]. rewrite (IH (fun x => f (N.double x))), (IH (fun x => f (N.succ_double x))). ring. Qed.
  Lemma tsum_0 d : forall f, (forall x, f x = 0) -> tsum d f = 0.
  Proof. induction d as [|d IH]; intros f H; cbn [tsum]; [apply H|]. rewrite !IH by (intros x; apply H). ring. Qed.
  Lemma odd_double x : N.odd (N.double x) = false. Proof. destruct x; reflexivity. Qed.
  Lemma odd_succ x : N.odd (N.succ_double x) = true. Proof. destruct x; reflexivity. Qed.
  Lemma div2_d x : N.div2 (N.double x) = x. Proof. destruct x; reflexivity. Qed.
  Lemma div2_s x : N.div2 (N.succ_double x) = x. Proof. destruct x; reflexivity. Qed.
  Lemma two_cases x : x = N.double (N.div2 x) \/ x = N.succ_double (N.div2 x).
  Proof. destruct x as [|[p|p|]]; cbn; auto. Qed.

  Lemma val_d d s (l r : bdt) x : is_null l = false -> val (S d) (BNode s l r) (N.double x) = s * val d l x.
  Proof. intros H. cbn [val br scl]. rewrite odd_double, H, div2_d. reflexivity. Qed.
  Lemma val_s d s (l r : bdt) x : is_null r = false -> val (S d) (BNode s l r) (N.succ_double x) = s * val d r x.
  Proof. intros H. cbn [val br scl]. rewrite odd_succ, H, div2_s. reflexivity. Qed.
  Lemma tight_norm d : forall t, tight d t -> tsum d (fun x => anorm (val d t x)) = anorm (scl t).
  Proof.
    induction d as [|d IH]; intros t H; [reflexivity|]. destruct t as [|s l r]; [destruct H|]. cbn in H. destruct H as [(-> & -> & ->)|(N & H1 & H2 & E)].
    - cbn [scl]. rewrite anorm_0. apply tsum_0. intros x. rewrite val_0 by reflexivity. apply anorm_0.
    - cbn [tsum scl]. rewrite (tsum_ext d (fun x => anorm (val (S d) (BNode s l r) (N.double x))) (fun x => anorm s * anorm (val d l x))).
      2:{ intros x. rewrite val_d by (apply (tight_null _ _ H1)). apply anorm_mul. }
      rewrite (tsum_ext d (fun x => anorm (val (S d) (BNode s l r) (N.succ_double x))) (fun x => anorm s * anorm (val d r x))).
      2:{ intros x. rewrite val_s by (apply (tight_null _ _ H2)). apply anorm_mul. }
      rewrite !tsum_scale, (IH l H1), (IH r H2). replace (anorm s * anorm (scl l) + anorm s * anorm (scl r)) with (anorm s * (anorm (scl l) + anorm (scl r))) by ring.
      rewrite E. ring.
  Qed.
  Lemma semi_norm d t : semi d t -> tsum d (fun x => anorm (val d t x)) = anorm (scl t).
  Proof.
    destruct d as [|d]; [reflexivity|]. destruct t as [|s l r]; [intros []|]. cbn [semi]. intros [(-> & -> & ->)|(H1 & H2 & E)].
    - cbn [scl]. rewrite anorm_0. apply tsum_0. intros x. rewrite val_0 by reflexivity. apply anorm_0.
    - cbn [tsum scl]. rewrite (tsum_ext d (fun x => anorm (val (S d) (BNode s l r) (N.double x))) (fun x => anorm s * anorm (val d l x))).
      2:{ intros x. rewrite val_d by (apply (tight_null _ _ H1)). apply anorm_mul. }
      rewrite (tsum_ext d (fun x => anorm (val (S d) (BNode s l r) (N.succ_double x))) (fun x => anorm s * anorm (val d r x))).
      2:{ intros x. rewrite val_s by (apply (tight_null _ _ H2)). apply anorm_mul. }
      rewrite !tsum_scale, (tight_norm d l H1), (tight_norm d r H2). replace (anorm s * anorm (scl l) + anorm s * anorm (scl r)) with (anorm s * (anorm (scl l) + anorm (scl r))) by ring.
      rewrite E. ring.
  Qed.

  (** ** PopStateVector *)
  Lemma val_unit d (t : bdt) x : is_null t = false -> val d t x = scl t * val d (set_scl 1 t) x.
  Proof.
    intros N. rewrite <- val_scale by (rewrite null_set; exact N). rewrite scl_set by exact N. f_equal. destruct t; [reflexivity|]. cbn [set_scl scl]. f_equal. ring.
  Qed.
  Lemma val_set d (t : bdt) c x : is_null t = false -> val d (set_scl c t) x = c * val d (set_scl 1 t) x.
  Proof.
    intros N. rewrite (val_unit d (set_scl c t)) by (rewrite null_set; exact N). rewrite scl_set by exact N. f_equal. f_equal. destruct t; reflexivity.
  Qed.
  Lemma root_n0 (x y : K) : x <> 0 \/ y <> 0 -> root (anorm x + anorm y) <> 0.
  Proof.
    intros H E. pose proof (root_sq A EA x y) as R. rewrite E in R. assert (Z : anorm x + anorm y = 0) by (rewrite <- R; ring). apply (proj2 PS) in Z. tauto.
  Qed.
  Lemma root_phase (x : K) : x <> 0 -> root (anorm x) * phase_of A x = x.
  Proof. intros H. replace (root (anorm x) * phase_of A x) with (phase_of A x * aabs A x) by (unfold aabs; ring). apply phase_abs; assumption. Qed.
  Lemma pop_top_ok d s l r : semi d l -> semi d r ->
    let t := pop_top A (BNode s l r) in semi (S d) t /\ (forall x, val (S d) t (N.double x) = val d l x) /\ (forall x, val (S d) t (N.succ_double x) = val d r x).
  Proof.
    intros H1 H2. pose proof (semi_null _ _ H1) as N1. pose proof (semi_null _ _ H2) as N2. cbn [pop_top]. destruct (is0_spec (scl l)) as [Z1|Z1]; destruct (is0_spec (scl r)) as [Z2|Z2]; cbn [andb]; cbn zeta.
    - split; [left; auto|]. split; intros x; rewrite !val_0; auto.
    - replace (anorm (scl l) + anorm (scl r)) with (anorm (scl r)) by (rewrite Z1, anorm_0; ring). rewrite root_phase by exact Z2. split; [|split].
      + right. split; [apply zero_tight|]. split.
        * apply tight_scale; [apply semi_tight; assumption|tauto|]. intros _. exact (proj1 PS).
        * cbn [scl zero_node]. rewrite scl_set by exact N2. rewrite anorm_0, (anorm_one (K := K)). ring.
      + intros x. rewrite val_d by reflexivity. rewrite !val_0 by (exact Z1 || reflexivity). ring.
      + intros x. rewrite val_s by (rewrite null_set; exact N2). symmetry. apply val_unit, N2.
    - replace (anorm (scl l) + anorm (scl r)) with (anorm (scl l)) by (rewrite Z2, anorm_0; ring). rewrite root_phase by exact Z1. split; [|split].
      + right. split; [|split; [apply zero_tight|]].
        * apply tight_scale; [apply semi_tight; assumption|tauto|]. intros _. exact (proj1 PS).
        * cbn [scl zero_node]. rewrite scl_set by exact N1. rewrite anorm_0, (anorm_one (K := K)). ring.
      + intros x. rewrite val_d by (rewrite null_set; exact N1). symmetry. apply val_unit, N1.
      + intros x. rewrite val_s by reflexivity. rewrite !val_0 by (exact Z2 || reflexivity). ring.
    - set (q := root (anorm (scl l) + anorm (scl r)) * phase_of A (scl l)).
      assert (Q0 : q <> 0) by (apply (mul_n0 A EA); [apply root_n0; left; exact Z1|apply (phase_n0 A EA PS)]).
      assert (QN : anorm q = anorm (scl l) + anorm (scl r)). { unfold q. rewrite (anorm_mul_unit (K := K)) by (apply (phase_unit A EA)). apply (anorm_root A EA). }
      clearbody q. split; [|split].
      + right. split; [|split].
        * apply tight_scale; [apply semi_tight; assumption|tauto|]. intros _. apply (div_n0 A EA); assumption.
        * apply tight_scale; [apply semi_tight; assumption|tauto|]. intros _. apply (div_n0 A EA); assumption.
        * rewrite !scl_set by assumption. apply (cancel A EA _ _ (anorm q)); [apply (anorm_n0 A EA), Q0|].
          replace ((anorm (scl l / q) + anorm (scl r / q)) * anorm q) with (anorm (scl l / q) * anorm q + anorm (scl r / q) * anorm q) by ring.
          rewrite !(anorm_div A EA) by exact Q0. rewrite QN. ring.
      + intros x. rewrite val_d by (rewrite null_set; exact N1). rewrite (val_set d l (scl l / q)) by exact N1. rewrite (val_unit d l x N1). rewrite <- (div_mul A EA (scl l) q) at 2 by exact Q0. ring.
      + intros x. rewrite val_s by (rewrite null_set; exact N2). rewrite (val_set d r (scl r / q)) by exact N2. rewrite (val_unit d r x N2). rewrite <- (div_mul A EA (scl r) q) at 2 by exact Q0. ring.
  Qed.

  (** ** PushStateVector *)
  Lemma bdt_eqb_ok : forall t u : bdt, bdt_eqb t u = true -> t = u.
  Proof.
    induction t as [|s l IHl r IHr]; intros [|s' l' r']; cbn; try discriminate; [reflexivity|]. intros H. apply andb_true_iff in H. destruct H as [H H3]. apply andb_true_iff in H. destruct H as [H1 H2].
    apply sr_eqb_ok in H1. subst. f_equal; auto.
  Qed.
  Lemma bdt_eqb_refl : forall t : bdt, bdt_eqb t t = true.
  Proof. induction t as [|s l IHl r IHr]; cbn; [reflexivity|]. rewrite IHl, IHr, eqb_refl. reflexivity. Qed.
  Lemma equal_under_ok (t u : bdt) : is_null t = false -> is_null u = false -> equal_under t u = true -> set_scl 1 t = set_scl 1 u.
  Proof.
    destruct t as [|s l r]; [discriminate|]. destruct u as [|s' l' r']; [discriminate|]. intros _ _ H. unfold equal_under in H. cbn in H. apply andb_true_iff in H. destruct H as [H1 H2].
    apply bdt_eqb_ok in H1, H2. subst. reflexivity.
  Qed.
  Lemma tight_set_semi d (t : bdt) (c : K) : tight d t -> scl t <> 0 -> semi d (set_scl c t).
  Proof. destruct t as [|s l r]; [destruct d; intros []|]. destruct d; cbn; [tauto|]. intros [(E & _)|H] N; [contradiction|right; tauto]. Qed.
  Definition pair_ok (m : mat2 K) (d : nat) (l r : bdt) (p : bdt * bdt) : Prop :=
    semi d (fst p) /\ semi d (snd p) /\ (forall x, val d (fst p) x = mix0 m (val d l x) (val d r x)) /\ (forall x, val d (snd p) x = mix1 m (val d l x) (val d r x)).
  Lemma push_z0 m d l r : tight d l -> tight d r -> scl l = 0 -> scl r <> 0 ->
    pair_ok m d l r (set_scl (mix0 m (scl (set_scl 0 r)) (scl r)) (set_scl 0 r), set_scl (mix1 m (scl (set_scl 0 r)) (scl r)) r).
  Proof.
    intros H1 H2 Z1 Z2. pose proof (tight_null _ _ H2) as N2. rewrite (scl_set 0 r) by exact N2.
    assert (SS : forall c, set_scl c (set_scl 0 r) = set_scl c r) by (intros c; destruct r; reflexivity). rewrite SS.
    unfold pair_ok. cbn [fst snd]. split; [apply tight_set_semi; assumption|]. split; [apply tight_set_semi; assumption|].
    unfold mix0, mix1. split; intros x; rewrite (val_0 d l x Z1), val_set by exact N2; rewrite (val_unit d r x N2); ring.
  Qed.
  Lemma push_z1 m d l r : tight d l -> tight d r -> scl l <> 0 -> scl r = 0 ->
    pair_ok m d l r (set_scl (mix0 m (scl l) (scl (set_scl 0 l))) l, set_scl (mix1 m (scl l) (scl (set_scl 0 l))) (set_scl 0 l)).
  Proof.
    intros H1 H2 Z1 Z2. pose proof (tight_null _ _ H1) as N1. rewrite (scl_set 0 l) by exact N1.
    assert (SS : forall c, set_scl c (set_scl 0 l) = set_scl c l) by (intros c; destruct l; reflexivity). rewrite SS.
    unfold pair_ok. cbn [fst snd]. split; [apply tight_set_semi; assumption|]. split; [apply tight_set_semi; assumption|].
    unfold mix0, mix1. split; intros x; rewrite (val_0 d r x Z2), val_set by exact N1; rewrite (val_unit d l x N1); ring.
  Qed.
  Lemma push_ok m : forall d fuel l r, (d <= fuel)%nat -> tight d l -> tight d r -> pair_ok m d l r (push A m fuel l r).
  Proof.
    induction d as [|d IH]; intros fuel l r Hf H1 H2.
    all: pose proof (tight_null _ _ H1) as N1; pose proof (tight_null _ _ H2) as N2.
    all: assert (PU : push A m fuel l r = let z0 := is0 (scl l) in let z1 := is0 (scl r) in
      if z0 && z1 then (zero_node, zero_node) else let l := if z0 then set_scl 0 r else l in let r := if negb z0 && z1 then set_scl 0 l else r in
      if z0 || z1 || equal_under l r then (set_scl (mix0 m (scl l) (scl r)) l, set_scl (mix1 m (scl l) (scl r)) r)
      else match fuel with O => (BNull, BNull) | S d => let l := branch A 1 l in let r := branch A 1 r in let down p c := set_scl (scl c * scl p) c in
            let '(l0, r0) := push A m d (down l (br l false)) (down r (br r false)) in
            let '(l1, r1) := push A m d (down l (br l true)) (down r (br r true)) in (pop A 1 (BNode (ar_h A) l0 l1), pop A 1 (BNode (ar_h A) r0 r1)) end)
      by (destruct fuel; reflexivity).
    all: rewrite PU; clear PU; cbn zeta.
    all: destruct (is0_spec (scl l)) as [Z1|Z1]; destruct (is0_spec (scl r)) as [Z2|Z2]; cbn [andb orb negb].
    all: try (split; [apply tight_semi, zero_tight|]; split; [apply tight_semi, zero_tight|]; unfold mix0, mix1; cbn [fst snd];
      split; intros x; rewrite (val_0 _ _ _ Z1), (val_0 _ _ _ Z2), val_0 by reflexivity; ring).
    all: try (apply push_z0; assumption). all: try (apply push_z1; assumption).
    - destruct l as [|sl l0 l1]; [discriminate|]. destruct r as [|sr r0 r1]; [discriminate|]. cbn in H1, H2. destruct H1 as [-> ->]. destruct H2 as [-> ->]. cbn. split; [cbn; auto|]. split; [cbn; auto|]. split; intros x; reflexivity.
    - destruct (equal_under l r) eqn:EU.
      + apply equal_under_ok in EU; [|assumption|assumption]. unfold pair_ok. cbn [fst snd]. split; [apply tight_set_semi; assumption|]. split; [apply tight_set_semi; assumption|].
        unfold mix0, mix1. split; intros x; rewrite val_set by assumption; rewrite (val_unit _ l x N1), (val_unit _ r x N2), EU; ring.
      + destruct fuel as [|fuel]; [lia|]. rewrite !(branch_tight A 1 (S d)) by (assumption || lia).
        destruct l as [|sl l0 l1]; [discriminate|]. destruct r as [|sr r0 r1]; [discriminate|]. cbn [br scl]. cbn [scl] in Z1, Z2.
        cbn in H1, H2. destruct H1 as [(E & _)|(_ & L0 & L1 & LE)]; [contradiction|]. destruct H2 as [(E & _)|(_ & R0 & R1 & RE)]; [contradiction|].
        assert (DT : forall (t : bdt) (s : K), tight d t -> s <> 0 -> tight d (set_scl (scl t * s) t)).
        { intros t s T S0. apply tight_scale; [exact T| |]; [intros E _; rewrite E; ring|]. intros N. apply (mul_n0 A EA); assumption. }
        assert (DV : forall (t : bdt) (s : K) x, tight d t -> val d (set_scl (scl t * s) t) x = s * val d t x).
        { intros t s x T. replace (scl t * s) with (s * scl t) by ring. apply val_scale, (tight_null _ _ T). }
        pose proof (IH fuel _ _ ltac:(lia) (DT l0 sl L0 Z1) (DT r0 sr R0 Z2)) as P0. pose proof (IH fuel _ _ ltac:(lia) (DT l1 sl L1 Z1) (DT r1 sr R1 Z2)) as P1.
        destruct (push A m fuel (set_scl (scl l0 * sl) l0) (set_scl (scl r0 * sr) r0)) as [l0' r0']. destruct (push A m fuel (set_scl (scl l1 * sl) l1) (set_scl (scl r1 * sr) r1)) as [l1' r1'].
        destruct P0 as (A1 & A2 & A3 & A4). destruct P1 as (B1 & B2 & B3 & B4). cbn [fst snd] in *.
        cbn [pop]. rewrite (semi_null _ _ A1), (semi_null _ _ A2). destruct (pop_top_ok d (ar_h A) l0' l1' A1 B1) as (C1 & C2 & C3). destruct (pop_top_ok d (ar_h A) r0' r1' A2 B2) as (D1 & D2 & D3).
        cbn zeta in *. unfold pair_ok. cbn [fst snd]. split; [exact C1|]. split; [exact D1|]. split; intros x; destruct (two_cases x) as [-> | ->].
        * rewrite C2, A3, !DV by assumption. rewrite !val_d by (eapply tight_null; eassumption). reflexivity.
        * rewrite C3, B3, !DV by assumption. rewrite !val_s by (eapply tight_null; eassumption). reflexivity.
        * rewrite D2, A4, !DV by assumption. rewrite !val_d by (eapply tight_null; eassumption). reflexivity.
        * rewrite D3, B4, !DV by assumption. rewrite !val_s by (eapply tight_null; eassumption). reflexivity.
  Qed.

  (** ** Apply2x2 *)
  Lemma mix_norm (m : mat2 K) a b : unitary2 m -> anorm (mix0 m a b) + anorm (mix1 m a b) = anorm a + anorm b.
  Proof. intros U. apply (unitary_pair m a b U). Qed.
  Lemma pair_norm m d l r p : unitary2 m -> tight d l -> tight d r -> pair_ok m d l r p -> anorm (scl (fst p)) + anorm (scl (snd p)) = anorm (scl l) + anorm (scl r).
  Proof.
    intros U H1 H2 (P1 & P2 & P3 & P4). rewrite <- (semi_norm _ _ P1), <- (semi_norm _ _ P2), <- (tight_norm _ _ H1), <- (tight_norm _ _ H2), <- !tsum_add. apply tsum_ext. intros x. rewrite P3, P4. apply mix_norm, U.
  Qed.
  Lemma semi_loose d (t : bdt) : semi d t -> loose d d t.
  Proof.
    destruct t as [|s l r]; [intros []|]. destruct d; [exact (fun H => H)|]. cbn [semi loose]. intros [H|(H1 & H2 & H3)]; [left; exact H|right]. split; [|split; [|exact H3]]; apply tight_loose; auto.
  Qed.
  Lemma diag_unit (m : mat2 K) : unitary2 m -> m01 m = 0 -> m10 m = 0 -> anorm (m00 m) = 1 /\ anorm (m11 m) = 1.
  Proof.
    intros U E1 E2. unfold unitary2, mmul, mdag, midn in U. cbn in U. injection U as U1 U2 U3 U4. rewrite E2 in U1. rewrite E1 in U4. unfold anorm. split; [rewrite <- U1|rewrite <- U4]; rewrite ?conj_0; ring.
  Qed.
  Lemma anti_unit (m : mat2 K) : unitary2 m -> m00 m = 0 -> m11 m = 0 -> anorm (m01 m) = 1 /\ anorm (m10 m) = 1.
  Proof.
    intros U E1 E2. unfold unitary2, mmul, mdag, midn in U. cbn in U. injection U as U1 U2 U3 U4. rewrite E1 in U1. rewrite E2 in U4. unfold anorm. split; [rewrite <- U4|rewrite <- U1]; rewrite ?conj_0; ring.
  Qed.
  Definition turned2 (m : mat2 K) (d : nat) (t t' : bdt) : Prop :=
    tight (S d) t' /\ anorm (scl t') = anorm (scl t) /\ scl t' <> 0 /\
    (forall x, val (S d) t' (N.double x) = mix0 m (val (S d) t (N.double x)) (val (S d) t (N.succ_double x))) /\
    (forall x, val (S d) t' (N.succ_double x) = mix1 m (val (S d) t (N.double x)) (val (S d) t (N.succ_double x))).
  Lemma apply2x2_ok m d t : unitary2 m -> tight (S d) t -> scl t <> 0 -> turned2 m d t (apply2x2 A m (S d) t).
  Proof.
    intros U H N. unfold apply2x2. rewrite (branch_tight A 1 (S d)) by (assumption || lia). destruct t as [|s l r]; [destruct H|]. cbn [br scl]. cbn [scl] in N.
    cbn in H. destruct H as [(E & _)|(_ & H1 & H2 & E)]; [contradiction|]. pose proof (tight_null _ _ H1) as N1. pose proof (tight_null _ _ H2) as N2.
    assert (FIN : forall k (l' r' : bdt), loose k d l' -> loose k d r' -> anorm (scl l') + anorm (scl r') = 1 -> (forall x, val d l' x = mix0 m (val d l x) (val d r x)) -> (forall x, val d r' x = mix1 m (val d l x) (val d r x)) ->
      turned2 m d (BNode s l r) (prune A (S k) (BNode s l' r'))).
    { intros k l' r' L1 L2 E' V1 V2. destruct (prune_ok A EA PS (S k) (S d) (BNode s l' r')) as (P1 & P2 & P3 & P4).
      { cbn [loose]. right. split; [exact L1|]. split; [exact L2|exact E']. }
      split; [apply semi_tight; [exact P1|apply P3, N]|]. split; [exact P2|]. split; [apply P3, N|]. split; intros x; rewrite P4.
      - rewrite !val_d, val_s by (assumption || eapply loose_null; eassumption). rewrite V1. unfold mix0. ring.
      - rewrite !val_s, val_d by (assumption || eapply loose_null; eassumption). rewrite V2. unfold mix1. ring. }
    assert (SC : forall (t : bdt) (c : K), tight d t -> anorm c = 1 -> tight d (set_scl (scl t * c) t)).
    { intros t c T C. apply tight_scale; [exact T| |]; [intros Z _; rewrite Z; ring|]. intros Z. apply (mul_n0 A EA); [exact Z|apply (unit_n0 PS), C]. }
    assert (SV : forall (t : bdt) (c : K) x, tight d t -> val d (set_scl (scl t * c) t) x = c * val d t x).
    { intros t c x T. replace (scl t * c) with (c * scl t) by ring. apply val_scale, (tight_null _ _ T). }
    destruct (is0_spec (m01 m)) as [Z01|Z01]; [destruct (is0_spec (m10 m)) as [Z10|Z10]|]; cbn [andb].
    - destruct (diag_unit m U Z01 Z10) as [C0 C1]. apply (FIN O); cbn [loose].
      + apply SC; assumption. + apply SC; assumption.
      + rewrite !scl_set by assumption. rewrite !(anorm_mul_unit (K := K)) by assumption. exact E.
      + intros x. rewrite SV by assumption. unfold mix0. rewrite Z01. ring.
      + intros x. rewrite SV by assumption. unfold mix1. rewrite Z10. ring.
    - destruct (is0_spec (m00 m)) as [Z00|Z00]; [destruct (is0_spec (m11 m)) as [Z11|Z11]|]; cbn [andb].
      1: { destruct (anti_unit m U Z00 Z11) as [C0 _]. rewrite Z01, anorm_0 in C0. destruct (proj1 PS). symmetry. exact C0. }
      all: pose proof (push_ok m d (S d) l r ltac:(lia) H1 H2) as P; pose proof (pair_norm m d l r _ U H1 H2 P) as PN; destruct (push A m (S d) l r) as [l' r']; destruct P as (P1 & P2 & P3 & P4); cbn [fst snd] in *;
        apply (FIN d); [apply semi_loose, P1|apply semi_loose, P2|rewrite PN; exact E|exact P3|exact P4].
    - destruct (is0_spec (m00 m)) as [Z00|Z00]; [destruct (is0_spec (m11 m)) as [Z11|Z11]|]; cbn [andb].
      1: { destruct (anti_unit m U Z00 Z11) as [C0 C1]. apply (FIN O); cbn [loose].
        + apply SC; assumption. + apply SC; assumption.
        + rewrite !scl_set by assumption. rewrite !(anorm_mul_unit (K := K)) by assumption. rewrite <- E. ring.
        + intros x. rewrite SV by assumption. unfold mix0. rewrite Z00. ring.
        + intros x. rewrite SV by assumption. unfold mix1. rewrite Z11. ring. }
      all: pose proof (push_ok m d (S d) l r ltac:(lia) H1 H2) as P; pose proof (pair_norm m d l r _ U H1 H2 P) as PN; destruct (push A m (S d) l r) as [l' r']; destruct P as (P1 & P2 & P3 & P4); cbn [fst snd] in *;
        apply (FIN d); [apply semi_loose, P1|apply semi_loose, P2|rewrite PN; exact E|exact P3|exact P4].
  Qed.
End B.
