(** Pages as blocks of the concatenated state; loops over pages and pairs of pages. *)
From Coq Require Import NArith List Bool Lia Ring.
From Verif Require Import Bits MFunctions SpecFunctions PFunctions MParFor SpecParFor PParFor MKernel PKernel Amp PAmp SpecState MEngine SpecEngine PLoop PApply PGates PGates2 PGates3 PCompose PProb PEngine MPager SpecPager.
Import ListNotations.
Local Open Scope N_scope.

Section Runs.
  Context {K : StarRing}.
  Local Notation V := (mem K).
  Lemma every_run_weaken {T} (R Q Q' : T -> Prop) : every_run R Q -> (forall r, Q r -> Q' r) -> every_run R Q'.
  Proof. intros [E A] H. split; auto. Qed.
  Lemma andthen_run (a b : @pgstep K) p (Q : pager K -> Prop) R :
    every_run (a p) (fun r => exists p1, r = Ok p1 /\ Q p1) -> (forall p1, Q p1 -> every_run (b p1) R) -> every_run (andthen a b p) R.
  Proof.
    intros [[r1 H1] A] B. split.
    - destruct (A r1 H1) as [p1 [-> Hq]]. destruct (B p1 Hq) as [[r Hr] _]. exists r, (Ok p1). auto.
    - intros r [r2 [H2 H3]]. destruct (A r2 H2) as [p1 [-> Hq]]. destruct (B p1 Hq) as [_ HB]. now apply HB.
  Qed.
  Lemma each_map (body : N -> @pgstep K) (g : N -> N) l : forall p, every_run (each body (map g l) p) = every_run (each (fun i => body (g i)) l p).
  Proof.
    intros p. f_equal. revert p. induction l as [|i t IH]; intros p; cbn [map each]. reflexivity.
    replace (each body (map g t)) with (each (fun i => body (g i)) t); auto. clear - t. induction t as [|j t IH]; cbn [map each]; auto. now rewrite IH.
  Qed.
End Runs.

Section Blocks.
  Context {K : StarRing}.
  Variable c : cfg.
  Add Ring KrAR : (sr_ring K).
  Local Notation V := (mem K).

  Lemma fits_le n q : fits c n -> q <= n -> fits c q.
  Proof.
    intros [A [B [C D]]] H. repeat split; auto. lia. assert (2 ^ q <= 2 ^ n) by (apply N.pow_le_mono_r; lia). lia.
  Qed.
  Lemma paged_size q (p : pager K) : paged q p -> 2 ^ pg_n p / pg_count p = 2 ^ q.
  Proof.
    intros [Hq E]. rewrite E. symmetry. apply N.div_unique_exact. apply pow2_nz. rewrite <- N.pow_add_r. f_equal. lia.
  Qed.
  Lemma paged_power q (p : pager K) : pg_n p < 64 -> paged q p -> pageMaxQPower p = 2 ^ q.
  Proof.
    intros Hn Hp. unfold pageMaxQPower. rewrite (paged_size q) by auto. unfold w64. apply N.mod_small.
    apply pow2_lt_mono. destruct Hp. lia.
  Qed.
  Lemma paged_qpp q (p : pager K) : pg_n p < 64 -> paged q p -> qubitsPerPage p = q.
  Proof.
    intros Hn Hp. unfold qubitsPerPage. rewrite (paged_power q) by auto. rewrite log2Ocl_ok. apply N.log2_pow2. lia.
    split. apply pow2_pos. apply pow2_lt_mono. destruct Hp. lia.
  Qed.
  Lemma flat_at q (p : pager K) x : paged q p -> flat p x = vread (pg_page p (x / 2 ^ q)) (x mod 2 ^ q).
  Proof. intros Hp. unfold flat. rewrite (paged_size q) by auto. cbv zeta. unfold vread. destruct (pg_page p _); auto. Qed.
  Lemma page_lt q n x : q <= n -> x < 2 ^ n -> x / 2 ^ q < 2 ^ (n - q).
  Proof. intros Hq Hx. apply N.div_lt_upper_bound. apply pow2_nz. rewrite <- N.pow_add_r. now replace (q + (n - q)) with n by lia. Qed.

  (** Bits of an index: page number and offset. *)
  Lemma tb_off q x t : t < q -> N.testbit (x mod 2 ^ q) t = N.testbit x t.
  Proof. intros H. rewrite tb_mod2. destruct (N.ltb_spec t q); auto; lia. Qed.
  Lemma tb_page q x t : N.testbit (x / 2 ^ q) t = N.testbit x (t + q).
  Proof. now rewrite tb_div2. Qed.
  Lemma set_lo q x t : t < q -> N.setbit x t / 2 ^ q = x / 2 ^ q /\ N.setbit x t mod 2 ^ q = N.setbit (x mod 2 ^ q) t.
  Proof.
    intros H. split; apply N.bits_inj; intros m.
    - rewrite !tb_div2, tb_setbit. destruct (N.eqb_spec t (m + q)); auto; lia.
    - rewrite tb_setbit, !tb_mod2, tb_setbit. destruct (N.ltb_spec m q), (N.eqb_spec t m); cbn [orb andb]; auto; lia.
  Qed.
  Lemma clear_lo q x t : t < q -> N.clearbit x t / 2 ^ q = x / 2 ^ q /\ N.clearbit x t mod 2 ^ q = N.clearbit (x mod 2 ^ q) t.
  Proof.
    intros H. split; apply N.bits_inj; intros m.
    - rewrite !tb_div2, tb_clearbit. destruct (N.eqb_spec t (m + q)); cbn; try rewrite andb_true_r; auto; lia.
    - rewrite tb_clearbit, !tb_mod2, tb_clearbit. destruct (N.ltb_spec m q), (N.eqb_spec t m); cbn [negb orb andb]; rewrite ?andb_false_r, ?andb_true_r; auto; lia.
  Qed.
  Lemma set_hi q x t : q <= t -> N.setbit x t / 2 ^ q = N.setbit (x / 2 ^ q) (t - q) /\ N.setbit x t mod 2 ^ q = x mod 2 ^ q.
  Proof.
    intros H. split; apply N.bits_inj; intros m.
    - rewrite tb_setbit, !tb_div2, tb_setbit. destruct (N.eqb_spec t (m + q)), (N.eqb_spec (t - q) m); auto; lia.
    - rewrite !tb_mod2, tb_setbit. destruct (N.ltb_spec m q), (N.eqb_spec t m); cbn [orb andb]; auto; lia.
  Qed.
  Lemma clear_hi q x t : q <= t -> N.clearbit x t / 2 ^ q = N.clearbit (x / 2 ^ q) (t - q) /\ N.clearbit x t mod 2 ^ q = x mod 2 ^ q.
  Proof.
    intros H. split; apply N.bits_inj; intros m.
    - rewrite tb_clearbit, !tb_div2, tb_clearbit. destruct (N.eqb_spec t (m + q)), (N.eqb_spec (t - q) m); auto; lia.
    - rewrite !tb_mod2, tb_clearbit. destruct (N.ltb_spec m q), (N.eqb_spec t m); cbn [negb orb andb]; rewrite ?andb_true_r; auto; lia.
  Qed.

  (** Same shape. *)
  Definition shape (p p' : pager K) : Prop := pg_n p' = pg_n p /\ pg_thr p' = pg_thr p /\ pg_count p' = pg_count p.
  Lemma shape_refl p : shape p p. Proof. repeat split. Qed.
  Lemma shape_paged q p p' : shape p p' -> paged q p -> paged q p'.
  Proof. intros [A [B C]] [H1 H2]. split. now rewrite A. now rewrite C, A. Qed.

  (** A loop over distinct pages. *)
  Definition op_ok (q : N) (f : option V -> res (option V) -> Prop) (G : V -> V) : Prop :=
    forall v, every_run (f v) (fun r => exists v', r = Ok v' /\ eqv q (vread v') (G (vread v))).
  Lemma each_pages q (f : N -> option V -> res (option V) -> Prop) (G : N -> V -> V) : forall js p, NoDup js -> (forall j, In j js -> j < pg_count p) ->
    (forall j, In j js -> op_ok q (f j) (G j)) ->
    every_run (each (fun j => page_op (f j) j) js p) (fun r => exists p', r = Ok p' /\ shape p p' /\
      forall j, (In j js -> eqv q (vread (pg_page p' j)) (G j (vread (pg_page p j)))) /\ (~ In j js -> pg_page p' j = pg_page p j)).
  Proof.
    induction js as [|i t IH]; intros p ND Hlt HG; cbn [each].
    - split. exists (Ok p). reflexivity. intros r ->. exists p. split; auto. split. apply shape_refl. intros j. split; auto. intros [].
    - inversion ND as [|? ? Hni ND']; subst.
      apply (andthen_run _ _ p (fun p1 => shape p p1 /\ eqv q (vread (pg_page p1 i)) (G i (vread (pg_page p i))) /\ forall j, j <> i -> pg_page p1 j = pg_page p j)).
      + unfold page_op. destruct (N.leb_spec (pg_count p) i) as [L|L]. specialize (Hlt i (or_introl eq_refl)). lia.
        destruct (HG i (or_introl eq_refl) (pg_page p i)) as [[r1 H1] A]. split.
        * eexists. exists r1. split; [exact H1 | reflexivity].
        * intros r [r2 [H2 ->]]. destruct (A r2 H2) as [v' [-> Hv]]. eexists. split; [reflexivity|]. split. repeat split. cbn [pg_page set_page].
          rewrite N.eqb_refl. split; auto. intros j Hj. destruct (N.eqb_spec j i); auto; contradiction.
      + intros p1 [S1 [E1 O1]]. eapply every_run_weaken.
        * apply IH; auto. intros j Hj. destruct S1 as [_ [_ ->]]. apply Hlt. now right. intros j Hj. apply HG. now right.
        * intros r [p' [-> [S2 E2]]]. exists p'. split; auto. split.
          destruct S1 as [A1 [B1 C1]], S2 as [A2 [B2 C2]]. repeat split; congruence.
          intros j. destruct (E2 j) as [Ea Eb]. split.
          -- intros [<-|Hj]. rewrite Eb by auto. exact E1.
             rewrite <- (O1 j). now apply Ea. intros ->. contradiction.
          -- intros Hj. rewrite Eb by (intros H; apply Hj; now right). apply O1. intros ->. apply Hj. now left.
  Qed.

  (** A loop over disjoint pairs of pages. *)
  Definition op2_ok (q : N) (f : option V -> option V -> res (option V * option V) -> Prop) (G : V -> V -> V * V) : Prop :=
    forall v w, every_run (f v w) (fun r => exists v' w', r = Ok (v', w') /\ eqv q (vread v') (fst (G (vread v) (vread w))) /\ eqv q (vread w') (snd (G (vread v) (vread w)))).
  Lemma each_pairs q f G (lo hi : N -> N) : op2_ok q f G -> forall l p, NoDup (map lo l ++ map hi l) ->
    (forall i, In i l -> lo i < pg_count p /\ hi i < pg_count p) ->
    every_run (each (fun i => pair_op f (lo i) (hi i)) l p) (fun r => exists p', r = Ok p' /\ shape p p' /\
      (forall i, In i l -> eqv q (vread (pg_page p' (lo i))) (fst (G (vread (pg_page p (lo i))) (vread (pg_page p (hi i))))) /\
                           eqv q (vread (pg_page p' (hi i))) (snd (G (vread (pg_page p (lo i))) (vread (pg_page p (hi i)))))) /\
      (forall j, ~ In j (map lo l ++ map hi l) -> pg_page p' j = pg_page p j)).
  Proof.
    intros HG. induction l as [|i t IH]; intros p ND Hlt; cbn [each].
    - split. exists (Ok p). reflexivity. intros r ->. exists p. split; auto. split. apply shape_refl. split. intros i []. auto.
    - cbn [map app] in ND. inversion ND as [|? ? Hni ND1]; subst. pose proof (NoDup_remove_1 _ _ _ ND1) as ND2. pose proof (NoDup_remove_2 _ _ _ ND1) as Hhi.
      assert (Hne : lo i <> hi i) by (intros E; apply Hni; rewrite E; apply in_or_app; right; now left).
      assert (Hlo : ~ In (lo i) (map lo t ++ map hi t)).
      { intros H. apply Hni. apply in_app_or in H. apply in_or_app. destruct H; [now left|right; now right]. }
      apply (andthen_run _ _ p (fun p1 => shape p p1 /\ eqv q (vread (pg_page p1 (lo i))) (fst (G (vread (pg_page p (lo i))) (vread (pg_page p (hi i))))) /\
        eqv q (vread (pg_page p1 (hi i))) (snd (G (vread (pg_page p (lo i))) (vread (pg_page p (hi i))))) /\ forall j, j <> lo i -> j <> hi i -> pg_page p1 j = pg_page p j)).
      + unfold pair_op. destruct (Hlt i (or_introl eq_refl)) as [L1 L2].
        destruct (N.leb_spec (pg_count p) (lo i)); [lia|]. destruct (N.leb_spec (pg_count p) (hi i)); [lia|]. cbn [orb].
        destruct (HG (pg_page p (lo i)) (pg_page p (hi i))) as [[r1 H1] A]. split.
        * eexists. exists r1. split; [exact H1 | reflexivity].
        * intros r [r2 [H2 ->]]. destruct (A r2 H2) as [v' [w' [-> [Hv Hw]]]]. eexists. split; [reflexivity|]. split. repeat split. cbn [pg_page set_page].
          rewrite !N.eqb_refl. destruct (N.eqb_spec (lo i) (hi i)); [contradiction|]. split; auto. split; auto.
          intros j J1 J2. destruct (N.eqb_spec j (hi i)); [contradiction|]. destruct (N.eqb_spec j (lo i)); [contradiction|]. auto.
      + intros p1 [S1 [E1 [E1' O1]]]. eapply every_run_weaken.
        * apply IH; auto. intros j Hj. destruct S1 as [_ [_ ->]]. apply Hlt. now right.
        * intros r [p' [-> [S2 [E2 O2]]]]. exists p'. split; auto. split.
          destruct S1 as [A1 [B1 C1]], S2 as [A2 [B2 C2]]. repeat split; congruence.
          split.
          -- intros k [<-|Hk].
             ++ rewrite !O2 by auto. auto.
             ++ destruct (E2 k Hk) as [Ea Eb].
                assert (Q1 : In (lo k) (map lo t ++ map hi t)) by (apply in_or_app; left; now apply in_map).
                assert (Q2 : In (hi k) (map lo t ++ map hi t)) by (apply in_or_app; right; now apply in_map).
                rewrite <- (O1 (lo k)), <- (O1 (hi k)). auto.
                all: intros E; rewrite E in *; contradiction.
          -- intros j Hj. cbn [map app] in Hj. rewrite O2, O1; auto.
             ++ intros ->. apply Hj. now left.
             ++ intros ->. apply Hj. right. apply in_or_app. right. now left.
             ++ intros H. apply Hj. right. apply in_app_or in H. apply in_or_app. destruct H; [now left | right; now right].
  Qed.
End Blocks.
