(** Proofs about the C interface, part 3: SWAP, Prob, M, allocateQubit, release; programs. *)
From Coq Require Import NArith List Bool Lia Permutation Ring.
From Verif Require Import Bits MFunctions SpecFunctions PFunctions MParFor PParFor MKernel PKernel Amp PAmp SpecState MEngine SpecEngine PLoop PApply PGates PGates2 PCompose PProb
  PShard2 PQCirc1 PQCirc4 SpecUnit3 MQCircuit MTensor SpecApi MApi SpecApi2 PApi1 PApi2.
Import ListNotations.
Local Open Scope N_scope.

Ltac unmeta := match goal with |- context [a_meta (put ?x ?y ?z)] => change (a_meta (put x y z)) with (a_meta z) end.

Section Steps.
  Context {K : StarRing} (c : @acfg K).
  Local Notation nstate := ((N -> bool) -> K).
  Local Open Scope amp_scope.
  Add Ring KrDL : (sr_ring K).
  Implicit Type Psi : nstate.

  (** ** SWAP *)
  Lemma swap_norm n m ids q1 q2 (Q : sim) Psi : s_n Q = n -> names n m -> Permutation (map fst m) ids -> In q1 ids -> In q2 ids -> reads_named Q m Psi -> nweight ids (fun _ => true) (nswap q1 q2 Psi) = nweight ids (fun _ => true) Psi.
  Proof.
    intros EQ H1 H2 H3 H4 (ph & P1 & P2). apply Permutation_sym in H2. assert (I1 := Permutation_in _ H2 H3). assert (I2 := Permutation_in _ H2 H4). apply Permutation_sym in H2.
    destruct (names_pos n m H1 q1 I1) as (v1 & V1 & _ & L1), (names_pos n m H1 q2 I2) as (v2 & V2 & _ & L2).
    rewrite <- (norm_named n m ids (s_v Q) Psi), <- (norm_named n m ids (fun x => s_v Q (swap_bits v1 v2 x)) (nswap q1 q2 Psi)); auto.
    - unfold norm2. rewrite <- (asum_map K (fun x => anorm (s_v Q x)) (swap_bits v1 v2)). apply asum_perm. apply NoDup_Permutation.
      + apply FinFun.Injective_map_NoDup; [|apply basis_NoDup]. intros x y E. rewrite <- (swap_bits_invol v1 v2 x), <- (swap_bits_invol v1 v2 y). now rewrite E.
      + apply basis_NoDup.
      + intros x. rewrite in_map_iff, basis_In. split.
        * intros (y & <- & Y). apply basis_In in Y. now apply swap_bits_lt.
        * intros X. exists (swap_bits v1 v2 x). split; [apply swap_bits_invol|]. apply basis_In. now apply swap_bits_lt.
    - intros f. rewrite (index_swap n m H1 q1 q2) by auto. rewrite P2, anorm_mul, P1. unfold nswap. ring.
    - intros f. rewrite P2, anorm_mul, P1. ring.
  Qed.
  Lemma step_swap a sid ids Psi q1 q2 : holds a sid ids Psi -> (forall x, In x ids -> (x < 256)%N) -> In q1 ids -> In q2 ids ->
    exists a', api_swap sid q1 q2 a = Ret a' /\ holds a' sid ids (nswap q1 q2 Psi) /\ only_at sid a a'.
  Proof.
    intros (s & S1 & S2 & S3 & S4 & S5) HI IN1 IN2. unfold api_swap, on_sim. rewrite (lookup_in _ _ s) by auto.
    rewrite (some_sim s ids q1 _ eq_refl S3) by auto. destruct (sim_of s) as [Q m] eqn:ES. cbn [fst snd] in *.
    assert (I1 := Permutation_in _ (Permutation_sym S3) IN1). assert (I2 := Permutation_in _ (Permutation_sym S3) IN2).
    destruct (shard_ok _ m q1 S2) as (v1 & A1 & _ & A3 & A4), (shard_ok _ m q2 S2) as (v2 & B1 & _ & B3 & B4); auto.
    unfold sim_swap. rewrite A4, B4. apply N.ltb_lt in A3, B3. rewrite A3, B3. cbn [andb keep bind]. eexists. split; [reflexivity|]. split.
    - rewrite put_eta. pose proof S5 as (ph & P1 & P2). eapply holds_put; eauto.
      + rewrite (swap_norm (s_n Q) m ids q1 q2 Q); auto.
      + exists ph. split; auto. intros f. cbn [s_v]. rewrite (index_swap (s_n Q) m S2 q1 q2) by auto. apply P2.
    - rewrite put_eta. eapply put_only; eauto.
  Qed.

  (** ** Prob *)
  Lemma prob_named ids Q m Psi q v b : names (s_n Q) m -> Permutation (map fst m) ids -> reads_named Q m Psi -> In (q, v) m ->
    weight_of (s_n Q) (fun x => eqb (N.testbit x v) b) (s_v Q) = nchance ids q b Psi.
  Proof.
    intros H1 H2 H3 H4. apply (weight_named (s_n Q) m ids); auto.
    - intros f. rewrite (index_bit m f q v); auto. apply (names_vals _ _ H1).
    - now apply reads_anorm.
  Qed.
  Lemma prob_true n (v : N -> K) q : weight_of n (fun x => N.testbit x q) v = weight_of n (fun x => eqb (N.testbit x q) true) v.
  Proof. apply weight_ext. intros x _. split; auto. now destruct (N.testbit x q). Qed.
  Lemma step_prob a sid ids Psi q : holds a sid ids Psi -> (forall x, In x ids -> (x < 256)%N) -> In q ids -> api_prob sid q a = Ret (Some (nchance ids q true Psi), a).
  Proof.
    intros (s & S1 & S2 & S3 & S4 & S5) HI IN1. unfold api_prob. rewrite (lookup_in _ _ s) by auto.
    rewrite (some_sim s ids q _ eq_refl S3) by auto. destruct (sim_of s) as [Q m] eqn:ES. cbn [fst snd] in *.
    assert (I1 := Permutation_in _ (Permutation_sym S3) IN1). destruct (shard_ok _ m q S2) as (v1 & A1 & _ & A3 & A4); auto.
    unfold sim_prob. rewrite A4. apply N.ltb_lt in A3. rewrite A3. rewrite prob_true. now rewrite (prob_named ids Q m Psi q v1).
  Qed.

  (** ** M *)
  Lemma step_m a sid ids Psi q : (1 : K) <> 0 -> normalizes (ac_nrm c) -> holds a sid ids Psi -> (forall x, In x ids -> (x < 256)%N) -> In q ids ->
    exists r g a', api_m c sid q a = Ret (Some r, a') /\ nchance ids q r Psi <> 0 /\ anorm g * nchance ids q r Psi = 1 /\ holds a' sid ids (nproject q r g Psi) /\ only_at sid a a'.
  Proof.
    intros N10 NZ (s & S1 & S2 & S3 & S4 & S5) HI IN1. unfold api_m. rewrite (lookup_in _ _ s) by auto.
    rewrite (some_sim s ids q _ eq_refl S3) by auto. destruct (sim_of s) as [Q m] eqn:ES. cbn [fst snd] in *.
    assert (I1 := Permutation_in _ (Permutation_sym S3) IN1). destruct (shard_ok _ m q S2) as (v1 & A1 & _ & A3 & A4); auto.
    unfold sim_m, sim_prob. rewrite A4. apply N.ltb_lt in A3. rewrite A3. cbn [bind]. rewrite prob_true. rewrite (prob_named ids Q m Psi q v1) by auto.
    pose proof (nweight_split ids q Psi) as SP. rewrite S4 in SP. set (p := nchance ids q true Psi) in *.
    assert (X : exists r d, (if sr_eqb p 1 then (true, a_draw a) else if sr_eqb p 0 then (false, a_draw a) else (ac_rnd c (a_draw a) p, (a_draw a + 1)%N)) = (r, d) /\ nchance ids q r Psi <> 0).
    { destruct (sr_eqb p 1) eqn:E1. { apply sr_eqb_ok in E1. exists true, (a_draw a). split; auto. fold p. rewrite E1. auto. }
      destruct (sr_eqb p 0) eqn:E0. { apply sr_eqb_ok in E0. exists false, (a_draw a). split; auto. intros F. rewrite E0, F in SP. apply N10. rewrite <- SP. ring. }
      exists (ac_rnd c (a_draw a) p), (a_draw a + 1)%N. split; auto. destruct (ac_rnd c (a_draw a) p).
      - fold p. intros F. apply sr_eqb_ok in F. congruence.
      - intros F. rewrite F in SP. assert (F' : p = 1) by (rewrite <- SP; ring). apply sr_eqb_ok in F'. congruence. }
    destruct X as (r & d & -> & NZr).
    assert (ENZ : (if r then p else 1 - p) = nchance ids q r Psi) by (destruct r; auto; rewrite <- SP; ring).
    set (g := ac_nrm c (if r then p else 1 - p)).
    assert (HG : anorm g * nchance ids q r Psi = 1).
    { unfold g. rewrite ENZ. rewrite <- (prob_named ids Q m Psi q v1 r) by auto. specialize (NZ (basis (s_n Q)) (fun x => if eqb (N.testbit x v1) r then s_v Q x else 0)). cbv beta zeta in NZ.
      assert (W : asum (fun x => anorm (if eqb (N.testbit x v1) r then s_v Q x else 0)) (basis (s_n Q)) = weight_of (s_n Q) (fun x => eqb (N.testbit x v1) r) (s_v Q)).
      { apply asum_ext. intros x _. destruct (eqb _ _); auto. apply anorm_0. }
      rewrite W in NZ. apply NZ. now rewrite (prob_named ids Q m Psi q v1 r). }
    exists r, g. eexists. split; [reflexivity|]. split; [auto|]. split; [auto|]. split.
    - unmeta. destruct S5 as (ph & P1 & P2). eapply holds_put; eauto.
      + transitivity (anorm g * nchance ids q r Psi); auto. unfold nweight, nchance, nweight. rewrite <- asum_scale. apply asum_ext. intros f _. unfold nproject.
        destruct (eqb (f q) r). apply anorm_mul. rewrite anorm_0. ring.
      + exists ph. split; auto. intros f. cbn [s_v]. rewrite (index_bit m f q v1); auto using (names_vals _ _ S2). unfold nproject. destruct (eqb (f q) r); [rewrite P2|]; ring.
    - unmeta. eapply put_only; eauto.
  Qed.

  (** ** allocateQubit *)
  Lemma mset_new q v (m : list (N * N)) : ~ In q (map fst m) -> Permutation (mset q v m) ((q, v) :: m).
  Proof.
    induction m as [|[k w] t IH]; cbn [mset map fst]; intros H; auto. destruct (N.ltb_spec q k); auto.
    destruct (N.eqb_spec q k). { subst. exfalso. apply H. now left. }
    rewrite IH by (intros X; apply H; now right). apply perm_swap.
  Qed.
  Lemma names_new n m q : (n + 1 < 256)%N -> names n m -> ~ In q (map fst m) -> names (n + 1) (mset q n m).
  Proof.
    intros HN (H1 & H2 & H3) H. split; [now apply mset_srt|]. split; [|auto]. rewrite (Permutation_map snd (mset_new q n m H)). cbn [map snd]. replace (N.to_nat (n + 1)) with (S (N.to_nat n)) by lia. cbn [upto].
    rewrite H2, Nnat.N2Nat.id. apply Permutation_cons_append.
  Qed.
  Lemma index_new n m q f : (n + 1 < 256)%N -> names n m -> ~ In q (map fst m) -> index_of (mset q n m) f = if f q then N.setbit (index_of m f) n else index_of m f.
  Proof. intros HN H1 H. rewrite (index_perm _ _ f (mset_new q n m H)); auto. apply (names_vals (n + 1)). now apply names_new. Qed.
  Lemma free_norm ids q Psi : ~ In q ids -> (forall f b, Psi (upd f q b) = Psi f) -> nweight (q :: ids) (fun _ => true) (nalloc q Psi) = nweight ids (fun _ => true) Psi.
  Proof.
    intros _ H. unfold nweight. cbn [assign]. rewrite asum_flat. apply asum_ext. intros f _. cbn [asum]. unfold nalloc. rewrite !upd_same, anorm_0, H. ring.
  Qed.
  Lemma unit_cancel (ph x y : K) : anorm ph = 1 -> ph * x = ph * y -> x = y.
  Proof. intros H1 H2. transitivity (anorm ph * x). { rewrite H1. ring. } transitivity (anorm ph * y). 2:{ rewrite H1. ring. } unfold anorm. transitivity (sr_conj ph * (ph * x)); [ring|]. rewrite H2. ring. Qed.
  Lemma reads_free Q n m q Psi : names n m -> reads_named Q m Psi -> ~ In q (map fst m) -> forall f b, Psi (upd f q b) = Psi f.
  Proof.
    intros H1 (ph & P1 & P2) H f b. assert (E : index_of m (upd f q b) = index_of m f). { apply index_ext. intros k Hk. apply upd_other. intros ->. auto. }
    apply (unit_cancel ph); auto. rewrite <- !P2. now rewrite E.
  Qed.
  Lemma step_alloc a sid ids Psi q : (ac_max c < 256)%N -> holds a sid ids Psi -> ~ In q ids -> (N.of_nat (length ids) < ac_max c)%N ->
    exists a', allocate c sid q a = Ret a' /\ holds a' sid (q :: ids) (nalloc q Psi) /\ only_at sid a a'.
  Proof.
    intros MX (s & S1 & S2 & S3 & S4 & S5) NI LN. unfold allocate. rewrite (lookup_in _ _ s) by auto.
    assert (NI' : ~ In q (map fst (snd (sim_of s)))). { intros X. apply NI. eapply Permutation_in; eauto. }
    pose proof (reads_free _ _ _ q Psi S2 S5 NI') as FR.
    assert (LEN : s_n (fst (sim_of s)) = N.of_nat (length ids)). { rewrite <- (names_length _ _ S2). apply Permutation_length in S3. rewrite map_length in S3. now rewrite S3. }
    unfold sim_of in *. destruct (sl_sim s) as [[Q m]|] eqn:ES; cbn [fst snd] in *.
    - unfold sim_compose. cbn [s_n new_sim]. destruct (N.ltb_spec (ac_max c) (s_n Q + 1)); [lia|]. eexists. split; [reflexivity|]. cbn [s_n].
      assert (EW : w8 (w8 (s_n Q + 1) - 1) = s_n Q). { unfold w8. rewrite !N.mod_small; try lia. rewrite N.mod_small; lia. } rewrite EW. split.
      + rewrite put_eta. eapply holds_put; eauto.
        * cbn [s_n]. apply names_new; auto. lia.
        * rewrite (Permutation_map fst (mset_new q (s_n Q) m NI')). cbn [map fst]. now constructor.
        * rewrite free_norm; auto.
        * destruct S5 as (ph & P1 & P2). exists ph. split; auto. intros f. cbn [s_v]. rewrite (index_new (s_n Q)) by (auto; lia). unfold tensor, nalloc, new_sim. cbn [s_v]. unfold ket.
          pose proof (index_lt _ _ S2 f) as IL. destruct (f q).
          -- assert (T : N.testbit (N.setbit (index_of m f) (s_n Q) / 2 ^ s_n Q) 0 = true) by (rewrite tb_div2, tb_setbit, N.add_0_l, N.eqb_refl; reflexivity).
             destruct (N.eqb_spec (N.setbit (index_of m f) (s_n Q) / 2 ^ s_n Q) 0) as [E|E]; [rewrite E in T; discriminate|]. ring.
          -- rewrite N.mod_small, N.div_small by auto. cbn. rewrite P2. ring.
      + rewrite put_eta. eapply put_only; eauto.
    - eexists. split; [reflexivity|]. assert (ids = []) as -> by (apply Permutation_nil; auto). split.
      + rewrite put_eta. eapply holds_put; eauto.
        * split; [repeat constructor|]. split; [cbn; apply Permutation_refl|reflexivity].
        * rewrite free_norm; auto.
        * destruct S5 as (ph & P1 & P2). exists ph. split; auto. intros f. specialize (P2 f). cbn [index_of s_v new_sim ket] in *. unfold ket, nalloc in *. destruct (f q); cbn in *; auto. ring.
      + rewrite put_eta. eapply put_only; eauto.
  Qed.

  (** ** release *)
  Lemma gap_inj (o x y : N) : x <> o -> y <> o -> (if (o <? x)%N then (x - 1)%N else x) = (if (o <? y)%N then (y - 1)%N else y) -> x = y.
  Proof. intros H1 H2. destruct (N.ltb_spec o x), (N.ltb_spec o y); lia. Qed.
  Lemma drop_in (m : list (N * N)) q o k v : mfind q m = Some o -> (In (k, v) (drop_id q m) <-> k <> q /\ exists w, In (k, w) m /\ v = if (o <? w)%N then (w - 1)%N else w).
  Proof.
    intros H. unfold drop_id. rewrite H. unfold mdel, close_gap. rewrite filter_In, in_map_iff. cbn [fst]. split.
    - intros (([k' w] & E & I) & X). cbn [fst snd] in E. injection E as -> <-. split; [intros ->; now rewrite N.eqb_refl in X|]. eauto.
    - intros (X & w & I & ->). split; [now exists (k, w)|]. now destruct (N.eqb_spec k q).
  Qed.
  Lemma drop_keys (m : list (N * N)) q o : mfind q m = Some o -> map fst (drop_id q m) = filter (fun k => negb (k =? q)%N) (map fst m).
  Proof.
    intros H. unfold drop_id. rewrite H. unfold mdel, close_gap. clear H. induction m as [|[k v] t IH]; cbn [map filter fst]; auto. destruct (negb (k =? q)%N); cbn [map fst]; now rewrite IH.
  Qed.
  Lemma names_drop n m q o : names n m -> mfind q m = Some o -> names (n - 1) (drop_id q m).
  Proof.
    intros H1 H2. pose proof (names_keys _ _ H1) as NK. pose proof (names_vals _ _ H1) as NV. pose proof (mfind_In _ _ _ H2) as IQ.
    assert (ON : (o < n)%N). { apply (names_in _ _ H1). apply in_map_iff. now exists (q, o). }
    split.
    - rewrite (drop_keys m q o H2). apply filter_srt. apply H1.
    - split; [|destruct H1 as (_ & _ & H1); lia]. apply NoDup_Permutation; [|apply upto_nodup|].
      + assert (ND : NoDup (map fst (drop_id q m))). { rewrite (drop_keys m q o H2). apply NoDup_filter. auto. }
        assert (INJ : forall k k' v, In (k, v) (drop_id q m) -> In (k', v) (drop_id q m) -> k = k').
        { intros k k' v X Y. apply (drop_in m q o) in X, Y; auto. destruct X as (X1 & w & X2 & X3), Y as (Y1 & w' & Y2 & Y3).
          assert (w <> o). { intros ->. apply X1. eapply value_key; eauto. } assert (w' <> o). { intros ->. apply Y1. eapply value_key; eauto. }
          assert (w = w') by (apply (gap_inj o); auto; congruence). subst w'. eapply value_key; eauto. }
        clear - ND INJ. induction (drop_id q m) as [|[k v] t IH]; cbn [map snd]; constructor.
        * intros X. apply in_map_iff in X. destruct X as ([k' v'] & E & X). cbn [snd] in E. subst v'. cbn [map fst] in ND. inversion ND as [|? ? N1 N2]; subst. apply N1.
          apply in_map_iff. exists (k', v). split; auto. cbn [fst]. apply (INJ k' k v); [now right|now left].
        * apply IH. cbn [map fst] in ND. now inversion ND. intros a b w A B. apply (INJ a b w); now right.
      + intros v. rewrite upto_in. split.
        * intros X. apply in_map_iff in X. destruct X as ([k w] & E & X). cbn [snd] in E. subst w. apply (drop_in m q o) in X; auto. destruct X as (X1 & w & X2 & ->).
          assert (W : (w < n)%N). { apply (names_in _ _ H1). apply in_map_iff. now exists (k, w). }
          assert (w <> o). { intros ->. apply X1. eapply value_key; eauto. } destruct (N.ltb_spec o w); lia.
        * intros X. set (w := if (v <? o)%N then v else (v + 1)%N).
          assert (W : (w < n)%N) by (unfold w; destruct (N.ltb_spec v o); lia). apply (names_in _ _ H1) in W. apply in_map_iff in W. destruct W as ([k w'] & E & I). cbn [snd] in E. subst w'.
          apply in_map_iff. exists (k, v). split; auto. apply (drop_in m q o); auto. split.
          -- intros ->. apply In_mfind in I; auto. rewrite H2 in I. injection I as E. unfold w in E. destruct (N.ltb_spec v o); lia.
          -- exists w. split; auto. unfold w. destruct (N.ltb_spec v o); match goal with |- context [(o <? ?z)%N] => destruct (N.ltb_spec o z) end; lia.
  Qed.
  Lemma index_drop n m q o f (b : bool) : names n m -> mfind q m = Some o -> index_of m (upd f q b) = slice_ix o 1 (if b then 1 else 0)%N (index_of (drop_id q m) f).
  Proof.
    intros H1 H2. pose proof (names_keys _ _ H1) as NK. pose proof (names_vals _ _ H1) as NV. pose proof (mfind_In _ _ _ H2) as IQ.
    pose proof (names_drop n m q o H1 H2) as HD. assert (ON : (o < n)%N). { apply (names_in _ _ H1). apply in_map_iff. now exists (q, o). }
    assert (B1 : ((if b then 1 else 0) < 2 ^ 1)%N) by (destruct b; cbn; lia).
    symmetry. apply index_unique; auto.
    - intros v Hv. rewrite (names_in _ _ H1) in Hv. rewrite tb_slice_ix by auto. destruct (N.ltb_spec v o); [lia|]. destruct (N.ltb_spec v (o + 1)); [lia|]. apply index_out. rewrite (names_in _ _ HD). lia.
    - intros k v Hk. rewrite tb_slice_ix by auto. destruct (N.eqb_spec k q) as [->|NE].
      + apply In_mfind in Hk; auto. rewrite H2 in Hk. injection Hk as <-. destruct (N.ltb_spec o o); [lia|]. destruct (N.ltb_spec o (o + 1)); [|lia]. rewrite N.sub_diag, upd_same. now destruct b.
      + rewrite upd_other by auto. assert (v <> o). { intros ->. apply NE. eapply value_key; eauto. }
        assert (HK : In (k, if (o <? v)%N then (v - 1)%N else v) (drop_id q m)). { apply (drop_in m q o); eauto. }
        pose proof (index_bit _ f _ _ (names_vals _ _ HD) HK) as BT. destruct (N.ltb_spec v o), (N.ltb_spec o v); try lia; auto. destruct (N.ltb_spec v (o + 1)); [lia|]. exact BT.
  Qed.
  Lemma certain_sum ids q b Psi : certainly q b Psi -> nweight (q :: ids) (fun _ => true) Psi = nweight ids (fun _ => true) (nrelease q b Psi).
  Proof.
    intros H. unfold nweight. cbn [assign]. rewrite asum_flat. apply asum_ext. intros f _. cbn [asum]. unfold nrelease. destruct b.
    - rewrite (H (upd f q false)) by apply upd_same. rewrite anorm_0. ring.
    - rewrite (H (upd f q true)) by apply upd_same. rewrite anorm_0. ring.
  Qed.
  Lemma perm_filter (l ids : list N) q : NoDup l -> Permutation l (q :: ids) -> Permutation (filter (fun k => negb (k =? q)%N) l) ids.
  Proof.
    intros H1 H2. assert (ND : NoDup (q :: ids)) by (eapply Permutation_NoDup; eauto). inversion ND as [|? ? N1 N2]; subst. apply NoDup_Permutation; auto. { now apply NoDup_filter. }
    intros x. rewrite filter_In. split.
    - intros [X Y]. eapply Permutation_in in X; [|apply H2]. destruct X as [->|X]; auto. now rewrite N.eqb_refl in Y.
    - intros X. split. { eapply Permutation_in; [apply Permutation_sym; apply H2|]. now right. } destruct (N.eqb_spec x q); auto. now subst.
  Qed.
  Lemma nweight_perm ids ids' n m Q P Psi : names n m -> s_n Q = n -> Permutation (map fst m) ids -> Permutation ids ids' -> reads_named Q m Psi -> (exists P0, forall f, P0 (index_of m f) = P f) -> nweight ids P Psi = nweight ids' P Psi.
  Proof.
    intros H1 H2 H3 H4 H5 (P0 & H6). rewrite <- (weight_named n m ids P0 P (s_v Q) Psi), <- (weight_named n m ids' P0 P (s_v Q) Psi); auto.
    - eapply perm_trans; eauto.
    - now apply reads_anorm.
    - now apply reads_anorm.
  Qed.
  Lemma chance_certain ids q b Psi : certainly q b Psi -> nweight ids (fun _ => true) Psi = 1 -> nchance ids q true Psi = if b then 1 else 0.
  Proof.
    intros H1 H2. pose proof (nweight_split ids q Psi) as SP. rewrite H2 in SP.
    assert (Z : nchance ids q (negb b) Psi = 0). { unfold nchance, nweight. apply asum_zero. intros f _. destruct (eqb (f q) (negb b)) eqn:E; auto. apply eqb_prop in E. rewrite (H1 f E). apply anorm_0. }
    destruct b; cbn [negb] in Z; rewrite Z in SP; [rewrite <- SP; ring|auto].
  Qed.
  Lemma step_release a sid ids Psi q b : proper c -> holds a sid ids Psi -> (forall x, In x ids -> (x < 256)%N) -> In q ids -> certainly q b Psi ->
    exists a' l1 l2, release c sid q a = Ret (negb b, a') /\ ids = l1 ++ q :: l2 /\ holds a' sid (l1 ++ l2) (nrelease q b Psi) /\ only_at sid a a'.
  Proof.
    intros (NZ & SM0 & SM1 & MX & SPL) (s & S1 & S2 & S3 & S4 & S5) HI IN CE. unfold release. rewrite (lookup_in _ _ s) by auto.
    rewrite (some_sim s ids q _ eq_refl S3) by auto. destruct (sim_of s) as [Q m] eqn:ES. cbn [fst snd] in *.
    assert (I1 := Permutation_in _ (Permutation_sym S3) IN). destruct (shard_ok _ m q S2) as (o & A1 & A2 & A3 & A4); auto.
    unfold sim_prob. rewrite A4. pose proof A3 as A3'. apply N.ltb_lt in A3. rewrite A3. cbn [bind]. rewrite prob_true. rewrite (prob_named ids Q m Psi q o) by auto.
    rewrite (chance_certain ids q b Psi) by auto. replace (ac_small c (if b then 1 else 0)) with (negb b) by (destruct b; auto).
    destruct (in_split q ids IN) as (l1 & l2 & EI). assert (PI : Permutation ids (q :: (l1 ++ l2))) by (rewrite EI; apply Permutation_sym, Permutation_middle).
    set (ids' := l1 ++ l2) in *.
    assert (NW : nweight ids' (fun _ => true) (nrelease q b Psi) = 1).
    { rewrite <- certain_sum by auto. rewrite <- S4. symmetry. eapply nweight_perm; eauto. now exists (fun _ => true). }
    assert (PF : Permutation (filter (fun k => negb (k =? q)%N) (map fst m)) ids'). { apply perm_filter. apply (names_keys _ _ S2). eapply perm_trans; eauto. }
    assert (RN : forall f, s_v Q (slice_ix o 1 (if b then 1 else 0)%N (index_of (drop_id q m) f)) = s_v Q (index_of m (upd f q b))) by (intros f; now rewrite (index_drop (s_n Q) m q o f b)).
    destruct S5 as (ph & P1 & P2).
    destruct (N.eqb_spec (s_n Q) 1) as [E1|E1].
    - eexists. exists l1, l2. fold ids'. split; [reflexivity|]. split; [auto|]. split.
      + eexists. split; [eapply put_at; eauto|]. cbn [sim_of sl_sim fst snd s_n map].
        assert (ids' = []) as E0. { apply Permutation_length in PI. cbn [length] in PI. pose proof (names_length _ _ S2) as L. apply Permutation_length in S3. rewrite map_length in S3. destruct ids'; auto. cbn [length] in PI. lia. }
        rewrite E0 in *. split; [split; [constructor|split; [cbn; constructor|reflexivity]]|]. split; [constructor|]. split; [auto|].
        assert (CONST : forall f, nrelease q b Psi f = nrelease q b Psi (fun _ => false)).
        { intros f. unfold nrelease. apply (unit_cancel ph); auto. rewrite <- !P2. f_equal. apply index_ext. intros k Hk. eapply Permutation_in in Hk; [|apply S3]. eapply Permutation_in in Hk; [|apply PI]. destruct Hk as [<-|[]]. now rewrite !upd_same. }
        unfold nweight in NW. cbn [assign asum] in NW. exists (sr_conj (nrelease q b Psi (fun _ => false))). split.
        * transitivity (anorm (nrelease q b Psi (fun _ => false)) + 0); [|exact NW]. unfold anorm. rewrite sr_conj_invol. ring.
        * intros f. cbn [index_of s_v]. unfold ket. rewrite N.eqb_refl. rewrite (CONST f). rewrite <- NW. unfold anorm. ring.
      + rewrite put_eta. eapply put_only; eauto.
    - rewrite A2. unfold sim_dispose, sim_decompose. assert (BR : isBadBitRange o 1 (s_n Q) = false) by (rewrite isBadBitRange_ok by (destruct S2 as (_ & _ & S2); change (2 ^ 8)%N with 256%N; lia); apply N.ltb_ge; lia).
      rewrite BR. cbn [bind]. eexists. exists l1, l2. fold ids'. split; [reflexivity|]. split; [auto|]. split.
      + rewrite put_eta. eapply holds_put; eauto.
        * cbn [s_n]. now apply (names_drop _ _ q o).
        * now rewrite (drop_keys m q o).
        * assert (EV : eqv (s_n Q) (s_v Q) (tensor_at o 1 (slice o 1 (if b then 1 else 0)%N (s_v Q)) (ket (if b then 1 else 0)%N))).
          { intros x Hx. rewrite tensor_slice; auto. destruct b; cbn; lia. intros NE. destruct (index_onto _ _ S2 x Hx) as (f & F). rewrite <- F, P2. rewrite CE. ring.
            rewrite <- (index_bit m f q o (names_vals _ _ S2) A1), F. destruct (N.testbit x o) eqn:T, b; auto; exfalso; apply NE; apply N.bits_inj; intros j; rewrite tb_get_reg;
            destruct (N.ltb_spec j 1); cbn [andb]; try (replace j with 0%N by lia; rewrite N.add_0_l, T; reflexivity); destruct j as [|[p|p|]]; auto; lia. }
          destruct (SPL (s_n Q) o (if b then 1 else 0)%N (s_v Q) _ A3' EV) as (ph2 & Q1 & Q2). { destruct b; lia. }
          exists (ph2 * ph). split. { rewrite anorm_mul, Q1, P1. ring. }
          intros f. cbn [s_v]. rewrite Q2. 2:{ apply index_lt. now apply (names_drop _ _ q o). }
          change (slice o 1 (if b then 1 else 0)%N (s_v Q) (index_of (drop_id q m) f)) with (s_v Q (slice_ix o 1 (if b then 1 else 0)%N (index_of (drop_id q m) f))).
          rewrite RN, P2. unfold nrelease. ring.
      + rewrite put_eta. eapply put_only; eauto.
  Qed.
End Steps.
