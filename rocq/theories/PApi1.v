(** Proofs about the C interface, part 1: basis states of assignments. *)
From Coq Require Import NArith List Bool Lia Permutation Ring.
From Verif Require Import Bits MFunctions SpecFunctions PFunctions MParFor PParFor MKernel PKernel Amp PAmp SpecState MEngine SpecEngine PLoop PApply PGates PGates2 PProb PShard2 PQCirc1 PQCirc4 MQCircuit MTensor SpecApi MApi SpecApi2.
Import ListNotations.
Local Open Scope N_scope.

Lemma upd_same f q b : upd f q b q = b.
Proof. unfold upd. now rewrite N.eqb_refl. Qed.
Lemma upd_other f q b i : i <> q -> upd f q b i = f i.
Proof. unfold upd. now destruct (N.eqb_spec i q). Qed.

Lemma index_out m f v : ~ In v (map snd m) -> N.testbit (index_of m f) v = false.
Proof.
  induction m as [|[k w] t IH]; cbn [index_of map snd In]; intros H. { apply N.bits_0. }
  destruct (f k); [|apply IH; tauto]. rewrite tb_setbit, IH by tauto. destruct (N.eqb_spec w v); auto. tauto.
Qed.
Lemma index_bit m f k v : NoDup (map snd m) -> In (k, v) m -> N.testbit (index_of m f) v = f k.
Proof.
  induction m as [|[k' w] t IH]; cbn [index_of map snd]; intros H X; [destruct X|]. inversion H as [|? ? H1 H2]; subst.
  destruct X as [E|X].
  - injection E as -> ->. destruct (f k); [rewrite tb_setbit, N.eqb_refl; reflexivity|now apply index_out].
  - assert (w <> v). { intros ->. apply H1. apply in_map_iff. now exists (k, v). }
    destruct (f k'); [|now apply IH]. rewrite tb_setbit, IH by auto. destruct (N.eqb_spec w v); [congruence|]. reflexivity.
Qed.
Lemma index_unique m f x : NoDup (map snd m) -> (forall v, ~ In v (map snd m) -> N.testbit x v = false) -> (forall k v, In (k, v) m -> N.testbit x v = f k) -> x = index_of m f.
Proof.
  intros H1 H2 H3. apply N.bits_inj. intros v. destruct (in_dec N.eq_dec v (map snd m)) as [X|X].
  - apply in_map_iff in X. destruct X as [[k w] [E X]]. cbn [snd] in E. subst. now rewrite (index_bit m f k v), (H3 k v).
  - now rewrite index_out, H2.
Qed.
Lemma index_ext m f g : (forall k, In k (map fst m) -> f k = g k) -> index_of m f = index_of m g.
Proof.
  induction m as [|[k v] t IH]; cbn [index_of map fst]; intros H; auto. rewrite (H k) by now left. rewrite IH; auto. intros i Hi. apply H. now right.
Qed.
Lemma index_perm m m' f : Permutation m m' -> NoDup (map snd m) -> index_of m f = index_of m' f.
Proof.
  intros H1 H2. apply index_unique.
  - eapply Permutation_NoDup; [|apply H2]. now apply Permutation_map.
  - intros v Hv. apply index_out. intros X. apply Hv. eapply Permutation_in; [|apply X]. now apply Permutation_map.
  - intros k v Hk. apply index_bit; auto. eapply Permutation_in; [|apply Hk]. now apply Permutation_sym.
Qed.
Lemma index_upd m f q v b : NoDup (map fst m) -> NoDup (map snd m) -> In (q, v) m -> index_of m (upd f q b) = if b then N.setbit (index_of m f) v else N.clearbit (index_of m f) v.
Proof.
  intros H0 H1 H2. symmetry. apply index_unique; auto.
  - intros w Hw. rewrite tb_setto. destruct (N.eqb_spec v w); [|now apply index_out]. subst. exfalso. apply Hw. apply in_map_iff. now exists (q, w).
  - intros k w Hk. rewrite tb_setto. unfold upd. destruct (N.eqb_spec v w), (N.eqb_spec k q); auto.
    + subst. apply In_mfind in Hk, H2; auto. exfalso. apply n. clear - H1 H2 Hk. apply mfind_In in Hk, H2.
      induction m as [|[a b'] t IH]; [destruct Hk|]. cbn [map snd] in H1. inversion H1 as [|? ? X1 X2]; subst.
      destruct Hk as [E|Hk], H2 as [E'|H2].
      * congruence.
      * injection E as -> ->. exfalso. apply X1. apply in_map_iff. now exists (q, w).
      * injection E' as -> ->. exfalso. apply X1. apply in_map_iff. now exists (k, w).
      * auto.
    + subst. apply In_mfind in Hk, H2; auto. congruence.
    + now apply index_bit.
Qed.
Lemma value_key (m : list (N * N)) k k' v : NoDup (map snd m) -> In (k, v) m -> In (k', v) m -> k = k'.
Proof.
  intros H1 H2 H3. induction m as [|[a b] t IH]; [destruct H2|]. cbn [map snd] in H1. inversion H1 as [|? ? X1 X2]; subst.
  destruct H2 as [E|H2], H3 as [E'|H3]; try congruence.
  - injection E as -> ->. exfalso. apply X1. apply in_map_iff. now exists (k', v).
  - injection E' as -> ->. exfalso. apply X1. apply in_map_iff. now exists (k, v).
  - auto.
Qed.

(** ** Maps of names *)
Section Names.
  Variables (n : N) (m : list (N * N)).
  Hypothesis HN : names n m.
  Lemma names_keys : NoDup (map fst m).
  Proof. apply srt_nodup. apply HN. Qed.
  Lemma names_vals : NoDup (map snd m).
  Proof. destruct HN as [_ [H _]]. eapply Permutation_NoDup; [apply Permutation_sym; apply H|]. apply upto_nodup. Qed.
  Lemma names_in v : In v (map snd m) <-> v < n.
  Proof.
    destruct HN as [_ [H _]]. split; intros X.
    - eapply Permutation_in in X; [|apply H]. apply upto_in in X. lia.
    - eapply Permutation_in; [apply Permutation_sym; apply H|]. apply upto_in. lia.
  Qed.
  Lemma names_length : N.of_nat (length m) = n.
  Proof.
    destruct HN as [_ [H _]]. apply Permutation_length in H. rewrite map_length in H. rewrite upto_iota in H. rewrite H.
    assert (L : forall k a, length (MParFor.iota a k) = k) by (induction k; intros; cbn [MParFor.iota length]; auto). rewrite L. lia.
  Qed.
  Lemma names_pos q : In q (map fst m) -> exists v, In (q, v) m /\ mfind q m = Some v /\ v < n.
  Proof.
    intros H. apply in_map_iff in H. destruct H as [[k v] [E H]]. cbn [fst] in E. subst. exists v. repeat split; auto.
    - apply In_mfind; auto. apply names_keys.
    - apply names_in. apply in_map_iff. now exists (q, v).
  Qed.
  Lemma index_lt f : index_of m f < 2 ^ n.
  Proof. apply lt_pow2_bits. intros v Hv. apply index_out. rewrite names_in. lia. Qed.
  Lemma index_onto x : x < 2 ^ n -> exists f, index_of m f = x.
  Proof.
    intros Hx. exists (fun k => match mfind k m with Some v => N.testbit x v | None => false end). symmetry. apply index_unique.
    - apply names_vals.
    - intros v Hv. apply (tb_high x n); auto. rewrite names_in in Hv. lia.
    - intros k v Hk. rewrite (In_mfind k v m); auto. apply names_keys.
  Qed.
  Lemma index_swap q1 q2 v1 v2 f : In (q1, v1) m -> In (q2, v2) m -> swap_bits v1 v2 (index_of m f) = index_of m (upd (upd f q1 (f q2)) q2 (f q1)).
  Proof.
    intros H1 H2. pose proof names_keys as NK. pose proof names_vals as NV. apply index_unique; auto.
    - intros v Hv. rewrite tb_swap. destruct (N.eqb_spec v1 v). { subst. exfalso. apply Hv. apply in_map_iff. now exists (q1, v). }
      destruct (N.eqb_spec v2 v). { subst. exfalso. apply Hv. apply in_map_iff. now exists (q2, v). } now apply index_out.
    - intros k v Hk. rewrite tb_swap. rewrite (index_bit m f q1 v1), (index_bit m f q2 v2), (index_bit m f k v) by auto. unfold upd.
      destruct (N.eqb_spec v1 v). { subst. assert (k = q1) by (eapply value_key; eauto). subst. rewrite N.eqb_refl. destruct (N.eqb_spec q1 q2); subst; auto. }
      destruct (N.eqb_spec v2 v). { subst. assert (k = q2) by (eapply value_key; eauto). subst. now rewrite N.eqb_refl. }
      destruct (N.eqb_spec k q2). { subst. apply In_mfind in Hk, H2; auto. congruence. }
      destruct (N.eqb_spec k q1); auto. subst. apply In_mfind in Hk, H1; auto. congruence.
  Qed.
End Names.

(** ** All assignments *)
Lemma assign_length ids : length (assign ids) = Nat.pow 2 (length ids).
Proof.
  induction ids as [|q t IH]; cbn [assign length Nat.pow]; auto. rewrite <- IH. clear IH.
  induction (assign t) as [|f l IH]; cbn [flat_map length app]; auto. rewrite IH. cbn. lia.
Qed.
Lemma assign_all ids g : exists f, In f (assign ids) /\ forall i, In i ids -> f i = g i.
Proof.
  induction ids as [|q t (f & H1 & H2)]; cbn [assign]. { exists (fun _ => false). split; [now left|]. intros i []. }
  exists (upd f q (g q)). split.
  - apply in_flat_map. exists f. split; auto. destruct (g q); cbn [In]; auto.
  - intros i [<-|Hi]; [apply upd_same|]. unfold upd. destruct (N.eqb_spec i q); [now subst|auto].
Qed.
Lemma assign_basis n m ids : names n m -> Permutation (map fst m) ids -> Permutation (basis n) (map (index_of m) (assign ids)).
Proof.
  intros H1 H2. apply NoDup_Permutation_bis.
  - apply basis_NoDup.
  - rewrite map_length, assign_length, basis_length. apply Permutation_length in H2. rewrite map_length in H2. rewrite <- H2, <- (names_length n m H1).
    rewrite <- (Nnat.Nat2N.id (Nat.pow 2 (length m))), Nnat.Nat2N.inj_pow. apply le_n.
  - intros x Hx. apply basis_In in Hx. destruct (index_onto n m H1 x Hx) as (g & E). destruct (assign_all ids g) as (f & F1 & F2).
    apply in_map_iff. exists f. split; auto. rewrite <- E. apply index_ext. intros k Hk. apply F2. eapply Permutation_in; eauto.
Qed.

Section Weights.
  Context {K : StarRing}.
  Local Notation nstate := ((N -> bool) -> K).
  Local Open Scope amp_scope.
  Add Ring KrDJ : (sr_ring K).
  Lemma weight_named n (m : list (N * N)) ids (P : N -> bool) (P' : (N -> bool) -> bool) (v : N -> K) (Psi : nstate) : names n m -> Permutation (map fst m) ids ->
    (forall f, P (index_of m f) = P' f) -> (forall f, anorm (v (index_of m f)) = anorm (Psi f)) -> weight_of n P v = nweight ids P' Psi.
  Proof.
    intros H1 H2 H3 H4. unfold weight_of, nweight. rewrite (asum_perm K _ _ _ (assign_basis n m ids H1 H2)), asum_map. apply asum_ext. intros f _. now rewrite H3, H4.
  Qed.
  Lemma norm_named n (m : list (N * N)) ids (v : N -> K) (Psi : nstate) : names n m -> Permutation (map fst m) ids ->
    (forall f, anorm (v (index_of m f)) = anorm (Psi f)) -> norm2 n v = nweight ids (fun _ => true) Psi.
  Proof. intros H1 H2 H3. change (norm2 n v) with (weight_of n (fun _ => true) v). now apply (weight_named n m ids). Qed.
  Lemma nweight_split ids q (Psi : nstate) : nchance ids q false Psi + nchance ids q true Psi = nweight ids (fun _ => true) Psi.
  Proof. unfold nchance, nweight. rewrite <- asum_add. apply asum_ext. intros f _. destruct (f q); cbn [eqb]; ring. Qed.
  Lemma nweight_ext ids P (Psi Phi : nstate) : (forall f, anorm (Psi f) = anorm (Phi f)) -> nweight ids P Psi = nweight ids P Phi.
  Proof. intros H. apply asum_ext. intros f _. now rewrite H. Qed.
  Lemma nweight_P ids P P' (Psi : nstate) : (forall f, P f = P' f) -> nweight ids P Psi = nweight ids P' Psi.
  Proof. intros H. apply asum_ext. intros f _. now rewrite H. Qed.
End Weights.
