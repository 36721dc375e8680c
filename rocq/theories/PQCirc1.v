(** Sets, maps and key arithmetic of the circuit model. *)
From Coq Require Import NArith List Bool Lia Sorted.
From Verif Require Import Bits MFunctions MParFor MKernel Amp PAmp MEngine MAlu SpecFunctions SpecState MQCircuit SpecQCircuit.
Import ListNotations.
Local Open Scope N_scope.

Notation srt := (StronglySorted N.lt).

Lemma inc_srt lo n l : increasing_below lo n l -> srt l /\ forall x, In x l -> lo <= x < n.
Proof.
  revert lo. induction l as [|a t IH]; intros lo H; cbn [increasing_below] in H.
  - split; [constructor | intros x []].
  - destruct H as [Ha Ht]. destruct (IH _ Ht) as [S1 S2]. split.
    + constructor; auto. rewrite Forall_forall. intros x Hx. specialize (S2 x Hx). lia.
    + intros x [<-|Hx]; [lia|]. specialize (S2 x Hx). lia.
Qed.
Lemma srt_inc lo n l : srt l -> (forall x, In x l -> lo <= x < n) -> increasing_below lo n l.
Proof.
  revert lo. induction l as [|a t IH]; intros lo S1 S2; cbn [increasing_below]; auto.
  inversion S1 as [|? ? St Sa]; subst. rewrite Forall_forall in Sa. split; [apply S2; now left|].
  apply IH; auto. intros x Hx. specialize (Sa x Hx). specialize (S2 x (or_intror Hx)). lia.
Qed.
Lemma srt_nodup l : srt l -> NoDup l.
Proof.
  induction 1 as [|a t S1 IH Ha]; constructor; auto. rewrite Forall_forall in Ha. intros H. specialize (Ha a H). lia.
Qed.
Lemma srt_ext l1 : forall l2, srt l1 -> srt l2 -> (forall x, In x l1 <-> In x l2) -> l1 = l2.
Proof.
  induction l1 as [|a t IH]; intros l2 S1 S2 H.
  - destruct l2 as [|b u]; auto. exfalso. destruct (H b) as [_ Hb]. apply Hb. now left.
  - destruct l2 as [|b u]. { exfalso. destruct (H a) as [Ha _]. apply Ha. now left. }
    inversion S1 as [|? ? St Sa]; subst. inversion S2 as [|? ? Su Sb]; subst. rewrite Forall_forall in Sa, Sb.
    assert (E : a = b).
    { destruct (H a) as [Ha _]. destruct (H b) as [_ Hb]. destruct (Ha (or_introl eq_refl)) as [E|E]; [auto|].
      destruct (Hb (or_introl eq_refl)) as [E'|E']; [auto|]. specialize (Sa b E'). specialize (Sb a E). lia. }
    subst b. f_equal. apply IH; auto. intros x. split; intros Hx.
    + destruct (H x) as [H1 _]. destruct (H1 (or_intror Hx)) as [E|E]; auto. subst x. specialize (Sa a Hx). lia.
    + destruct (H x) as [_ H1]. destruct (H1 (or_intror Hx)) as [E|E]; auto. subst x. specialize (Sb a Hx). lia.
Qed.

(** ** Sets *)
Lemma smem_In c s : smem c s = true <-> In c s.
Proof.
  unfold smem. rewrite existsb_exists. split.
  - intros [x [Hx E]]. apply N.eqb_eq in E. now subst.
  - intros H. exists c. split; auto. apply N.eqb_refl.
Qed.
Lemma smem_not c s : smem c s = false <-> ~ In c s.
Proof. rewrite <- smem_In. destruct (smem c s); split; intros; congruence. Qed.
Lemma sins_In c s x : In x (sins c s) <-> x = c \/ In x s.
Proof.
  induction s as [|a t IH]; cbn [sins].
  - cbn [In]. intuition.
  - destruct (N.ltb_spec c a). { cbn [In]. intuition. }
    destruct (N.eqb_spec c a). { subst. cbn [In]. intuition. } cbn [In]. rewrite IH. intuition.
Qed.
Lemma sins_srt c s : srt s -> srt (sins c s).
Proof.
  induction 1 as [|a t S1 IH Ha]; cbn [sins]; [repeat constructor|].
  destruct (N.ltb_spec c a).
  - constructor; [constructor; auto|]. constructor; auto. rewrite Forall_forall in *. intros x Hx. specialize (Ha x Hx). lia.
  - destruct (N.eqb_spec c a); [constructor; auto|]. constructor; auto. rewrite Forall_forall in *. intros x Hx.
    apply sins_In in Hx. destruct Hx as [->|Hx]; [lia|]. now apply Ha.
Qed.
Lemma sins_old c s : srt s -> In c s -> sins c s = s.
Proof.
  intros S1 H. apply srt_ext; auto using sins_srt. intros x. rewrite sins_In. intuition. now subst.
Qed.
Lemma sins_split c s : ~ In c s -> exists l1 l2, s = l1 ++ l2 /\ sins c s = l1 ++ c :: l2 /\ ~ In c l1.
Proof.
  induction s as [|a t IH]; intros H; cbn [sins].
  - now exists [], [].
  - destruct (N.ltb_spec c a). { now exists [], (a :: t). }
    destruct (N.eqb_spec c a). { subst. exfalso. apply H. now left. }
    destruct IH as (l1 & l2 & E1 & E2 & E3). { intros X. apply H. now right. }
    exists (a :: l1), l2. cbn [app]. rewrite E2, <- E1. split; [reflexivity|]. split; [reflexivity|]. intros [X|X]; [congruence | tauto].
Qed.
Lemma spos_app c l1 l2 : ~ In c l1 -> spos c (l1 ++ c :: l2) = N.of_nat (length l1).
Proof.
  induction l1 as [|a t IH]; intros H; cbn [app spos length].
  - now rewrite N.eqb_refl.
  - destruct (N.eqb_spec a c). { exfalso. apply H. now left. } rewrite IH by (intros X; apply H; now right). lia.
Qed.
Lemma spos_split c s : In c s -> exists l1 l2, s = l1 ++ c :: l2 /\ ~ In c l1 /\ spos c s = N.of_nat (length l1).
Proof.
  induction s as [|a t IH]; intros H; [destruct H|]. cbn [spos]. destruct (N.eqb_spec a c).
  - subst. now exists [], t.
  - destruct H as [H|H]; [congruence|]. destruct (IH H) as (l1 & l2 & E1 & E2 & E3). exists (a :: l1), l2. subst t.
    cbn [app length]. repeat split; [|lia]. intros [X|X]; [congruence | tauto].
Qed.
Lemma sdel_In c s x : In x (sdel c s) <-> x <> c /\ In x s.
Proof.
  unfold sdel. rewrite filter_In. destruct (N.eqb_spec x c); cbn [negb]; intuition.
Qed.
Lemma filter_srt f s : srt s -> srt (filter f s).
Proof.
  induction 1 as [|a t S1 IH Ha]; cbn [filter]; [constructor|]. destruct (f a); auto. constructor; auto.
  rewrite Forall_forall in *. intros x Hx. apply filter_In in Hx. now apply Ha.
Qed.
Lemma sdel_split c l1 l2 : NoDup (l1 ++ c :: l2) -> sdel c (l1 ++ c :: l2) = l1 ++ l2.
Proof.
  intros H. unfold sdel. rewrite filter_app. cbn [filter]. rewrite N.eqb_refl. cbn [negb].
  apply NoDup_remove_2 in H.
  assert (A : forall l : list N, ~ In c l -> filter (fun a => negb (a =? c)) l = l).
  { induction l as [|a t IH]; intros X; cbn [filter]; auto. destruct (N.eqb_spec a c). { exfalso. apply X. now left. }
    cbn [negb]. f_equal. apply IH. intros Y. apply X. now right. }
  rewrite !A; auto; intros X; apply H; apply in_or_app; auto.
Qed.
Lemma sincl_In big small : sincl big small = true <-> (forall x, In x small -> In x big).
Proof. unfold sincl. rewrite forallb_forall. split; intros H x Hx; specialize (H x Hx); now apply smem_In in H || apply smem_In. Qed.

(** ** Maps *)
Section Map.
  Context {T : Type}.
  Implicit Type l : list (N * T).
  Lemma mfind_In k l v : mfind k l = Some v -> In (k, v) l.
  Proof.
    induction l as [|[a w] t IH]; cbn [mfind]; [discriminate|]. destruct (N.eqb_spec k a).
    - intros H. injection H as ->. subst. now left.
    - intros H. right. auto.
  Qed.
  Lemma mfind_find k l : mfind k l = match find (fun e => fst e =? k) l with Some e => Some (snd e) | None => None end.
  Proof. induction l as [|[a w] t IH]; cbn [mfind find fst]; auto. rewrite (N.eqb_sym a k). destruct (k =? a); auto. Qed.
  Lemma mfind_none k l : mfind k l = None <-> ~ In k (map fst l).
  Proof.
    induction l as [|[a w] t IH]; cbn [mfind map fst In]; [tauto|]. destruct (N.eqb_spec k a).
    - subst. split; [discriminate|]. intros H. exfalso. apply H. now left.
    - rewrite IH. intuition.
  Qed.
  Lemma In_mfind k v l : NoDup (map fst l) -> In (k, v) l -> mfind k l = Some v.
  Proof.
    induction l as [|[a w] t IH]; intros H X; [destruct X|]. cbn [mfind map fst] in *. inversion H as [|? ? H1 H2]; subst.
    destruct X as [E|X]. { injection E as -> ->. now rewrite N.eqb_refl. }
    destruct (N.eqb_spec k a). { subst. exfalso. apply H1. apply in_map_iff. exists (a, v). auto. } auto.
  Qed.
  Lemma mfind_mset k k' v l : mfind k (mset k' v l) = if k =? k' then Some v else mfind k l.
  Proof.
    induction l as [|[a w] t IH]; cbn [mset mfind]; auto.
    destruct (N.ltb_spec k' a); cbn [mfind]; auto.
    destruct (N.eqb_spec k' a); cbn [mfind]. { subst. now destruct (N.eqb_spec k a). }
    rewrite IH. destruct (N.eqb_spec k a), (N.eqb_spec k k'); auto. congruence.
  Qed.
  Lemma mfind_mins k k' v l : mfind k (mins k' v l) = match mfind k l with Some w => Some w | None => if k =? k' then Some v else None end.
  Proof.
    unfold mins. destruct (mfind k' l) eqn:E.
    - destruct (mfind k l) eqn:E'; auto. destruct (N.eqb_spec k k'); auto. subst. congruence.
    - rewrite mfind_mset. destruct (N.eqb_spec k k'); [subst; now rewrite E | now destruct (mfind k l)].
  Qed.
  Lemma mfind_mdel k k' l : mfind k (mdel k' l) = if k =? k' then None else mfind k l.
  Proof.
    unfold mdel. induction l as [|[a w] t IH]; cbn [filter mfind fst]. { now destruct (k =? k'). }
    destruct (N.eqb_spec a k'); cbn [negb mfind].
    - rewrite IH. subst. destruct (N.eqb_spec k k'); auto.
    - rewrite IH. destruct (N.eqb_spec k a); auto. destruct (N.eqb_spec k k'); auto. congruence.
  Qed.
  Lemma keys_mset x k v l : In x (map fst (mset k v l)) <-> x = k \/ In x (map fst l).
  Proof.
    induction l as [|[a w] t IH]; cbn [mset map fst]. { cbn [In]. intuition. }
    destruct (N.ltb_spec k a); cbn [map fst In]; [intuition|].
    destruct (N.eqb_spec k a); cbn [map fst In]; [subst; intuition|]. rewrite IH. intuition.
  Qed.
  Lemma keys_mins x k v l : In x (map fst (mins k v l)) <-> x = k \/ In x (map fst l).
  Proof.
    unfold mins. destruct (mfind k l) eqn:E; [|apply keys_mset]. split; auto. intros [->|H]; auto.
    apply mfind_In in E. apply in_map_iff. now exists (k, t).
  Qed.
  Lemma keys_mdel x k l : In x (map fst (mdel k l)) <-> x <> k /\ In x (map fst l).
  Proof.
    unfold mdel. rewrite !in_map_iff. split.
    - intros [[a w] [<- H]]. apply filter_In in H. cbn [fst] in *. destruct H as [H1 H2]. split; [|now exists (a, w)].
      intros ->. now rewrite N.eqb_refl in H2.
    - intros [H1 [[a w] [<- H]]]. exists (a, w). split; auto. apply filter_In. split; auto. cbn [fst] in *.
      now destruct (N.eqb_spec a k).
  Qed.
  Lemma mset_srt k v l : srt (map fst l) -> srt (map fst (mset k v l)).
  Proof.
    induction l as [|[a w] t IH]; cbn [mset map fst]; intros H. { repeat constructor. }
    inversion H as [|? ? St Sa]; subst. destruct (N.ltb_spec k a); cbn [map fst].
    - constructor; auto. constructor; auto. rewrite Forall_forall in *. intros x Hx. specialize (Sa x Hx). lia.
    - destruct (N.eqb_spec k a); cbn [map fst]; [subst; auto|]. constructor; auto. rewrite Forall_forall in *. intros x Hx.
      apply keys_mset in Hx. destruct Hx as [->|Hx]; [lia|]. now apply Sa.
  Qed.
  Lemma mins_srt k v l : srt (map fst l) -> srt (map fst (mins k v l)).
  Proof. unfold mins. destruct (mfind k l); auto using mset_srt. Qed.
  Lemma mdel_srt k l : srt (map fst l) -> srt (map fst (mdel k l)).
  Proof.
    unfold mdel. induction l as [|[a w] t IH]; cbn [filter map fst]; auto. intros H. inversion H as [|? ? St Sa]; subst.
    destruct (negb (a =? k)); cbn [map fst]; auto. constructor; auto. rewrite Forall_forall in *. intros x Hx. apply Sa.
    apply in_map_iff in Hx. destruct Hx as [e [<- He]]. apply filter_In in He. apply in_map_iff. now exists e.
  Qed.
  Lemma mset_vals k v l e : In e (mset k v l) -> e = (k, v) \/ In e l.
  Proof.
    induction l as [|[a w] t IH]; cbn [mset]. { cbn [In]. intuition. }
    destruct (k <? a); cbn [In]; [intuition|]. destruct (k =? a); cbn [In]; [intuition|]. intuition.
  Qed.
  Lemma mins_vals k v l e : In e (mins k v l) -> e = (k, v) \/ In e l.
  Proof. unfold mins. destruct (mfind k l); auto using mset_vals. Qed.
  Lemma mset_nil k v l : mset k v l <> [].
  Proof. destruct l as [|[a w] t]; cbn [mset]; [discriminate|]. destruct (k <? a), (k =? a); discriminate. Qed.
  Lemma mins_nil k v l : mins k v l <> [].
  Proof. unfold mins. destruct (mfind k l) eqn:E; [|apply mset_nil]. destruct l; [discriminate|discriminate]. Qed.
End Map.

(** ** Inserting and removing a bit of a key *)
(** Remove bit [p]. *)
Definition rembit (p k : N) : N := N.lor (k mod 2 ^ p) ((k / 2 ^ (p + 1)) * 2 ^ p).
(** Insert a bit at [p]. *)
Definition insbit (p : N) (b : bool) (k : N) : N := N.lor (N.lor (k mod 2 ^ p) ((k / 2 ^ p) * 2 ^ (p + 1))) (if b then 2 ^ p else 0).
Lemma tb_rembit p k j : N.testbit (rembit p k) j = if j <? p then N.testbit k j else N.testbit k (j + 1).
Proof.
  unfold rembit. rewrite N.lor_spec, tb_mod2, tb_mul2, tb_div2. destruct (N.ltb_spec j p); destruct (N.leb_spec p j); try lia; cbn [andb orb].
  - now rewrite orb_false_r.
  - f_equal. lia.
Qed.
Lemma tb_insbit p b k j : N.testbit (insbit p b k) j = if j <? p then N.testbit k j else if j =? p then b else N.testbit k (j - 1).
Proof.
  unfold insbit. rewrite !N.lor_spec, tb_mod2, tb_mul2, tb_div2.
  assert (E : N.testbit (if b then 2 ^ p else 0) j = b && (j =? p)).
  { destruct b; [rewrite tb_pow2; cbn [andb]; apply N.eqb_sym | apply N.bits_0]. }
  rewrite E. destruct (N.ltb_spec j p), (N.eqb_spec j p), (N.leb_spec (p + 1) j); try lia; cbn [andb orb];
    rewrite ?andb_false_r, ?andb_true_r, ?orb_false_r; auto. f_equal. lia.
Qed.
Lemma insbit_rembit p k : insbit p (N.testbit k p) (rembit p k) = k.
Proof.
  apply N.bits_inj. intros j. rewrite tb_insbit, !tb_rembit. destruct (N.ltb_spec j p); auto. destruct (N.eqb_spec j p); [now subst|].
  destruct (N.ltb_spec (j - 1) p); [lia|]. f_equal. lia.
Qed.
Lemma rembit_insbit p b k : rembit p (insbit p b k) = k.
Proof.
  apply N.bits_inj. intros j. rewrite tb_rembit, !tb_insbit. destruct (N.ltb_spec j p); auto. destruct (N.ltb_spec (j + 1) p); [lia|].
  destruct (N.eqb_spec (j + 1) p); [lia|]. f_equal. lia.
Qed.
Lemma insbit_lt p b k L : p <= L -> k < 2 ^ L -> insbit p b k < 2 ^ (L + 1).
Proof.
  intros Hp Hk. apply lt_pow2_bits. intros j Hj. rewrite tb_insbit. destruct (N.ltb_spec j p); [lia|]. destruct (N.eqb_spec j p); [lia|].
  apply (tb_high k L); auto. lia.
Qed.
Lemma rembit_lt p k L : p <= L -> k < 2 ^ (L + 1) -> rembit p k < 2 ^ L.
Proof.
  intros Hp Hk. apply lt_pow2_bits. intros j Hj. rewrite tb_rembit. destruct (N.ltb_spec j p); [lia|]. apply (tb_high k (L + 1)); auto. lia.
Qed.
Lemma insbit_eq p k k' : (k' = insbit p false k \/ k' = insbit p true k) <-> rembit p k' = k.
Proof.
  split.
  - intros [->| ->]; apply rembit_insbit.
  - intros <-. rewrite <- (insbit_rembit p k') at 1 3. destruct (N.testbit k' p); rewrite ?rembit_insbit; auto.
Qed.

(** The masks of the code, for keys below 2^127. *)
Lemma tb_not128 x j : N.testbit (not128 x) j = (j <? 128) && negb (N.testbit x j).
Proof.
  unfold not128, w128. destruct (N.ltb_spec j 128).
  - rewrite N.lnot_spec_low by lia. rewrite tb_mod2. destruct (N.ltb_spec j 128); [reflexivity | lia].
  - rewrite N.lnot_spec_high by lia. rewrite tb_mod2. destruct (N.ltb_spec j 128); [lia | reflexivity].
Qed.
Lemma pow2_128_ok p : p < 128 -> pow2_128 p = 2 ^ p.
Proof. intros H. unfold pow2_128, w128. rewrite N.shiftl_1_l. apply N.mod_small. now apply pow2_lt. Qed.
Lemma low_ok p : p < 128 -> sub128 (pow2_128 p) 1 = 2 ^ p - 1.
Proof.
  intros H. rewrite pow2_128_ok by auto. unfold sub128, w128. rewrite (N.mod_small 1) by (vm_compute; auto).
  pose proof (pow2_pos p). pose proof (pow2_lt p 128 H).
  replace (2 ^ p + (2 ^ 128 - 1)) with (2 ^ p - 1 + 1 * 2 ^ 128) by (clear - H0 H1; lia).
  rewrite N.mod_add by apply pow2_nz. apply N.mod_small. lia.
Qed.
Lemma add_key p k : p < 127 -> k < 2 ^ 127 ->
  N.lor (N.land k (sub128 (pow2_128 p) 1)) (w128 (N.shiftl (N.land k (not128 (sub128 (pow2_128 p) 1))) 1)) = insbit p false k.
Proof.
  intros Hp Hk. rewrite low_ok by lia. apply N.bits_inj. intros j.
  rewrite tb_insbit, N.lor_spec, N.land_spec, tb_ones. unfold w128. rewrite tb_mod2, tb_shiftl, N.land_spec, tb_not128, tb_ones.
  destruct (N.ltb_spec j p).
  - rewrite andb_true_r. destruct (N.leb_spec 1 j); [|cbn [andb]; now rewrite andb_false_r, orb_false_r].
    destruct (N.ltb_spec (j - 1) p); [|lia]. cbn [negb]. rewrite !andb_false_r. now rewrite orb_false_r.
  - rewrite andb_false_r. cbn [orb]. destruct (N.eqb_spec j p).
    + subst j. destruct (N.leb_spec 1 p); [|cbn [andb]; now rewrite andb_false_r].
      destruct (N.ltb_spec (p - 1) p); [|lia]. cbn [negb]. now rewrite !andb_false_r.
    + destruct (N.leb_spec 1 j); [|lia]. destruct (N.ltb_spec (j - 1) p); [lia|]. cbn [negb andb].
      destruct (N.ltb_spec j 128); [destruct (N.ltb_spec (j - 1) 128); [|lia]; cbn [andb]; now rewrite andb_true_r|].
      cbn [andb]. symmetry. apply (tb_high k 127); auto. lia.
Qed.
Lemma add_key1 p k : p < 127 -> k < 2 ^ 127 ->
  N.lor (insbit p false k) (pow2_128 p) = insbit p true k.
Proof. intros Hp Hk. rewrite pow2_128_ok by lia. unfold insbit. now rewrite N.lor_0_r. Qed.
Lemma rem_key p k : p < 127 -> k < 2 ^ 128 ->
  N.lor (N.land k (sub128 (pow2_128 p) 1)) (N.shiftr (N.land k (not128 (N.lor (sub128 (pow2_128 p) 1) (pow2_128 p)))) 1) = rembit p k.
Proof.
  intros Hp Hk. rewrite low_ok, pow2_128_ok by lia. apply N.bits_inj. intros j.
  rewrite tb_rembit, N.lor_spec, N.land_spec, tb_ones, tb_shiftr, N.land_spec, tb_not128, N.lor_spec, tb_ones, tb_pow2.
  destruct (N.ltb_spec j p).
  - rewrite andb_true_r. destruct (N.ltb_spec (j + 1) p).
    + cbn [orb negb]. now rewrite !andb_false_r, orb_false_r.
    + destruct (N.eqb_spec p (j + 1)); [|lia]. cbn [orb negb]. now rewrite !andb_false_r, orb_false_r.
  - rewrite andb_false_r. cbn [orb]. destruct (N.ltb_spec (j + 1) p); [lia|]. destruct (N.eqb_spec p (j + 1)); [lia|].
    cbn [orb negb]. rewrite andb_true_r. destruct (N.ltb_spec (j + 1) 128); [apply andb_true_r|]. rewrite andb_false_r. symmetry.
    apply (tb_high k 128); auto.
Qed.
Lemma clr_key p k : p < 127 -> k < 2 ^ 128 -> N.land (not128 (pow2_128 p)) k = insbit p false (rembit p k).
Proof.
  intros Hp Hk. rewrite pow2_128_ok by lia. apply N.bits_inj. intros j. rewrite N.land_spec, tb_not128, tb_pow2, tb_insbit, !tb_rembit.
  destruct (N.ltb_spec j p).
  - destruct (N.ltb_spec j 128); [|lia]. destruct (N.eqb_spec p j); [lia|]. reflexivity.
  - destruct (N.eqb_spec j p), (N.eqb_spec p j); try congruence. { cbn [negb]. now rewrite andb_false_r. }
    cbn [negb]. rewrite andb_true_r. destruct (N.ltb_spec (j - 1) p); [lia|]. replace (j - 1 + 1) with j by lia.
    destruct (N.ltb_spec j 128); [reflexivity|]. symmetry. apply (tb_high k 128); auto.
Qed.

(** ** Control values *)
Lemma tb_ctrl cs x : forall i j, N.testbit (ctrl_value i cs x) j =
  if j <? i then false else match nth_error cs (N.to_nat (j - i)) with Some q => N.testbit x q | None => false end.
Proof.
  induction cs as [|q t IH]; intros i j; cbn [ctrl_value].
  - rewrite N.bits_0. destruct (j <? i); auto. now destruct (N.to_nat (j - i)).
  - assert (D : N.land (if N.testbit x q then 2 ^ i else 0) (ctrl_value (i + 1) t x) = 0).
    { apply N.bits_inj. intros m. rewrite N.land_spec, N.bits_0, IH. destruct (N.testbit x q); [|now rewrite N.bits_0].
      rewrite tb_pow2. destruct (N.eqb_spec i m); auto. destruct (N.ltb_spec m (i + 1)); auto; lia. }
    rewrite add_lor by auto. rewrite N.lor_spec, IH. clear D.
    assert (E : N.testbit (if N.testbit x q then 2 ^ i else 0) j = N.testbit x q && (i =? j)).
    { destruct (N.testbit x q); [now rewrite tb_pow2 | now rewrite N.bits_0]. }
    rewrite E. destruct (N.ltb_spec j i).
    + destruct (N.eqb_spec i j); [lia|]. rewrite andb_false_r. destruct (N.ltb_spec j (i + 1)); auto; lia.
    + destruct (N.eqb_spec i j).
      * subst. rewrite N.sub_diag. cbn [N.to_nat nth_error]. destruct (N.ltb_spec j (j + 1)); [|lia]. now rewrite andb_true_r, orb_false_r.
      * rewrite andb_false_r. destruct (N.ltb_spec j (i + 1)); [lia|]. cbn [orb].
        replace (N.to_nat (j - i)) with (S (N.to_nat (j - (i + 1)))) by lia. reflexivity.
Qed.
Lemma tb_ctrl0 cs x j : N.testbit (ctrl_value 0 cs x) j = match nth_error cs (N.to_nat j) with Some q => N.testbit x q | None => false end.
Proof. rewrite tb_ctrl. destruct (N.ltb_spec j 0); [lia|]. now rewrite N.sub_0_r. Qed.
Lemma ctrl_lt cs x : ctrl_value 0 cs x < 2 ^ N.of_nat (length cs).
Proof.
  apply lt_pow2_bits. intros j Hj. rewrite tb_ctrl0. destruct (nth_error cs (N.to_nat j)) eqn:E; auto.
  apply nth_error_Some_lt in E || (assert (N.to_nat j < length cs)%nat by (apply nth_error_Some; congruence); lia).
Qed.
Lemma ctrl_ext cs x y : (forall q, In q cs -> N.testbit x q = N.testbit y q) -> ctrl_value 0 cs x = ctrl_value 0 cs y.
Proof.
  intros H. apply N.bits_inj. intros j. rewrite !tb_ctrl0. destruct (nth_error cs (N.to_nat j)) eqn:E; auto. apply H. eapply nth_error_In; eauto.
Qed.
(** Adding a control at position [length l1]. *)
Lemma ctrl_insert l1 l2 q x : ctrl_value 0 (l1 ++ q :: l2) x = insbit (N.of_nat (length l1)) (N.testbit x q) (ctrl_value 0 (l1 ++ l2) x).
Proof.
  apply N.bits_inj. intros j. rewrite tb_insbit, !tb_ctrl0. destruct (N.ltb_spec j (N.of_nat (length l1))).
  - rewrite !nth_error_app1 by lia. reflexivity.
  - destruct (N.eqb_spec j (N.of_nat (length l1))).
    + rewrite nth_error_app2 by lia. subst j. now rewrite Nnat.Nat2N.id, PeanoNat.Nat.sub_diag.
    + rewrite !nth_error_app2 by lia. replace (N.to_nat j - length l1)%nat with (S (N.to_nat (j - 1) - length l1)) by lia. reflexivity.
Qed.
Lemma ctrl_remove l1 l2 q x : ctrl_value 0 (l1 ++ l2) x = rembit (N.of_nat (length l1)) (ctrl_value 0 (l1 ++ q :: l2) x).
Proof. now rewrite ctrl_insert, rembit_insbit. Qed.
