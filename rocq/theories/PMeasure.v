(** Proofs about measurement draws. *)
From Coq Require Import NArith QArith List Bool Lia Lqa.
From Verif Require Import MMeasure SpecMeasure.
Import ListNotations.
Local Open Scope Q_scope.

Lemma qlt_true a b : qlt a b = true <-> a < b.
Proof.
  unfold qlt. rewrite negb_true_iff. split.
  - intros H. apply Qnot_le_lt. intros L. apply Qle_bool_iff in L. congruence.
  - intros H. destruct (Qle_bool b a) eqn:E; auto. apply Qle_bool_iff in E. lra.
Qed.
Lemma qlt_false a b : qlt a b = false <-> b <= a.
Proof. unfold qlt. rewrite negb_false_iff. apply Qle_bool_iff. Qed.
Lemma qle_false a b : Qle_bool a b = false <-> b < a.
Proof. rewrite <- qlt_true. unfold qlt. now rewrite negb_true_iff. Qed.

Lemma forcem_choose_pos p1 r b : 0 <= p1 <= 1 -> ForceM1 p1 r b false = Some (forcem_choose p1 r, if forcem_choose p1 r then p1 else 1 - p1) /\
  0 < (if forcem_choose p1 r then p1 else 1 - p1).
Proof.
  intros Hp. assert (H : 0 < (if forcem_choose p1 r then p1 else 1 - p1)).
  { unfold forcem_choose. destruct (Qle_bool 1 p1) eqn:E1. apply Qle_bool_iff in E1. lra.
    destruct (Qle_bool p1 0) eqn:E2. apply Qle_bool_iff in E2. lra. apply qle_false in E1, E2. destruct (Qle_bool r p1); lra. }
  split; auto. unfold ForceM1. destruct (Qle_bool _ 0) eqn:E; auto. apply Qle_bool_iff in E. lra.
Qed.

Lemma reg_loop_spec ps : forall lcv lower r result nrm, nonneg ps ->
  let out := reg_loop ps lcv lower r result nrm in
  out = (result, nrm) /\ (r <= lower \/ forall p, In p ps -> p == 0) \/
  exists k, fst out = (lcv + N.of_nat k)%N /\ nth_error ps k = Some (snd out) /\ 0 < snd out /\ lower + cum ps k < r /\
    (r <= lower + cum ps (S k) \/ forall j p, (k < j)%nat -> nth_error ps j = Some p -> p == 0).
Proof.
  induction ps as [|p t IH]; intros lcv lower r result nrm Hn; cbn [reg_loop].
  - left. split; auto. right. intros p [].
  - inversion_clear Hn as [|? ? Hp Ht]. destruct (qlt lower r) eqn:E.
    + apply qlt_true in E. destruct (qlt 0 p) eqn:E0.
      * apply qlt_true in E0. specialize (IH (lcv + 1)%N (lower + p) r lcv p Ht). cbv zeta in IH.
        set (out := reg_loop t _ _ _ _ _) in *. clearbody out. right. destruct IH as [[-> H]|[k [K1 [K2 [K3 [K4 K5]]]]]].
        -- exists 0%nat. cbn [fst snd nth_error]. unfold cum. cbn [firstn qsum]. repeat split; auto; try lia; try lra.
           destruct H as [H|H]. left. lra. right. intros [|j] q Hj Hq; [lia|]. apply H. cbn [nth_error] in Hq. eapply nth_error_In; eauto.
        -- exists (S k). cbn [nth_error]. unfold cum in *. cbn [firstn qsum]. repeat split; auto. lia. lra.
           destruct K5 as [K5|K5]. left. cbn [firstn qsum] in *. lra. right. intros [|j] q Hj Hq; [lia|]. apply (K5 j); auto. lia.
      * apply qlt_false in E0. assert (p == 0) by lra. specialize (IH (lcv + 1)%N (lower + p) r result nrm Ht). cbv zeta in IH.
        set (out := reg_loop t _ _ _ _ _) in *. clearbody out. destruct IH as [[-> H1]|[k [K1 [K2 [K3 [K4 K5]]]]]].
        -- left. split; auto. destruct H1 as [H1|H1]. left. lra. right. intros q [<-|Hq]; auto.
        -- right. exists (S k). cbn [nth_error]. unfold cum in *. cbn [firstn qsum]. repeat split; auto. lia. lra.
           destruct K5 as [K5|K5]. left. cbn [firstn qsum] in *. lra. right. intros [|j] q Hj Hq; [lia|]. apply (K5 j); auto. lia.
    + apply qlt_false in E. left. auto.
Qed.

Lemma nth_error_prob ps k p : nth_error ps k = Some p -> prob_of ps k = p /\ (k < length ps)%nat.
Proof. intros H. unfold prob_of. split. now apply nth_error_nth. apply nth_error_Some. congruence. Qed.

Lemma cum_tail ps k : (forall j p, (k <= j)%nat -> nth_error ps j = Some p -> p == 0) -> cum ps k == qsum ps.
Proof.
  unfold cum. revert k. induction ps as [|p t IH]; intros k H.
  - destruct k; reflexivity.
  - destruct k; cbn [firstn qsum].
    + assert (p == 0) by (apply (H 0%nat p); auto; lia). pose proof (IH 0%nat ltac:(intros j q Hj Hq; apply (H (S j) q); auto; lia)) as I. cbn [firstn qsum] in I. lra.
    + rewrite (IH k). reflexivity. intros j q Hj Hq. apply (H (S j) q); auto. lia.
Qed.

(** A positive draw always returns a value of non-zero probability and divides by exactly that probability. *)
Lemma reg_draw_pos ps r : nonneg ps -> 0 < r -> 0 < qsum ps ->
  exists k, ForceMReg_draw ps r = (N.of_nat k, prob_of ps k) /\ (k < length ps)%nat /\ 0 < prob_of ps k /\ cum ps k < r /\
    (r <= qsum ps -> r <= cum ps (S k)).
Proof.
  intros Hn Hr Hs. pose proof (reg_loop_spec ps 0 0 r (N.of_nat (length ps) - 1) 1 Hn) as H. cbv zeta in H. unfold ForceMReg_draw.
  set (out := reg_loop _ _ _ _ _ _) in *. clearbody out. destruct H as [[-> [H|H]]|[k [K1 [K2 [K3 [K4 K5]]]]]].
  - lra.
  - exfalso. assert (qsum ps == 0). { rewrite <- (cum_tail ps 0). reflexivity. intros j p _ Hp. apply H. eapply nth_error_In; eauto. } lra.
  - exists k. apply nth_error_prob in K2. destruct K2 as [K2 K2']. rewrite K2. repeat split; auto; try lra.
    + destruct out as [a b]. cbn [fst snd] in *. subst. f_equal. 
    + intros Hle. destruct K5 as [K5|K5]. lra. rewrite cum_tail; auto.
Qed.

Lemma reg_draw_zero ps : ForceMReg_draw ps 0 = ((N.of_nat (length ps) - 1)%N, 1).
Proof. unfold ForceMReg_draw. destruct ps; reflexivity. Qed.

(** ** ForceM(bits) *)
Lemma cum_S ps k p : nth_error ps k = Some p -> cum ps (S k) == cum ps k + p.
Proof.
  unfold cum. revert k. induction ps as [|q t IH]; intros [|k] H; try discriminate; cbn [firstn qsum nth_error] in *.
  - injection H as ->. lra.
  - specialize (IH k H). cbn [firstn qsum] in IH. lra.
Qed.
Lemma cum_all ps k : (length ps <= k)%nat -> cum ps k = qsum ps.
Proof. intros H. unfold cum. now rewrite firstn_all2. Qed.
Lemma nonneg_nth ps k p : nonneg ps -> nth_error ps k = Some p -> 0 <= p.
Proof. intros H E. unfold nonneg in H. rewrite Forall_forall in H. apply H. eapply nth_error_In; eauto. Qed.
Lemma cum_mono ps k : nonneg ps -> cum ps k <= cum ps (S k).
Proof.
  intros Hn. destruct (nth_error ps k) eqn:E.
  - rewrite (cum_S _ _ _ E). pose proof (nonneg_nth _ _ _ Hn E). lra.
  - apply nth_error_None in E. rewrite !cum_all by lia. lra.
Qed.

Lemma bits_loop_spec ps r fuel : forall lcv lower, (lcv < length ps)%nat -> (length ps <= lcv + fuel)%nat -> lower == cum ps (S lcv) ->
  (forall j, (j < lcv)%nat -> cum ps (S j) < r) ->
  match bits_loop fuel ps lcv lower r with
  | None => qsum ps < r
  | Some k => (k < length ps)%nat /\ r <= cum ps (S k) /\ forall j, (j < k)%nat -> cum ps (S j) < r
  end.
Proof.
  induction fuel as [|f IH]; intros lcv lower Hl Hf Hlow Hj. lia.
  cbn [bits_loop]. destruct (qlt lower r) eqn:E; cbn [andb].
  - apply qlt_true in E. destruct (Nat.ltb_spec lcv (length ps)); [|lia]. destruct (nth_error ps (S lcv)) as [p|] eqn:En.
    + apply IH.
      * apply nth_error_Some. congruence.
      * lia.
      * rewrite (cum_S _ _ _ En). lra.
      * intros j Hjl. destruct (Nat.eq_dec j lcv) as [->|]. lra. apply Hj. lia.
    + apply nth_error_None in En. rewrite <- (cum_all ps (S lcv)) by lia. lra.
  - apply qlt_false in E. repeat split; auto. lra.
Qed.

Lemma bits_draw_spec ps r : ps <> [] ->
  match ForceMBits_draw ps r with
  | None => qsum ps < r
  | Some (k, p) => exists j, k = N.of_nat j /\ (j < length ps)%nat /\ p = prob_of ps j /\ r <= cum ps (S j) /\ forall i, (i < j)%nat -> cum ps (S i) < r
  end.
Proof.
  intros Hne. unfold ForceMBits_draw. destruct ps as [|p0 t]; [congruence|].
  pose proof (bits_loop_spec (p0 :: t) r (S (length (p0 :: t))) 0 (nth 0 (p0 :: t) 0)) as H.
  assert (H1 : nth 0 (p0 :: t) 0 == cum (p0 :: t) 1) by (unfold cum; cbn [nth firstn qsum]; lra).
  specialize (H ltac:(cbn [length]; lia) ltac:(lia) H1 ltac:(intros; lia)).
  destruct (bits_loop _ _ _ _ _) as [k|]; auto. destruct H as [A [B C]].
  destruct (nth_error (p0 :: t) k) as [p|] eqn:E.
  - exists k. apply nth_error_prob in E. destruct E as [<- _]. auto.
  - apply nth_error_None in E. lia.
Qed.
Lemma qsum_nonneg ps : nonneg ps -> 0 <= qsum ps.
Proof. induction 1; cbn [qsum]; lra. Qed.
Lemma cum_le_total ps k : nonneg ps -> cum ps k <= qsum ps.
Proof.
  unfold cum. intros Hn. revert k. induction Hn as [|p t Hp Ht IH]; intros [|k]; cbn [firstn qsum]; try lra.
  - pose proof (qsum_nonneg t Ht). lra.
  - specialize (IH k). lra.
Qed.
(** The probability array is read out of bounds exactly when the probabilities do not reach the draw. *)
Lemma bits_draw_oob ps r : ps <> [] -> nonneg ps -> (ForceMBits_draw ps r = None <-> qsum ps < r).
Proof.
  intros Hne Hn. pose proof (bits_draw_spec ps r Hne) as H. destruct (ForceMBits_draw ps r) as [[k p]|]; [|tauto].
  split; [discriminate|]. destruct H as [j [_ [_ [_ [Hr _]]]]]. pose proof (cum_le_total ps (S j) Hn). lra.
Qed.
Lemma bits_draw_pos ps r : ps <> [] -> nonneg ps -> 0 < r -> r <= qsum ps ->
  exists k, ForceMBits_draw ps r = Some (N.of_nat k, prob_of ps k) /\ (k < length ps)%nat /\ 0 < prob_of ps k /\ cum ps k < r <= cum ps (S k).
Proof.
  intros Hne Hn H0 Hr. pose proof (bits_draw_spec ps r Hne) as H. destruct (ForceMBits_draw ps r) as [[k p]|]; [|lra].
  destruct H as [j [-> [Hj [-> [Hc Hl]]]]]. exists j. split; auto. split; auto.
  assert (Hlt : cum ps j < r). { destruct j. unfold cum. cbn [firstn qsum]. auto. apply Hl. lia. }
  split; auto. destruct (nth_error ps j) as [p|] eqn:E.
  - rewrite (cum_S _ _ _ E) in Hc. apply nth_error_prob in E. destruct E as [-> _]. lra.
  - apply nth_error_None in E. lia.
Qed.

(** ** MAll *)
Lemma mall_spec e1 e2 r ps : forall perm tot last,
  let k := mall_loop e1 e2 ps perm tot r last in
  k = last /\ (forall p, In p ps -> p <= e1) \/ exists j p, k = (perm + N.of_nat j)%N /\ nth_error ps j = Some p /\ e1 < p.
Proof.
  induction ps as [|p t IH]; intros perm tot last; cbn [mall_loop].
  - left. split; auto. intros p [].
  - destruct (qlt e1 p) eqn:E.
    + apply qlt_true in E. right. destruct (_ || _). exists 0%nat, p. cbn [nth_error]. repeat split; auto. lia.
      destruct (IH (perm + 1)%N (tot + p) perm) as [[-> H]|[j [q [-> [Hq Hl]]]]].
      * exists 0%nat, p. cbn [nth_error]. repeat split; auto. lia.
      * exists (S j), q. cbn [nth_error]. repeat split; auto. lia.
    + apply qlt_false in E. destruct (IH (perm + 1)%N tot last) as [[-> H]|[j [q [-> [Hq Hl]]]]].
      * left. split; auto. intros q [<-|Hq]; auto.
      * right. exists (S j), q. cbn [nth_error]. repeat split; auto. lia.
Qed.
Lemma mall_draw_pos e1 e2 ps r : 0 <= e1 -> (exists p, In p ps /\ e1 < p) ->
  exists k, MAll_draw e1 e2 ps r = N.of_nat k /\ (k < length ps)%nat /\ 0 < prob_of ps k.
Proof.
  intros He [p [Hin Hp]]. unfold MAll_draw. destruct (mall_spec e1 e2 r ps 0 0 (N.of_nat (length ps) - 1)%N) as [[_ H]|[j [q [-> [Hq Hl]]]]].
  - specialize (H p Hin). lra.
  - exists j. apply nth_error_prob in Hq. destruct Hq as [-> Hj]. repeat split; auto. lra.
Qed.
(** With no tolerances the draw inverts the cumulative distribution. *)
Lemma mall_exact_loop r ps : forall perm tot last, nonneg ps -> tot <= r < tot + qsum ps -> tot + qsum ps <= 1 ->
  exists j, mall_loop 0 0 ps perm tot r last = (perm + N.of_nat j)%N /\ (j < length ps)%nat /\ tot + cum ps j <= r < tot + cum ps (S j).
Proof.
  induction ps as [|p t IH]; intros perm tot last Hn Hr H1; cbn [mall_loop qsum] in *. lra.
  inversion_clear Hn as [|? ? Hp Ht]. pose proof (qsum_nonneg t Ht) as Hq. destruct (qlt 0 p) eqn:E.
  - apply qlt_true in E. destruct (qlt r (tot + p)) eqn:E2; cbn [orb].
    + apply qlt_true in E2. exists 0%nat. unfold cum. cbn [firstn qsum length]. repeat split; try lia; lra.
    + apply qlt_false in E2. destruct (Qle_bool (1 - (tot + p)) 0) eqn:E3. apply Qle_bool_iff in E3. lra.
      destruct (IH (perm + 1)%N (tot + p) perm Ht) as [j [-> [Hj Hc]]]; try lra.
      exists (S j). unfold cum in *. cbn [firstn qsum length] in *. repeat split; try lia; lra.
  - apply qlt_false in E. destruct (IH (perm + 1)%N tot last Ht) as [j [-> [Hj Hc]]]; try lra.
    exists (S j). unfold cum in *. cbn [firstn qsum length] in *. repeat split; try lia; lra.
Qed.
Lemma mall_exact ps r : nonneg ps -> qsum ps == 1 -> 0 <= r < 1 ->
  exists k, MAll_draw 0 0 ps r = N.of_nat k /\ (k < length ps)%nat /\ cum ps k <= r < cum ps (S k).
Proof.
  intros Hn H1 Hr. destruct (mall_exact_loop r ps 0 0 (N.of_nat (length ps) - 1)%N Hn) as [k [E [A B]]]; try lra.
  exists k. repeat split; auto; lra.
Qed.

(** ** Forced values *)
Lemma forced_mask_bit bits : forall values, length values = length bits -> NoDup bits ->
  forall i, (i < length bits)%nat -> N.testbit (forced_mask bits values) (nth i bits 0%N) = nth i values false.
Proof.
  assert (HN : forall bits values q, ~ In q bits -> N.testbit (forced_mask bits values) q = false).
  { clear. induction bits as [|b t IH]; intros [|v vt] q Hq; cbn [forced_mask]; auto. rewrite N.lor_spec, IH by (intros H; apply Hq; simpl; auto).
    rewrite orb_false_r. destruct v; auto. apply N.pow2_bits_false. intros ->. apply Hq. simpl; auto. }
  induction bits as [|q t IH]; intros [|v vt] Hl HD i Hi; cbn [length] in *; try lia. inversion_clear HD as [|? ? Hq Ht].
  cbn [forced_mask]. rewrite N.lor_spec. destruct i as [|i]; cbn [nth].
  - rewrite HN by auto. rewrite orb_false_r. destruct v; auto. apply N.pow2_bits_true.
  - rewrite IH by (auto; lia). replace (N.testbit (if v then 2 ^ q else 0)%N (nth i t 0%N)) with false; auto.
    symmetry. destruct v; auto. apply N.pow2_bits_false. intros ->. apply Hq. apply nth_In. lia.
Qed.
