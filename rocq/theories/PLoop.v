(** From parallel loops to their effect: every index exactly once, in any interleaving. *)
From Coq Require Import NArith List Bool Lia Permutation Ring.
From Verif Require Import Bits MFunctions SpecFunctions PFunctions MParFor SpecParFor PParFor MKernel PKernel Amp PAmp SpecState MEngine SpecEngine.
Import ListNotations.
Local Open Scope N_scope.

(** ** Existence of complete runs *)
Lemma done_dec c : {all_done c} + {~ all_done c}.
Proof. apply Forall_dec. intros [| |]; [right; discriminate | right; discriminate | left; reflexivity]. Qed.

Lemma run_exists p threads : 0 < p_stride p -> p_items p + (N.of_nat threads + 2) * p_stride p < 2 ^ 64 ->
  p_begin p + p_items p < 2 ^ 64 -> forall k c, Inv p threads c -> measure p c <= N.of_nat k ->
  exists sched, all_done (prun p c sched).
Proof.
  intros HS Ho Hb. induction k as [|k IH]; intros c I Hm; (destruct (done_dec c) as [D|D]; [exists []; exact D|]);
  apply not_done_busy in D; destruct D as [t [pc [E Hp]]];
  pose proof (measure_step p threads HS Ho Hb c t pc I E Hp).
  - lia.
  - destruct (IH (pstep p c t)) as [s Hs]. now apply inv_step. lia.
    exists (t :: s). exact Hs.
Qed.

Lemma par_for_inc_exists numCores p : loop_fits numCores p -> exists calls, par_for_inc numCores p calls.
Proof.
  intros [HS [Hov Hb]]. unfold par_for_inc. set (th := thread_count _ _ _).
  assert (Hth : th <= numCores) by (unfold th, thread_count; apply N.le_min_r).
  destruct (N.leb_spec th 1). eauto.
  assert (Ho : p_items p + (N.of_nat (N.to_nat th) + 2) * p_stride p < 2 ^ 64) by (rewrite N2Nat.id; nia).
  destruct (run_exists p (N.to_nat th) HS Ho Hb (N.to_nat (measure p (pinit (N.to_nat th)))) (pinit (N.to_nat th))) as [s Hs].
  - now apply inv_init.
  - lia.
  - eexists. exists s. split; eauto.
Qed.

Lemma fits_le c n k : fits c n -> k <= n -> fits c k.
Proof. intros [H1 [H2 [H3 H4]]] H. pose proof (pow2_le_mono k n H). repeat split; try lia. Qed.

Lemma loop_fits_small c n b e f : fits c n -> b + e <= 2 ^ n -> loop_fits (cf_cores c) (mkLoop b e (cf_stride c) f).
Proof. intros [H1 [H2 [H3 H4]]] H. unfold loop_fits. cbn [p_stride p_items p_begin]. repeat split; try lia; nia. Qed.

Lemma calls_threads numCores p calls : 1 <= numCores -> par_for_inc numCores p calls ->
  Forall (fun x => (snd x < N.to_nat numCores)%nat) calls.
Proof.
  intros H1. unfold par_for_inc. set (th := thread_count _ _ _).
  assert (Hth : th <= numCores) by (unfold th, thread_count; apply N.le_min_r).
  destruct (N.leb_spec th 1).
  - intros ->. apply Forall_forall. intros x Hx. apply in_map_iff in Hx. destruct Hx as [j [<- _]]. cbn [snd]. lia.
  - intros [s [_ ->]]. apply Forall_rev. eapply Forall_impl; [|apply (calls_thread p (N.to_nat th) s)].
    + cbn beta. intros a Ha. lia.
    + simpl. apply repeat_length.
    + constructor.
Qed.

(** ** Loops as enumerations *)
Definition runs {V} (P : N -> Prop) (body : N -> prog V) (m m' : mem V) : Prop :=
  exists idx, enumerates P idx /\ kernel (map body idx) m m'.

Lemma enumerates_iff (P Q : N -> Prop) xs : (forall x, P x <-> Q x) -> enumerates P xs -> enumerates Q xs.
Proof. intros E [ND H]. split; auto. intros x. now rewrite H. Qed.

Section Loops.
  Context {K : StarRing}.
  Variable c : cfg.
  Local Notation V := (mem K).

  Lemma loop_for_runs n e (body : N -> prog K) (m m' : V) : fits c n -> e <= 2 ^ n -> loop_for c e body m m' ->
    runs (fun x => x < e) body m m'.
  Proof.
    intros [H1 [H2 [H3 H4]]] He [calls [Hc Hk]]. exists (map fst calls). split; auto.
    eapply enumerates_iff; [|eapply (par_for_ok (cf_cores c) (cf_stride c) 0 e); eauto; nia]. intros x. cbn beta. lia.
  Qed.
  Lemma loop_mask_runs n ps (body : N -> prog K) (m m' : V) : fits c n -> increasing_below 0 n ps ->
    loop_mask c (2 ^ n) (map (fun q => 2 ^ q) ps) body m m' ->
    runs (fun x => x < 2 ^ n /\ zero_at ps x) body m m'.
  Proof.
    intros [H1 [H2 [H3 H4]]] Hi [calls [Hc Hk]]. exists (map fst calls). split; auto.
    eapply par_for_mask_ok; eauto.
  Qed.
  Lemma loop_skip_runs n q w (body : N -> prog K) (m m' : V) : fits c n -> q + w <= n ->
    loop_skip c (2 ^ n) (2 ^ q) w body m m' ->
    runs (fun x => x < 2 ^ n /\ forall j, q <= j < q + w -> N.testbit x j = false) body m m'.
  Proof.
    intros [H1 [H2 [H3 H4]]] Hi [calls [Hc Hk]]. exists (map fst calls). split; auto.
    eapply par_for_skip_ok; eauto.
  Qed.

  Lemma loop_for_exists n e (body : N -> prog K) (m : V) : fits c n -> e <= 2 ^ n -> exists m', loop_for c e body m m'.
  Proof.
    intros Hf He. destruct (par_for_inc_exists (cf_cores c) (mkLoop 0 (e - 0) (cf_stride c) (fun i => i))) as [calls Hc].
    - eapply loop_fits_small; eauto. lia.
    - eexists. exists calls. split; [exact Hc|]. apply kernel_seq.
  Qed.
  Lemma loop_mask_exists n masks (body : N -> prog K) (m : V) : fits c n -> exists m', loop_mask c (2 ^ n) masks body m m'.
  Proof.
    intros Hf.
    assert (Hs : N.shiftr (2 ^ n) (N.of_nat (length masks)) <= 2 ^ n).
    { rewrite N.shiftr_div_pow2. apply N.div_le_upper_bound. apply pow2_nz. pose proof (pow2_pos (N.of_nat (length masks))). nia. }
    assert (exists calls, par_for_mask (cf_cores c) (cf_stride c) 0 (2 ^ n) masks calls) as [calls Hc].
    { unfold par_for_mask. destruct (only_low _ _ _); apply par_for_inc_exists; eapply loop_fits_small; eauto; rewrite ?N.sub_0_r; lia. }
    eexists. exists calls. split; [exact Hc|]. apply kernel_seq.
  Qed.
  Lemma loop_skip_exists n q w (body : N -> prog K) (m : V) : fits c n -> q <= n -> exists m', loop_skip c (2 ^ n) (2 ^ q) w body m m'.
  Proof.
    intros Hf Hq.
    assert (Hs : N.shiftr (2 ^ n) w <= 2 ^ n).
    { rewrite N.shiftr_div_pow2. apply N.div_le_upper_bound. apply pow2_nz. pose proof (pow2_pos w). nia. }
    pose proof (pow2_le_mono q n Hq).
    assert (exists calls, par_for_skip (cf_cores c) (cf_stride c) 0 (2 ^ n) (2 ^ q) w calls) as [calls Hc].
    { unfold par_for_skip, par_for. destruct (_ <=? _); apply par_for_inc_exists; eapply loop_fits_small; eauto; rewrite ?N.sub_0_r; lia. }
    eexists. exists calls. split; [exact Hc|]. apply kernel_seq.
  Qed.

  (** ** Effect of a loop *)
  (** [F i] is the set of cells that the body of index [i] touches. *)
  Lemma runs_local (P : N -> Prop) (F : N -> N -> Prop) (body : N -> prog K) (m m' : V) :
    (forall i j a, P i -> P j -> F i a -> F j a -> i = j) -> (forall i, P i -> within (F i) (body i)) ->
    runs P body m m' ->
    (forall i a, P i -> F i a -> m' a = exec (body i) m a) /\ (forall a, (forall i, P i -> ~ F i a) -> m' a = m a).
  Proof.
    intros HD HW [idx [[ND Hin] Hk]].
    destruct (kernel_indexed F body idx m m' ND) as [A B]; auto.
    - intros i j a Hi Hj. apply HD; now apply Hin.
    - intros i Hi. apply HW. now apply Hin.
    - split.
      + intros i a Hi. apply A. now apply Hin.
      + intros a Ha. apply B. intros i Hi. apply Ha. now apply Hin.
  Qed.

  (** The body of index [i] touches only cell [i]. *)
  Lemma runs_cell (P : N -> Prop) (body : N -> prog K) (m m' : V) : (forall i, P i -> within (fun a => a = i) (body i)) ->
    runs P body m m' -> (forall i, P i -> m' i = exec (body i) m i) /\ (forall a, ~ P a -> m' a = m a).
  Proof.
    intros HW HR. destruct (runs_local P (fun i a => a = i) body m m') as [A B]; auto.
    - intros; congruence.
    - split. intros; now apply A. intros a Ha. apply B. intros i Hi ->. auto.
  Qed.

  Lemma fill_ok n e (val : N -> K) (m m' : V) : fits c n -> e <= 2 ^ n -> fill c e val m m' ->
    forall x, x < e -> m' x = val x.
  Proof.
    intros Hf He HR x Hx. apply (loop_for_runs n) in HR; auto.
    apply runs_cell in HR. destruct HR as [A _]. rewrite A by auto. simpl. apply mset_eq.
    intros i _. split; [reflexivity | exact I].
  Qed.
  Lemma fill_exists n e (val : N -> K) (m : V) : fits c n -> e <= 2 ^ n -> exists m', fill c e val m m'.
  Proof. intros. eapply loop_for_exists; eauto. Qed.
End Loops.

(** ** Sums *)
Lemma upto_iota n : upto n = iota 0 n.
Proof.
  induction n as [|n IH]; auto. replace (S n) with (n + 1)%nat by lia. rewrite iota_app. simpl.
  replace (n + 1)%nat with (S n) by lia. cbn [upto]. rewrite IH. f_equal.
Qed.
Lemma basis_iota n : basis n = iota 0 (N.to_nat (2 ^ n)).
Proof. apply upto_iota. Qed.
Lemma basis_In n x : In x (basis n) <-> x < 2 ^ n.
Proof. rewrite basis_iota, iota_In. lia. Qed.
Lemma basis_NoDup n : NoDup (basis n).
Proof. rewrite basis_iota. apply iota_NoDup. Qed.

Lemma enum_perm (P : N -> Prop) xs ys : enumerates P xs -> enumerates P ys -> Permutation xs ys.
Proof. intros [N1 H1] [N2 H2]. apply NoDup_Permutation; auto. intros x. now rewrite H1, H2. Qed.
Lemma enum_filter n (P : N -> bool) : enumerates (fun x => x < 2 ^ n /\ P x = true) (filter P (basis n)).
Proof. split. apply NoDup_filter, basis_NoDup. intros x. now rewrite filter_In, basis_In. Qed.
Lemma enum_map (P Q : N -> Prop) (h : N -> N) xs : enumerates P xs ->
  (forall x y, P x -> P y -> h x = h y -> x = y) -> (forall y, Q y <-> exists x, P x /\ h x = y) -> enumerates Q (map h xs).
Proof.
  intros [ND Hx] Hinj HQ. split.
  - clear HQ. assert (Hin : forall x, In x xs -> P x) by (intros; now apply Hx). clear Hx. induction ND as [|x l Hn ND IH]; simpl; constructor.
    + intros Hm. apply in_map_iff in Hm. destruct Hm as [y [E Hy]]. apply Hinj in E; try (apply Hin; simpl; auto). congruence.
    + apply IH. intros; apply Hin; simpl; auto.
  - intros y. rewrite in_map_iff, HQ. split; intros [x [A B]]; exists x; split; auto; now apply Hx.
Qed.

Section Sums.
  Context {K : StarRing}.
  Variable c : cfg.
  Add Ring Kring2 : (sr_ring K).

  Lemma asum_enum n (P : N -> bool) (f : N -> K) xs : enumerates (fun x => x < 2 ^ n /\ P x = true) xs ->
    asum f xs = asum (fun x => if P x then f x else 0%amp) (basis n).
  Proof.
    intros H. rewrite <- asum_filter. apply asum_perm. eapply enum_perm; eauto. apply enum_filter.
  Qed.

  Lemma sum_list_asum (f : N -> K) l : sum_list 0%amp sr_add f l = asum f l.
  Proof. induction l; simpl; congruence. Qed.

  Lemma acc_total_ok numCores p (term : N -> K) calls : 1 <= numCores -> cf_cores c = numCores -> par_for_inc numCores p calls ->
    acc_total c term calls = asum term (map fst calls).
  Proof.
    intros H1 E Hc. unfold acc_total. rewrite par_norm_result_ok, sum_list_asum; auto; try (intros; ring).
    rewrite E. eapply calls_threads; eauto.
  Qed.

  Lemma sum_for_ok n e (term : N -> K) r : fits c n -> e <= 2 ^ n -> sum_for c e term r ->
    exists xs, enumerates (fun x => x < e) xs /\ r = asum term xs.
  Proof.
    intros [H1 [H2 [H3 H4]]] He [calls [Hc ->]]. exists (map fst calls). split.
    - eapply enumerates_iff; [|eapply (par_for_ok (cf_cores c) (cf_stride c) 0 e); eauto; nia]. intros x. cbn beta. lia.
    - eapply acc_total_ok; eauto.
  Qed.
  Lemma sum_mask_ok n ps (term : N -> K) r : fits c n -> increasing_below 0 n ps -> sum_mask c (2 ^ n) (map (fun q => 2 ^ q) ps) term r ->
    exists xs, enumerates (fun x => x < 2 ^ n /\ zero_at ps x) xs /\ r = asum term xs.
  Proof.
    intros [H1 [H2 [H3 H4]]] Hi [calls [Hc ->]]. exists (map fst calls). split.
    - eapply par_for_mask_ok; eauto.
    - unfold par_for_mask in Hc. destruct (only_low _ _ _); eapply acc_total_ok; eauto.
  Qed.
  Lemma sum_skip_ok n q w (term : N -> K) r : fits c n -> q + w <= n -> sum_skip c (2 ^ n) (2 ^ q) w term r ->
    exists xs, enumerates (fun x => x < 2 ^ n /\ forall j, q <= j < q + w -> N.testbit x j = false) xs /\ r = asum term xs.
  Proof.
    intros [H1 [H2 [H3 H4]]] Hi [calls [Hc ->]]. exists (map fst calls). split.
    - eapply par_for_skip_ok; eauto.
    - unfold par_for_skip, par_for in Hc. destruct (_ <=? _); eapply acc_total_ok; eauto. 
  Qed.
End Sums.
