(** Proofs about the parallel loops. *)
From Coq Require Import NArith List Bool Lia Permutation Arith.
From Verif Require Import Bits MFunctions SpecFunctions PFunctions MParFor SpecParFor.
Import ListNotations.
Local Open Scope N_scope.

(** ** iota *)
Lemma iota_In k : forall a x, In x (iota a k) <-> a <= x < a + N.of_nat k.
Proof.
  induction k as [|k IH]; intros a x; cbn [iota In].
  - lia.
  - rewrite IH. lia.
Qed.
Lemma iota_NoDup k : forall a, NoDup (iota a k).
Proof.
  induction k as [|k IH]; intros a; cbn [iota]; constructor; auto. rewrite iota_In. lia.
Qed.
Lemma iota_app j : forall a k, iota a (j + k) = iota a j ++ iota (a + N.of_nat j) k.
Proof.
  induction j as [|j IH]; intros a k; cbn [iota plus app].
  - now rewrite N.add_0_r.
  - rewrite IH. do 2 f_equal. f_equal. lia.
Qed.
Lemma iota_length k : forall a, length (iota a k) = k.
Proof. induction k; intros; simpl; auto. Qed.
Lemma iota_map_add k : forall a b, map (fun x => b + x) (iota a k) = iota (b + a) k.
Proof.
  induction k as [|k IH]; intros a b; cbn [iota map]; auto. f_equal. rewrite IH. f_equal. lia.
Qed.

Lemma set_nth_split {A} (x y : A) : forall l t, nth_error l t = Some y ->
  exists a b, l = a ++ y :: b /\ set_nth t x l = a ++ x :: b.
Proof.
  induction l as [|z l IH]; intros [|t] H; simpl in H; try discriminate.
  - injection H as ->. exists [], l. auto.
  - destruct (IH t H) as [a [b [E1 E2]]]. exists (z :: a), b. simpl. now rewrite E2, <- E1.
Qed.

(** ** The invariant *)
Section Inv.
  Variable p : ploop.
  Variable threads : nat.
  Let S := p_stride p.
  Let n := p_items p.
  Hypothesis HS : 0 < S.
  Hypothesis Hov : n + (N.of_nat threads + 2) * S < 2 ^ 64.
  Hypothesis Hb : p_begin p + n < 2 ^ 64.
  Let f (k : N) : N := p_inc p (p_begin p + k).

  (** Number of chunks. *)
  Let C := (n + S - 1) / S.

  Definition isdone (t : tpc) : bool := match t with TDone => true | _ => false end.
  Definition pend (t : tpc) : list N := match t with TRun l j m => iota (l + j) (N.to_nat (m - j)) | _ => [] end.
  Definition pcok (t : tpc) : Prop := match t with TRun l j m => j <= m /\ l + m <= n | _ => True end.
  Definition ndone (l : list tpc) : nat := length (filter isdone l).

  Record Inv (c : pconf) : Prop := {
    i_len : length (c_thr c) = threads;
    i_idx : c_idx c <= C + N.of_nat (ndone (c_thr c));
    i_ok : Forall pcok (c_thr c);
    i_done : (0 < ndone (c_thr c))%nat -> n <= c_idx c * S;
    i_perm : Permutation (map fst (c_calls c) ++ map f (flat_map pend (c_thr c)))
               (map f (iota 0 (N.to_nat (N.min (c_idx c * S) n))))
  }.

  Lemma C_spec : n <= C * S /\ C * S < n + S.
  Proof.
    unfold C. pose proof (N.div_mod (n + S - 1) S ltac:(lia)) as D. pose proof (N.mod_lt (n + S - 1) S ltac:(lia)) as M.
    set (q := (n + S - 1) / S) in *. set (r := (n + S - 1) mod S) in *. clearbody q r.
    rewrite (N.mul_comm q S). set (t := S * q) in *. clearbody t. lia.
  Qed.

  Lemma ndone_split a x b : ndone (a ++ x :: b) = ((if isdone x then 1 else 0) + ndone (a ++ b))%nat.
  Proof. unfold ndone. rewrite !filter_app. simpl. rewrite !app_length. destruct (isdone x); simpl; lia. Qed.

  Lemma ndone_le l : (ndone l <= length l)%nat.
  Proof. unfold ndone. induction l; simpl; auto. destruct (isdone a); simpl; lia. Qed.

  Lemma Forall_split (P : tpc -> Prop) a x b : Forall P (a ++ x :: b) <-> P x /\ Forall P (a ++ b).
  Proof.
    rewrite !Forall_app. rewrite Forall_cons_iff. tauto.
  Qed.

  Lemma pend_split a x b : Permutation (flat_map pend (a ++ x :: b)) (pend x ++ flat_map pend (a ++ b)).
  Proof.
    rewrite !flat_map_app. simpl. rewrite !app_assoc. apply Permutation_app_tail. apply Permutation_app_comm.
  Qed.

  Lemma inv_init : Inv (pinit threads).
  Proof.
    unfold pinit. assert (E : ndone (repeat TFetch threads) = 0%nat).
    { clear. induction threads; simpl; auto. }
    constructor; cbn [c_thr c_idx c_calls].
    - apply repeat_length.
    - lia.
    - apply Forall_forall. intros x Hx. apply repeat_spec in Hx. now subst.
    - rewrite E. lia.
    - rewrite N.mul_0_l, N.min_l by lia. simpl.
      assert (E2 : flat_map pend (repeat TFetch threads) = []). { clear. induction threads; simpl; auto. }
      rewrite E2. simpl. constructor.
  Qed.

  Lemma idx_bound c : Inv c -> c_idx c <= C + N.of_nat threads.
  Proof. intros I. pose proof (i_idx c I). pose proof (ndone_le (c_thr c)). rewrite (i_len c I) in *. lia. Qed.

  Lemma idx_nowrap c : Inv c -> c_idx c * S + S < 2 ^ 64 /\ c_idx c + 1 < 2 ^ 64.
  Proof.
    intros I. pose proof (idx_bound c I). pose proof C_spec as [_ HC].
    assert (c_idx c * S + S < 2 ^ 64) by nia. split; auto. nia.
  Qed.

  (** One step keeps the invariant. *)
  Lemma inv_step c t : Inv c -> Inv (pstep p c t).
  Proof.
    intros I. unfold pstep. fold S n. destruct (nth_error (c_thr c) t) as [pc|] eqn:E; auto.
    pose proof (idx_nowrap c I) as [W1 W2]. pose proof C_spec as [HC1 HC2].
    destruct pc as [|l j m|]; auto.
    - (* fetch *)
      unfold w64. rewrite (N.mod_small (c_idx c * S)) by lia. rewrite (N.mod_small (c_idx c + 1)) by lia.
      rewrite (N.mod_small (c_idx c * S + S)) by lia.
      destruct (set_nth_split (if n <=? c_idx c * S then TDone
         else TRun (c_idx c * S) 0 (if c_idx c * S + S <? n then S else n - c_idx c * S)) TFetch _ _ E) as [a [b [E1 E2]]].
      rewrite E2. destruct I as [Il Ii Io Id Ip]. rewrite E1 in *.
      rewrite ndone_split in Ii, Id. cbn [isdone plus] in Ii, Id.
      apply Forall_split in Io. destruct Io as [_ Io].
      assert (Pp : Permutation (flat_map pend (a ++ TFetch :: b)) (flat_map pend (a ++ b))).
      { eapply Permutation_trans; [apply pend_split|]. simpl. apply Permutation_refl. }
      destruct (N.leb_spec n (c_idx c * S)) as [Hd|Hd].
      + constructor; cbn [c_thr c_idx c_calls].
        * rewrite app_length in *. simpl in *. lia.
        * rewrite ndone_split. cbn [isdone]. lia.
        * apply Forall_split. split; auto. exact Logic.I.
        * intros _. nia.
        * replace (N.min ((c_idx c + 1) * S) n) with (N.min (c_idx c * S) n) by nia.
          eapply Permutation_trans; [|apply Ip]. apply Permutation_app_head. apply Permutation_map.
          eapply Permutation_trans; [apply pend_split|]. simpl. symmetry. exact Pp.
      + set (m := if c_idx c * S + S <? n then S else n - c_idx c * S).
        assert (Hm : m = N.min S (n - c_idx c * S)) by (unfold m; destruct (N.ltb_spec (c_idx c * S + S) n); lia).
        assert (Hnd : ndone (a ++ b) = 0%nat) by (destruct (ndone (a ++ b)); auto; exfalso; specialize (Id ltac:(lia)); lia).
        constructor; cbn [c_thr c_idx c_calls].
        * rewrite app_length in *. simpl in *. lia.
        * rewrite ndone_split. cbn [isdone]. rewrite Hnd. nia.
        * apply Forall_split. split; auto. simpl. lia.
        * rewrite ndone_split. cbn [isdone]. rewrite Hnd. lia.
        * replace (N.min ((c_idx c + 1) * S) n) with (c_idx c * S + m) by nia.
          rewrite N2Nat.inj_add, iota_app, map_app.
          rewrite (N.min_l (c_idx c * S)) in Ip by lia.
          eapply Permutation_trans; [|apply Permutation_app_tail; apply Ip].
          rewrite <- app_assoc. apply Permutation_app_head. rewrite <- map_app. apply Permutation_map.
          eapply Permutation_trans; [apply pend_split|].
          cbn [pend]. rewrite N.add_0_r, N.sub_0_r, N.add_0_l, N2Nat.id.
          eapply Permutation_trans; [apply Permutation_app_comm|]. apply Permutation_app_tail. symmetry. exact Pp.
    - (* run *)
      destruct I as [Il Ii Io Id Ip]. destruct (N.ltb_spec j m) as [Hj|Hj].
      + destruct (set_nth_split (TRun l (j + 1) m) _ _ _ E) as [a [b [E1 E2]]]. rewrite E2. rewrite E1 in *.
        rewrite ndone_split in Ii, Id. cbn [isdone plus] in Ii, Id. apply Forall_split in Io. destruct Io as [Hpc Io].
        cbn [pcok] in Hpc.
        constructor; cbn [c_thr c_idx c_calls].
        * rewrite app_length in *. simpl in *. lia.
        * rewrite ndone_split. cbn [isdone]. lia.
        * apply Forall_split. split; auto. simpl. lia.
        * rewrite ndone_split. cbn [isdone]. auto.
        * eapply Permutation_trans; [|apply Ip]. cbn [map fst app].
          unfold w64. rewrite (N.mod_small (p_begin p + j)) by lia. rewrite N.mod_small by lia.
          replace (p_begin p + j + l) with (p_begin p + (l + j)) by lia. fold (f (l + j)).
          eapply Permutation_trans; [apply Permutation_middle|]. apply Permutation_app_head.
          change (f (l + j) :: map f (flat_map pend (a ++ TRun l (j + 1) m :: b)))
            with (map f ((l + j) :: flat_map pend (a ++ TRun l (j + 1) m :: b))).
          apply Permutation_map.
          eapply Permutation_trans; [|symmetry; apply pend_split].
          eapply Permutation_trans; [apply perm_skip; apply pend_split|].
          cbn [pend]. replace (N.to_nat (m - j)) with (Datatypes.S (N.to_nat (m - (j + 1)))) by lia.
          cbn [iota app]. rewrite N.add_assoc. apply Permutation_refl.
      + destruct (set_nth_split TFetch _ _ _ E) as [a [b [E1 E2]]]. rewrite E2. rewrite E1 in *.
        rewrite ndone_split in Ii, Id. cbn [isdone plus] in Ii, Id. apply Forall_split in Io. destruct Io as [Hpc Io].
        constructor; cbn [c_thr c_idx c_calls].
        * rewrite app_length in *. simpl in *. lia.
        * rewrite ndone_split. cbn [isdone]. lia.
        * apply Forall_split. split; auto. exact Logic.I.
        * rewrite ndone_split. cbn [isdone]. auto.
        * eapply Permutation_trans; [|apply Ip]. apply Permutation_app_head. apply Permutation_map.
          eapply Permutation_trans; [apply pend_split|]. eapply Permutation_trans; [|symmetry; apply pend_split].
          cbn [pend]. replace (N.to_nat (m - j)) with 0%nat by lia. simpl. apply Permutation_refl.
  Qed.

  Lemma inv_run sched : forall c, Inv c -> Inv (prun p c sched).
  Proof. induction sched as [|t s IH]; intros c I; simpl; auto. apply IH. now apply inv_step. Qed.

  Lemma done_complete sched : (0 < threads)%nat -> all_done (prun p (pinit threads) sched) ->
    Permutation (map fst (c_calls (prun p (pinit threads) sched))) (map f (iota 0 (N.to_nat n))).
  Proof.
    intros Ht Hd. pose proof (inv_run sched _ inv_init) as I. set (c := prun p (pinit threads) sched) in *.
    destruct I as [Il Ii Io Id Ip]. unfold all_done in Hd.
    assert (E : ndone (c_thr c) = threads /\ flat_map pend (c_thr c) = []).
    { rewrite <- Il. revert Hd. clear. unfold ndone. induction 1 as [|x l -> HF [IH1 IH2]]; simpl; auto. }
    destruct E as [E1 E2]. rewrite E2 in Ip. simpl in Ip. rewrite app_nil_r in Ip.
    rewrite N.min_r in Ip by (apply Id; lia). exact Ip.
  Qed.

  (** Termination measure. *)
  Definition weight (t : tpc) : N := match t with TDone => 0 | TFetch => 1 | TRun l j m => (m - j) + 2 end.
  Fixpoint weights (l : list tpc) : N := match l with [] => 0 | t :: r => weight t + weights r end.
  Definition measure (c : pconf) : N :=
    weights (c_thr c) + (n - N.min (c_idx c * S) n) + 2 * (C - c_idx c).

  Lemma weights_split a x b : weights (a ++ x :: b) = weight x + weights (a ++ b).
  Proof. induction a; simpl; auto. rewrite IHa. lia. Qed.

  Lemma measure_step c t pc : Inv c -> nth_error (c_thr c) t = Some pc -> pc <> TDone ->
    measure (pstep p c t) < measure c.
  Proof.
    intros I E Hpc. unfold pstep. fold S n. rewrite E.
    pose proof (idx_nowrap c I) as [W1 W2]. pose proof C_spec as [HC1 HC2].
    destruct pc as [|l j m|]; [| |contradiction].
    - unfold w64. rewrite (N.mod_small (c_idx c * S)) by lia. rewrite (N.mod_small (c_idx c + 1)) by lia.
      rewrite (N.mod_small (c_idx c * S + S)) by lia.
      destruct (set_nth_split (if n <=? c_idx c * S then TDone
         else TRun (c_idx c * S) 0 (if c_idx c * S + S <? n then S else n - c_idx c * S)) TFetch _ _ E) as [a [b [E1 E2]]].
      unfold measure. cbn [c_thr c_idx]. rewrite E2, E1, !weights_split. cbn [weight].
      destruct (N.leb_spec n (c_idx c * S)); cbn [weight].
      + nia.
      + assert (c_idx c + 1 <= C) by nia. destruct (N.ltb_spec (c_idx c * S + S) n); nia.
    - destruct (N.ltb_spec j m) as [Hj|Hj].
      + destruct (set_nth_split (TRun l (j + 1) m) _ _ _ E) as [a [b [E1 E2]]]. 
        unfold measure. cbn [c_thr c_idx]. rewrite E2, E1, !weights_split. cbn [weight]. lia.
      + destruct (set_nth_split TFetch _ _ _ E) as [a [b [E1 E2]]].
        unfold measure. cbn [c_thr c_idx]. rewrite E2, E1, !weights_split. cbn [weight]. lia.
  Qed.

  Lemma busy_bound sched : forall c, Inv c -> busy p c sched -> N.of_nat (length sched) <= measure c.
  Proof.
    induction sched as [|t s IH]; intros c I Hs; cbn [length]. lia.
    destruct Hs as [[pc [E Hpc]] Hs]. pose proof (measure_step c t pc I E Hpc).
    specialize (IH _ (inv_step c t I) Hs). lia.
  Qed.

  Lemma measure_init : measure (pinit threads) <= N.of_nat threads + 3 * n + 2.
  Proof.
    unfold measure, pinit. cbn [c_thr c_idx]. rewrite N.mul_0_l, N.min_l by lia.
    assert (E : weights (repeat TFetch threads) = N.of_nat threads).
    { clear. induction threads; simpl repeat; cbn [weights weight]; lia. }
    rewrite E. pose proof C_spec. nia.
  Qed.
End Inv.

Lemma not_done_busy c : ~ all_done c -> exists t pc, nth_error (c_thr c) t = Some pc /\ pc <> TDone.
Proof.
  unfold all_done. induction (c_thr c) as [|x l IH]; intros H.
  - exfalso. apply H. constructor.
  - destruct x.
    + exists 0%nat. eexists. split; [reflexivity|discriminate].
    + exists 0%nat. eexists. split; [reflexivity|discriminate].
    + destruct IH as [t [pc [E Hp]]].
      * intros HF. apply H. constructor; auto.
      * exists (S t), pc. auto.
Qed.

(** ** par_for_inc *)
Definition loop_fits (numCores : N) (p : ploop) : Prop :=
  0 < p_stride p /\ p_items p + (numCores + 2) * p_stride p < 2 ^ 64 /\ p_begin p + p_items p < 2 ^ 64.

Lemma par_for_inc_ok numCores p calls : loop_fits numCores p -> par_for_inc numCores p calls ->
  Permutation (map fst calls) (map (p_inc p) (iota (p_begin p) (N.to_nat (p_items p)))).
Proof.
  intros [HS [Hov Hb]]. unfold par_for_inc. set (th := thread_count _ _ _).
  assert (Hth : th <= numCores) by (unfold th, thread_count; apply N.le_min_r).
  destruct (N.leb_spec th 1).
  - intros ->. rewrite map_map. simpl. unfold w64. rewrite N.mod_small by auto.
    replace (p_begin p + p_items p - p_begin p) with (p_items p) by lia. apply Permutation_refl.
  - intros [sched [Hd ->]].
    pose proof (done_complete p (N.to_nat th) HS) as DC. rewrite N2Nat.id in DC.
    specialize (DC ltac:(nia) Hb sched ltac:(lia) Hd).
    rewrite map_rev. eapply Permutation_trans; [symmetry; apply Permutation_rev|].
    eapply Permutation_trans; [apply DC|].
    replace (iota (p_begin p) (N.to_nat (p_items p))) with (map (fun x => p_begin p + x) (iota 0 (N.to_nat (p_items p)))).
    + rewrite map_map. apply Permutation_refl.
    + rewrite iota_map_add. f_equal. lia.
Qed.

Lemma par_for_inc_terminates numCores p : loop_fits numCores p ->
  let th := thread_count numCores (p_items p) (p_stride p) in
  forall sched, busy p (pinit (N.to_nat th)) sched -> N.of_nat (length sched) <= th + 3 * p_items p + 2.
Proof.
  intros [HS [Hov Hb]] th sched Hs.
  assert (Hth : th <= numCores) by (unfold th, thread_count; apply N.le_min_r).
  assert (Ho : p_items p + (N.of_nat (N.to_nat th) + 2) * p_stride p < 2 ^ 64) by (rewrite N2Nat.id; nia).
  etransitivity; [eapply (busy_bound p (N.to_nat th) HS Ho Hb); eauto|].
  - now apply inv_init.
  - etransitivity; [apply measure_init; auto|]. rewrite N2Nat.id. lia.
Qed.

(** ** par_for *)
Lemma par_for_ok numCores stride b e calls : 0 < stride -> b <= e -> e + (numCores + 2) * stride < 2 ^ 64 ->
  par_for numCores stride b e calls -> enumerates (fun x => b <= x < e) (map fst calls).
Proof.
  intros HS Hbe Hov Hc. apply par_for_inc_ok in Hc.
  - cbn [p_inc p_begin p_items] in Hc. rewrite map_id in Hc. split.
    + eapply Permutation_NoDup; [symmetry; apply Hc|]. apply iota_NoDup.
    + intros x. split; intros Hx.
      * apply (Permutation_in _ Hc) in Hx. apply iota_In in Hx. lia.
      * apply (Permutation_in _ (Permutation_sym Hc)). apply iota_In. lia.
  - unfold loop_fits. cbn [p_inc p_begin p_items p_stride]. split; auto. split; nia.
Qed.

Lemma enum_map_inj (P : N -> Prop) (g : N -> N) xs k calls :
  Permutation (map fst (calls : list (N * nat))) (map g (iota 0 k)) -> xs = map fst calls ->
  (forall x y, x < N.of_nat k -> y < N.of_nat k -> g x = g y -> x = y) ->
  (forall x, P x <-> exists a, a < N.of_nat k /\ g a = x) ->
  enumerates P xs.
Proof.
  intros HP -> Hinj HPx. split.
  - eapply Permutation_NoDup; [symmetry; apply HP|].
    assert (Hall : forall l, (forall x, In x l -> x < N.of_nat k) -> NoDup l -> NoDup (map g l)).
    { induction l as [|a l IH]; intros Hl Hn; simpl; constructor.
      - intros Hin. apply in_map_iff in Hin. destruct Hin as [b [E Hb]].
        assert (b = a) by (apply Hinj; auto; apply Hl; simpl; auto). subst. inversion Hn; auto.
      - inversion Hn; subst. apply IH; auto. intros; apply Hl; simpl; auto. }
    apply Hall. intros x Hx. apply iota_In in Hx. lia. apply iota_NoDup.
  - intros x. rewrite HPx. split.
    + intros Hx. apply (Permutation_in _ HP) in Hx. apply in_map_iff in Hx. destruct Hx as [a [E Ha]].
      apply iota_In in Ha. exists a. split; auto. lia.
    + intros [a [Ha E]]. apply (Permutation_in _ (Permutation_sym HP)). apply in_map_iff. exists a. split; auto.
      apply iota_In. lia.
Qed.

(** ** par_for_mask *)
Lemma not64_testbit x i : N.testbit (not64 x) i = if i <? 64 then negb (N.testbit x i) else N.testbit x i.
Proof.
  unfold not64. rewrite N.lxor_spec, tb_ones. destruct (i <? 64); destruct (N.testbit x i); reflexivity.
Qed.

Lemma mask_step i q : q < 64 -> i < 2 ^ 63 ->
  N.lor (N.land (w64 (N.shiftl i 1)) (not64 (w64 (2 ^ q - 1 + 2 ^ q)))) (N.land i (2 ^ q - 1)) = ins q i.
Proof.
  intros Hq Hi. assert (2 ^ q <= 2 ^ 63) by (apply pow2_le_mono; lia).
  change (2 ^ 63) with 9223372036854775808 in *.
  assert (E : 2 ^ q - 1 + 2 ^ q = 2 ^ (q + 1) - 1) by (rewrite N.add_1_r, N.pow_succ_r'; pose proof (pow2_pos q); lia).
  rewrite E. unfold w64.
  rewrite (N.mod_small (2 ^ (q + 1) - 1)).
  2:{ rewrite N.add_1_r, N.pow_succ_r'. change (2^64) with 18446744073709551616. lia. }
  apply N.bits_inj. intros j. rewrite tb_ins. rewrite N.lor_spec, !N.land_spec, not64_testbit, tb_mod2, tb_shiftl, !tb_ones.
  assert (Hhigh : 63 <= j -> N.testbit i j = false) by (apply tb_high; auto).
  assert (Hhigh1 : 64 <= j -> N.testbit i (j - 1) = false) by (intros; apply (tb_high _ 63); auto; lia).
  ncases; simpl; rewrite ?andb_true_r, ?andb_false_r, ?orb_false_r; auto; try lia.
  symmetry; auto.
Qed.

Lemma mask_inc_ok ps : forall lo n x, increasing_below lo n ps -> lo <= n -> n < 64 ->
  x < 2 ^ (n - N.of_nat (length ps)) -> mask_inc (map (fun q => 2 ^ q) ps) x = ins_all ps x.
Proof.
  unfold mask_inc, ins_all. induction ps as [|q t IH]; intros lo n x Hi Hl Hn Hx; cbn [map fold_left]; auto.
  simpl in Hi. destruct Hi as [Hq Ht]. pose proof (increasing_length t _ _ Ht ltac:(lia)) as HLt.
  cbn [length] in Hx. rewrite Nat2N.inj_succ in Hx.
  rewrite mask_step.
  - apply (IH (q + 1) n); auto. lia.
    replace (n - N.of_nat (length t)) with (n - N.succ (N.of_nat (length t)) + 1) by lia.
    apply ins_lt; auto. lia.
  - lia.
  - eapply N.lt_le_trans; [apply Hx|]. apply pow2_le_mono. lia.
Qed.

Lemma ins_all_inj ps x y : ins_all ps x = ins_all ps y -> x = y.
Proof.
  intros E. destruct (N.lt_trichotomy x y) as [H|[H|H]]; auto.
  - pose proof (ins_all_mono ps x y H). lia.
  - pose proof (ins_all_mono ps y x H). lia.
Qed.

(** When the flag is set, the masks are exactly the highest bits. *)
Lemma only_low_ok n : forall rps i, only_low (map (fun q => 2 ^ q) rps) i (2 ^ n) = true ->
  (forall q, In q rps -> q < n) -> forall k, (k < length rps)%nat -> nth k rps 0 + (i + N.of_nat k) + 1 = n.
Proof.
  induction rps as [|q t IH]; intros i Ho Hin k Hk; cbn [length] in Hk. lia.
  cbn [map only_low] in Ho. apply andb_true_iff in Ho. destruct Ho as [E Ho]. apply N.eqb_eq in E.
  assert (Hq : q + (i + 1) = n).
  { rewrite N.shiftr_div_pow2 in E. specialize (Hin q (or_introl eq_refl)).
    destruct (N.le_gt_cases (i + 1) n).
    - replace n with ((n - (i + 1)) + (i + 1)) in E at 1 by lia. rewrite N.pow_add_r, N.div_mul in E by apply pow2_nz.
      apply N.pow_inj_r in E; lia.
    - rewrite N.div_small in E by (apply pow2_lt_mono; lia). now apply pow2_nz in E. }
  destruct k as [|k]; cbn [nth]. lia.
  specialize (IH (i + 1) Ho (fun q' H => Hin q' (or_intror H)) k ltac:(lia)). lia.
Qed.

Lemma par_for_mask_ok numCores stride n ps calls : 0 < stride -> n < 64 -> increasing_below 0 n ps ->
  2 ^ n + (numCores + 2) * stride < 2 ^ 64 ->
  par_for_mask numCores stride 0 (2 ^ n) (map (fun q => 2 ^ q) ps) calls ->
  enumerates (fun x => x < 2 ^ n /\ zero_at ps x) (map fst calls).
Proof.
  intros HS Hn Hi Hov. unfold par_for_mask. rewrite map_length.
  pose proof (increasing_length ps 0 n Hi ltac:(lia)) as HL.
  rewrite N.sub_0_r. rewrite N.shiftr_div_pow2.
  assert (Eq : 2 ^ n / 2 ^ N.of_nat (length ps) = 2 ^ (n - N.of_nat (length ps))).
  { replace n with ((n - N.of_nat (length ps)) + N.of_nat (length ps)) at 1 by lia.
    rewrite N.pow_add_r. apply N.div_mul. apply pow2_nz. }
  rewrite Eq. assert (Hle : 2 ^ (n - N.of_nat (length ps)) <= 2 ^ n) by (apply pow2_le_mono; lia).
  destruct (only_low _ _ _) eqn:Ho.
  - intros Hc. apply par_for_ok in Hc; try lia. destruct Hc as [Hn1 Hc]. split; auto.
    intros x. rewrite Hc. clear Hc.
    rewrite <- map_rev in Ho.
    assert (Hin : forall q, In q ps -> q < n).
    { clear - Hi. revert Hi. generalize 0. induction ps as [|a t IH]; intros lo Hi q Hq; simpl in *. tauto.
      destruct Hi as [Ha Ht]. destruct Hq as [<-|Hq]. lia. eapply IH; eauto. }
    pose proof (only_low_ok n (rev ps) 0 Ho) as HO.
    assert (Hin' : forall q, In q (rev ps) -> q < n) by (intros q Hq; apply Hin; now apply in_rev).
    specialize (HO Hin'). rewrite rev_length in HO.
    assert (Hchar : forall q, In q ps <-> n - N.of_nat (length ps) <= q < n).
    { intros q. split.
      - intros Hq. apply in_rev in Hq. apply (In_nth _ _ 0) in Hq. destruct Hq as [k [Hk E]].
        rewrite rev_length in Hk. specialize (HO k Hk). lia.
      - intros Hq. apply in_rev. specialize (HO (N.to_nat (n - 1 - q)) ltac:(lia)).
        assert (E : nth (N.to_nat (n - 1 - q)) (rev ps) 0 = q) by lia. rewrite <- E. apply nth_In. rewrite rev_length. lia. }
    split.
    + intros [_ Hx]. split. lia. intros q Hq. apply (tb_high _ (n - N.of_nat (length ps))); auto. now apply Hchar.
    + intros [Hx Hz]. split. lia. apply lt_pow2_bits. intros j Hj.
      destruct (N.lt_ge_cases j n). apply Hz. now apply Hchar. now apply (tb_high _ n).
  - intros Hc. apply par_for_inc_ok in Hc.
    + cbn [p_inc p_begin p_items] in Hc.
      eapply enum_map_inj; [apply Hc|reflexivity| |]; rewrite N2Nat.id.
      * intros x y Hx Hy E. rewrite !(mask_inc_ok ps 0 n) in E by (auto; lia). eapply ins_all_inj; eauto.
      * intros x. split.
        -- intros [Hx Hz]. destruct (ins_all_onto ps 0 n x) as [a [Ha Ea]]; auto. lia.
           exists a. split; auto. rewrite (mask_inc_ok ps 0 n); auto. lia.
        -- intros [a [Ha <-]]. rewrite (mask_inc_ok ps 0 n) by (auto; lia). split.
           ++ apply (ins_all_lt ps 0 n); auto. lia.
           ++ now apply (ins_all_zero ps 0 n).
    + unfold loop_fits. cbn [p_inc p_begin p_items p_stride]. split; auto. split; nia.
Qed.

(** ** par_for_skip *)
Definition spread (q w x : N) : N := x mod 2 ^ q + x / 2 ^ q * 2 ^ (q + w).

Lemma tb_spread q w x j : N.testbit (spread q w x) j =
  if j <? q then N.testbit x j else if j <? q + w then false else N.testbit x (j - w).
Proof.
  unfold spread. rewrite tb_cat.
  - destruct (N.ltb_spec j q), (N.ltb_spec j (q + w)); try lia; autorewrite with tb.
    + destruct (N.ltb_spec j q); auto; lia.
    + destruct (N.ltb_spec j q); auto; lia.
    + f_equal. lia.
  - pose proof (mod_lt_pow2 x q). assert (2 ^ q <= 2 ^ (q + w)) by (apply pow2_le_mono; lia). lia.
Qed.

Lemma spread_inj q w x y : spread q w x = spread q w y -> x = y.
Proof.
  intros E. apply N.bits_inj. intros j. destruct (N.lt_ge_cases j q).
  - pose proof (f_equal (fun z => N.testbit z j) E) as T. simpl in T. rewrite !tb_spread in T.
    destruct (N.ltb_spec j q); auto; lia.
  - pose proof (f_equal (fun z => N.testbit z (j + w)) E) as T. simpl in T. rewrite !tb_spread in T.
    destruct (N.ltb_spec (j + w) q), (N.ltb_spec (j + w) (q + w)); try lia. now replace (j + w - w) with j in T by lia.
Qed.

Definition unspread (q w x : N) : N := x mod 2 ^ q + x / 2 ^ (q + w) * 2 ^ q.
Lemma tb_unspread q w x j : N.testbit (unspread q w x) j = if j <? q then N.testbit x j else N.testbit x (j + w).
Proof.
  unfold unspread. rewrite tb_cat by apply mod_lt_pow2.
  destruct (N.ltb_spec j q); autorewrite with tb.
  - destruct (N.ltb_spec j q); auto; lia.
  - f_equal. lia.
Qed.

Lemma spread_unspread q w x : (forall j, q <= j < q + w -> N.testbit x j = false) -> spread q w (unspread q w x) = x.
Proof.
  intros Hz. apply N.bits_inj. intros j. rewrite tb_spread, !tb_unspread.
  destruct (N.ltb_spec j q); auto. destruct (N.ltb_spec j (q + w)). symmetry. apply Hz. lia.
  destruct (N.ltb_spec (j - w) q); try lia. f_equal. lia.
Qed.

Lemma spread_lt q w x m : q <= m -> x < 2 ^ m <-> spread q w x < 2 ^ (m + w).
Proof.
  intros Hq. rewrite !lt_pow2_bits. split; intros Hx j Hj.
  - rewrite tb_spread. destruct (N.ltb_spec j q), (N.ltb_spec j (q + w)); auto; try lia. apply Hx. lia.
  - specialize (Hx (j + w) ltac:(lia)). rewrite tb_spread in Hx.
    destruct (N.ltb_spec (j + w) q), (N.ltb_spec (j + w) (q + w)); try lia. now replace (j + w - w) with j in Hx by lia.
Qed.

Lemma skip_inc_ok q w n x : q + w < n -> n < 64 -> x < 2 ^ (n - w) ->
  (if 2 ^ q - 1 =? 0 then w64 (N.shiftl x w)
   else N.lor (N.land x (2 ^ q - 1)) (w64 (N.shiftl (N.land x (not64 (2 ^ q - 1))) w))) = spread q w x.
Proof.
  intros Hqw Hn Hx.
  assert (Hhi : forall j, n - w <= j -> N.testbit x j = false) by (intros; apply (tb_high _ (n - w)); auto).
  destruct (N.eqb_spec (2 ^ q - 1) 0).
  - assert (q = 0). { destruct (N.eq_dec q 0); auto. assert (2 ^ 1 <= 2 ^ q) by (apply pow2_le_mono; lia). change (2 ^ 1) with 2 in *. lia. }
    subst q. apply N.bits_inj. intros j. unfold w64. rewrite tb_spread, tb_mod2, tb_shiftl.
    ncases; simpl; auto; try lia. symmetry. apply Hhi. lia.
  - apply N.bits_inj. intros j. unfold w64. rewrite tb_spread, N.lor_spec, tb_mod2, tb_shiftl, !N.land_spec, not64_testbit, !tb_ones.
    ncases; simpl; rewrite ?andb_true_r, ?andb_false_r, ?orb_false_r; auto; try lia.
    + symmetry; apply Hhi; lia.
    + symmetry; apply Hhi; lia.
Qed.

Lemma par_for_skip_ok numCores stride n q w calls : 0 < stride -> n < 64 -> q + w <= n ->
  2 ^ n + (numCores + 2) * stride < 2 ^ 64 ->
  par_for_skip numCores stride 0 (2 ^ n) (2 ^ q) w calls ->
  enumerates (fun x => x < 2 ^ n /\ forall j, q <= j < q + w -> N.testbit x j = false) (map fst calls).
Proof.
  intros HS Hn Hqw Hov. unfold par_for_skip. rewrite N.shiftl_mul_pow2, <- N.pow_add_r. unfold w64 at 1.
  rewrite (N.mod_small (2 ^ (q + w))) by (apply pow2_lt_mono; lia).
  assert (Hq : 2 ^ q <= 2 ^ n) by (apply pow2_le_mono; lia).
  destruct (N.leb_spec (2 ^ n) (2 ^ (q + w))) as [Hle|Hlt].
  - intros Hc. apply N.pow_le_mono_r_iff in Hle; [|lia]. assert (n = q + w) by lia. subst n.
    apply par_for_ok in Hc; try lia. destruct Hc as [Hc1 Hc2]. split; auto. intros x. rewrite Hc2. split.
    + intros [_ Hx]. split. lia. intros j Hj. apply (tb_high _ q); auto. lia.
    + intros [Hx Hz]. split. lia. apply lt_pow2_bits. intros j Hj.
      destruct (N.lt_ge_cases j (q + w)). apply Hz. lia. now apply (tb_high _ (q + w)).
  - apply N.pow_lt_mono_r_iff in Hlt; [|lia].
    intros Hc. rewrite N.sub_0_r, N.shiftr_div_pow2 in Hc.
    replace (2 ^ n / 2 ^ w) with (2 ^ (n - w)) in Hc.
    2:{ replace n with ((n - w) + w) at 2 by lia. rewrite N.pow_add_r. symmetry. apply N.div_mul. apply pow2_nz. }
    assert (Hle : 2 ^ (n - w) <= 2 ^ n) by (apply pow2_le_mono; lia).
    apply par_for_inc_ok in Hc.
    + cbn [p_inc p_begin p_items] in Hc.
      assert (EF : forall x, x < 2 ^ (n - w) -> (if 2 ^ q - 1 =? 0 then fun i => w64 (N.shiftl i w)
            else fun i => N.lor (N.land i (2 ^ q - 1)) (w64 (N.shiftl (N.land i (not64 (2 ^ q - 1))) w))) x = spread q w x).
      { intros x Hx. rewrite <- (skip_inc_ok q w n x) by auto. destruct (2 ^ q - 1 =? 0); reflexivity. }
      eapply enum_map_inj; [apply Hc|reflexivity| |]; rewrite N2Nat.id.
      * intros x y Hx Hy E. rewrite !EF in E by auto. eapply spread_inj; eauto.
      * intros x. split.
        -- intros [Hx Hz]. exists (unspread q w x). assert (Hu : unspread q w x < 2 ^ (n - w)).
           { apply (spread_lt q w). lia. rewrite spread_unspread by auto. replace (n - w + w) with n by lia. auto. }
           split; auto. rewrite EF by auto. now apply spread_unspread.
        -- intros [a [Ha <-]]. rewrite EF by auto. split.
           ++ replace n with (n - w + w) by lia. apply spread_lt; auto. lia.
           ++ intros j Hj. rewrite tb_spread. destruct (N.ltb_spec j q), (N.ltb_spec j (q + w)); auto; lia.
    + unfold loop_fits. cbn [p_inc p_begin p_items p_stride]. split; auto. split; nia.
Qed.

(** ** par_for_set, par_for_sparse_compose *)
Lemma map_nth_iota (l : list N) : forall k pre, map (fun i => nth (N.to_nat i) (pre ++ l) 0) (iota (N.of_nat (length pre)) k) =
  map (fun i => nth (N.to_nat i) l 0) (iota 0 k).
Proof.
  induction k as [|k IH] using nat_ind; intros pre. reflexivity.
  replace (S k) with (k + 1)%nat by lia. rewrite !iota_app, !map_app, IH. f_equal. simpl.
  f_equal. rewrite app_nth2 by lia. f_equal. lia.
Qed.

Lemma iota_nth (l : list N) : map (fun i => nth (N.to_nat i) l 0) (iota 0 (length l)) = l.
Proof.
  induction l as [|x l IH]. reflexivity.
  cbn [length iota map]. change (nth (N.to_nat 0) (x :: l) 0) with x. f_equal.
  pose proof (map_nth_iota l (length l) [x]) as E. simpl in E.
  rewrite <- IH at 2. exact E.
Qed.

Lemma par_for_set_ok numCores stride set calls : 0 < stride ->
  N.of_nat (length set) + (numCores + 2) * stride < 2 ^ 64 ->
  par_for_set numCores stride set calls -> Permutation (map fst calls) set.
Proof.
  intros HS Hov Hc. apply par_for_inc_ok in Hc.
  - cbn [p_inc p_begin p_items] in Hc. rewrite Nat2N.id, iota_nth in Hc. exact Hc.
  - unfold loop_fits. cbn [p_inc p_begin p_items p_stride]. split; auto. split; nia.
Qed.

Lemma sub_mod_div i s : s <> 0 -> (i - i mod s) / s = i / s.
Proof.
  intros Hs. pose proof (N.div_mod i s Hs) as D. 
  assert (E : i - i mod s = (i / s) * s) by (rewrite (N.mul_comm (i / s)); set (a := s * (i / s)) in *; set (b := i mod s) in *; clearbody a b; lia).
  rewrite E. now apply N.div_mul.
Qed.

Lemma sparse_compose_list low (g : N -> N -> N) : (0 < length low)%nat -> forall high : list N,
  map (fun i => g (nth (N.to_nat (i mod N.of_nat (length low))) low 0)
                  (nth (N.to_nat ((i - i mod N.of_nat (length low)) / N.of_nat (length low))) high 0))
      (iota 0 (length low * length high)) =
  flat_map (fun h => map (fun l => g l h) low) high.
Proof.
  intros HL high. set (s := N.of_nat (length low)). assert (Hs : s <> 0) by (unfold s; lia).
  induction high as [|h high IH] using rev_ind.
  - rewrite Nat.mul_0_r. reflexivity.
  - rewrite app_length. cbn [length]. rewrite Nat.mul_add_distr_l, Nat.mul_1_r, iota_app, map_app, flat_map_app. f_equal.
    + rewrite <- IH. apply map_ext_in. intros i Hi. apply iota_In in Hi. f_equal.
      rewrite app_nth1; auto.
      assert ((i - i mod s) / s = i / s).
      { apply sub_mod_div. exact Hs. }
      rewrite H. assert (i / s < N.of_nat (length high)). { apply N.div_lt_upper_bound; auto. unfold s. lia. } lia.
    + cbn [flat_map]. rewrite app_nil_r. rewrite N.add_0_l.
      replace (map (fun l => g l h) low) with (map (fun i => g (nth (N.to_nat i) low 0) h) (iota 0 (length low))).
      2:{ rewrite <- (map_map (fun i => nth (N.to_nat i) low 0) (fun l => g l h)). now rewrite iota_nth. }
      replace (iota (N.of_nat (length low * length high)) (length low))
        with (map (fun x => N.of_nat (length low * length high) + x) (iota 0 (length low))).
      2:{ rewrite iota_map_add. f_equal. lia. }
      rewrite map_map. apply map_ext_in. intros i Hi. apply iota_In in Hi.
      assert (Ei : N.of_nat (length low * length high) + i = i + N.of_nat (length high) * s) by (unfold s; lia).
      rewrite Ei. rewrite N.mod_add by auto. rewrite (N.mod_small i s) by (unfold s; lia).
      replace (i + N.of_nat (length high) * s - i) with (N.of_nat (length high) * s) by lia.
      rewrite N.div_mul by auto. rewrite Nat2N.id. rewrite app_nth2 by lia. rewrite Nat.sub_diag. reflexivity.
Qed.

Lemma par_for_sparse_compose_ok numCores stride low high start calls : 0 < stride -> (0 < length low)%nat ->
  N.of_nat (length low) * N.of_nat (length high) + (numCores + 2) * stride < 2 ^ 64 ->
  par_for_sparse_compose numCores stride low high start calls ->
  Permutation (map fst calls) (flat_map (fun h => map (fun l => N.lor l (w64 (N.shiftl h start))) low) high).
Proof.
  intros HS HL Hov Hc. apply par_for_inc_ok in Hc.
  - cbn [p_inc p_begin p_items] in Hc. rewrite N2Nat.inj_mul, !Nat2N.id in Hc.
    rewrite (sparse_compose_list low (fun l h => N.lor l (w64 (N.shiftl h start))) HL high) in Hc. exact Hc.
  - unfold loop_fits. cbn [p_inc p_begin p_items p_stride]. split; auto. split; nia.
Qed.

(** ** par_norm *)
Lemma calls_thread p threads sched : forall c, length (c_thr c) = threads ->
  Forall (fun x => (snd x < threads)%nat) (c_calls c) ->
  length (c_thr (prun p c sched)) = threads /\ Forall (fun x => (snd x < threads)%nat) (c_calls (prun p c sched)).
Proof.
  induction sched as [|t s IH]; intros c HL HF; simpl; auto. apply IH; unfold pstep;
  destruct (nth_error (c_thr c) t) as [[|l j m|]|] eqn:E; auto;
  try (destruct (j <? m)); cbn [c_thr c_calls]; auto;
  try (rewrite <- HL; clear; revert t; induction (c_thr c); intros [|t]; simpl; auto; fail).
  constructor; auto. cbn [snd]. rewrite <- HL. apply nth_error_Some. now rewrite E.
Qed.

Section Sum.
  Context {A : Type} (zero : A) (add : A -> A -> A) (term : N -> A).
  Hypothesis add_comm : forall x y, add x y = add y x.
  Hypothesis add_assoc : forall x y z, add x (add y z) = add (add x y) z.
  Hypothesis add_0_l : forall x, add zero x = x.
  Notation sum := (sum_list zero add term).

  Lemma sum_app l1 l2 : sum (l1 ++ l2) = add (sum l1) (sum l2).
  Proof. induction l1; simpl. now rewrite add_0_l. now rewrite IHl1, add_assoc. Qed.

  Lemma sum_perm l1 l2 : Permutation l1 l2 -> sum l1 = sum l2.
  Proof.
    induction 1; simpl; auto.
    - now rewrite IHPermutation.
    - rewrite !add_assoc. now rewrite (add_comm (term x)).
    - congruence.
  Qed.

  Lemma fold_sum l : forall a, fold_left (fun a k => add a (term k)) l a = add a (sum l).
  Proof.
    induction l; intros b; simpl. now rewrite add_comm, add_0_l. rewrite IHl. now rewrite <- add_assoc.
  Qed.

  Lemma thread_split (threads : nat) : forall calls : list (N * nat), Forall (fun x => (snd x < threads)%nat) calls ->
    Permutation (flat_map (fun t => thread_calls t calls) (seq 0 threads)) (map fst calls).
  Proof.
    induction calls as [|[x t] calls IH]; intros HF.
    - unfold thread_calls. simpl. generalize (seq 0 threads). induction l; simpl; auto.
    - apply Forall_cons_iff in HF. destruct HF as [Ht HF]. simpl in Ht. specialize (IH HF). cbn [map fst].
      eapply Permutation_trans; [|apply perm_skip; apply IH].
      assert (Hin : In t (seq 0 threads)) by (apply in_seq; lia).
      apply in_split in Hin. destruct Hin as [a [b E]]. pose proof (seq_NoDup threads 0) as ND. rewrite E in *.
      apply NoDup_remove_2 in ND.
      assert (Hno : forall l, ~ In t l -> flat_map (fun t0 => thread_calls t0 ((x, t) :: calls)) l = flat_map (fun t0 => thread_calls t0 calls) l).
      { induction l as [|u l IHl]; intros Hl; simpl; auto. rewrite IHl by (intros ?; apply Hl; simpl; auto).
        f_equal. unfold thread_calls. simpl. destruct (Nat.eqb_spec t u); auto. exfalso. apply Hl. simpl; auto. }
      rewrite !flat_map_app. cbn [flat_map].
      rewrite !Hno by (intros ?; apply ND; apply in_or_app; auto).
      unfold thread_calls at 2. simpl. rewrite Nat.eqb_refl. cbn [map fst]. fold (thread_calls t calls).
      simpl. symmetry. apply Permutation_middle.
  Qed.

  Lemma par_norm_result_ok threads calls : Forall (fun x => (snd x < threads)%nat) calls ->
    par_norm_result zero add term threads calls = sum (map fst calls).
  Proof.
    intros HF. rewrite <- (sum_perm _ _ (thread_split threads calls HF)).
    unfold par_norm_result.
    assert (G : forall l a, fold_left (fun acc t => add acc (fold_left (fun a k => add a (term k)) (thread_calls t calls) zero)) l a
              = add a (sum (flat_map (fun t => thread_calls t calls) l))).
    { induction l; intros b; simpl. now rewrite add_comm, add_0_l.
      rewrite IHl, sum_app, fold_sum, add_0_l. now rewrite add_assoc. }
    rewrite G. apply add_0_l.
  Qed.

  Lemma par_norm_ok numCores stride items result : 0 < stride -> items + (numCores + 2) * stride < 2 ^ 64 ->
    par_norm zero add term numCores stride items result ->
    result = sum (iota 0 (N.to_nat items)).
  Proof.
    intros HS Hov [calls [Hc ->]].
    assert (Hfit : loop_fits numCores (mkLoop 0 items stride (fun i => i))).
    { unfold loop_fits. cbn [p_inc p_begin p_items p_stride]. split; auto. split; nia. }
    pose proof (par_for_inc_ok _ _ _ Hfit Hc) as HP. cbn [p_inc p_begin p_items] in HP. rewrite map_id in HP.
    unfold par_for_inc in Hc. cbn [p_items p_stride] in Hc.
    destruct (N.leb_spec (thread_count numCores items stride) 1).
    - clear Hc. rewrite <- (sum_perm _ _ HP).
      assert (G : forall (l : list (N * nat)) a, fold_left (fun a k => add a (term (fst k))) l a = add a (sum (map fst l))).
      { induction l; intros b; simpl. now rewrite add_comm, add_0_l. rewrite IHl. now rewrite <- add_assoc. }
      rewrite G. apply add_0_l.
    - destruct Hc as [sched [Hd E]]. rewrite par_norm_result_ok.
      + now apply sum_perm.
      + rewrite E. apply Forall_rev. apply calls_thread; simpl.
        apply repeat_length. constructor.
  Qed.
End Sum.
