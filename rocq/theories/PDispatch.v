(** Proofs about the work queue. *)
From Coq Require Import NArith List Bool Arith Lia.
From Verif Require Import MDispatch SpecDispatch.
Import ListNotations.

Definition okw (s : dq) : Prop :=
  (* structural invariant, valid in every history *)
  (d_started s = false -> d_worker s = WNone /\ d_q s = [] /\ d_fin s = true /\ d_quit s = false /\ d_done s = [] /\ d_clients s = []) /\
  (d_started s = true -> d_worker s <> WNone) /\
  (d_worker s = WSleep -> d_q s = [] /\ d_quit s = false \/ (0 < d_wake s)%nat) /\
  (d_worker s = WExit -> d_quit s = true) /\
  (d_quit s = true -> d_q s = []).

Ltac dcase := repeat match goal with
  | |- context[if ?b then _ else _] => destruct b eqn:?
  | |- context[match ?x with _ => _ end] => destruct x eqn:?
  | H : context[if ?b then _ else _] |- _ => destruct b eqn:?
  | H : context[match ?x with _ => _ end] |- _ => destruct x eqn:?
  end.

Lemma okw_init : okw dq_init.
Proof. unfold okw; simpl; repeat split; intros; try discriminate; auto. Qed.

Lemma okw_step s e : okw s -> okw (dstep s e).
Proof.
  unfold okw. destruct s as [q quit fin started w cl wk wkF dn]. intros [H1 [H2 [H3 [H4 H5]]]].
  cbn [d_q d_quit d_fin d_started d_worker d_clients d_wake d_wakeF d_done] in *.
  destruct started.
  - clear H1. specialize (H2 eq_refl).
    destruct e; cbn [dstep negb]; rewrite ?orb_false_r; dcase; subst;
    cbn [d_q d_quit d_fin d_started d_worker d_clients d_wake d_wakeF d_done];
    repeat match goal with |- _ /\ _ => split end; intros; try discriminate; try congruence; auto;
    try (destruct H3 as [[? ?]|?]; [auto|subst; try (left; auto; fail); right; lia]); try (right; lia).
    all: try solve [destruct q; discriminate | left; split; auto | specialize (H5 eq_refl); discriminate | specialize (H4 eq_refl); discriminate].
  - clear H2. destruct (H1 eq_refl) as [-> [-> [-> [-> [-> ->]]]]]. 
    destruct e; cbn; dcase; cbn; repeat split; intros; try discriminate; auto; try (right; lia).
Qed.

Lemma okw_run es : forall s, okw s -> okw (drun s es).
Proof. induction es as [|e es IH]; intros s H; simpl; auto. apply IH. now apply okw_step. Qed.

(** ** Undisturbed histories: completed ++ running ++ queued = dispatched. *)
Definition inv17 (s : dq) (ds : list N) : Prop :=
  d_quit s = false /\
  d_done s ++ running s ++ d_q s = ds /\
  (d_fin s = true -> d_done s = ds).

Lemma inv17_step s e ds : okw s -> inv17 s ds -> e <> EDump -> e <> EDestroy ->
  inv17 (dstep s e) (ds ++ dispatched [e]).
Proof.
  unfold okw, inv17, running. destruct s as [q quit fin started w cl wk wkF dn].
  cbn [d_q d_quit d_fin d_started d_worker d_clients d_wake d_wakeF d_done] in *.
  intros [O1 [O2 [_ [O4 _]]]] [-> [E F]] N1 N2.
  destruct e; cbn [dispatched]; rewrite ?app_nil_r; try contradiction; cbn [dstep orb].
  - (* dispatch *)
    cbn [d_q d_quit d_fin d_started d_worker d_done]. split; auto. split; [|discriminate].
    destruct started.
    + rewrite <- E, <- !app_assoc. reflexivity.
    + destruct (O1 eq_refl) as [-> [-> [_ [_ [-> _]]]]]. simpl in *. now rewrite <- E.
  - destruct started; cbn [negb]; [destruct fin; cbn [orb]|]; cbn [d_q d_quit d_fin d_started d_worker d_done]; auto.
  - destruct (find _ cl) as [[? []]|]; cbn [d_q d_quit d_fin d_started d_worker d_done]; auto. destruct fin; cbn [orb]; cbn [d_q d_quit d_fin d_started d_worker d_done]; auto.
  - destruct wk; cbn [d_q d_quit d_fin d_started d_worker d_done]; auto. destruct w; auto.
  - destruct wkF; cbn [d_q d_quit d_fin d_started d_worker d_done]; auto.
  - destruct w; cbn [d_q d_quit d_fin d_started d_worker d_done]; auto.
    + destruct q as [|op t]; cbn [d_q d_quit d_fin d_started d_worker d_done]; auto.
    + destruct q as [|op t]; cbn [d_q d_quit d_fin d_started d_worker d_done]; auto.
      split; auto. split; auto. intros _. rewrite app_nil_r in E. exact E.
  - destruct w; cbn [d_q d_quit d_fin d_started d_worker d_done]; auto. split; auto. split.
    + rewrite <- E, <- !app_assoc. reflexivity.
    + intros Hf. specialize (F Hf). exfalso. rewrite F in E. 
      assert (L := f_equal (@length N) E). rewrite !app_length in L. simpl in L. lia.
  - destruct w; cbn [d_q d_quit d_fin d_started d_worker d_done]; auto.
  - auto.
Qed.

Lemma dispatched_app a b : dispatched (a ++ b) = dispatched a ++ dispatched b.
Proof. induction a as [|[] a IH]; simpl; auto. now rewrite IH. Qed.

Lemma inv17_run es : undisturbed es -> inv17 (drun dq_init es) (dispatched es) /\ okw (drun dq_init es).
Proof.
  induction es as [|e es IH] using rev_ind; intros [U1 U2].
  - split; [|apply okw_init]. unfold inv17. simpl. auto.
  - destruct IH as [I O]. { split; intros HI; [apply U1|apply U2]; apply in_or_app; auto. }
    unfold drun. rewrite fold_left_app. simpl. fold (drun dq_init es). split.
    + rewrite dispatched_app. apply inv17_step; auto; intros ->; [apply U1|apply U2]; apply in_or_app; simpl; auto.
    + now apply okw_step.
Qed.

Lemma dispatch_in_order es : undisturbed es ->
  d_done (drun dq_init es) ++ running (drun dq_init es) ++ d_q (drun dq_init es) = dispatched es.
Proof. intros U. destruct (inv17_run es U) as [[_ [E _]] _]. exact E. Qed.

Lemma finish_complete es e c : undisturbed es -> finish_returns (drun dq_init es) e c = true ->
  d_done (drun dq_init es) = dispatched es.
Proof.
  intros U Hr. destruct (inv17_run es U) as [[Q [E F]] [O1 _]]. set (s := drun dq_init es) in *.
  unfold finish_returns in Hr. rewrite Q in Hr. destruct e; try discriminate; apply andb_true_iff in Hr; destruct Hr as [_ Hr].
  - cbn [orb] in Hr. apply orb_true_iff in Hr. destruct Hr as [Hr|Hr]; auto.
    apply negb_true_iff in Hr. apply F. now apply O1.
  - destruct (find _ _) as [[? []]|]; try discriminate. rewrite orb_false_r in Hr. auto.
Qed.

(** ** No lost wake-up *)
Definition sleeping (s : dq) : Prop := exists c, In (c, FSleep) (d_clients s).
Definition active (w : wpc) : Prop := match w with WReady | WRun _ | WAfter => True | _ => False end.

Definition live (s : dq) : Prop :=
  (sleeping s -> d_fin s = false \/ (0 < d_wakeF s)%nat) /\
  (d_fin s = false -> d_quit s = false -> d_q s <> [] \/ (exists op, d_worker s = WRun op) \/ d_worker s = WAfter).

Lemma sleep_wake_all l : ~ exists c, In (c, FSleep) (wake_all l).
Proof. intros [c H]. unfold wake_all in H. apply in_map_iff in H. destruct H as [x [E _]]. discriminate. Qed.
Lemma sleep_drop c l : (exists d, In (d, FSleep) (drop_client c l)) -> exists d, In (d, FSleep) l.
Proof. intros [d H]. exists d. unfold drop_client in H. apply filter_In in H. tauto. Qed.
Lemma sleep_set c l : (exists d, In (d, FSleep) (set_client c FReady l)) -> exists d, In (d, FSleep) l.
Proof.
  intros [d H]. unfold set_client in H. apply in_map_iff in H. destruct H as [[a f] [E Hin]]. simpl in E.
  destruct (Nat.eqb_spec a c). discriminate. injection E as E1 E2. subst. eauto.
Qed.

Lemma live_step s e : okw s -> e <> EDestroy -> d_quit s = false -> live s -> live (dstep s e).
Proof.
  unfold okw, live, sleeping. destruct s as [q quit fin started w cl wk wkF dn].
  cbn [d_q d_quit d_fin d_started d_worker d_clients d_wake d_wakeF d_done] in *.
  intros [O1 [O2 [_ [O4 _]]]] Ne -> [L1 L2].
  destruct e; try contradiction; cbn [dstep orb negb].
  - cbn [d_q d_quit d_fin d_started d_worker d_clients d_wake d_wakeF d_done]. split; auto.
    intros _ _. left. destruct q; discriminate.
  - destruct started; cbn [negb]; [|cbn [d_q d_quit d_fin d_started d_worker d_clients d_wake d_wakeF d_done]; auto].
    destruct fin; cbn [orb]; cbn [d_q d_quit d_fin d_started d_worker d_clients d_wake d_wakeF d_done]; auto.
  - destruct (find _ cl) as [[? []]|]; cbn [d_q d_quit d_fin d_started d_worker d_clients d_wake d_wakeF d_done]; auto.
    destruct fin; cbn [orb]; cbn [d_q d_quit d_fin d_started d_worker d_clients d_wake d_wakeF d_done]; split; auto.
    + intros Hs. apply L1. now apply (sleep_drop c).
  - destruct started; cbn [negb]; cbn [d_q d_quit d_fin d_started d_worker d_clients d_wake d_wakeF d_done]; auto.
    split; [intros _; right; lia|discriminate].
  - destruct wk; cbn [d_q d_quit d_fin d_started d_worker d_clients d_wake d_wakeF d_done]; auto. split; auto.
    intros Hf Hq. destruct (L2 Hf Hq) as [?|[[op ->]| ->]]; eauto 6.
  - destruct wkF; cbn [d_q d_quit d_fin d_started d_worker d_clients d_wake d_wakeF d_done]; auto. split; auto.
    intros Hs. exfalso. eapply sleep_wake_all; eauto.
  - destruct w; cbn [d_q d_quit d_fin d_started d_worker d_clients d_wake d_wakeF d_done]; auto.
    + destruct q; cbn [d_q d_quit d_fin d_started d_worker d_clients d_wake d_wakeF d_done]; split; auto.
      * intros Hf _. destruct (L2 Hf eq_refl) as [?|[[op ?]|?]]; try discriminate. auto.
      * intros _ _. right. left. eauto.
    + destruct q; cbn [d_q d_quit d_fin d_started d_worker d_clients d_wake d_wakeF d_done]; split; auto.
      * intros Hs. exfalso. eapply sleep_wake_all; eauto.
      * discriminate.
      * intros _ _. left. discriminate.
  - destruct w; cbn [d_q d_quit d_fin d_started d_worker d_clients d_wake d_wakeF d_done]; auto.
  - cbn [d_q d_quit d_fin d_started d_worker d_clients d_wake d_wakeF d_done]. split; auto.
    intros Hf Hq. destruct (L2 Hf Hq) as [?|[[op ->]| ->]]; eauto 6.
  - cbn [d_q d_quit d_fin d_started d_worker d_clients d_wake d_wakeF d_done]. split; auto.
    intros Hs. apply L1. now apply (sleep_set c).
Qed.

Lemma quit_false_run es : ~ In EDestroy es -> forall s, d_quit s = false -> d_quit (drun s es) = false.
Proof.
  induction es as [|e es IH]; intros Hn s Hq; simpl; auto. apply IH. intros H; apply Hn; simpl; auto.
  destruct s as [q quit fin started w cl wk wkF dn]. simpl in Hq. subst quit.
  destruct e; cbn; dcase; cbn; auto; exfalso; apply Hn; simpl; auto.
Qed.

Lemma live_run es : ~ In EDestroy es -> live (drun dq_init es).
Proof.
  induction es as [|e es IH] using rev_ind; intros Hn.
  - unfold live, sleeping. simpl. split; [intros [c []]|discriminate].
  - assert (Hn' : ~ In EDestroy es) by (intros H; apply Hn; apply in_or_app; auto).
    unfold drun. rewrite fold_left_app. simpl. fold (drun dq_init es). apply live_step; auto.
    + apply okw_run. apply okw_init.
    + intros ->. apply Hn. apply in_or_app. simpl; auto.
    + now apply quit_false_run.
Qed.

(** A client asleep in finish() with no notification under way: the worker is not asleep. *)
Lemma no_lost_wakeup es : ~ In EDestroy es -> let s := drun dq_init es in
  sleeping s -> d_wake s = 0%nat -> d_wakeF s = 0%nat -> active (d_worker s).
Proof.
  intros Hn s Hs W WF. destruct (live_run es Hn) as [L1 L2]. fold s in L1, L2.
  assert (Q : d_quit s = false) by (apply quit_false_run; auto).
  pose proof (okw_run es dq_init okw_init) as [O1 [O2 [O3 [O4 O5]]]]. fold s in O1, O2, O3, O4, O5.
  assert (Hf : d_fin s = false) by (destruct (L1 Hs); [auto|lia]).
  destruct (d_started s) eqn:St.
  - specialize (O2 eq_refl). destruct (L2 Hf Q) as [Hq|[[op E]|E]]; [|rewrite E; exact I|rewrite E; exact I].
    destruct (d_worker s) eqn:Ew; simpl; auto.
    destruct (O3 eq_refl) as [[? _]|?]; [contradiction|lia].
  - destruct (O1 eq_refl) as [_ [_ [Hf' _]]]. congruence.
Qed.

(** ** Histories with dumps: nothing runs twice or out of order. *)
Lemma sublist_refl {A} (l : list A) : sublist l l.
Proof. induction l; [apply sub_nil|apply sub_keep; auto]. Qed.
Lemma sublist_nil {A} (l : list A) : sublist [] l.
Proof. induction l; constructor; auto. Qed.
Lemma sublist_app {A} (a b c d : list A) : sublist a b -> sublist c d -> sublist (a ++ c) (b ++ d).
Proof. induction 1; simpl; auto; intros; [apply sub_skip|apply sub_keep]; auto. Qed.
Lemma sublist_trans {A} (a b c : list A) : sublist a b -> sublist b c -> sublist a c.
Proof.
  intros H1 H2. revert a H1. induction H2; intros a H1; auto.
  - constructor. auto.
  - inversion H1; subst.
    + apply sub_skip. auto.
    + apply sub_keep. auto.
Qed.

(** After any state [s0] with base list [b] = completed + running, later completions extend [b] by a sublist of what was
    still queued followed by what is dispatched later. *)
Definition ext (b : list N) (ds : list N) (s : dq) : Prop :=
  exists l, d_done s ++ running s ++ d_q s = b ++ l /\ sublist l ds /\ (exists l1, d_done s ++ running s = b ++ l1).

Lemma ext_step b ds s e : okw s -> ext b ds s -> ext b (ds ++ dispatched [e]) (dstep s e).
Proof.
  unfold okw, ext, running. destruct s as [q quit fin started w cl wk wkF dn].
  cbn [d_q d_quit d_fin d_started d_worker d_clients d_wake d_wakeF d_done] in *.
  intros [O1 [O2 [_ [O4 O5]]]] [l [E [Sl [l1 E1]]]].
  assert (Keep : forall x, sublist l (ds ++ x)).
  { intros x. rewrite <- (app_nil_r l). apply sublist_app; auto. apply sublist_nil. }
  destruct e; cbn [dispatched]; rewrite ?app_nil_r; cbn [dstep].
  - destruct quit; cbn [d_q d_quit d_fin d_started d_worker d_done]. exists l. eauto.
    exists (l ++ [op]). split; [|split].
    + destruct started.
      * rewrite !app_assoc. rewrite <- (app_assoc dn), E. now rewrite <- app_assoc.
      * destruct (O1 eq_refl) as [-> [-> [_ [_ [-> _]]]]]. simpl in *. rewrite app_assoc, <- E. reflexivity.
    + apply sublist_app; auto. apply sublist_refl.
    + destruct started; eauto. destruct (O1 eq_refl) as [-> [-> [_ [_ [-> _]]]]]. simpl in *. eauto.
  - destruct quit; cbn [orb]; [cbn [d_q d_quit d_fin d_started d_worker d_done]; eauto|]. destruct started; cbn [negb]; [destruct fin; cbn [orb]|]; cbn [d_q d_quit d_fin d_started d_worker d_done]; eauto.
  - destruct (find _ cl) as [[? []]|]; cbn [d_q d_quit d_fin d_started d_worker d_done]; eauto. destruct fin, quit; cbn [orb]; cbn [d_q d_quit d_fin d_started d_worker d_done]; eauto.
  - destruct quit; cbn [orb]; [cbn [d_q d_quit d_fin d_started d_worker d_done]; eauto|]. destruct started; cbn [negb]; cbn [d_q d_quit d_fin d_started d_worker d_done]; eauto.
    exists l1; rewrite app_nil_r; split; auto; split; eauto;
    rewrite app_assoc, E1, <- app_assoc in E; apply app_inv_head in E; subst l;
    eapply sublist_trans; [|apply Sl]; rewrite <- (app_nil_r l1) at 1; apply sublist_app; auto using sublist_refl, sublist_nil.
  - destruct started; cbn [negb]; cbn [d_q d_quit d_fin d_started d_worker d_done]; eauto.
    exists l1; rewrite app_nil_r; split; auto; split; eauto;
    rewrite app_assoc, E1, <- app_assoc in E; apply app_inv_head in E; subst l;
    eapply sublist_trans; [|apply Sl]; rewrite <- (app_nil_r l1) at 1; apply sublist_app; auto using sublist_refl, sublist_nil.
  - destruct wk; cbn [d_q d_quit d_fin d_started d_worker d_done]; [eauto|]. destruct w; eauto.
  - destruct wkF; cbn [d_q d_quit d_fin d_started d_worker d_done]; eauto.
  - destruct w; cbn [d_q d_quit d_fin d_started d_worker d_done]; eauto.
    + destruct quit; cbn [d_q d_quit d_fin d_started d_worker d_done]; eauto.
      destruct q as [|op t]; cbn [d_q d_quit d_fin d_started d_worker d_done]; eauto.
      exists l. split; auto. split; auto. simpl in E1. rewrite app_nil_r in E1. exists (l1 ++ [op]). rewrite E1. now rewrite <- app_assoc.
    + destruct q as [|op t]; destruct quit; cbn [d_q d_quit d_fin d_started d_worker d_done]; eauto.
  - destruct w; cbn [d_q d_quit d_fin d_started d_worker d_done]; eauto.
    exists l. rewrite <- app_assoc. simpl. split; auto. split; auto. exists l1. now rewrite app_nil_r.
  - destruct w; cbn [d_q d_quit d_fin d_started d_worker d_done]; eauto.
  - cbn [d_q d_quit d_fin d_started d_worker d_done]; eauto.
Qed.

Lemma ext_run es : forall b ds s, okw s -> ext b ds s -> ext b (ds ++ dispatched es) (drun s es).
Proof.
  induction es as [|e es IH]; intros b ds s O E.
  - simpl. rewrite app_nil_r. auto.
  - change (e :: es) with ([e] ++ es). rewrite dispatched_app, app_assoc. cbn [app drun fold_left].
    apply (IH b _ (dstep s e)). now apply okw_step. now apply ext_step.
Qed.

Lemma at_most_once es : sublist (d_done (drun dq_init es)) (dispatched es).
Proof.
  destruct (ext_run es [] [] dq_init okw_init) as [l [E [Sl _]]].
  - exists []. simpl. split; auto. split; [constructor|exists []; auto].
  - simpl in *. subst. eapply sublist_trans; [|apply Sl].
    rewrite <- (app_nil_r (d_done _)) at 1. apply sublist_app; auto using sublist_refl, sublist_nil.
Qed.

Lemma dump_drops_queue es1 es2 : exists later,
  d_done (drun dq_init (es1 ++ EDump :: es2)) ++ running (drun dq_init (es1 ++ EDump :: es2)) =
    d_done (drun dq_init es1) ++ running (drun dq_init es1) ++ later /\ sublist later (dispatched es2).
Proof.
  unfold drun. rewrite fold_left_app. cbn [fold_left]. fold (drun dq_init es1). set (s := drun dq_init es1).
  assert (O : okw s) by (apply okw_run, okw_init).
  fold (drun (dstep s EDump) es2).
  destruct (ext_run es2 (d_done s ++ running s) [] (dstep s EDump)) as [l [E [Sl [l1 E1]]]].
  - now apply okw_step.
  - pose proof O as [O1 [_ [_ [_ O5]]]]. destruct s as [q quit fin started w cl wk wkF dn].
    cbn [d_q d_quit d_fin d_started d_worker d_clients d_wake d_wakeF d_done] in *. unfold ext.
    destruct quit; [|destruct started]; cbn; (exists []; split; [|split; [constructor|exists []; now rewrite app_nil_r]]).
    + rewrite O5 by auto. now rewrite !app_nil_r.
    + now rewrite !app_nil_r.
    + destruct (O1 eq_refl) as [-> [-> _]]. now rewrite !app_nil_r.
  - exists l1. split. now rewrite E1, app_assoc.
    simpl in Sl. rewrite app_assoc, E1, <- app_assoc in E. apply app_inv_head in E. subst l.
    eapply sublist_trans; [|apply Sl]. rewrite <- (app_nil_r l1) at 1. apply sublist_app; auto using sublist_refl, sublist_nil.
Qed.

(** Destruction: when the worker has exited nothing runs any more. *)
Lemma exit_step s e : d_worker s = WExit -> d_started s = true -> d_worker (dstep s e) = WExit /\ d_started (dstep s e) = true /\ d_done (dstep s e) = d_done s.
Proof.
  destruct s as [q quit fin started w cl wk wkF dn]. simpl. intros -> ->. destruct e; cbn; dcase; cbn; auto.
Qed.
Lemma exit_final es : forall s, okw s -> d_worker s = WExit -> d_done (drun s es) = d_done s /\ running (drun s es) = [].
Proof.
  intros s O E. assert (St : d_started s = true).
  { destruct (d_started s) eqn:St; auto. destruct O as [O1 _]. destruct (O1 St) as [E' _]. congruence. }
  clear O. revert s E St. induction es as [|e es IH]; intros s E St; simpl.
  - unfold running. now rewrite E.
  - destruct (exit_step s e E St) as [E' [St' D]]. rewrite <- D. now apply IH.
Qed.
Lemma destroy_final es1 es2 : d_worker (drun dq_init es1) = WExit ->
  d_done (drun dq_init (es1 ++ es2)) = d_done (drun dq_init es1) /\ running (drun dq_init (es1 ++ es2)) = [].
Proof.
  intros E. unfold drun. rewrite fold_left_app. fold (drun dq_init es1). apply exit_final; auto. apply okw_run, okw_init.
Qed.

(** ** The worker drains the queue. *)
Definition wrank (w : wpc) : nat := match w with WRun _ => 3 | WAfter => 2 | WReady => 1 | _ => 0 end.
Definition mu (s : dq) : nat := 3 * length (d_q s) + 2 * d_wake s + wrank (d_worker s).

Lemma mu_step s e : worker_event e -> dstep s e <> s -> (mu (dstep s e) < mu s)%nat.
Proof.
  unfold mu. destruct s as [q quit fin started w cl wk wkF dn].
  intros [->|[->| ->]]; cbn [dstep].
  - destruct w; try congruence.
    + destruct quit; [|destruct q]; cbn [d_q d_wake d_worker wrank length]; lia.
    + destruct q, quit; cbn [d_q d_wake d_worker wrank length]; lia.
  - destruct w; try congruence. cbn [d_q d_wake d_worker wrank length]; lia.
  - destruct wk; try congruence. destruct w; cbn [d_q d_wake d_worker wrank length]; lia.
Qed.

Lemma effective_bound es : forall s, effective s es -> (length es <= work_left s)%nat.
Proof.
  assert (G : forall s, effective s es -> (length es <= mu s)%nat).
  { induction es as [|e es IH]; intros s; simpl. lia. intros [We [Ne Ef]]. apply IH in Ef.
    pose proof (mu_step s e We Ne). lia. }
  intros s Ef. apply G in Ef. unfold mu, work_left in *. destruct (d_worker s); cbn [wrank] in Ef; lia.
Qed.

Lemma quiescent_complete es : undisturbed es -> quiescent (drun dq_init es) ->
  d_fin (drun dq_init es) = true /\ d_done (drun dq_init es) = dispatched es.
Proof.
  intros U Hq. destruct (inv17_run es U) as [[Q [E F]] [O1 [O2 [O3 [O4 O5]]]]].
  destruct (live_run es (proj2 U)) as [_ L2]. set (s := drun dq_init es) in *.
  assert (Hf : d_fin s = true).
  { destruct (d_fin s) eqn:Hf; auto. specialize (L2 eq_refl Q).
    assert (W := Hq EWorker (or_introl eq_refl)). assert (D := Hq EOpDone (or_intror (or_introl eq_refl))).
    assert (N1 := Hq ENotify (or_intror (or_intror eq_refl))). clear Hq.
    destruct s as [q quit fin started w cl wk wkF dn].
    cbn [d_q d_quit d_fin d_started d_worker d_clients d_wake d_wakeF d_done] in *. subst quit fin.
    cbn [dstep] in W, D, N1.
    destruct w.
    - destruct started. now destruct (O2 eq_refl). destruct (O1 eq_refl) as [_ [_ [? _]]]. discriminate.
    - destruct q; discriminate.
    - destruct wk; [|discriminate]. destruct (O3 eq_refl) as [[-> _]|?]; [|lia].
      destruct L2 as [?|[[op ?]|?]]; congruence.
    - discriminate.
    - destruct q; discriminate.
    - specialize (O4 eq_refl). discriminate. }
  auto.
Qed.
