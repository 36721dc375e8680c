(** C17, C18: the work queue.  Theorems only; proofs in PDispatch.v. *)
From Coq Require Import NArith List Bool Arith.
From Verif Require Import MDispatch SpecDispatch PDispatch.
Import ListNotations.

(** C17: in a history without dump or destruction, whenever a call of finish() returns, exactly the operations
    dispatched so far have been completed, in dispatch order. *)
Theorem c17_finish_complete : forall es e c,
  undisturbed es -> finish_returns (drun dq_init es) e c = true ->
  d_done (drun dq_init es) = dispatched es.
Proof. exact finish_complete. Qed.
Print Assumptions c17_finish_complete.

(** Two operations, a client that goes to sleep in finish() and is woken, and finish() then returns. *)
Definition trace17 : list event :=
  [EDispatch 5; EWorker; EFinish 0; EDispatch 9; EOpDone; ENotify; EWorker; EWorker; EOpDone; EWorker].
Example c17_example : undisturbed trace17 /\ finish_returns (drun dq_init trace17) (EFinishCheck 0) 0 = true
  /\ d_done (drun dq_init trace17) = [5; 9]%N.
Proof.
  split; [|split; reflexivity]. split; intros H; simpl in H;
  repeat (destruct H as [H|H]; [discriminate|]); exact H.
Qed.

(** C17: at every moment of such a history, completed, running and queued operations are those dispatched, in order:
    nothing is lost, repeated or reordered. *)
Theorem c17_in_order : forall es, undisturbed es ->
  d_done (drun dq_init es) ++ running (drun dq_init es) ++ d_q (drun dq_init es) = dispatched es.
Proof. exact dispatch_in_order. Qed.
Print Assumptions c17_in_order.

(** C17: no wake-up is lost: with no notification under way, a client asleep in finish() implies that the worker thread
    has a step to take. *)
Theorem c17_no_lost_wakeup : forall es, ~ In EDestroy es ->
  (exists c, In (c, FSleep) (d_clients (drun dq_init es))) ->
  d_wake (drun dq_init es) = 0%nat -> d_wakeF (drun dq_init es) = 0%nat ->
  match d_worker (drun dq_init es) with WReady | WRun _ | WAfter => True | _ => False end.
Proof. exact no_lost_wakeup. Qed.
Print Assumptions c17_no_lost_wakeup.

Example c17_no_lost_wakeup_example :
  let s := drun dq_init [EDispatch 5; EWorker; EFinish 0; EDispatch 9; ENotify; ENotify] in
  In (0%nat, FSleep) (d_clients s) /\ d_wake s = 0%nat /\ d_wakeF s = 0%nat /\ d_worker s = WRun 5.
Proof. simpl. auto. Qed.

(** C17: the worker thread takes a bounded number of steps on its own, and when it has none left to take every
    dispatched operation is complete and finish() will return. *)
Theorem c17_worker_bounded : forall es s, effective s es -> (length es <= work_left s)%nat.
Proof. exact effective_bound. Qed.
Print Assumptions c17_worker_bounded.

Theorem c17_worker_drains : forall es, undisturbed es -> quiescent (drun dq_init es) ->
  d_fin (drun dq_init es) = true /\ d_done (drun dq_init es) = dispatched es.
Proof. exact quiescent_complete. Qed.
Print Assumptions c17_worker_drains.

Example c17_drains_example :
  effective (drun dq_init [EDispatch 5; EDispatch 9])
    [EWorker; EOpDone; EWorker; EWorker; EOpDone; EWorker; EWorker; ENotify; EWorker; ENotify; EWorker] /\
  quiescent (drun dq_init ([EDispatch 5; EDispatch 9] ++
    [EWorker; EOpDone; EWorker; EWorker; EOpDone; EWorker; EWorker; ENotify; EWorker; ENotify; EWorker])).
Proof.
  split.
  - simpl. unfold worker_event. repeat split; auto; try (intros H; discriminate H).
  - intros e [->|[->| ->]]; reflexivity.
Qed.

(** C18 as stated fails: dump() marks the queue finished while an operation is still running, so a following finish()
    returns before it completed. *)
Theorem c18_finish_after_dump_refuted : exists es c op,
  finish_returns (drun dq_init es) (EFinish c) c = true /\ In op (dispatched es) /\
  running (drun dq_init es) = [op] /\ ~ In op (d_done (drun dq_init es)).
Proof. exists [EDispatch 5; EWorker; EDump], 0%nat, 5%N. cbn. auto. Qed.
Print Assumptions c18_finish_after_dump_refuted.

(** What does hold in every history, dumps and destruction included: each dispatched operation completes at most once,
    in dispatch order. *)
Theorem c18_at_most_once : forall es, sublist (d_done (drun dq_init es)) (dispatched es).
Proof. exact at_most_once. Qed.
Print Assumptions c18_at_most_once.

(** Operations queued when dump() is called never start: after it, what has completed or is running is what had
    completed or was running at the call, followed by operations dispatched later. *)
Theorem c18_dump_drops_queue : forall es1 es2, exists later,
  d_done (drun dq_init (es1 ++ EDump :: es2)) ++ running (drun dq_init (es1 ++ EDump :: es2)) =
    d_done (drun dq_init es1) ++ running (drun dq_init es1) ++ later /\ sublist later (dispatched es2).
Proof. exact dump_drops_queue. Qed.
Print Assumptions c18_dump_drops_queue.

Example c18_dump_example :
  d_done (drun dq_init ([EDispatch 1; EDispatch 2; EWorker] ++ EDump :: [EOpDone; EDispatch 3; EWorker; EWorker; EOpDone]))
  = [1; 3]%N.
Proof. reflexivity. Qed.

(** The destructor waits for the worker to leave its loop (thread_.get()); from then on nothing runs. *)
Theorem c18_destroy_final : forall es1 es2, d_worker (drun dq_init es1) = WExit ->
  d_done (drun dq_init (es1 ++ es2)) = d_done (drun dq_init es1) /\ running (drun dq_init (es1 ++ es2)) = [].
Proof. exact destroy_final. Qed.
Print Assumptions c18_destroy_final.

Example c18_destroy_example :
  d_worker (drun dq_init [EDispatch 1; EDispatch 2; EWorker; EDestroy; EOpDone; EWorker]) = WExit /\
  d_done (drun dq_init [EDispatch 1; EDispatch 2; EWorker; EDestroy; EOpDone; EWorker; EDispatch 4; EWorker]) = [1]%N.
Proof. split; reflexivity. Qed.
