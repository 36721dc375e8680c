(** Specification vocabulary for the work queue: what a history of events says was dispatched. *)
From Coq Require Import NArith List.
From Verif Require Import MDispatch.
Import ListNotations.

(** The operations handed to dispatch in a history, in order. *)
Fixpoint dispatched (es : list event) : list N :=
  match es with
  | [] => []
  | EDispatch op :: t => op :: dispatched t
  | _ :: t => dispatched t
  end.

(** No dump and no destruction in the history. *)
Definition undisturbed (es : list event) : Prop := ~ In EDump es /\ ~ In EDestroy es.

(** [l] is obtained from [m] by leaving out elements. *)
Inductive sublist {A} : list A -> list A -> Prop :=
| sub_nil : sublist [] []
| sub_skip x l m : sublist l m -> sublist l (x :: m)
| sub_keep x l m : sublist l m -> sublist (x :: l) (x :: m).

(** The operation the worker is executing, if any. *)
Definition running (s : dq) : list N := match d_worker s with WRun op => [op] | _ => [] end.

(** The steps of the worker thread itself (no client call, no spurious wake-up). *)
Definition worker_event (e : event) : Prop := e = EWorker \/ e = EOpDone \/ e = ENotify.

(** No step of the worker thread changes the state any more. *)
Definition quiescent (s : dq) : Prop := forall e, worker_event e -> dstep s e = s.

(** A history in which every event is a step of the worker and changes the state. *)
Fixpoint effective (s : dq) (es : list event) : Prop :=
  match es with
  | [] => True
  | e :: t => worker_event e /\ dstep s e <> s /\ effective (dstep s e) t
  end.

(** An upper bound for the number of such steps. *)
Definition work_left (s : dq) : nat := 3 * length (d_q s) + 2 * d_wake s + 3.
