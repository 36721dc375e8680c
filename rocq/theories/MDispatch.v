(** Model of the work queue as a transition system.
    Source: /repo/src/common/dispatchqueue.cpp, /repo/include/common/dispatchqueue.hpp.

    All shared fields are accessed while holding [lock_], so each critical section is one atomic step.  Condition
    variables are modelled with explicit sleeping threads and pending notifications (the notifications issued after
    unlocking, lines 31, 63 and 84, are separate steps); spurious wake-ups are allowed.  The unlocked read in
    isFinished() (dispatchqueue.hpp:49) is not modelled.  Any number of client threads, numbered by nat. *)
From Coq Require Import NArith List Bool Arith.
Import ListNotations.

(** Worker thread, dispatchqueue.cpp:87-115: not started; at the wait of line 93 with the lock free; asleep in that
    wait; running an operation (line 106); finished it, before line 108; left the loop. *)
Inductive wpc := WNone | WReady | WSleep | WRun (op : N) | WAfter | WExit.

(** Clients inside finish(), dispatchqueue.cpp:48: asleep, or woken and about to re-check the predicate. *)
Inductive fpc := FIdle | FSleep | FReady.

Record dq := mkDq {
  d_q : list N;            (* q_ *)
  d_quit : bool;           (* quit_ *)
  d_fin : bool;            (* isFinished_ *)
  d_started : bool;        (* isStarted_ *)
  d_worker : wpc;
  d_clients : list (nat * fpc);  (* clients currently inside finish() *)
  d_wake : nat;            (* pending notifications on cv_ *)
  d_wakeF : nat;           (* pending notify_all on cvFinished_ *)
  d_done : list N          (* operations completed so far, oldest first (observation only) *)
}.

(** Constructor, dispatchqueue.hpp:33-39. *)
Definition dq_init : dq := mkDq [] false true false WNone [] 0 0 [].

Inductive event :=
| EDispatch (op : N)     (* a client calls dispatch(op) *)
| EFinish (c : nat)      (* client c calls finish() *)
| EFinishCheck (c : nat) (* client c, woken, re-checks the predicate *)
| EDump                  (* a client calls dump() *)
| EDestroy               (* first part of the destructor, lines 20-31 *)
| ENotify                (* a pending notification on cv_ is delivered *)
| ENotifyF               (* a pending notify_all on cvFinished_ is delivered *)
| EWorker                (* the worker acquires the lock / takes its next step *)
| EOpDone                (* the running operation completes *)
| ESpuriousW             (* spurious wake-up of the worker *)
| ESpuriousF (c : nat).  (* spurious wake-up of client c *)

Definition wake_all (l : list (nat * fpc)) : list (nat * fpc) := map (fun x => (fst x, FReady)) l.
Definition set_client (c : nat) (f : fpc) (l : list (nat * fpc)) : list (nat * fpc) :=
  map (fun x => if Nat.eqb (fst x) c then (c, f) else x) l.
Definition drop_client (c : nat) (l : list (nat * fpc)) : list (nat * fpc) :=
  filter (fun x => negb (Nat.eqb (fst x) c)) l.

Definition dstep (s : dq) (e : event) : dq :=
  let '(mkDq q quit fin started w cl wk wkF dn) := s in
  match e with
  | EDispatch op => (* lines 68-84 *)
      if quit then s else
      mkDq (q ++ [op]) quit false true (if started then w else WReady) cl (S wk) wkF dn
  | EFinish c => (* lines 42-48 *)
      if quit || negb started then s
      else if fin || quit then s
      else mkDq q quit fin started w ((c, FSleep) :: drop_client c cl) wk wkF dn
  | EFinishCheck c => (* line 48 *)
      match find (fun x => Nat.eqb (fst x) c) cl with
      | Some (_, FReady) => if fin || quit then mkDq q quit fin started w (drop_client c cl) wk wkF dn
                            else mkDq q quit fin started w (set_client c FSleep cl) wk wkF dn
      | _ => s
      end
  | EDump => (* lines 53-63 *)
      if quit || negb started then s else mkDq [] quit true started w cl wk (S wkF) dn
  | EDestroy => (* lines 20-31 *)
      if negb started then s else mkDq [] true fin started w cl (S wk) wkF dn
  | ENotify =>
      match wk with
      | O => s
      | S k => mkDq q quit fin started (match w with WSleep => WReady | _ => w end) cl k wkF dn
      end
  | ENotifyF =>
      match wkF with
      | O => s
      | S k => mkDq q quit fin started w (wake_all cl) wk k dn
      end
  | EWorker =>
      match w with
      | WReady => (* lines 93-104 *)
          if quit then mkDq q quit fin started WExit cl wk wkF dn
          else match q with
               | [] => mkDq q quit fin started WSleep cl wk wkF dn
               | op :: t => mkDq t quit fin started (WRun op) cl wk wkF dn
               end
      | WAfter => (* lines 108-114 *)
          let w' := if quit then WExit else WReady in
          match q with
          | [] => mkDq q quit true started w' (wake_all cl) wk wkF dn
          | _ => mkDq q quit fin started w' cl wk wkF dn
          end
      | _ => s
      end
  | EOpDone =>
      match w with
      | WRun op => mkDq q quit fin started WAfter cl wk wkF (dn ++ [op])
      | _ => s
      end
  | ESpuriousW => mkDq q quit fin started (match w with WSleep => WReady | _ => w end) cl wk wkF dn
  | ESpuriousF c => mkDq q quit fin started w (set_client c FReady cl) wk wkF dn
  end.

Definition drun (s : dq) (es : list event) : dq := fold_left dstep es s.

(** Does the event make a call of finish() by client [c] return in this state?  Lines 44-48. *)
Definition finish_returns (s : dq) (e : event) (c : nat) : bool :=
  match e with
  | EFinish c' => Nat.eqb c c' && (d_quit s || negb (d_started s) || d_fin s)
  | EFinishCheck c' => Nat.eqb c c' &&
      match find (fun x => Nat.eqb (fst x) c) (d_clients s) with
      | Some (_, FReady) => d_fin s || d_quit s
      | _ => false
      end
  | _ => false
  end.
