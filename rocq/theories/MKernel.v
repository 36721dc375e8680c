(** Kernel bodies as programs over a shared array, and their interleaved execution.
    A kernel body passed to par_for* (for instance the lambdas of /repo/src/qengine/state.cpp, Apply2x2) performs a
    sequence of StateVectorArray::read / write calls (/repo/include/statevector.hpp:88-101).  Each call of a body is one
    task; a schedule interleaves the single accesses of all tasks arbitrarily (a superset of what the threads of
    par_for_inc, /repo/src/common/parallel_for.cpp:192-205, can do). *)
From Coq Require Import NArith List Bool.
Import ListNotations.
Local Open Scope N_scope.

(** A body: finished, or a read/write of one cell followed by the rest. *)
Inductive prog (V : Type) : Type :=
| Ret : prog V
| Rd : N -> (V -> prog V) -> prog V
| Wr : N -> V -> prog V -> prog V.
Arguments Ret {V}.
Arguments Rd {V} _ _.
Arguments Wr {V} _ _ _.

Definition mem (V : Type) := N -> V.
Definition mset {V} (m : mem V) (a : N) (v : V) : mem V := fun b => if b =? a then v else m b.

(** Run one body alone to the end. *)
Fixpoint exec {V} (p : prog V) (m : mem V) : mem V :=
  match p with
  | Ret => m
  | Rd a k => exec (k (m a)) m
  | Wr a v k => exec k (mset m a v)
  end.

Fixpoint put {A} (n : nat) (x : A) (l : list A) : list A :=
  match l, n with
  | [], _ => []
  | _ :: t, O => x :: t
  | y :: t, S m => y :: put m x t
  end.

(** One access by task [t]. *)
Definition kstep {V} (c : list (prog V) * mem V) (t : nat) : list (prog V) * mem V :=
  match nth_error (fst c) t with
  | Some (Rd a k) => (put t (k (snd c a)) (fst c), snd c)
  | Some (Wr a v k) => (put t k (fst c), mset (snd c) a v)
  | _ => c
  end.

(** [m'] is a possible final memory of running the tasks concurrently on [m]. *)
Definition kernel {V} (tasks : list (prog V)) (m m' : mem V) : Prop :=
  exists sched, fold_left kstep sched (tasks, m) = (map (fun _ => Ret) tasks, m').
