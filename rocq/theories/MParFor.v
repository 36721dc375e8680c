(** Model of the parallel loops.
    Source: /repo/src/common/parallel_for.cpp (ENABLE_PTHREAD branch). *)
From Coq Require Import NArith List Bool.
From Verif Require Import MFunctions.
Import ListNotations.
Local Open Scope N_scope.

(** The numbers a, a+1, ..., a+k-1. *)
Fixpoint iota (a : N) (k : nat) : list N :=
  match k with
  | O => []
  | S k' => a :: iota (a + 1) k'
  end.

(** Program counter of one worker thread of par_for_inc, parallel_for.cpp:192-205.
    [TFetch]: about to execute [i = idx++] (line 195);
    [TRun l j maxJ]: about to test [j < maxJ] and call the kernel (lines 201-203);
    [TDone]: left the loop (line 198). *)
Inductive tpc := TFetch | TRun (l j maxJ : N) | TDone.

(** Shared atomic counter, the threads, and the calls made so far, newest first (index passed to the
    kernel, thread number). *)
Record pconf := mkConf { c_idx : N; c_thr : list tpc; c_calls : list (N * nat) }.

(** Loop parameters: first argument, number of items, stride and index transformation. *)
Record ploop := mkLoop { p_begin : N; p_items : N; p_stride : N; p_inc : N -> N }.

Fixpoint set_nth {A} (n : nat) (x : A) (l : list A) : list A :=
  match l, n with
  | [], _ => []
  | _ :: t, O => x :: t
  | y :: t, S m => y :: set_nth m x t
  end.

(** One step of thread [t].  A finished or non-existing thread does nothing.  64-bit arithmetic wraps. *)
Definition pstep (p : ploop) (c : pconf) (t : nat) : pconf :=
  match nth_error (c_thr c) t with
  | None => c
  | Some TDone => c
  | Some TFetch =>
      (* parallel_for.cpp:194-200 *)
      let i := c_idx c in
      let l := w64 (i * p_stride p) in
      let pc := if p_items p <=? l then TDone
                else TRun l 0 (if w64 (l + p_stride p) <? p_items p then p_stride p else p_items p - l) in
      mkConf (w64 (i + 1)) (set_nth t pc (c_thr c)) (c_calls c)
  | Some (TRun l j maxJ) =>
      (* parallel_for.cpp:201-203 *)
      if j <? maxJ
      then mkConf (c_idx c) (set_nth t (TRun l (j + 1) maxJ) (c_thr c))
                  ((p_inc p (w64 (w64 (p_begin p + j) + l)), t) :: c_calls c)
      else mkConf (c_idx c) (set_nth t TFetch (c_thr c)) (c_calls c)
  end.

(** A schedule is the list of thread numbers in the order in which they take steps. *)
Definition prun (p : ploop) (c : pconf) (sched : list nat) : pconf := fold_left (pstep p) sched c.

(** Start: counter 0, all threads about to fetch, parallel_for.cpp:187-193. *)
Definition pinit (threads : nat) : pconf := mkConf 0 (repeat TFetch threads) [].

Definition all_done (c : pconf) : Prop := Forall (fun t => t = TDone) (c_thr c).

(** Number of threads, parallel_for.cpp:174-177; the quotient is cast to the 32-bit [unsigned]. *)
Definition thread_count (numCores items stride : N) : N := N.min ((items / stride) mod 2 ^ 32) numCores.

(** par_for_inc, parallel_for.cpp:170-212: [calls] is a possible sequence of kernel calls
    (oldest first; index and thread number). *)
Definition par_for_inc (numCores : N) (p : ploop) (calls : list (N * nat)) : Prop :=
  let threads := thread_count numCores (p_items p) (p_stride p) in
  if threads <=? 1
  then (* lines 179-186: sequential; j < maxLcv = begin + itemCount *)
       calls = map (fun j => (p_inc p j, O)) (iota (p_begin p) (N.to_nat (w64 (p_begin p + p_items p) - p_begin p)))
  else exists sched, let c := prun p (pinit (N.to_nat threads)) sched in
       all_done c /\ calls = rev (c_calls c).

(** par_for, parallel_for.cpp:50-54. *)
Definition par_for (numCores stride begin end_ : N) (calls : list (N * nat)) : Prop :=
  par_for_inc numCores (mkLoop begin (end_ - begin) stride (fun i => i)) calls.

(** par_for_set (vector form), parallel_for.cpp:68-78. *)
Definition par_for_set (numCores stride : N) (set : list N) (calls : list (N * nat)) : Prop :=
  par_for_inc numCores (mkLoop 0 (N.of_nat (length set)) stride (fun i => nth (N.to_nat i) set 0)) calls.

(** par_for_sparse_compose, parallel_for.cpp:80-98. *)
Definition par_for_sparse_compose (numCores stride : N) (lowSet highSet : list N) (highStart : N)
    (calls : list (N * nat)) : Prop :=
  let lowSize := N.of_nat (length lowSet) in
  par_for_inc numCores (mkLoop 0 (lowSize * N.of_nat (length highSet)) stride
    (fun i => let lowPerm := i mod lowSize in
              let highPerm := (i - lowPerm) / lowSize in
              N.lor (nth (N.to_nat lowPerm) lowSet 0) (w64 (N.shiftl (nth (N.to_nat highPerm) highSet 0) highStart))))
    calls.

(** par_for_skip, parallel_for.cpp:100-130. *)
Definition par_for_skip (numCores stride begin end_ skipMask maskWidth : N) (calls : list (N * nat)) : Prop :=
  if end_ <=? w64 (N.shiftl skipMask maskWidth)
  then par_for numCores stride begin skipMask calls
  else
    let lowMask := skipMask - 1 in
    let highMask := not64 lowMask in
    let incFn := if lowMask =? 0
                 then fun i => w64 (N.shiftl i maskWidth)
                 else fun i => N.lor (N.land i lowMask) (w64 (N.shiftl (N.land i highMask) maskWidth)) in
    par_for_inc numCores (mkLoop begin (N.shiftr (end_ - begin) maskWidth) stride incFn) calls.

(** The increment function of par_for_mask, parallel_for.cpp:152-159; [masks] as given by the caller. *)
Definition mask_inc (maskArray : list N) (iConst : N) : N :=
  fold_left (fun i m =>
    let low := m - 1 in
    let high := not64 (w64 (low + m)) in
    N.lor (N.land (w64 (N.shiftl i 1)) high) (N.land i low)) maskArray iConst.

(** The [onlyLow] flag, parallel_for.cpp:139-146: the i-th mask from the back equals end >> (i+1). *)
Fixpoint only_low (revMasks : list N) (i : N) (end_ : N) : bool :=
  match revMasks with
  | [] => true
  | m :: t => (m =? N.shiftr end_ (i + 1)) && only_low t (i + 1) end_
  end.

(** par_for_mask, parallel_for.cpp:132-163. *)
Definition par_for_mask (numCores stride begin end_ : N) (maskArray : list N) (calls : list (N * nat)) : Prop :=
  let maskLen := N.of_nat (length maskArray) in
  if only_low (rev maskArray) 0 end_
  then par_for numCores stride begin (N.shiftr end_ maskLen) calls
  else par_for_inc numCores (mkLoop begin (N.shiftr (end_ - begin) maskLen) stride (mask_inc maskArray)) calls.

(** par_norm and par_norm_exact, parallel_for.cpp:214-319.  Each thread adds up the terms of its own items, in
    the order in which it processes them, into a local accumulator; the results are added at the end.
    [term k] is the contribution of item k: norm(read(k)), or zero if below the threshold (lines 228-231,
    254-257).  Exact arithmetic in an arbitrary carrier with addition. *)
Definition thread_calls (t : nat) (calls : list (N * nat)) : list N :=
  map fst (filter (fun c => Nat.eqb (snd c) t) calls).
Definition par_norm_result {A} (zero : A) (add : A -> A -> A) (term : N -> A) (threads : nat) (calls : list (N * nat)) : A :=
  fold_left (fun acc t => add acc (fold_left (fun a k => add a (term k)) (thread_calls t calls) zero))
    (seq 0 threads) zero.
Definition par_norm {A} (zero : A) (add : A -> A -> A) (term : N -> A) (numCores stride items : N) (result : A) : Prop :=
  exists calls, par_for_inc numCores (mkLoop 0 items stride (fun i => i)) calls /\
    result = if thread_count numCores items stride <=? 1
             then fold_left (fun a k => add a (term (fst k))) calls zero
             else par_norm_result zero add term (N.to_nat (thread_count numCores items stride)) calls.
(** The thresholded term, parallel_for.cpp:228-231. *)
Definition norm_term {A B} (zero : A) (norm : B -> A) (geb : A -> A -> bool) (thresh : A) (read : N -> B) (k : N) : A :=
  if geb (norm (read k)) thresh then norm (read k) else zero.
