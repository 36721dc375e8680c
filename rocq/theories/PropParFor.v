(** Property theorems C13-C16: parallel loops. *)
From Coq Require Import NArith List Bool Lia Permutation.
From Verif Require Import MFunctions SpecFunctions MParFor SpecParFor PParFor MKernel PKernel.
Import ListNotations.
Local Open Scope N_scope.

(** * C13 *)
(** Every complete run of the loop, for every number of cores, stride and schedule, calls the kernel exactly once per
    index.  The bound excludes only ranges within (cores+2) strides of 2^64. *)
Theorem c13_par_for_once : forall numCores stride b e calls, 0 < stride -> b <= e ->
  e + (numCores + 2) * stride < 2 ^ 64 -> par_for numCores stride b e calls ->
  enumerates (fun x => b <= x < e) (map fst calls).
Proof. exact par_for_ok. Qed.
Print Assumptions c13_par_for_once.
(** Three threads, stride 2, seven items starting at 10, an interleaved schedule. *)
Example c13_par_for_example :
  let p := mkLoop 10 7 2 (fun i => i) in
  let c := prun p (pinit 3) [0;1;1;2;0;1;2;0;0;0;1;2;2;0;1;0;0;1;2;1]%nat in
  thread_count 3 7 2 = 3 /\ c_thr c = [TDone; TDone; TDone] /\
  rev (c_calls c) = [(12, 1%nat); (10, 0%nat); (13, 1%nat); (14, 2%nat); (11, 0%nat); (15, 2%nat); (16, 0%nat)].
Proof. vm_compute. auto. Qed.

(** A general index transformation is applied to each index exactly once. *)
Theorem c13_par_for_inc_once : forall numCores p calls, loop_fits numCores p -> par_for_inc numCores p calls ->
  Permutation (map fst calls) (map (p_inc p) (iota (p_begin p) (N.to_nat (p_items p)))).
Proof. exact par_for_inc_ok. Qed.
Print Assumptions c13_par_for_inc_once.

(** No schedule runs forever: a bound on the number of steps taken by running threads. *)
Theorem c13_par_for_terminates : forall numCores p, loop_fits numCores p ->
  let th := thread_count numCores (p_items p) (p_stride p) in
  forall sched, busy p (pinit (N.to_nat th)) sched -> N.of_nat (length sched) <= th + 3 * p_items p + 2.
Proof. exact par_for_inc_terminates. Qed.
Print Assumptions c13_par_for_terminates.
Example c13_terminates_example :
  loop_fits 4 (mkLoop 0 9 2 (fun i => i)) /\ busy (mkLoop 0 9 2 (fun i => i)) (pinit 4) [3; 0; 3; 0]%nat.
Proof. split; [vm_compute; auto|]. cbn. repeat split; eexists; split; try reflexivity; discriminate. Qed.

(** Iterating over an explicit set, and over the product of two sets. *)
Theorem c13_par_for_set_once : forall numCores stride set calls, 0 < stride ->
  N.of_nat (length set) + (numCores + 2) * stride < 2 ^ 64 ->
  par_for_set numCores stride set calls -> Permutation (map fst calls) set.
Proof. exact par_for_set_ok. Qed.
Print Assumptions c13_par_for_set_once.
Example c13_par_for_set_example : par_for_set 1 4 [7; 3; 9] [(7, 0%nat); (3, 0%nat); (9, 0%nat)].
Proof. vm_compute. reflexivity. Qed.

Theorem c13_par_for_sparse_compose_once : forall numCores stride low high start calls, 0 < stride -> (0 < length low)%nat ->
  N.of_nat (length low) * N.of_nat (length high) + (numCores + 2) * stride < 2 ^ 64 ->
  par_for_sparse_compose numCores stride low high start calls ->
  Permutation (map fst calls) (flat_map (fun h => map (fun l => N.lor l (w64 (N.shiftl h start))) low) high).
Proof. exact par_for_sparse_compose_ok. Qed.
Print Assumptions c13_par_for_sparse_compose_once.
Example c13_par_for_sparse_compose_example :
  par_for_sparse_compose 1 4 [0; 2] [1; 3] 2 [(4, 0%nat); (6, 0%nat); (12, 0%nat); (14, 0%nat)].
Proof. vm_compute. reflexivity. Qed.

(** * C14 *)
Theorem c14_par_for_mask : forall numCores stride n ps calls, 0 < stride -> n < 64 -> increasing_below 0 n ps ->
  2 ^ n + (numCores + 2) * stride < 2 ^ 64 ->
  par_for_mask numCores stride 0 (2 ^ n) (map (fun q => 2 ^ q) ps) calls ->
  enumerates (fun x => x < 2 ^ n /\ zero_at ps x) (map fst calls).
Proof. exact par_for_mask_ok. Qed.
Print Assumptions c14_par_for_mask.
Example c14_par_for_mask_example :
  increasing_below 0 4 [1; 3] /\ par_for_mask 1 8 0 (2 ^ 4) [2; 8] [(0, 0%nat); (1, 0%nat); (4, 0%nat); (5, 0%nat)].
Proof. split; [simpl; lia | vm_compute; reflexivity]. Qed.

Theorem c14_par_for_skip : forall numCores stride n q w calls, 0 < stride -> n < 64 -> q + w <= n ->
  2 ^ n + (numCores + 2) * stride < 2 ^ 64 ->
  par_for_skip numCores stride 0 (2 ^ n) (2 ^ q) w calls ->
  enumerates (fun x => x < 2 ^ n /\ forall j, q <= j < q + w -> N.testbit x j = false) (map fst calls).
Proof. exact par_for_skip_ok. Qed.
Print Assumptions c14_par_for_skip.
Example c14_par_for_skip_example : par_for_skip 1 8 0 (2 ^ 4) 2 2 [(0, 0%nat); (1, 0%nat); (8, 0%nat); (9, 0%nat)].
Proof. vm_compute. reflexivity. Qed.

(** * C15 *)
(** If every cell has at most one task that writes it, and no other task touches a written cell, then every
    interleaving of single accesses ends in the memory of the sequential loop. *)
Theorem c15_kernel_schedule_independent : forall V (owner : N -> option nat) (ts : list (prog V)) m m1 m2,
  respects owner ts -> kernel ts m m1 -> kernel ts m m2 -> forall a, m1 a = m2 a.
Proof. exact @kernel_deterministic. Qed.
Print Assumptions c15_kernel_schedule_independent.

Theorem c15_kernel_is_sequential_loop : forall V (owner : N -> option nat) (ts : list (prog V)) m m',
  respects owner ts -> kernel ts m m' -> forall a, m' a = fold_left (fun mm p => exec p mm) ts m a.
Proof. exact @kernel_as_sequential. Qed.
Print Assumptions c15_kernel_is_sequential_loop.
(** Two tasks swapping disjoint pairs of cells, interleaved. *)
Example c15_kernel_example :
  let sw a b := Rd a (fun x => Rd b (fun y => Wr a y (Wr b x Ret))) in
  let r := fold_left kstep [0; 1; 1; 0; 1; 0; 0; 1]%nat ([sw 0 1; sw 2 3], fun a => a + 10) in
  respects (fun a => if a <? 2 then Some 0 else if a <? 4 then Some 1 else None)%nat [sw 0 1; sw 2 3] /\
  fst r = [Ret; Ret] /\ map (snd r) [0; 1; 2; 3; 4] = [11; 10; 13; 12; 14].
Proof.
  split; [|split; vm_compute; reflexivity].
  intros [|[|i]] p Hp; simpl in Hp; try (destruct i; discriminate); injection Hp as <-; cbn; auto 10.
Qed.

(** * C16 *)
Theorem c16_par_norm : forall A (zero : A) (add : A -> A -> A) (term : N -> A),
  (forall x y, add x y = add y x) -> (forall x y z, add x (add y z) = add (add x y) z) -> (forall x, add zero x = x) ->
  forall numCores stride items result, 0 < stride -> items + (numCores + 2) * stride < 2 ^ 64 ->
  par_norm zero add term numCores stride items result ->
  result = sum_list zero add term (iota 0 (N.to_nat items)).
Proof. exact @par_norm_ok. Qed.
Print Assumptions c16_par_norm.
Example c16_par_norm_example :
  (* two threads, stride 2, five items, values below 3 are floored away *)
  let term := norm_term 0 (fun x => x) (fun a b => b <=? a) 3 (fun k => k * k) in
  let c := prun (mkLoop 0 5 2 (fun i => i)) (pinit 2) [0;1;1;0;0;0;1;1;0;0;0;1;0]%nat in
  all_done c /\ par_norm_result 0 N.add term 2 (rev (c_calls c)) = 29.
Proof. split; [vm_compute; repeat constructor | vm_compute; reflexivity]. Qed.
