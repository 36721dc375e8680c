(** Property theorems C179 and C180: MultiShotMeasureMask of QInterface. *)
From Coq Require Import NArith ZArith Arith List Bool Lia Permutation.
From Verif Require Import Amp SpecState MTensor MShots SpecShots PShotsProp.
Import ListNotations.
Local Open Scope N_scope.

(** * C179: the counts of the outcomes *)

(** If every clone is measured as a basis state of non-zero amplitude, the map holds, for each value of the listed qubits, the number of shots that showed it; the counts add up to the number of shots; there is no entry 0, and every key is the value of the listed qubits in some basis state of non-zero amplitude. *)
Theorem c179_counts : forall (K : StarRing) n (psi : N -> K) qs shots raw order, shots < 2 ^ 31 -> Permutation order (upto (N.to_nat shots)) -> (forall s, s < shots -> raw s < 2 ^ n /\ psi (raw s) <> 0%amp) ->
  exists m, multi_shot (map (N.pow 2) qs) shots raw order = Ret m /\ increasing m /\ total m = shots /\
    (forall k, entry k m = times_seen (fun s => ctrl_value 0 qs (raw s)) shots k) /\
    (forall k c, In (k, c) m -> 0 < c /\ exists x, x < 2 ^ n /\ psi x <> 0%amp /\ k = ctrl_value 0 qs x).
Proof. exact @PShotsProp.l_c179_counts. Qed.
Print Assumptions c179_counts.

Example c179_hyps : let psi : N -> GI := fun x => if x =? 5 then 1%amp else if x =? 2 then 1%amp else 0%amp in let raw := fun s => if s =? 1 then 2 else 5 in
  Permutation [2; 0; 1] (upto (N.to_nat 3)) /\ (forall s, s < 3 -> raw s < 2 ^ 3 /\ psi (raw s) <> 0%amp) /\ multi_shot (map (N.pow 2) [2; 1]) 3 raw [2; 0; 1] = Ret [(1, 2); (2, 1)].
Proof.
  cbv zeta. split; [|split; [|reflexivity]].
  - change (Permutation [2; 0; 1] [0; 1; 2]). apply (perm_trans (l' := [0; 2; 1])); [apply perm_swap|apply perm_skip; apply perm_swap].
  - intros s _. destruct (s =? 1); split; try reflexivity; discriminate.
Qed.


(** The order in which the threads take the lock does not matter. *)
Theorem c179_order : forall qs shots raw o1 o2, shots < 2 ^ 31 -> Permutation o1 (upto (N.to_nat shots)) -> Permutation o2 (upto (N.to_nat shots)) ->
  multi_shot (map (N.pow 2) qs) shots raw o1 = multi_shot (map (N.pow 2) qs) shots raw o2.
Proof. exact @PShotsProp.l_c179_order. Qed.
Print Assumptions c179_order.

Example c179_order_example : multi_shot (map (N.pow 2) [2; 1]) 3 (fun s => s * 2) [2; 0; 1] = Ret [(0, 1); (1, 1); (2, 1)] /\ multi_shot (map (N.pow 2) [2; 1]) 3 (fun s => s * 2) [0; 1; 2] = Ret [(0, 1); (1, 1); (2, 1)].
Proof. split; reflexivity. Qed.


(** The bound on the shots is sharp: with 2^31 shots or more (the argument is an unsigned int) of the same outcome the count overflows an int, which is undefined. *)
Theorem c179_bound : forall qs shots raw order k, 2 ^ 31 <= shots -> Permutation order (upto (N.to_nat shots)) -> (forall s, s < shots -> ctrl_value 0 qs (raw s) = k) ->
  multi_shot (map (N.pow 2) qs) shots raw order = Undef.
Proof. exact @PShotsProp.l_c179_bound. Qed.
Print Assumptions c179_bound.

(** * C180: the outcomes of the shots *)

(** With at most 32 listed qubits, entry j of the array is the value of the listed qubits in shot j, and no other entry is written.  Missing for the full statement: more qubits, for which it fails. *)
Theorem c180_array_partial : forall qs shots raw order arr, (length qs <= 32)%nat -> Permutation order (upto (N.to_nat shots)) ->
  forall j, multi_shot_array (map (N.pow 2) qs) shots raw order arr j = if j <? shots then ctrl_value 0 qs (raw j) else arr j.
Proof. exact @PShotsProp.l_c180_array_partial. Qed.
Print Assumptions c180_array_partial.

Example c180_example : map (multi_shot_array (map (N.pow 2) [2; 1]) 2 (fun s => 6 - 2 * s) [1; 0] (fun _ => 9)) [0; 1; 2] = [3; 1; 9].
Proof. reflexivity. Qed.


(** The array holds 64-bit numbers, but MultiShotMeasureMask (qinterface.cpp:823-832) converts every sample to unsigned int: with 33 qubits listed, a shot in which only the last of them is 1 is reported as 0. *)
Theorem c180_wide_refuted : let qs := upto 33 in ctrl_value 0 qs (2 ^ 32) = 2 ^ 32 /\ multi_shot_array (map (N.pow 2) qs) 1 (fun _ => 2 ^ 32) [0] (fun _ => 0) 0 = 0.
Proof. exact @PShotsProp.l_c180_wide_refuted. Qed.
Print Assumptions c180_wide_refuted.
