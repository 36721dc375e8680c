(** Property theorems C53, C54 and C83: the containers behind constant-time logical swaps (QubitSwapMap, QEngineShardMap). *)
From Coq Require Import NArith List Bool Lia.
From Verif Require Import MParFor MMaps SpecState SpecMaps PMaps2.
Import ListNotations.
Local Open Scope N_scope.

(** * C53: logical swaps *)

(** After any sequence of swaps the index map is the composition of the transpositions (the last swap acts on the index first), and inverseMap is its inverse on both sides; both stay below 2^n. *)
Theorem c53_swaps : forall n ps, n <= 128 -> pairs_below n ps ->
  exists m, fold_left (fun o p => match o with Some m => qsm_swap m (fst p) (snd p) | None => None end) ps (Some (qsm_new n)) = Some m /\
  forall x, x < 2 ^ n -> qsm_map m x = swaps_last_first ps x /\ qsm_inverseMap m x = swaps_last_first (rev ps) x /\
    qsm_map m x < 2 ^ n /\ qsm_inverseMap m x < 2 ^ n /\ qsm_inverseMap m (qsm_map m x) = x /\ qsm_map m (qsm_inverseMap m x) = x.
Proof. exact @PMaps2.l_c53_swaps. Qed.
Print Assumptions c53_swaps.

Example c53_hyps : 3 <= 128 /\ pairs_below 3 [(0, 1); (1, 2)].
Proof. split; [lia|]. intros p [<-|[<-|[]]]; cbn; lia. Qed.
Example c53_example : map (swaps_last_first [(0, 1); (1, 2)]) [1; 2; 4; 3] = [2; 4; 1; 6].
Proof. reflexivity. Qed.

(** * C54: shard container *)

(** Any history of constructor, push_back, assignment, insert, erase and swap (with arguments in range and at most 255 shards at a time) has a defined result with the size and the entries of the plain list after the same history. *)
Theorem c54_shard_list : forall (A : Type) (d : A) h l, on_list d h l ->
  exists m, on_map d h = Some m /\ sm_size m = N.of_nat (length l) /\ forall i, sm_get m i = nth_error l (N.to_nat i).
Proof. exact @PMaps2.l_c54_shard_list. Qed.
Print Assumptions c54_shard_list.

(** A swap, an insertion in the middle and an erasure across the inserted part. *)
Example c54_example : exists l, on_list 0 (h_erase (h_insert (h_swap (h_push (h_push (h_new 1) 7) 8) 0 2) 1 (h_push (h_new 0) 9)) 0 2) l /\ l = [7; 0] /\
  exists m, on_map 0 (h_erase (h_insert (h_swap (h_push (h_push (h_new 1) 7) 8) 0 2) 1 (h_push (h_new 0) 9)) 0 2) = Some m /\ map (sm_get m) [0; 1; 2] = [Some 7; Some 0; None].
Proof.
  exists [7; 0]. split; [|split; [reflexivity|]].
  - apply (l_erase 0 _ [] [8; 9] [7; 0]). apply (l_insert 0 _ [8] [7; 0] _ [9]); [|apply (l_push 0 (h_new 0) [] 9)|cbn; lia].
    + apply (l_swap 0 _ [0; 7; 8] 0 2 [8; 7; 0]); try (cbn; lia); [|intros [|[|[|[|k]]]]; reflexivity].
      apply (l_push 0 _ [0; 7] 8); [|cbn; lia]. apply (l_push 0 _ [0] 7); [|cbn; lia]. apply l_new; [lia|reflexivity|]. intros a [<-|[]]. reflexivity.
    + apply l_new; [lia|reflexivity|]. intros a [].
    + cbn; lia.
  - eexists. split; vm_compute; reflexivity.
Qed.

(** * C83: reindexing shards *)

(** reindex on a container in which no swap is pending keeps units and contents and numbers the shards of each unit in order (0, 1, 2, ...). *)
Theorem c83_reindex : forall (B : Type) (m : smap (@shard B)) i u q b, sm_swap m = iota 0 (length (sm_shards m)) -> (length (sm_shards m) <= 255)%nat -> sm_get m i = Some (u, q, b) ->
  sm_get (sm_reindex m) i = Some (u, match u with
    | Some v => N.of_nat (length (filter (fun s => match fst (fst s) with Some w => w =? v | None => false end) (firstn (N.to_nat i) (sm_shards m))))
    | None => 0 end, b).
Proof. exact @PMaps2.l_c83_reindex. Qed.
Print Assumptions c83_reindex.

Example c83_example : map (sm_get (sm_reindex (mkSM [(Some 5, 9, 1); (None, 3, 2); (Some 6, 9, 3); (Some 5, 9, 4)] [0; 1; 2; 3]))) [0; 1; 2; 3] =
  [Some (Some 5, 0, 1); Some (None, 0, 2); Some (Some 6, 0, 3); Some (Some 5, 1, 4)].
Proof. reflexivity. Qed.

(** With a pending swap reindex exchanges the two qubits: the swap is undone although the shards stay where they are. *)
Theorem c83_pending_swap_refuted : exists m m' : smap (@shard N), sm_swapq m 0 1 = Some m' /\ sm_get m' 0 = Some (None, 0, 1) /\ sm_get (sm_reindex m') 0 = Some (None, 0, 0).
Proof. exact @PMaps2.l_c83_pending_swap_refuted. Qed.
Print Assumptions c83_pending_swap_refuted.
