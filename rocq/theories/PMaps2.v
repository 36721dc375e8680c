(** The statements about the swap containers. *)
From Coq Require Import NArith Arith List Bool Lia.
From Verif Require Import MParFor MQCircuit MMaps SpecState SpecMaps PMaps.
Import ListNotations.
Local Open Scope N_scope.

Lemma l_c53_swaps : forall n ps, n <= 128 -> pairs_below n ps ->
  exists m, fold_left (fun o p => match o with Some m => qsm_swap m (fst p) (snd p) | None => None end) ps (Some (qsm_new n)) = Some m /\
  forall x, x < 2 ^ n -> qsm_map m x = swaps_last_first ps x /\ qsm_inverseMap m x = swaps_last_first (rev ps) x /\
    qsm_map m x < 2 ^ n /\ qsm_inverseMap m x < 2 ^ n /\ qsm_inverseMap m (qsm_map m x) = x /\ qsm_map m (qsm_inverseMap m x) = x.
Proof. intros n ps Hn HP. destruct (wfm_new n Hn) as [W0 M0]. destruct (do_swaps_ok n ps (qsm_new n) W0 HP) as (m & A & W & M). exists m. split; [exact A|]. intros x Hx.
  assert (MX : forall y, y < 2 ^ n -> qsm_map m y = swaps_last_first ps y). { intros y Hy. rewrite M. apply M0. now apply slf_lt. }
  split; auto. split. { assert (HR : pairs_below n (rev ps)) by (intros p Hp; apply HP; now apply in_rev). rewrite <- (imap_map n m (swaps_last_first (rev ps) x) W) by now apply slf_lt.
    rewrite MX by now apply slf_lt. f_equal. rewrite <- (rev_involutive ps) at 1. symmetry. apply slf_rev. }
  split; [now apply map_lt|]. split; [now apply imap_lt|]. split; [now apply (imap_map n)|now apply (map_imap n)]. Qed.

Lemma l_c54_shard_list : forall (A : Type) (d : A) h l, on_list d h l ->
  exists m, on_map d h = Some m /\ sm_size m = N.of_nat (length l) /\ forall i, sm_get m i = nth_error l (N.to_nat i).
Proof. intros A d h l H. destruct (history_ok d h l H) as (m & E & HR). exists m. split; auto. now apply R_get. Qed.

Lemma l_c83_reindex : forall (B : Type) (m : smap (@shard B)) i u q b, sm_swap m = iota 0 (length (sm_shards m)) -> (length (sm_shards m) <= 255)%nat -> sm_get m i = Some (u, q, b) ->
  sm_get (sm_reindex m) i = Some (u, match u with
    | Some v => N.of_nat (length (filter (fun s => match fst (fst s) with Some w => w =? v | None => false end) (firstn (N.to_nat i) (sm_shards m))))
    | None => 0 end, b).
Proof. intros B m i u q b HI HL H. unfold sm_get in *. cbn [sm_reindex sm_swap sm_shards]. rewrite HI in H. unfold vget in H at 1. unfold vget at 1.
  destruct (nth_error (iota 0 (length (sm_shards m))) (N.to_nat i)) as [p|] eqn:E; [|discriminate H].
  assert (NI : forall q a j p, nth_error (iota a q) j = Some p -> p = a + N.of_nat j). { clear. induction q as [|q IH]; intros a [|j] p H; cbn [iota nth_error] in H; try discriminate H; [injection H as <-; lia|]. apply IH in H. lia. }
  apply NI in E. assert (Hpi : p = i) by lia. clear E NI. rewrite Hpi in *. unfold vget in *. rewrite (renumber_nth _ _ _ u q b); [destruct u; reflexivity|auto|intros v; lia|auto]. Qed.

Lemma l_c83_pending_swap_refuted : exists m m' : smap (@shard N), sm_swapq m 0 1 = Some m' /\ sm_get m' 0 = Some (None, 0, 1) /\ sm_get (sm_reindex m') 0 = Some (None, 0, 0).
Proof. exists (mkSM [(None, 0, 0); (None, 0, 1)] [0; 1]), (mkSM [(None, 0, 0); (None, 0, 1)] [1; 0]). repeat split. Qed.
