(** Repeated measurements of clones; proofs of PropShots.v. *)
From Coq Require Import NArith Arith List Bool Lia Permutation.
From Verif Require Import Bits Amp SpecState MTensor MShots SpecShots PShots.
Import ListNotations.
Local Open Scope N_scope.

Lemma l_c179_counts : forall (K : StarRing) n (psi : N -> K) qs shots raw order, shots < 2 ^ 31 -> Permutation order (upto (N.to_nat shots)) -> (forall s, s < shots -> raw s < 2 ^ n /\ psi (raw s) <> 0%amp) ->
  exists m, multi_shot (map (N.pow 2) qs) shots raw order = Ret m /\ increasing m /\ total m = shots /\
    (forall k, entry k m = times_seen (fun s => ctrl_value 0 qs (raw s)) shots k) /\
    (forall k c, In (k, c) m -> 0 < c /\ exists x, x < 2 ^ n /\ psi x <> 0%amp /\ k = ctrl_value 0 qs x).
Proof. intros K n psi qs shots raw order Hs HP HR. destruct (multi_ok qs shots raw order Hs HP) as (m & E & I0 & EN & T & P). exists m. split; auto. split; auto. split; auto. split; auto. intros k c H. destruct (P k c H) as (A & s & Hs2 & ->). split; auto. exists (raw s). destruct (HR s Hs2). auto. Qed.

Lemma l_c179_order : forall qs shots raw o1 o2, shots < 2 ^ 31 -> Permutation o1 (upto (N.to_nat shots)) -> Permutation o2 (upto (N.to_nat shots)) ->
  multi_shot (map (N.pow 2) qs) shots raw o1 = multi_shot (map (N.pow 2) qs) shots raw o2.
Proof. intros. now apply multi_order. Qed.

Lemma l_c179_bound : forall qs shots raw order k, 2 ^ 31 <= shots -> Permutation order (upto (N.to_nat shots)) -> (forall s, s < shots -> ctrl_value 0 qs (raw s) = k) ->
  multi_shot (map (N.pow 2) qs) shots raw order = Undef.
Proof. intros qs shots raw order k Hs HP H. apply (multi_overflow _ shots raw order k Hs HP). intros s L. rewrite sample_value. auto. Qed.

Lemma l_c180_array_partial : forall qs shots raw order arr, (length qs <= 32)%nat -> Permutation order (upto (N.to_nat shots)) ->
  forall j, multi_shot_array (map (N.pow 2) qs) shots raw order arr j = if j <? shots then ctrl_value 0 qs (raw j) else arr j.
Proof. intros. now apply array_ok. Qed.

Lemma l_c180_wide_refuted : let qs := upto 33 in ctrl_value 0 qs (2 ^ 32) = 2 ^ 32 /\ multi_shot_array (map (N.pow 2) qs) 1 (fun _ => 2 ^ 32) [0] (fun _ => 0) 0 = 0.
Proof. split; vm_compute; reflexivity. Qed.
