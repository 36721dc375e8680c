(** Property theorems C67 and C68: Decompose. *)
From Coq Require Import NArith ZArith QArith List Bool Lia Lqa.
From Verif Require Import MFunctions MParFor MKernel Amp SpecState MEngine SpecEngine MDecompose SpecDecompose PCompose PDecompose.
Import ListNotations.
Local Open Scope N_scope.

(** * C67 *)
(** Run one after another, the calls of the kernel accumulate every term. *)
Theorem c67_sequential_sum : forall (K : StarRing) (term : N -> N -> K) part idx (m : mem K) k, k < N.of_nat part ->
  fold_left (fun m p => exec p m) (map (angle_body term part) idx) m k = (m k + asum (fun lcv => term lcv k) idx)%amp.
Proof. exact @angle_sequential. Qed.
Print Assumptions c67_sequential_sum.
Example c67_sequential_example :
  fold_left (fun m p => exec p m) (map (angle_body (fun l k => (Z.of_N (l + k), 0)%Z : GI) 2) [0; 1; 2]) (fun _ => (0, 0)%Z) 1 = (6, 0)%Z.
Proof. reflexivity. Qed.
(** In parallel an update can be lost. *)
Theorem c67_parallel_sum_refuted : exists (c : cfg) (term : N -> N -> GI) (m m' : mem GI),
  fits c 1 /\ loop_for c (2 ^ 1) (angle_body term 1) m m' /\ m' 0 <> (m 0%N + asum (fun lcv => term lcv 0%N) (basis 1))%amp.
Proof. exact angle_race_lost. Qed.
Print Assumptions c67_parallel_sum_refuted.

(** * C68 *)
Theorem c68_index_is_insertion : forall start len nLen r k, start <= nLen -> nLen + len < 64 -> r < 2 ^ nLen -> k < 2 ^ len ->
  outside (dd_index start len r k) start len = r /\ get_reg (dd_index start len r k) start len = k.
Proof. intros. rewrite (dd_index_ok start len nLen) by auto. split. now apply outside_slice. now apply reg_slice. Qed.
Print Assumptions c68_index_is_insertion.
Example c68_index_example : dd_index 2 3 13 5 = 117.
Proof. reflexivity. Qed.

Local Open Scope Q_scope.
(** A separable state whose arguments do not wrap around is separated exactly, up to one global phase. *)
Theorem c68_decompose_without_wrap : forall start len nLen (prob angle pa alpha pb beta : N -> Q),
  (start <= nLen)%N -> (nLen + len < 64)%N -> separable start len prob angle pa alpha pb beta ->
  (forall r, (r < 2 ^ nLen)%N -> 0 <= pa r) -> (forall k, (k < 2 ^ len)%N -> 0 <= pb k) ->
  qsumf pa (powers nLen) == 1 -> qsumf pb (powers len) == 1 ->
  (forall r k, (r < 2 ^ nLen)%N -> (k < 2 ^ len)%N -> 0 < pa r -> 0 < pb k -> -1 < alpha r + beta k <= 1) ->
  exists g, forall r k, (r < 2 ^ nLen)%N -> (k < 2 ^ len)%N ->
    dd_rem_prob prob start len r * dd_part_prob prob start len nLen k == prob (dd_index start len r k) /\
    (0 < prob (dd_index start len r k) ->
     same_angle (dd_rem_angle prob angle start len r + dd_part_angle prob angle start len nLen k) (angle (dd_index start len r k) + g)).
Proof. exact decompose_ok. Qed.
Print Assumptions c68_decompose_without_wrap.
Example c68_hyps : separable 0 1 ex_prob4 (fun x => ex_angle (x mod 2)) ex_half (fun _ => 0) ex_half ex_angle /\
  qsumf ex_half (powers 1) == 1 /\ (forall k, (k < 2 ^ 1)%N -> -1 < 0 + ex_angle k <= 1).
Proof. exact ex_no_wrap. Qed.
(** With wrapping arguments the factors do not recombine to the state. *)
Theorem c68_decompose_refuted : exists prob angle pa alpha pb beta,
  separable 0 1 prob angle pa alpha pb beta /\ qsumf pa (powers 1) == 1 /\ qsumf pb (powers 1) == 1 /\
  ~ exists g, forall r k, (r < 2 ^ 1)%N -> (k < 2 ^ 1)%N -> 0 < prob (dd_index 0 1 r k) ->
     same_angle (dd_rem_angle prob angle 0 1 r + dd_part_angle prob angle 0 1 1 k) (angle (dd_index 0 1 r k) + g).
Proof.
  exists ex_prob4, ex_angle4, ex_half, ex_angle, ex_half, ex_angle. split. exact ex_separable. split. reflexivity. split. reflexivity. exact decompose_wraps.
Qed.
Print Assumptions c68_decompose_refuted.
