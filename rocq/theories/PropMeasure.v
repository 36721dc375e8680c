(** Property theorems C27 and C69: choosing a measurement outcome. *)
From Coq Require Import NArith QArith List Bool Lia Lqa.
From Verif Require Import MMeasure SpecMeasure PMeasure.
Import ListNotations.
Local Open Scope Q_scope.

(** * C27 *)
(** ForceM of one qubit: the value chosen has non-zero probability for every draw. *)
Theorem c27_single_qubit : forall p1 r b, 0 <= p1 <= 1 ->
  ForceM1 p1 r b false = Some (forcem_choose p1 r, if forcem_choose p1 r then p1 else 1 - p1) /\
  0 < (if forcem_choose p1 r then p1 else 1 - p1).
Proof. exact forcem_choose_pos. Qed.
Print Assumptions c27_single_qubit.
Example c27_single_qubit_example : ForceM1 0 0 true false = Some (false, 1 - 0) /\ ForceM1 (1 # 3) (1 # 4) false false = Some (true, 1 # 3).
Proof. split; reflexivity. Qed.

(** ForceMReg, draws above zero: the value whose cumulative interval contains the draw. *)
Theorem c27_register_positive_draw : forall ps r, nonneg ps -> 0 < r -> 0 < qsum ps ->
  exists k, ForceMReg_draw ps r = (N.of_nat k, prob_of ps k) /\ (k < length ps)%nat /\ 0 < prob_of ps k /\ cum ps k < r /\
    (r <= qsum ps -> r <= cum ps (S k)).
Proof. exact reg_draw_pos. Qed.
Print Assumptions c27_register_positive_draw.
Example c27_register_example : ForceMReg_draw [1 # 4; 0; 1 # 2; 1 # 4] (1 # 2) = (2%N, 1 # 2).
Proof. reflexivity. Qed.

(** The draw zero selects the last value whatever its probability. *)
Theorem c27_register_zero_draw_refuted : exists ps, nonneg ps /\ qsum ps == 1 /\
  exists k, fst (ForceMReg_draw ps 0) = N.of_nat k /\ prob_of ps k == 0.
Proof. exists [1; 0]. split. repeat constructor; discriminate. split. reflexivity. exists 1%nat. split; reflexivity. Qed.
Print Assumptions c27_register_zero_draw_refuted.
Theorem c27_register_zero_draw : forall ps, ForceMReg_draw ps 0 = ((N.of_nat (length ps) - 1)%N, 1).
Proof. exact reg_draw_zero. Qed.
Print Assumptions c27_register_zero_draw.

(** ForceM of several qubits: reads past the array exactly when the draw exceeds the total probability. *)
Theorem c27_bits_out_of_bounds_iff : forall ps r, ps <> [] -> nonneg ps -> (ForceMBits_draw ps r = None <-> qsum ps < r).
Proof. exact bits_draw_oob. Qed.
Print Assumptions c27_bits_out_of_bounds_iff.
Example c27_bits_oob_example : ForceMBits_draw [1 # 2; 1 # 4] (7 # 8) = None /\ ForceMBits_draw [1 # 2; 1 # 4] (3 # 4) = Some (1%N, 1 # 4).
Proof. split; reflexivity. Qed.
Theorem c27_bits_positive_draw : forall ps r, ps <> [] -> nonneg ps -> 0 < r -> r <= qsum ps ->
  exists k, ForceMBits_draw ps r = Some (N.of_nat k, prob_of ps k) /\ (k < length ps)%nat /\ 0 < prob_of ps k /\ cum ps k < r <= cum ps (S k).
Proof. exact bits_draw_pos. Qed.
Print Assumptions c27_bits_positive_draw.
Theorem c27_bits_zero_draw_refuted : exists ps, ps <> [] /\ nonneg ps /\ qsum ps == 1 /\ ForceMBits_draw ps 0 = Some (0%N, 0).
Proof. exists [0; 1]. split. discriminate. split. repeat constructor; discriminate. split; reflexivity. Qed.
Print Assumptions c27_bits_zero_draw_refuted.

(** MAll: always a value with probability above the tolerance when there is one; with zero tolerances the value whose
    cumulative interval contains the draw, zero included. *)
Theorem c27_mall_positive : forall e1 e2 ps r, 0 <= e1 -> (exists p, In p ps /\ e1 < p) ->
  exists k, MAll_draw e1 e2 ps r = N.of_nat k /\ (k < length ps)%nat /\ 0 < prob_of ps k.
Proof. exact mall_draw_pos. Qed.
Print Assumptions c27_mall_positive.
Theorem c27_mall_exact : forall ps r, nonneg ps -> qsum ps == 1 -> 0 <= r < 1 ->
  exists k, MAll_draw 0 0 ps r = N.of_nat k /\ (k < length ps)%nat /\ cum ps k <= r < cum ps (S k).
Proof. exact mall_exact. Qed.
Print Assumptions c27_mall_exact.
Example c27_mall_example : MAll_draw 0 0 [0; 1 # 4; 0; 3 # 4] 0 = 1%N /\ MAll_draw 0 0 [0; 1 # 4; 0; 3 # 4] (1 # 4) = 3%N.
Proof. split; reflexivity. Qed.

(** * C69 *)
(** Several forced bits: the returned mask holds exactly the forced values. *)
Theorem c69_forced_mask : forall bits values, length values = length bits -> NoDup bits ->
  forall i, (i < length bits)%nat -> N.testbit (forced_mask bits values) (nth i bits 0%N) = nth i values false.
Proof. exact forced_mask_bit. Qed.
Print Assumptions c69_forced_mask.
Example c69_forced_mask_example : forced_mask [3; 0; 5]%N [true; false; true] = 40%N.
Proof. reflexivity. Qed.
(** One forced bit: the forced value is ignored. *)
Theorem c69_forced_single_bit_refuted : exists p1 pv r q v, 0 < p1 < 1 /\ 0 <= r < 1 /\
  ForceMBits_forced 0 p1 pv r [q] [v] true = Some (forced_mask [q] [negb v], true).
Proof. exists (1 # 2), (1 # 2), (3 # 4), 2%N, true. split. split; reflexivity. split. split; [discriminate | reflexivity]. reflexivity. Qed.
Print Assumptions c69_forced_single_bit_refuted.
(** Asking not to collapse the state (doApply = false) is ignored when several values are forced. *)
Theorem c69_forced_no_apply_refuted : exists p1 pv r bits values, length values = length bits /\ NoDup bits /\
  ForceMBits_forced 0 p1 pv r bits values false = Some (forced_mask bits values, true).
Proof.
  exists (1 # 2), (1 # 4), 0, [0; 1]%N, [true; true]. split. reflexivity. split.
  - repeat constructor; simpl; intuition discriminate.
  - reflexivity.
Qed.
Print Assumptions c69_forced_no_apply_refuted.
