(** Property theorems C149 to C154: QNeuron. *)
From Coq Require Import NArith ZArith List Bool Reals Lra Lia.
From Verif Require Import Amp AmpC AmpC2 AmpQ8 SpecState MTensor MNeuron SpecNeuron PNeuronI PNeuronProp.
Import ListNotations.
Local Open Scope N_scope.

(** * C149: Unpredict and LearnCycle *)

(** Unpredict after Predict gives back the state of the register from before (with reset: the state after the reset), and answers for it. *)
Theorem c149_unpredict : forall (K : StarRing) (G : angles K) (c : @ncfg K) n, trig G -> forall e e2 (b : bool) r psi d, sound G n r -> let psi0 := if b then fst (reset_out G c n (nr_out G r) d psi) else psi in let '(p, psi1, d1) := predict G c n e b r psi d in let '(p2, psi2) := unpredict G n e2 r psi1 in (forall x, psi2 x = psi0 x) /\ p2 = for_expected e2 (weight_of n (fun x => N.testbit x (nr_out G r)) psi0).
Proof. exact @PNeuronProp.l_c149_unpredict. Qed.
Print Assumptions c149_unpredict.

Example c149_hyps : trig (angZ 1) /\ sound (angZ 1) 3 four /\ trig (angR (fun a => a) (fun a => a) 1%R).
Proof. split; [exact (trigZ 1)|]. split; [exact four_sound|apply trigR]. Qed.


(** LearnCycle answers what Predict without reset answers, and does not change the register. *)
Theorem c149_cycle : forall (K : StarRing) (G : angles K) (c : @ncfg K) n, trig G -> forall e r psi d, sound G n r -> let '(p, psi1, d1) := learn_cycle G c n e r psi d in (forall x, psi1 x = psi x) /\ p = fst (fst (predict G c n e false r psi d)) /\ d1 = d.
Proof. exact @PNeuronProp.l_c149_cycle. Qed.
Print Assumptions c149_cycle.

(** * C150: Predict *)

(** With the output qubit in state 0, Predict rotates the output qubit, for each value of the inputs, by pi / 2 and the activation of the angle of this value; the answer is the mean over the values of the inputs. *)
Theorem c150_predict : forall (K : StarRing) (G : angles K) (c : @ncfg K) n, trig G -> (1 <> 0 :> K)%amp -> nc_nrm c 1%amp = 1%amp -> forall e r psi d, sound G n r -> (forall x, x < 2 ^ n -> N.testbit x (nr_out G r) = true -> psi x = 0%amp) -> let '(p, psi1, d1) := predict G c n e true r psi d in p = for_expected e (predicted G n r psi) /\ eqv n psi1 (predicted_state G r psi).
Proof. exact @PNeuronProp.l_c150_predict. Qed.
Print Assumptions c150_predict.

Example c150_hyps : (1 <> 0 :> Q8)%amp /\ nc_nrm (ncQ8 0%amp nrmQ8) 1%amp = 1%amp /\ (forall x, x < 2 ^ 3 -> N.testbit x (nr_out (angZ 1) four) = true -> quarter_state x = 0%amp).
Proof. split; [discriminate|]. split; [reflexivity|]. intros x Hx B. unfold quarter_state. destruct (N.ltb_spec x 4) as [L|L]; [|reflexivity]. cbn in B. rewrite N.testbit_eqb, (N.div_small x (2 ^ 2) L) in B. discriminate B. Qed.


(** A new neuron, whose activation is 0 at 0, answers 1/2 for every state with the output qubit in state 0. *)
Theorem c150_untrained : forall (K : StarRing) (G : angles K) (c : @ncfg K) n, trig G -> (1 <> 0 :> K)%amp -> nc_nrm c 1%amp = 1%amp -> forall e ins out f psi d, NoDup (out :: ins) -> (forall q, In q (out :: ins) -> q < n) -> act G f (a_0 G) = a_0 G -> norm2 n psi = 1%amp -> (forall x, x < 2 ^ n -> N.testbit x out = true -> psi x = 0%amp) -> let p := fst (fst (predict G c n e true (new_neuron G ins out f) psi d)) in (p + p = 1)%amp.
Proof. exact @PNeuronProp.l_c150_untrained. Qed.
Print Assumptions c150_untrained.

Example c150_untrained_hyps : NoDup [2; 0; 1] /\ norm2 3 quarter_state = 1%amp /\ (forall f alpha, act (angZ alpha) f 0%Z = 0%Z).
Proof. split; [repeat constructor; cbn; intuition discriminate|]. split; [apply sr_eqb_ok; vm_compute; reflexivity|]. intros f alpha. destruct f; try reflexivity. unfold act, a_max. cbn [a_ltb a_scale angZ]. now rewrite Z.mul_0_r. Qed.


(** * C151: Learn *)

(** Learn does not lower the answer for the expected output, and leaves the register as it is after the reset; for every rate, and every activation whose rotation does not change when the angle is clamped.  Missing: the other activations (see below). *)
Theorem c151_learn_partial : forall (K : StarRing) (G : angles K) (c : @ncfg K) n, trig G -> order_ok c -> forall step e (b : bool) r psi d, sound G n r -> (forall a, let f := nr_fn G r in a_cos G (act G f (a_clamp G a)) = a_cos G (act G f a) /\ a_sin G (act G f (a_clamp G a)) = a_sin G (act G f a)) -> let '(p, _, _) := predict G c n e b r psi d in let '(r2, psi2, d2) := learn G c n step e b r psi d in let '(p2, _, _) := predict G c n e false r2 psi2 d2 in nc_leb c p p2 = true /\ (forall x, psi2 x = (if b then fst (reset_out G c n (nr_out G r) d psi) else psi) x).
Proof. exact @PNeuronProp.l_c151_learn_partial. Qed.
Print Assumptions c151_learn_partial.

Example c151_hyps : order_ok (ncQ8 0%amp nrmQ8) /\ order_ok (ncCC (fun _ _ => true) (fun x => x) 0%R).
Proof. split; [apply orderQ8|apply orderCC]. Qed.


(** In particular with the activation Sigmoid, the default. *)
Theorem c151_sigmoid_partial : forall (K : StarRing) (G : angles K) (c : @ncfg K) n, trig G -> order_ok c -> forall step e (b : bool) r psi d, sound G n r -> nr_fn G r = Sigmoid -> let '(p, _, _) := predict G c n e b r psi d in let '(r2, psi2, d2) := learn G c n step e b r psi d in let '(p2, _, _) := predict G c n e false r2 psi2 d2 in nc_leb c p p2 = true.
Proof. exact @PNeuronProp.l_c151_sigmoid_partial. Qed.
Print Assumptions c151_sigmoid_partial.

(** With other activations Learn lowers it.  LearnInternal (include/qneuron.hpp:326-330) reduces the angle by multiples of 4 pi after the trial that reached the goal; the activation of the reduced angle is another one.  Leaky_ReLU with alpha 3 and angle 3 pi: 1/2 before Learn(1/2), 0 after it.  ReLU with angle 2 pi: the trial with 5/2 pi reaches 1, but the angle becomes -3/2 pi and the answer stays 1/2; calling Learn again changes nothing. *)
Theorem c151_clamp_refuted : let c := ncQ8 0%amp nrmQ8 in let value r := fst (fst (predict (angZ 3) c 1 true true r (ket 0) 0)) in let learned r := fst (fst (learn (angZ 3) c 1 1%Z true true r (ket 0) 0)) in trig (angZ 3) /\ order_ok c /\ sound (angZ 3) 1 leaky6 /\ value leaky6 = (z_h * z_h)%amp /\ value (learned leaky6) = 0%amp /\ value (relu 4) = (z_h * z_h)%amp /\ value (relu 5) = 1%amp /\ (nr_ang (angZ 3) (learned (relu 4)) : list Z) = [-3]%Z /\ value (relu (-3)) = (z_h * z_h)%amp /\ (nr_ang (angZ 3) (learned (relu (-3))) : list Z) = [-3]%Z.
Proof. exact @PNeuronProp.l_c151_clamp_refuted. Qed.
Print Assumptions c151_clamp_refuted.

(** * C152: LearnPermutation *)

(** LearnPermutation on a basis state does not lower the answer for the expected output (Sigmoid).  Missing: superpositions of the inputs (see below). *)
Theorem c152_basis_partial : forall (K : StarRing) (G : angles K) (c : @ncfg K) n, trig G -> (1 <> 0 :> K)%amp -> nc_nrm c 1%amp = 1%amp -> order_ok c -> forall step e r x d, sound G n r -> nr_fn G r = Sigmoid -> x < 2 ^ n -> let '(p, _, _) := predict G c n e true r (ket x) d in let '(r2, psi2, d2) := learn_permutation G c n step e true r (ket x) d in let '(p2, _, _) := predict G c n e false r2 psi2 d2 in nc_leb c p p2 = true.
Proof. exact @PNeuronProp.l_c152_basis_partial. Qed.
Print Assumptions c152_basis_partial.

(** In a superposition of the inputs it does: the answers after the measurement of the inputs are compared with the mean before the measurement (include/qneuron.hpp:302-315).  Two inputs in an equal superposition, the value 0 of the inputs gives 1 and the others 0; the measurement gives 0; then both trials give 1/2, which is more than 1/4, and one of them is kept. *)
Theorem c152_superposition_refuted : let G := angZ 1 in let c := ncQ8 0%amp nrmQ8 in let value r := fst (fst (predict G c 3 true true r (ket 0) 0)) in let r2 := fst (fst (learn_permutation G c 3 1%Z true true four quarter_state 0)) in trig G /\ order_ok c /\ sound G 3 four /\ norm2 3 quarter_state = 1%amp /\ value four = 1%amp /\ value r2 = (z_h * z_h)%amp.
Proof. exact @PNeuronProp.l_c152_superposition_refuted. Qed.
Print Assumptions c152_superposition_refuted.

(** * C153: training *)

(** A new neuron (Sigmoid) trained with rate 1/2 on basis states, in any order and any number of times, by Learn or LearnPermutation, answers 1 for the expected output of every value of the inputs it was trained on, and 1/2 for the others.  The tolerance is at least 0 and less than 1/2. *)
Theorem c153_training : forall (K : StarRing) (G : angles K) (c : @ncfg K) n, trig G -> (1 <> 0 :> K)%amp -> nc_nrm c 1%amp = 1%amp -> (forall x, nc_leb c x x = true) -> let half := (a_sin G (a_half_pi G) * a_sin G (a_half_pi G))%amp in nc_leb c 0%amp (nc_tol c) = true -> nc_leb c half (nc_tol c) = false -> nc_leb c 1%amp (nc_tol c) = false -> forall ins out perm f xs d, NoDup (out :: ins) -> (forall q, In q (out :: ins) -> q < n) -> (forall x, In x xs -> x < 2 ^ n) -> let r := train G c n perm f xs (new_neuron G ins out Sigmoid) d in (half + half = 1)%amp /\ forall e x d2, x < 2 ^ n -> let v := ctrl_value 0 ins x in fst (fst (predict G c n e true r (ket x) d2)) = for_expected e (if existsb (N.eqb v) (map (ctrl_value 0 ins) xs) then if f v then 1 else 0 else half)%amp.
Proof. exact @PNeuronProp.l_c153_training. Qed.
Print Assumptions c153_training.

Example c153_hyps : let c := ncQ8 (z_h * z_h * (z_h * z_h))%amp nrmQ8 in let half := (sinZ 1 * sinZ 1)%amp in nc_leb c 0%amp (nc_tol c) = true /\ nc_leb c half (nc_tol c) = false /\ nc_leb c 1%amp (nc_tol c) = false.
Proof. repeat split. Qed.
Example c153_example : let c := ncQ8 0%amp nrmQ8 in let r := train (angZ 1) c 2 false (fun v => v =? 1) [0; 2] (new_neuron (angZ 1) [1] 0 Sigmoid) 0 in (nr_ang (angZ 1) r : list Z) = [-1; 1]%Z.
Proof. vm_compute. reflexivity. Qed.


(** * C154: copies *)

(** Copying a neuron, or assigning it to one with as many angles, gives an equal neuron.  Missing: neurons with different numbers of inputs (see below). *)
Theorem c154_copies_partial : forall (K : StarRing) (G : angles K) n r, sound G n r -> nr_pow G r = 2 ^ N.of_nat (length (nr_in G r)) -> copy_neuron G r = Ret r /\ forall r2, sound G n r2 -> nr_pow G r2 = nr_pow G r -> assign G r2 r = Ret r.
Proof. exact @PNeuronProp.l_c154_copies_partial. Qed.
Print Assumptions c154_copies_partial.

Example c154_hyps : nr_pow (angZ 1) four = 2 ^ N.of_nat (length (nr_in (angZ 1) four)) /\ sound (angZ 1) 3 (new_neuron (angZ 1) [2; 1] 0 ReLU) /\ nr_pow (angZ 1) (new_neuron (angZ 1) [2; 1] 0 ReLU) = nr_pow (angZ 1) four.
Proof. split; [reflexivity|]. split; [|reflexivity]. split; [repeat constructor; cbn; intuition discriminate|]. split; [intros q [<-|[<-|[<-|[]]]]; reflexivity|]. split; [reflexivity|discriminate]. Qed.


(** Assigning a new neuron with more inputs writes past the end of the array of angles (include/qneuron.hpp:109). *)
Theorem c154_larger_refuted : forall (K : StarRing) (G : angles K) ins out f ins2 out2 f2, (length ins < length ins2)%nat -> assign G (new_neuron G ins out f) (new_neuron G ins2 out2 f2) = Undef.
Proof. exact @PNeuronProp.l_c154_larger_refuted. Qed.
Print Assumptions c154_larger_refuted.

(** After assigning a new neuron with fewer inputs, GetInputPower does not fit GetInputCount, and copying the result writes past the end of the new array (include/qneuron.hpp:98-103). *)
Theorem c154_smaller_refuted : forall (K : StarRing) (G : angles K) ins out f ins2 out2 f2, (length ins2 < length ins)%nat -> exists r, assign G (new_neuron G ins out f) (new_neuron G ins2 out2 f2) = Ret r /\ nr_in G r = ins2 /\ nr_pow G r <> 2 ^ N.of_nat (length (nr_in G r)) /\ copy_neuron G r = Undef.
Proof. exact @PNeuronProp.l_c154_smaller_refuted. Qed.
Print Assumptions c154_smaller_refuted.
