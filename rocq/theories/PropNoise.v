(** Property theorems C183 to C185: the depolarizing channels of QInterface and QTensorNetwork. *)
From Coq Require Import NArith ZArith QArith Arith List Bool Lia.
From Verif Require Import Amp AmpQ8 SpecState MRot SpecRot MNoise SpecNoise PNoiseProp.
Import ListNotations.
Local Open Scope N_scope.

(** * C183: the weak channel of QInterface *)

(** What the function does, averaged over the outcomes of its measurement: with c = sqrt(1 - sqrt lambda), the density matrix becomes (1 + c)/2 rho + (1 - c)/2 X rho X, for every number of qubits and every state; with lambda = 0 it does nothing.  This is dephasing in the basis of X.  Missing for the full statement: that it depolarizes, which fails. *)
Theorem c183_channel_partial : forall (K : StarRing) (i h : K) (a : ang K) n q (psi : N -> K) x y, root_half h -> is_angle a -> x < 2 ^ n -> y < 2 ^ n -> q < n ->
  let rho := mixture (depol_weak h true a n q psi) x y in
  (rho + rho = (1 + a_c a) * pure psi x y + (1 - a_c a) * pure (gate1 always q (pauli i AxX) psi) x y)%amp /\ mixture (depol_weak h false a n q psi) x y = pure psi x y.
Proof. exact @PNoiseProp.l_c183_channel_partial. Qed.
Print Assumptions c183_channel_partial.

Example c183_hyps : root_half z_h /\ is_angle (@mkAng Q8 0%amp 1%amp) /\ imag_unit z_i.
Proof. split; [|split]; [split|split; [|split]|split]; apply (proj1 (sr_eqb_ok Q8 _ _)); vm_compute; reflexivity. Qed.


(** The documentation (qinterface.hpp:3043-3048) calls it a depolarizing noise channel.  It equals none: for every strength lambda (the angle), and every channel (1 - 3 b) rho + b (X rho X + Y rho Y + Z rho Z) other than the identity, the two differ on the state (|0> + |1>) / sqrt 2, which the function never changes. *)
Theorem c183_depolarizing_refuted : forall (K : StarRing) (i h : K) (a : ang K) (b : K), root_half h -> imag_unit i -> is_angle a -> (b + b + b + b)%amp <> 0%amp ->
  exists psi : N -> K, norm2 1 psi = 1%amp /\ mixture (depol_weak h true a 1 0 psi) 0 1 = pure psi 0 1 /\
    mixture (depol_weak h true a 1 0 psi) 0 1 <> depolarized i (1 - (b + b + b))%amp b 0 psi 0 1.
Proof. exact @PNoiseProp.l_c183_depolarizing_refuted. Qed.
Print Assumptions c183_depolarizing_refuted.

Example c183_refuted_hyps : let b : Q8 := (z_h * z_h * (z_h * z_h))%amp in root_half z_h /\ imag_unit z_i /\ (b + b + b + b = 1)%amp.
Proof. split; [|split]; [split|split|]; apply (proj1 (sr_eqb_ok Q8 _ _)); vm_compute; reflexivity. Qed.


(** * C184: the strong channel of QInterface *)

(** DepolarizingChannelStrong1Qb returns the index of the new qubit, which is the number of qubits before, and keeps the norm; if the new qubit is ignored, the other qubits have the same density matrix as after the weak channel. *)
Theorem c184_strong : forall (K : StarRing) (h : K) (a : ang K) n q (psi : N -> K), root_half h -> is_angle a -> q < n ->
  let r := depol_strong h a n q psi in fst r = n /\ norm2 (n + 1) (snd r) = norm2 n psi /\
  forall x y, x < 2 ^ n -> y < 2 ^ n -> without_last n (snd r) x y = mixture (depol_weak h true a n q psi) x y.
Proof. exact @PNoiseProp.l_c184_strong. Qed.
Print Assumptions c184_strong.

Example c184_example : let a : ang Q8 := mkAng 0%amp 1%amp in let r := depol_strong z_h a 1 0 (ket 0) in forallb (fun x => sr_eqb (anorm (snd r x)) (z_h * z_h * (z_h * z_h))%amp) [0; 1; 2; 3] = true.
Proof. vm_compute. reflexivity. Qed.


(** * C185: the channel of QTensorNetwork *)

(** What the function does: the channel (1 - 3 r) rho + r (X rho X + Y rho Y + Z rho Z) with r = p (1 - p), where p = lambda / 3.  Missing for the full statement: r = p, which fails. *)
Theorem c185_channel_partial : forall (K : StarRing) (i p : K) q (psi : N -> K) x y, imag_unit i ->
  let r := (p * (1 - p))%amp in mixture (depol_tn i true p q psi) x y = depolarized i (1 - (r + r + r))%amp r q psi x y /\ mixture (depol_tn i false p q psi) x y = pure psi x y.
Proof. exact @PNoiseProp.l_c185_channel_partial. Qed.
Print Assumptions c185_channel_partial.

Example c185_hyps : imag_unit z_i /\ let p : Q8 := (z_h * z_h)%amp in mixture (depol_tn z_i true p 0 (ket 0)) 1 1 = (z_h * z_h)%amp.
Proof. split; [split|]; apply (proj1 (sr_eqb_ok Q8 _ _)); vm_compute; reflexivity. Qed.


(** The comment in the code (qtensornetwork.hpp:533-536) says that the channel is (1 - p) rho + (p / 3) (X rho X + Y rho Y + Z rho Z) for the argument p.  The three independent draws can cancel: from |0> the probability of 1 is not 2 p / 3 unless (p / 3)^2 = 0 or 2 = 0. *)
Theorem c185_strength_refuted : forall (K : StarRing) (i p : K), imag_unit i -> (forall u v : K, u + u = v + v -> u = v)%amp -> (p * p)%amp <> 0%amp ->
  mixture (depol_tn i true p 0 (ket 0)) 1 1 <> depolarized i (1 - (p + p + p))%amp p 0 (ket 0) 1 1.
Proof. exact @PNoiseProp.l_c185_strength_refuted. Qed.
Print Assumptions c185_strength_refuted.

Example c185_refuted_hyps : imag_unit (K := GI) (0, 1)%Z /\ (forall u v : GI, u + u = v + v -> u = v)%amp /\ ((1 : GI) * 1)%amp <> 0%amp.
Proof. split; [split; reflexivity|split; [|discriminate]]. intros [a b] [c d] E. injection E as E1 E2. f_equal; lia. Qed.

