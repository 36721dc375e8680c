(** Property theorems C175 to C178: the rotation gates of QInterface. *)
From Coq Require Import NArith ZArith Arith List Bool Lia Reals Lra.
From Verif Require Import Amp AmpC MKernel MEngine SpecState SpecEngine MCircuit SpecCircuit MExpect2 SpecExpect2 MRot SpecRot PRotProp.
Import ListNotations.
Local Open Scope N_scope.

(** The angle of a number of radians, for the examples. *)
Definition radians (t : R) : ang CC := @mkAng CC (cos t, 0%R) (sin t, 0%R).

(** * C175: rotations about the axes *)

(** RX, RY and RZ with the angle 2t apply exp(-i t P), P the Pauli operator of the axis.  If the engine may drop global phases, they do so up to a phase. *)
Theorem c175_rotation : forall (K : StarRing) (c : cfg) rgp n (i : K) P a q (psi : N -> K), imag_unit i -> fits c n -> q < n -> is_angle a ->
  performs c rgp n (R_call rgp i P a q) (gate1 always q (rot i P a)) psi.
Proof. exact @PRotProp.l_c175_rotation. Qed.
Print Assumptions c175_rotation.

Example c175_hyps : imag_unit cc_i /\ fits (mkCfg 4 2) 3 /\ forall t, is_angle (radians t).
Proof.
  split; [split; [exact cc_i_ok|]|split; [vm_compute; repeat split; discriminate|]].
  - cbn. unfold c_conj, c_opp, cc_i. cbn [fst snd]. f_equal. lra.
  - intros t. unfold is_angle, radians. cbn. unfold c_conj, c_mul, c_add. cbn [fst snd]. repeat split; f_equal; try lra. pose proof (sin2_cos2 t) as E. unfold Rsqr in E. lra.
Qed.
Example c175_quarter : rot cc_i AxX (radians (PI / 2)) = @mkMat CC (0, 0)%R (0, -1)%R (0, -1)%R (0, 0)%R.
Proof. unfold rot, radians. cbn [a_c a_s pauli m00 m01 m10 m11]. rewrite cos_PI2, sin_PI2. cbn. unfold c_sub, c_mul, c_opp, c_add, cc_i; cbn [fst snd]. f_equal; f_equal; lra. Qed.


(** Two rotations about the same axis make the rotation by the sum of the angles. *)
Theorem c175_addition : forall (K : StarRing) (c : cfg) rgp n (i : K) P a b q (psi : N -> K), imag_unit i -> fits c n -> q < n -> is_angle a -> is_angle b ->
  performs c rgp n (R_call rgp i P a q ++ R_call rgp i P b q) (gate1 always q (rot i P (ang_add a b))) psi.
Proof. exact @PRotProp.l_c175_addition. Qed.
Print Assumptions c175_addition.

Example c175_sum : forall t u, ang_add (radians t) (radians u) = radians (t + u).
Proof. intros t u. unfold ang_add, radians. cbn [a_c a_s]. rewrite cos_plus, sin_plus. cbn. unfold c_sub, c_mul, c_add, c_opp; cbn [fst snd]. f_equal; f_equal; lra. Qed.


(** A rotation is undone by the rotation with the negative angle. *)
Theorem c175_inverse : forall (K : StarRing) (c : cfg) rgp n (i : K) P a q (psi : N -> K), imag_unit i -> fits c n -> q < n -> is_angle a ->
  performs c rgp n (R_call rgp i P a q ++ R_call rgp i P (ang_neg a) q) (fun p => p) psi.
Proof. exact @PRotProp.l_c175_inverse. Qed.
Print Assumptions c175_inverse.

Example c175_neg : forall t, ang_neg (radians t) = radians (- t).
Proof. intros t. unfold ang_neg, radians. cbn [a_c a_s]. rewrite cos_neg, sin_neg. cbn. unfold c_opp; cbn [fst snd]. f_equal; f_equal; lra. Qed.


(** CRY and CRZ apply the same rotation where the control is 1, and leave the other amplitudes. *)
Theorem c175_controlled : forall (K : StarRing) (c : cfg) rgp n (i : K) a ctl t (psi : N -> K), imag_unit i -> fits c n -> ctl <> t -> ctl < n -> t < n ->
  performs c rgp n (qi_CRY a ctl t) (gate1 (all_set [ctl]) t (rot i AxY a)) psi /\
  performs c rgp n (qi_CRZ i a ctl t) (gate1 (all_set [ctl]) t (rot i AxZ a)) psi.
Proof. exact @PRotProp.l_c175_controlled. Qed.
Print Assumptions c175_controlled.

Example c175_controlled_example : gate1 (all_set [1]) 0 (rot (K := GI) (0, 1)%Z AxY (@mkAng GI (0, 0)%Z (1, 0)%Z)) (ket 2) 3 = (1, 0)%Z /\ gate1 (all_set [1]) 0 (rot (K := GI) (0, 1)%Z AxY (@mkAng GI (0, 0)%Z (1, 0)%Z)) (ket 0) 0 = (1, 0)%Z.
Proof. split; vm_compute; reflexivity. Qed.


(** UniformlyControlledRY and UniformlyControlledRZ rotate by the angle whose index is the value of the controls, the first control being the lowest bit. *)
Theorem c175_uniform : forall (K : StarRing) (c : cfg) rgp n (i : K) cs t angles (psi : N -> K), imag_unit i -> fits c n -> NoDup (cs ++ [t]) -> (forall q, In q (cs ++ [t]) -> q < n) -> (forall k, is_angle (angles k)) ->
  performs c rgp n (qi_UCRY cs t angles) (fun p x => gate1 always t (rot i AxY (angles (ctrl_value 0 cs x))) p x) psi /\
  performs c rgp n (qi_UCRZ i cs t angles) (fun p x => gate1 always t (rot i AxZ (angles (ctrl_value 0 cs x))) p x) psi.
Proof. exact @PRotProp.l_c175_uniform. Qed.
Print Assumptions c175_uniform.

Example c175_uniform_hyps : NoDup ([2; 0] ++ [1]) /\ (forall q, In q ([2; 0] ++ [1]) -> q < 3) /\ map (ctrl_value 0 [2; 0]) [0; 1; 4; 5] = [0; 2; 1; 3].
Proof. split. repeat constructor; cbn; intuition discriminate. split; [|reflexivity]. intros q Hq; cbn in Hq; repeat (destruct Hq as [<-|Hq]; [reflexivity|]); destruct Hq. Qed.


(** * C176: the sense of RT, CRX and the exponentials *)

(** RT with the angle 2t multiplies the amplitudes where the qubit is 1 by exp(i t).  Missing for the full statement: the documented factor is exp(-i t), and RT does not apply it. *)
Theorem c176_rt_partial : forall (K : StarRing) (c : cfg) rgp n (i : K) a q (psi : N -> K), imag_unit i -> fits c n -> q < n -> is_angle a ->
  performs c rgp n (qi_RT rgp i a q) (gate1 always q (mkMat 1%amp 0%amp 0%amp (expi i a))) psi.
Proof. exact @PRotProp.l_c176_rt_partial. Qed.
Print Assumptions c176_rt_partial.

(** The documentation (qinterface.hpp:1503-1508, rotational.cpp:170) says that RT "rotates as e^(-i theta/2) around |1>"; with theta = pi it multiplies |1> by i and not by -i, which shows on a superposition even up to a global phase. *)
Theorem c176_rt_refuted : forall (c : cfg) rgp, fits c 1 -> let i : GI := (0, 1)%Z in let a := @mkAng GI (0, 0)%Z (1, 0)%Z in is_angle a /\ ~ performs c rgp 1 (qi_RT rgp i a 0) (gate1 always 0 (mkMat 1%amp 0%amp 0%amp (sr_conj (expi i a)))) (fun _ => 1%amp).
Proof. exact @PRotProp.l_c176_rt_refuted. Qed.
Print Assumptions c176_rt_refuted.

Example c176_rt_hyps : fits (mkCfg 4 2) 1.
Proof. vm_compute; repeat split; discriminate. Qed.


(** CRX with the angle 2t applies exp(i t X) where the control is 1, the rotation by the negative angle.  Missing for the full statement: the direction. *)
Theorem c176_crx_partial : forall (K : StarRing) (c : cfg) rgp n (i : K) a ctl t (psi : N -> K), imag_unit i -> fits c n -> ctl <> t -> ctl < n -> t < n ->
  performs c rgp n (qi_CRX i a ctl t) (gate1 (all_set [ctl]) t (rot i AxX (ang_neg a))) psi.
Proof. exact @PRotProp.l_c176_crx_partial. Qed.
Print Assumptions c176_crx_partial.

(** CRX (rotational.cpp:276-284) is not RX under a control: RX has -i sin off the diagonal (177-184) and CRX has +i sin. *)
Theorem c176_crx_refuted : forall (c : cfg) rgp, fits c 2 -> let i : GI := (0, 1)%Z in let a := @mkAng GI (0, 0)%Z (1, 0)%Z in is_angle a /\ ~ performs c rgp 2 (qi_CRX i a 0 1) (gate1 (all_set [0]) 1 (rot i AxX a)) (fun _ => 1%amp).
Proof. exact @PRotProp.l_c176_crx_refuted. Qed.
Print Assumptions c176_crx_refuted.

(** ExpX, ExpY and ExpZ with the angle t apply exp(i t) times the Pauli operator.  Missing for the full statement: the documented exponential of the operator, for which it fails. *)
Theorem c176_exp_partial : forall (K : StarRing) (c : cfg) rgp n (i : K) P a q (psi : N -> K), imag_unit i -> fits c n -> q < n -> is_angle a -> let p := pauli i P in let e := expi i a in
  performs c rgp n (match P with AxX => qi_ExpX i a q | AxY => qi_ExpY i a q | AxZ => qi_ExpZ rgp i a q end) (gate1 always q (mkMat (e * m00 p) (e * m01 p) (e * m10 p) (e * m11 p))%amp) psi.
Proof. exact @PRotProp.l_c176_exp_partial. Qed.
Print Assumptions c176_exp_partial.

(** ExpX, ExpY and ExpZ (rotational.cpp:248-266) are documented to apply exp(-i t P) (qinterface.hpp:1586-1607); with the angle 0 that is the identity, and they apply the Pauli operator. *)
Theorem c176_exp_refuted : forall (c : cfg) rgp P, fits c 1 -> let i : GI := (0, 1)%Z in let a := @mkAng GI (1, 0)%Z (0, 0)%Z in let q := 0 in is_angle a /\ exists psi : N -> GI,
  ~ performs c rgp 1 (match P with AxX => qi_ExpX i a q | AxY => qi_ExpY i a q | AxZ => qi_ExpZ rgp i a q end) (gate1 always q (rot i P a)) psi.
Proof. exact @PRotProp.l_c176_exp_refuted. Qed.
Print Assumptions c176_exp_refuted.

(** * C177: U, CU and AntiCU *)

(** U applies the standard matrix of its three angles; CU applies it where every control is 1 and AntiCU where every control is 0. *)
Theorem c177_u : forall (K : StarRing) (c : cfg) rgp n u cs t (psi : N -> K), fits c n -> NoDup (cs ++ [t]) -> (forall q, In q (cs ++ [t]) -> q < n) -> angles u ->
  performs c rgp n (qi_U u t) (gate1 always t (u_std u)) psi /\ performs c rgp n (qi_CU u cs t) (gate1 (all_set cs) t (u_std u)) psi /\
  (cs <> [] -> performs c rgp n (qi_AntiCU u cs t) (gate1 (all_clear cs) t (u_std u)) psi).
Proof. exact @PRotProp.l_c177_u. Qed.
Print Assumptions c177_u.

Example c177_hyps : let u := @mkU GI (0, 0)%Z (1, 0)%Z (0, 1)%Z (-1, 0)%Z in angles u /\ NoDup ([2; 0] ++ [1]) /\ (forall q, In q ([2; 0] ++ [1]) -> q < 3) /\ u_std u = @mkMat GI (0, 0)%Z (1, 0)%Z (0, 1)%Z (0, 0)%Z.
Proof. split; [repeat split|]. split. repeat constructor; cbn; intuition discriminate. split; [|reflexivity]. intros q Hq; cbn in Hq; repeat (destruct Hq as [<-|Hq]; [reflexivity|]); destruct Hq. Qed.


(** * C178: azimuth and inclination *)

(** AI takes a qubit in |0> to cos(inclination/2) |0> + exp(i azimuth) sin(inclination/2) |1>, whatever the state of the other qubits. *)
Theorem c178_prepares : forall (K : StarRing) (c : cfg) rgp n (i : K) az inc t (psi : N -> K), imag_unit i -> fits c n -> t < n -> is_angle az -> is_angle inc -> (forall x, N.testbit x t = true -> psi x = 0%amp) ->
  performs c rgp n (qi_AI i az inc t) (fun p x => if N.testbit x t then (expi i az * a_s inc * p (N.clearbit x t))%amp else (a_c inc * p x)%amp) psi.
Proof. exact @PRotProp.l_c178_prepares. Qed.
Print Assumptions c178_prepares.

Example c178_hyps : forall x, N.testbit x 1 = true -> (ket 5 : N -> GI) x = 0%amp.
Proof. intros x H. unfold ket. destruct (N.eqb_spec x 5); auto. subst. discriminate. Qed.


(** AI is the rotation by the inclination about the y axis turned about the z axis by the azimuth: RZ(azimuth) RY(inclination) RZ(-azimuth). *)
Theorem c178_axes : forall (K : StarRing) (c : cfg) rgp n (i : K) half inc t (psi : N -> K), imag_unit i -> fits c n -> t < n -> is_angle half -> is_angle (ang_add half half) -> is_angle inc ->
  performs c rgp n (qi_AI i (ang_add half half) inc t) (fun p => gate1 always t (rot i AxZ half) (gate1 always t (rot i AxY inc) (gate1 always t (rot i AxZ (ang_neg half)) p))) psi.
Proof. exact @PRotProp.l_c178_axes. Qed.
Print Assumptions c178_axes.

Example c178_half : forall t, ang_add (radians (t / 2)) (radians (t / 2)) = radians t.
Proof. intros t. rewrite c175_sum. f_equal. lra. Qed.


(** IAI undoes AI. *)
Theorem c178_inverse : forall (K : StarRing) (c : cfg) rgp n (i : K) recip az inc t (psi : N -> K), imag_unit i -> recip 1%amp = 1%amp -> fits c n -> t < n -> is_angle az -> is_angle inc ->
  performs c rgp n (qi_AI i az inc t ++ qi_IAI recip i az inc t) (fun p => p) psi.
Proof. exact @PRotProp.l_c178_inverse. Qed.
Print Assumptions c178_inverse.

(** CAI and AntiCAI act as AI where the control is 1, respectively 0; CIAI and AntiCIAI undo them. *)
Theorem c178_controlled : forall (K : StarRing) (c : cfg) rgp n (i : K) recip az inc ctl t (psi : N -> K), imag_unit i -> recip 1%amp = 1%amp -> fits c n -> ctl <> t -> ctl < n -> t < n -> is_angle az -> is_angle inc ->
  let m := mkMat (a_c inc) (- (sr_conj (expi i az) * a_s inc))%amp (expi i az * a_s inc)%amp (a_c inc) in
  performs c rgp n (qi_CAI i az inc ctl t) (gate1 (all_set [ctl]) t m) psi /\ performs c rgp n (qi_CAI i az inc ctl t ++ qi_CIAI recip i az inc ctl t) (fun p => p) psi /\
  performs c rgp n (qi_AntiCAI i az inc ctl t) (gate1 (all_clear [ctl]) t m) psi /\ performs c rgp n (qi_AntiCAI i az inc ctl t ++ qi_AntiCIAI recip i az inc ctl t) (fun p => p) psi.
Proof. exact @PRotProp.l_c178_controlled. Qed.
Print Assumptions c178_controlled.

Example c178_controlled_hyps : let az := @mkAng GI (0, 0)%Z (1, 0)%Z in is_angle az /\ imag_unit (K := GI) (0, 1)%Z /\ fits (mkCfg 4 2) 3 /\ m_AI (K := GI) (0, 1)%Z az az = @mkMat GI (0, 0)%Z (0, 1)%Z (0, 1)%Z (0, 0)%Z.
Proof. split; [repeat split|]. split; [split; reflexivity|]. split; [vm_compute; repeat split; discriminate|reflexivity]. Qed.

