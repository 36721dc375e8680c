(** Property theorems C165 to C168: the masked gates, ZeroPhaseFlip, the controlled square roots of Swap and TimeEvolve, from
    QInterface's own bodies over the state-vector engine.  The conventions are those of PropCircuits.v. *)
From Coq Require Import NArith ZArith List Bool Lia Reals Lra.
From Verif Require Import MFunctions SpecFunctions MParFor SpecParFor MKernel Amp AmpC SpecState MEngine SpecEngine MAlu SpecAlu MCircuit SpecCircuit MCircuit2 SpecCircuit2 PCircuit PCirc2Prop PCirc2Ex.
Import ListNotations.
Local Open Scope N_scope.

(** * C165: the masked gates *)

(** XMask is X on every qubit of the mask. *)
Theorem c165_xmask : forall (K : StarRing) (c : cfg) rgp n mask (psi : mem K), fits c n -> mask < 2 ^ n ->
  every_run (crun c rgp n (qi_XMask mask) (Some psi)) (fun r => exists psi', r = Ok (Some psi') /\ eqv n psi' (on_all mat_x (bits_of mask) psi)).
Proof. exact @PCirc2Prop.l_c165_xmask. Qed.
Print Assumptions c165_xmask.

Example c165_hyps : fits (mkCfg 4 2) 5 /\ 22 < 2 ^ 5 /\ bits_of 22 = [1; 2; 4].
Proof. split; [vm_compute; repeat split; discriminate|]. split; reflexivity. Qed.
Example c165_x_example : map (on_all (mat_x : mat2 GI) (bits_of 22) (ket 22)) [0; 1; 22] = [1; 0; 0]%amp.
Proof. vm_compute. reflexivity. Qed.


(** ZMask is Z on every qubit of the mask. *)
Theorem c165_zmask : forall (K : StarRing) (c : cfg) rgp n mask (psi : mem K), fits c n -> mask < 2 ^ n ->
  every_run (crun c rgp n (qi_ZMask rgp mask) (Some psi)) (fun r => exists psi', r = Ok (Some psi') /\ eqv n psi' (on_all (mat_ph (- (1))%amp) (bits_of mask) psi)).
Proof. exact @PCirc2Prop.l_c165_zmask. Qed.
Print Assumptions c165_zmask.

Example c165_z_example : map (on_all (mat_ph (- (1))%amp : mat2 GI) (bits_of 22) (fun _ => 1%amp)) [2; 6; 22; 9] = [- (1); 1; - (1); 1]%amp.
Proof. vm_compute. reflexivity. Qed.


(** PhaseRootNMask puts the phase of the root on every qubit of the mask. *)
Theorem c165_rootmask : forall (K : StarRing) (c : cfg) rgp n (root : N -> K) k mask (psi : mem K), fits c n -> mask < 2 ^ n -> k <> 0 ->
  every_run (crun c rgp n (qi_PhaseRootNMask rgp root k mask) (Some psi)) (fun r => exists psi', r = Ok (Some psi') /\ eqv n psi' (on_all (mat_ph (root k)) (bits_of mask) psi)).
Proof. exact @PCirc2Prop.l_c165_rootmask. Qed.
Print Assumptions c165_rootmask.

Example c165_root_hyps : fits (mkCfg 4 2) 5 /\ 22 < 2 ^ 5 /\ 2 <> 0.
Proof. split; [vm_compute; repeat split; discriminate|]. split; [reflexivity|discriminate]. Qed.


(** YMask is Y on every qubit of the mask, exactly when the global phase is not random, and up to a phase otherwise. *)
Theorem c165_ymask : forall (K : StarRing) (c : cfg) rgp n (i : K) mask (psi : mem K), fits c n -> (i * i = - (1))%amp -> 0 < mask < 2 ^ n ->
  every_run (crun c rgp n (qi_YMask rgp i mask) (Some psi)) (fun r => exists psi' g, r = Ok (Some psi') /\ (forall x, x < 2 ^ n -> on_all (mat_y i) (bits_of mask) psi x = (g * psi' x)%amp) /\
    (rgp = false -> g = 1%amp) /\ (sr_conj i = - i -> anorm g = 1)%amp).
Proof. exact @PCirc2Prop.l_c165_ymask. Qed.
Print Assumptions c165_ymask.

Example c165_y_hyps : fits (mkCfg 4 2) 5 /\ (cc_i * cc_i = - (1))%amp /\ 0 < 22 < 2 ^ 5 /\ sr_conj cc_i = (- cc_i)%amp.
Proof. split; [vm_compute; repeat split; discriminate|]. split; [exact cc_i_ok|]. split; [lia|]. cbn. unfold c_conj, c_opp, cc_i; cbn [fst snd]. f_equal. ring. Qed.
Example c165_y_example : map (on_all (@mat_y GI (0, 1)%Z) (bits_of 22) (fun _ => 1%amp)) [0; 2; 6; 22] = [(0, 1); (0, -1); (0, 1); (0, -1)]%Z.
Proof. vm_compute. reflexivity. Qed.


(** The generic PhaseParity multiplies the basis states of odd parity on the mask by [ep] and those of even parity by [em]; a scalar is dropped only when the two phases agree and the global phase is random. *)
Theorem c165_parity : forall (K : StarRing) (c : cfg) rgp n (em ep : K) mask (psi : mem K), fits c n -> mask < 2 ^ n -> mask <> 0 ->
  every_run (crun c rgp n (qi_PhaseParity rgp em ep mask) (Some psi)) (fun r => exists psi' g, r = Ok (Some psi') /\ (forall x, x < 2 ^ n -> parity_phase mask ep em psi x = (g * psi' x)%amp) /\
    (g = 1%amp \/ rgp = true /\ g = em /\ g = ep)).
Proof. exact @PCirc2Prop.l_c165_parity. Qed.
Print Assumptions c165_parity.

Example c165_parity_hyps : fits (mkCfg 4 2) 5 /\ 22 < 2 ^ 5 /\ 22 <> 0.
Proof. split; [vm_compute; repeat split; discriminate|]. split; [reflexivity|discriminate]. Qed.
Example c165_parity_example : map (@parity_phase GI 22 (0, 1)%Z (0, -1)%Z (fun _ => 1%amp)) [0; 2; 6; 22; 9] = [(0, -1); (0, 1); (0, -1); (0, 1); (0, -1)]%Z.
Proof. vm_compute. reflexivity. Qed.


(** * C166: ZeroPhaseFlip *)

(** ZeroPhaseFlip changes the sign exactly of the basis states whose register is 0. *)
Theorem c166_zero_flip : forall (K : StarRing) (c : cfg) rgp n s len (psi : mem K), fits c n -> 0 < len -> s + len <= n ->
  every_run (crun c rgp n (qi_ZeroPhaseFlip rgp s len) (Some psi)) (fun r => exists psi', r = Ok (Some psi') /\ eqv n psi' (flip_zero s len psi)).
Proof. exact @PCirc2Prop.l_c166_zero_flip. Qed.
Print Assumptions c166_zero_flip.

Example c166_hyps : fits (mkCfg 4 2) 5 /\ 0 < 3 /\ 1 + 3 <= 5.
Proof. split; [vm_compute; repeat split; discriminate|]. lia. Qed.
Example c166_example : map (flip_zero 1 3 (fun _ => 1%amp : GI)) [0; 1; 2; 8; 16; 17] = [- (1); - (1); 1; 1; - (1); - (1)]%amp.
Proof. vm_compute. reflexivity. Qed.


(** * C167: the controlled square roots of Swap *)

(** CSqrtSwap and CISqrtSwap act by the square root of the exchange, and its inverse, where every control is 1; the AntiC forms where every control is 0. *)
Theorem c167_csqrtswap : forall (K : StarRing) (c : cfg) rgp n (h i : K) cs q1 q2 (psi : mem K), fits c n -> ((1 + 1) * (h * h) = 1)%amp -> (i * i = - (1))%amp -> ctl_ok n cs [q1; q2] -> q1 <> q2 -> q1 < n -> q2 < n ->
  every_run (crun c rgp n (qi_CSqrtSwap rgp h i cs q1 q2) (Some psi)) (fun r => exists psi', r = Ok (Some psi') /\ eqv n psi' (gate_swap (all_set cs) q1 q2 (sqrt_swap_mat h i) psi)) /\
  every_run (crun c rgp n (qi_CISqrtSwap h i cs q1 q2) (Some psi)) (fun r => exists psi', r = Ok (Some psi') /\ eqv n psi' (gate_swap (all_set cs) q1 q2 (isqrt_swap_mat h i) psi)) /\
  every_run (crun c rgp n (qi_AntiCSqrtSwap rgp h i cs q1 q2) (Some psi)) (fun r => exists psi', r = Ok (Some psi') /\ eqv n psi' (gate_swap (all_clear cs) q1 q2 (sqrt_swap_mat h i) psi)) /\
  every_run (crun c rgp n (qi_AntiCISqrtSwap h i cs q1 q2) (Some psi)) (fun r => exists psi', r = Ok (Some psi') /\ eqv n psi' (gate_swap (all_clear cs) q1 q2 (isqrt_swap_mat h i) psi)).
Proof. exact @PCirc2Prop.l_c167_csqrtswap. Qed.
Print Assumptions c167_csqrtswap.

Example c167_hyps : fits (mkCfg 4 2) 5 /\ ((1 + 1) * (cc_h * cc_h) = 1)%amp /\ (cc_i * cc_i = - (1))%amp /\ ctl_ok 5 [4; 1] [0; 3] /\ 0 <> 3.
Proof. split; [vm_compute; repeat split; discriminate|]. split; [exact cc_h_ok|]. split; [exact cc_i_ok|]. split; [|discriminate].
  split. repeat constructor; cbn; intuition discriminate. intros q [<-|[<-|[]]]; split; try lia; cbn; intuition discriminate. Qed.


(** They undo each other. *)
Theorem c167_inverse : forall (K : StarRing) (c : cfg) rgp n (h i : K) cs q1 q2 (psi : mem K), fits c n -> ((1 + 1) * (h * h) = 1)%amp -> (i * i = - (1))%amp -> ctl_ok n cs [q1; q2] -> q1 <> q2 -> q1 < n -> q2 < n ->
  every_run (crun c rgp n (qi_CSqrtSwap rgp h i cs q1 q2) (Some psi)) (fun r => exists psi1, r = Ok (Some psi1) /\
    every_run (crun c rgp n (qi_CISqrtSwap h i cs q1 q2) (Some psi1)) (fun r2 => exists psi2, r2 = Ok (Some psi2) /\ eqv n psi2 psi)) /\
  every_run (crun c rgp n (qi_CISqrtSwap h i cs q1 q2) (Some psi)) (fun r => exists psi1, r = Ok (Some psi1) /\
    every_run (crun c rgp n (qi_CSqrtSwap rgp h i cs q1 q2) (Some psi1)) (fun r2 => exists psi2, r2 = Ok (Some psi2) /\ eqv n psi2 psi)).
Proof. exact @PCirc2Prop.l_c167_inverse. Qed.
Print Assumptions c167_inverse.

(** * C168: TimeEvolve and Exp *)

(** TimeEvolve applies, term after term, the exponential of -i t H of the term to its target where the controls have the values asked for (1, or 0 for an anti-controlled term, exchanged by the toggles).  Partial: no term is uniformly controlled. *)
Theorem c168_evolve_partial : forall (K : StarRing) (c : cfg) rgp n ex (i dt : K) l (psi : mem K), fits c n -> (forall o, In o l -> term_ok n o) -> ex (mkMat 0 0 0 0)%amp = midn ->
  every_run (crun c rgp n (qi_TimeEvolve ex i dt l) (Some psi)) (fun r => exists psi' g, r = Ok (Some psi') /\ (forall x, x < 2 ^ n -> evolved ex i dt l psi x = (g * psi' x)%amp) /\
    (rgp = false -> g = 1%amp) /\ ((forall o, In o l -> unitary2 (factor ex i dt (ho_mats o 0))) -> anorm g = 1%amp)).
Proof. exact @PCirc2Prop.l_c168_evolve_partial. Qed.
Print Assumptions c168_evolve_partial.

Example c168_hyps : fits (mkCfg 4 2) 3 /\ (forall o, In o ex_terms -> term_ok 3 o) /\ dexp (mkMat 0 0 0 0)%amp = midn.
Proof.
  split; [vm_compute; repeat split; discriminate|]. split.
  - intros o [<-|[<-|[]]]; (split; [reflexivity|]); (split; [repeat constructor; cbn; intuition discriminate|]); (split; [intros q Hq; cbn in Hq; repeat (destruct Hq as [<-|Hq]; [reflexivity|]); destruct Hq|]); cbn; auto.
  - rewrite dexp_diag, cexp_0. reflexivity.
Qed.
Example c168_unitary : forall o, In o ex_terms -> unitary2 (factor dexp cc_i 1%amp (ho_mats o 0)).
Proof.
  assert (U : forall a b : R, unitary2 (mkMat (cexp (0, a)%R) 0%amp 0%amp (cexp (0, b)%R))).
  { intros a b. apply diag_unitary; apply cexp_phase. }
  intros o [<-|[<-|[]]].
  - replace (factor dexp cc_i 1%amp _) with (mkMat (cexp (0, -1)%R : CC) 0%amp 0%amp (cexp (0, 1)%R)); [apply U|]. unfold factor, dexp, times. cbn [ho_mats m00 m01 m10 m11]. f_equal; f_equal; cbn; unfold c_mul, c_opp, cc_i; cbn [fst snd]; f_equal; ring.
  - replace (factor dexp cc_i 1%amp _) with (mkMat (cexp (0, -1)%R : CC) 0%amp 0%amp (cexp (0, 0)%R)); [apply U|]. unfold factor, dexp, times. cbn [ho_mats m00 m01 m10 m11]. f_equal; f_equal; cbn; unfold c_mul, c_opp, cc_i; cbn [fst snd]; f_equal; ring.
Qed.
Example c168_selected : map (selected true [0; 1] [true; false]) [0; 1; 2; 3] = [false; true; false; false].
Proof. reflexivity. Qed.


(** REFUTED for a uniformly controlled term: TimeEvolve (gates.cpp:458-463) exponentiates -t H_k without the factor i that it applies to every other term (465-467).  A projector H_k = diag(1, 0), evolved for a time t, multiplies an amplitude by exp(-t): the norm of the state is not kept.  [e] is the exponential of scalars. *)
Theorem c168_uniform_refuted : forall (K : StarRing) (c : cfg) rgp (i dt : K) ex (e : K -> K), fits c 2 -> dt <> 0%amp -> (forall a b, ex (mkMat a 0%amp 0%amp b) = mkMat (e a) 0%amp 0%amp (e b)) -> anorm (e (- dt)%amp) <> 1%amp ->
  every_run (crun c rgp 2 (qi_TimeEvolve ex i dt [mkHop 0 false true (fun _ => mkMat 1 0 0 0)%amp [1] []]) (Some (ket 0)))
    (fun r => exists psi', r = Ok (Some psi') /\ norm2 2 psi' <> norm2 2 (ket 0 : mem K)).
Proof. exact @PCirc2Prop.l_c168_uniform_refuted. Qed.
Print Assumptions c168_uniform_refuted.

Example c168_uniform_hyps : fits (mkCfg 4 2) 2 /\ (1 : CC)%amp <> 0%amp /\ (forall a b, dexp (mkMat a 0%amp 0%amp b) = mkMat (cexp a) 0%amp 0%amp (cexp b)) /\ anorm (cexp (- (1))%amp) <> 1%amp.
Proof.
  split; [vm_compute; repeat split; discriminate|]. split; [intros E; injection E as E; lra|]. split; [exact dexp_diag|].
  cbn. unfold anorm; cbn. unfold c_mul, c_conj, c_opp, cexp; cbn [fst snd]. rewrite Ropp_0, cos_0, sin_0. intros E. injection E as E _. assert (T : (-(1) < 0)%R) by lra. pose proof (exp_increasing _ _ T) as L. rewrite exp_0 in L. pose proof (exp_pos (-(1))) as G. set (z := exp (-(1))) in *. assert (F : (z * z = 1)%R) by lra. nra.
Qed.


(** A uniformly controlled term whose matrices the caller has already multiplied by i applies the exponential of -i t H_k, k the value of the controls. *)
Theorem c168_uniform_partial : forall (K : StarRing) (c : cfg) rgp n ex (i dt : K) t cs (H : N -> mat2 K) (psi : mem K), fits c n -> NoDup (cs ++ [t]) -> (forall q, In q (cs ++ [t]) -> q < n) -> cs <> [] -> dt <> 0%amp ->
  every_run (crun c rgp n (qi_TimeEvolve ex i dt [mkHop t false true (fun k => times i (H k)) cs []]) (Some psi)) (fun r => exists psi', r = Ok (Some psi') /\ eqv n psi' (fun x => gate1 always t (factor ex i dt (H (ctrl_value 0 cs x))) psi x)).
Proof. exact @PCirc2Prop.l_c168_uniform_partial. Qed.
Print Assumptions c168_uniform_partial.

Example c168_uniform_partial_hyps : fits (mkCfg 4 2) 3 /\ NoDup ([2; 0] ++ [1]) /\ (forall q, In q ([2; 0] ++ [1]) -> q < 3) /\ [2; 0] <> [] /\ ctrl_value 0 [2; 0] 4 = 1.
Proof. split; [vm_compute; repeat split; discriminate|]. split. repeat constructor; cbn; intuition discriminate. split; [|split; [discriminate|reflexivity]]. intros q Hq; cbn in Hq; repeat (destruct Hq as [<-|Hq]; [reflexivity|]); destruct Hq. Qed.


(** Exp with a matrix and controls applies the exponential of i H to the target where every control is 1 (0 when anti-controlled). *)
Theorem c168_exp : forall (K : StarRing) (c : cfg) rgp n ex (i : K) cs q m (anti : bool) (psi : mem K), fits c n -> NoDup (cs ++ [q]) -> (forall a, In a (cs ++ [q]) -> a < n) -> cs <> [] ->
  every_run (crun c rgp n (qi_ExpM ex i cs q m anti) (Some psi)) (fun r => exists psi', r = Ok (Some psi') /\ eqv n psi' (gate1 (if anti then all_clear cs else all_set cs) q (ex (times i m)) psi)).
Proof. exact @PCirc2Prop.l_c168_exp. Qed.
Print Assumptions c168_exp.

Example c168_exp_hyps : fits (mkCfg 4 2) 3 /\ NoDup ([2; 0] ++ [1]) /\ (forall a, In a ([2; 0] ++ [1]) -> a < 3) /\ [2; 0] <> [].
Proof. split; [vm_compute; repeat split; discriminate|]. split. repeat constructor; cbn; intuition discriminate. split; [|discriminate]. intros q Hq; cbn in Hq; repeat (destruct Hq as [<-|Hq]; [reflexivity|]); destruct Hq. Qed.

