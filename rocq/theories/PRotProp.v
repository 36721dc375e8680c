(** Rotation gates; proofs of PropRot.v. *)
From Coq Require Import NArith ZArith Arith List Bool Lia Ring.
From Verif Require Import Bits Amp PAmp MKernel MEngine SpecState SpecEngine PGates2 MCircuit SpecCircuit PCircuit MExpect2 SpecExpect2 MRot SpecRot PRot.
Import ListNotations.
Local Open Scope N_scope.

Lemma l_c175_rotation : forall (K : StarRing) (c : cfg) rgp n (i : K) P a q (psi : N -> K), imag_unit i -> fits c n -> q < n -> is_angle a ->
  performs c rgp n (R_call rgp i P a q) (gate1 always q (rot i P a)) psi.
Proof. intros. now apply r_ok. Qed.

Lemma l_c175_addition : forall (K : StarRing) (c : cfg) rgp n (i : K) P a b q (psi : N -> K), imag_unit i -> fits c n -> q < n -> is_angle a -> is_angle b ->
  performs c rgp n (R_call rgp i P a q ++ R_call rgp i P b q) (gate1 always q (rot i P (ang_add a b))) psi.
Proof. intros. now apply r_add. Qed.

Lemma l_c175_inverse : forall (K : StarRing) (c : cfg) rgp n (i : K) P a q (psi : N -> K), imag_unit i -> fits c n -> q < n -> is_angle a ->
  performs c rgp n (R_call rgp i P a q ++ R_call rgp i P (ang_neg a) q) (fun p => p) psi.
Proof. intros. now apply r_undo. Qed.

Lemma l_c175_controlled : forall (K : StarRing) (c : cfg) rgp n (i : K) a ctl t (psi : N -> K), imag_unit i -> fits c n -> ctl <> t -> ctl < n -> t < n ->
  performs c rgp n (qi_CRY a ctl t) (gate1 (all_set [ctl]) t (rot i AxY a)) psi /\
  performs c rgp n (qi_CRZ i a ctl t) (gate1 (all_set [ctl]) t (rot i AxZ a)) psi.
Proof. intros. split. now apply cry_ok. now apply crz_ok. Qed.

Lemma l_c175_uniform : forall (K : StarRing) (c : cfg) rgp n (i : K) cs t angles (psi : N -> K), imag_unit i -> fits c n -> NoDup (cs ++ [t]) -> (forall q, In q (cs ++ [t]) -> q < n) -> (forall k, is_angle (angles k)) ->
  performs c rgp n (qi_UCRY cs t angles) (fun p x => gate1 always t (rot i AxY (angles (ctrl_value 0 cs x))) p x) psi /\
  performs c rgp n (qi_UCRZ i cs t angles) (fun p x => gate1 always t (rot i AxZ (angles (ctrl_value 0 cs x))) p x) psi.
Proof. intros. split; [apply ucry_ok|apply ucrz_ok]; auto; split; auto. Qed.

Lemma gi_unit : imag_unit (K := GI) (0, 1)%Z. Proof. split; reflexivity. Qed.
Lemma gi_a0 : is_angle (@mkAng GI (0, 0)%Z (1, 0)%Z). Proof. repeat split. Qed.
Lemma gi_a1 : is_angle (@mkAng GI (1, 0)%Z (0, 0)%Z). Proof. repeat split. Qed.

Lemma l_c176_rt_partial : forall (K : StarRing) (c : cfg) rgp n (i : K) a q (psi : N -> K), imag_unit i -> fits c n -> q < n -> is_angle a ->
  performs c rgp n (qi_RT rgp i a q) (gate1 always q (mkMat 1%amp 0%amp 0%amp (expi i a))) psi.
Proof. intros. now apply rt_ok. Qed.

Lemma l_c176_rt_refuted : forall (c : cfg) rgp, fits c 1 -> let i : GI := (0, 1)%Z in let a := @mkAng GI (0, 0)%Z (1, 0)%Z in is_angle a /\ ~ performs c rgp 1 (qi_RT rgp i a 0) (gate1 always 0 (mkMat 1%amp 0%amp 0%amp (sr_conj (expi i a)))) (fun _ => 1%amp).
Proof. intros c rgp Hf i a. split; [exact gi_a0|]. intros H. pose proof (rt_ok c i gi_unit rgp 1 a 0 (fun _ => 1%amp) Hf eq_refl gi_a0) as R. pose proof (perf_cross c rgp 1 _ _ _ _ 0 1 H R eq_refl eq_refl) as E. vm_compute in E. discriminate. Qed.

Lemma l_c176_crx_partial : forall (K : StarRing) (c : cfg) rgp n (i : K) a ctl t (psi : N -> K), imag_unit i -> fits c n -> ctl <> t -> ctl < n -> t < n ->
  performs c rgp n (qi_CRX i a ctl t) (gate1 (all_set [ctl]) t (rot i AxX (ang_neg a))) psi.
Proof. intros. now apply crx_ok. Qed.

Lemma l_c176_crx_refuted : forall (c : cfg) rgp, fits c 2 -> let i : GI := (0, 1)%Z in let a := @mkAng GI (0, 0)%Z (1, 0)%Z in is_angle a /\ ~ performs c rgp 2 (qi_CRX i a 0 1) (gate1 (all_set [0]) 1 (rot i AxX a)) (fun _ => 1%amp).
Proof. intros c rgp Hf i a. split; [exact gi_a0|]. intros H. assert (D : 0 <> 1) by discriminate. pose proof (crx_ok c i rgp 2 a 0 1 (fun _ => 1%amp) Hf D eq_refl eq_refl) as R. pose proof (perf_cross c rgp 2 _ _ _ _ 0 1 H R eq_refl eq_refl) as E. vm_compute in E. discriminate. Qed.

Lemma l_c176_exp_partial : forall (K : StarRing) (c : cfg) rgp n (i : K) P a q (psi : N -> K), imag_unit i -> fits c n -> q < n -> is_angle a -> let p := pauli i P in let e := expi i a in
  performs c rgp n (match P with AxX => qi_ExpX i a q | AxY => qi_ExpY i a q | AxZ => qi_ExpZ rgp i a q end) (gate1 always q (mkMat (e * m00 p) (e * m01 p) (e * m10 p) (e * m11 p))%amp) psi.
Proof. intros. now apply expP_ok. Qed.

Lemma l_c176_exp_refuted : forall (c : cfg) rgp P, fits c 1 -> let i : GI := (0, 1)%Z in let a := @mkAng GI (1, 0)%Z (0, 0)%Z in let q := 0 in is_angle a /\ exists psi : N -> GI,
  ~ performs c rgp 1 (match P with AxX => qi_ExpX i a q | AxY => qi_ExpY i a q | AxZ => qi_ExpZ rgp i a q end) (gate1 always q (rot i P a)) psi.
Proof. intros c rgp P Hf i a q. split; [exact gi_a1|]. exists (match P with AxZ => fun _ => 1%amp | _ => ket 0 end). intros H. pose proof (expP_ok c i gi_unit rgp 1 P a q (match P with AxZ => fun _ => 1%amp | _ => ket 0 end) Hf eq_refl gi_a1) as R. pose proof (perf_cross c rgp 1 _ _ _ _ 0 1 H R eq_refl eq_refl) as E. destruct P; vm_compute in E; discriminate. Qed.

Lemma l_c177_u : forall (K : StarRing) (c : cfg) rgp n u cs t (psi : N -> K), fits c n -> NoDup (cs ++ [t]) -> (forall q, In q (cs ++ [t]) -> q < n) -> angles u ->
  performs c rgp n (qi_U u t) (gate1 always t (u_std u)) psi /\ performs c rgp n (qi_CU u cs t) (gate1 (all_set cs) t (u_std u)) psi /\
  (cs <> [] -> performs c rgp n (qi_AntiCU u cs t) (gate1 (all_clear cs) t (u_std u)) psi).
Proof. intros K c rgp n u cs t psi Hf ND HQ A. assert (T : t < n) by (apply HQ; apply in_or_app; right; now left). split; [now apply u_ok|]. split; [apply cu_ok|intros NE; apply acu_ok]; auto; split; auto. Qed.

Lemma l_c178_prepares : forall (K : StarRing) (c : cfg) rgp n (i : K) az inc t (psi : N -> K), imag_unit i -> fits c n -> t < n -> is_angle az -> is_angle inc -> (forall x, N.testbit x t = true -> psi x = 0%amp) ->
  performs c rgp n (qi_AI i az inc t) (fun p x => if N.testbit x t then (expi i az * a_s inc * p (N.clearbit x t))%amp else (a_c inc * p x)%amp) psi.
Proof. intros. now apply ai_prepares. Qed.

Lemma l_c178_axes : forall (K : StarRing) (c : cfg) rgp n (i : K) half inc t (psi : N -> K), imag_unit i -> fits c n -> t < n -> is_angle half -> is_angle (ang_add half half) -> is_angle inc ->
  performs c rgp n (qi_AI i (ang_add half half) inc t) (fun p => gate1 always t (rot i AxZ half) (gate1 always t (rot i AxY inc) (gate1 always t (rot i AxZ (ang_neg half)) p))) psi.
Proof. intros. now apply ai_axes. Qed.

Lemma l_c178_inverse : forall (K : StarRing) (c : cfg) rgp n (i : K) recip az inc t (psi : N -> K), imag_unit i -> recip 1%amp = 1%amp -> fits c n -> t < n -> is_angle az -> is_angle inc ->
  performs c rgp n (qi_AI i az inc t ++ qi_IAI recip i az inc t) (fun p => p) psi.
Proof. intros. now apply iai_undo. Qed.

Lemma l_c178_controlled : forall (K : StarRing) (c : cfg) rgp n (i : K) recip az inc ctl t (psi : N -> K), imag_unit i -> recip 1%amp = 1%amp -> fits c n -> ctl <> t -> ctl < n -> t < n -> is_angle az -> is_angle inc ->
  let m := mkMat (a_c inc) (- (sr_conj (expi i az) * a_s inc))%amp (expi i az * a_s inc)%amp (a_c inc) in
  performs c rgp n (qi_CAI i az inc ctl t) (gate1 (all_set [ctl]) t m) psi /\ performs c rgp n (qi_CAI i az inc ctl t ++ qi_CIAI recip i az inc ctl t) (fun p => p) psi /\
  performs c rgp n (qi_AntiCAI i az inc ctl t) (gate1 (all_clear [ctl]) t m) psi /\ performs c rgp n (qi_AntiCAI i az inc ctl t ++ qi_AntiCIAI recip i az inc ctl t) (fun p => p) psi.
Proof. intros K c rgp n i recip az inc ctl t psi Hi Hr Hf D Hc Ht A B m. assert (E : m = m_AI i az inc) by (now apply ai_std). rewrite E. destruct (cai_undo c i Hi recip Hr rgp n az inc ctl t psi Hf D Hc Ht A B) as [C1 C2]. destruct (acai_undo c i Hi recip Hr rgp n az inc ctl t psi Hf D Hc Ht A B) as [C3 C4]. auto. Qed.
