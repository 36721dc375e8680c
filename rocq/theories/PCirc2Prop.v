(** More generic circuits; proofs of PropCircuits2.v. *)
From Coq Require Import NArith List Bool Lia Ring.
From Verif Require Import Bits MFunctions MParFor PParFor MKernel Amp PAmp MEngine SpecState SpecEngine PGates PGates2 PGates3 MAlu SpecAlu PLoop PAlu PAlu5 MCircuit SpecCircuit PCircuit PCircuit2 PCircuit7 PCircuit8 PCircuit12
  MCircuit2 SpecCircuit2 PCircuit14 PCircuit15 PCircuit16.
Import ListNotations.
Local Open Scope N_scope.

Lemma l_c165_xmask : forall (K : StarRing) (c : cfg) rgp n mask (psi : mem K), fits c n -> mask < 2 ^ n ->
  every_run (crun c rgp n (qi_XMask mask) (Some psi)) (fun r => exists psi', r = Ok (Some psi') /\ eqv n psi' (on_all mat_x (bits_of mask) psi)).
Proof. intros. now apply xmask_generic. Qed.

Lemma l_c165_zmask : forall (K : StarRing) (c : cfg) rgp n mask (psi : mem K), fits c n -> mask < 2 ^ n ->
  every_run (crun c rgp n (qi_ZMask rgp mask) (Some psi)) (fun r => exists psi', r = Ok (Some psi') /\ eqv n psi' (on_all (mat_ph (- (1))%amp) (bits_of mask) psi)).
Proof. intros. now apply zmask_generic. Qed.

Lemma l_c165_rootmask : forall (K : StarRing) (c : cfg) rgp n (root : N -> K) k mask (psi : mem K), fits c n -> mask < 2 ^ n -> k <> 0 ->
  every_run (crun c rgp n (qi_PhaseRootNMask rgp root k mask) (Some psi)) (fun r => exists psi', r = Ok (Some psi') /\ eqv n psi' (on_all (mat_ph (root k)) (bits_of mask) psi)).
Proof. intros. now apply rootmask_generic. Qed.

Lemma l_c165_ymask : forall (K : StarRing) (c : cfg) rgp n (i : K) mask (psi : mem K), fits c n -> (i * i = - (1))%amp -> 0 < mask < 2 ^ n ->
  every_run (crun c rgp n (qi_YMask rgp i mask) (Some psi)) (fun r => exists psi' g, r = Ok (Some psi') /\ (forall x, x < 2 ^ n -> on_all (mat_y i) (bits_of mask) psi x = (g * psi' x)%amp) /\
    (rgp = false -> g = 1%amp) /\ (sr_conj i = - i -> anorm g = 1)%amp).
Proof. intros. now apply ymask_generic. Qed.

Lemma l_c165_parity : forall (K : StarRing) (c : cfg) rgp n (em ep : K) mask (psi : mem K), fits c n -> mask < 2 ^ n -> mask <> 0 ->
  every_run (crun c rgp n (qi_PhaseParity rgp em ep mask) (Some psi)) (fun r => exists psi' g, r = Ok (Some psi') /\ (forall x, x < 2 ^ n -> parity_phase mask ep em psi x = (g * psi' x)%amp) /\
    (g = 1%amp \/ rgp = true /\ g = em /\ g = ep)).
Proof. intros. now apply phaseparity_generic. Qed.

Lemma l_c166_zero_flip : forall (K : StarRing) (c : cfg) rgp n s len (psi : mem K), fits c n -> 0 < len -> s + len <= n ->
  every_run (crun c rgp n (qi_ZeroPhaseFlip rgp s len) (Some psi)) (fun r => exists psi', r = Ok (Some psi') /\ eqv n psi' (flip_zero s len psi)).
Proof. intros. now apply zeroflip_generic. Qed.

Section Q.
  Context {K : StarRing}.
  Add Ring KrEM : (sr_ring K).
  Lemma swap_ctl cs a b x : ~ In a cs -> ~ In b cs -> all_set cs (swap_bits a b x) = all_set cs x.
  Proof.
    intros A B. unfold all_set. apply forallb_ext_in. intros q Hq. rewrite tb_swap. destruct (N.eqb_spec a q) as [E|_]; [subst q; contradiction|]. destruct (N.eqb_spec b q) as [E|_]; [subst q; contradiction|reflexivity].
  Qed.
  Lemma gate_swap_mulP cs a b (m1 m2 : mat2 K) psi x : a <> b -> ~ In a cs -> ~ In b cs ->
    gate_swap (all_set cs) a b m2 (gate_swap (all_set cs) a b m1 psi) x = gate_swap (all_set cs) a b (mmul m2 m1) psi x.
  Proof.
    intros H A B. rewrite <- !(gate_swap_if cs a b _ _ x). destruct (all_set cs x) eqn:E; [|reflexivity]. rewrite <- gate_swap_mul by auto.
    unfold gate_swap at 1 3. cbn [always andb]. destruct (xorb _ _); rewrite <- !(gate_swap_if cs a b m1 psi), ?swap_ctl, E by auto; reflexivity.
  Qed.
  Lemma gate_swap_idP cs a b psi x : gate_swap (all_set cs) a b (midn : mat2 K) psi x = psi x.
  Proof. rewrite <- gate_swap_if. destruct (all_set cs x); auto. apply gate_swap_id. Qed.
  Lemma gate_swap_funP P a b (m : mat2 K) f g x : (forall x, f x = g x) -> gate_swap P a b m f x = gate_swap P a b m g x.
  Proof. intros H. unfold gate_swap. now rewrite !H. Qed.
  Lemma diag_unitary (a b : K) : (sr_conj a * a = 1)%amp -> (sr_conj b * b = 1)%amp -> unitary2 (mkMat a 0%amp 0%amp b).
  Proof. intros A B. unfold unitary2, mmul, mdag, midn. cbn [m00 m01 m10 m11]. rewrite conj_0. f_equal; [rewrite <- A| | |rewrite <- B]; ring. Qed.
End Q.

Lemma l_c167_csqrtswap : forall (K : StarRing) (c : cfg) rgp n (h i : K) cs q1 q2 (psi : mem K), fits c n -> ((1 + 1) * (h * h) = 1)%amp -> (i * i = - (1))%amp -> ctl_ok n cs [q1; q2] -> q1 <> q2 -> q1 < n -> q2 < n ->
  every_run (crun c rgp n (qi_CSqrtSwap rgp h i cs q1 q2) (Some psi)) (fun r => exists psi', r = Ok (Some psi') /\ eqv n psi' (gate_swap (all_set cs) q1 q2 (sqrt_swap_mat h i) psi)) /\
  every_run (crun c rgp n (qi_CISqrtSwap h i cs q1 q2) (Some psi)) (fun r => exists psi', r = Ok (Some psi') /\ eqv n psi' (gate_swap (all_set cs) q1 q2 (isqrt_swap_mat h i) psi)) /\
  every_run (crun c rgp n (qi_AntiCSqrtSwap rgp h i cs q1 q2) (Some psi)) (fun r => exists psi', r = Ok (Some psi') /\ eqv n psi' (gate_swap (all_clear cs) q1 q2 (sqrt_swap_mat h i) psi)) /\
  every_run (crun c rgp n (qi_AntiCISqrtSwap h i cs q1 q2) (Some psi)) (fun r => exists psi', r = Ok (Some psi') /\ eqv n psi' (gate_swap (all_clear cs) q1 q2 (isqrt_swap_mat h i) psi)).
Proof. intros. now apply csqrt_all. Qed.

Lemma l_c167_inverse : forall (K : StarRing) (c : cfg) rgp n (h i : K) cs q1 q2 (psi : mem K), fits c n -> ((1 + 1) * (h * h) = 1)%amp -> (i * i = - (1))%amp -> ctl_ok n cs [q1; q2] -> q1 <> q2 -> q1 < n -> q2 < n ->
  every_run (crun c rgp n (qi_CSqrtSwap rgp h i cs q1 q2) (Some psi)) (fun r => exists psi1, r = Ok (Some psi1) /\
    every_run (crun c rgp n (qi_CISqrtSwap h i cs q1 q2) (Some psi1)) (fun r2 => exists psi2, r2 = Ok (Some psi2) /\ eqv n psi2 psi)) /\
  every_run (crun c rgp n (qi_CISqrtSwap h i cs q1 q2) (Some psi)) (fun r => exists psi1, r = Ok (Some psi1) /\
    every_run (crun c rgp n (qi_CSqrtSwap rgp h i cs q1 q2) (Some psi1)) (fun r2 => exists psi2, r2 = Ok (Some psi2) /\ eqv n psi2 psi)).
Proof. intros K c rgp n h i cs q1 q2 psi Hf Hh Hi HC HE H1 H2. pose proof (c1 n cs q1 q2 HC) as N1. pose proof (c2 n cs q1 q2 HC) as N2.
  split; (apply run_inv; [auto|auto using wf_CSqrt, wf_CISqrt|auto using wf_CSqrt, wf_CISqrt|]); intros x.
  - rewrite (sem_CISqrt n) by auto. rewrite (gate_swap_funP _ _ _ _ _ (gate_swap (all_set cs) q1 q2 (sqrt_swap_mat h i) psi)) by (intros; now apply (sem_CSqrt rgp n)). rewrite gate_swap_mulP, isqrt_sqrt by auto. apply gate_swap_idP.
  - rewrite (sem_CSqrt rgp n) by auto. rewrite (gate_swap_funP _ _ _ _ _ (gate_swap (all_set cs) q1 q2 (isqrt_swap_mat h i) psi)) by (intros; now apply (sem_CISqrt n)). rewrite gate_swap_mulP, sqrt_isqrt by auto. apply gate_swap_idP. Qed.

Lemma l_c168_evolve_partial : forall (K : StarRing) (c : cfg) rgp n ex (i dt : K) l (psi : mem K), fits c n -> (forall o, In o l -> term_ok n o) -> ex (mkMat 0 0 0 0)%amp = midn ->
  every_run (crun c rgp n (qi_TimeEvolve ex i dt l) (Some psi)) (fun r => exists psi' g, r = Ok (Some psi') /\ (forall x, x < 2 ^ n -> evolved ex i dt l psi x = (g * psi' x)%amp) /\
    (rgp = false -> g = 1%amp) /\ ((forall o, In o l -> unitary2 (factor ex i dt (ho_mats o 0))) -> anorm g = 1%amp)).
Proof. intros. now apply evolve_generic. Qed.

Section U.
  Context {K : StarRing}.
  Add Ring KrEN : (sr_ring K).
  Variable c : cfg.
  Lemma uniform_bad rgp (i dt : K) ex (e : K -> K) : fits c 2 -> dt <> 0%amp -> (forall a b, ex (mkMat a 0%amp 0%amp b) = mkMat (e a) 0%amp 0%amp (e b)) -> anorm (e (- dt)%amp) <> 1%amp ->
    every_run (crun c rgp 2 (qi_TimeEvolve ex i dt [mkHop 0 false true (fun _ => mkMat 1 0 0 0)%amp [1] []]) (Some (ket 0)))
      (fun r => exists psi', r = Ok (Some psi') /\ norm2 2 psi' <> norm2 2 (ket 0 : mem K)).
  Proof.
    intros Hf Hd Hx He. assert (W : wfc 2 [1] 0). { apply wfc_intro; [repeat constructor; cbn; tauto|cbn; intuition discriminate|reflexivity|intros q [<-|[]]; reflexivity]. }
    unfold qi_TimeEvolve. destruct (sr_eqb dt 0%amp) eqn:ED; [apply sr_eqb_ok in ED; contradiction|]. cbn [flat_map]. rewrite app_nil_r. unfold qi_hop. cbn [ho_controls ho_toggles ho_uniform ho_target ho_mats toggle_x app]. rewrite app_nil_r. cbv zeta.
    assert (E : ex (mscale (- dt)%amp (mkMat 1 0 0 0)%amp) = mkMat (e (- dt)%amp) 0%amp 0%amp (e 0%amp)).
    { rewrite <- Hx. f_equal. unfold mscale. cbn [m00 m01 m10 m11]. f_equal; ring. }
    rewrite E. set (z := e (- dt)%amp) in *.
    destruct (sem_run c rgp 2 (qi_UCSB [1] 0 (fun _ => mkMat z 0%amp 0%amp (e 0%amp))) (gate1 always 0 (mkMat z 0%amp 0%amp (e 0%amp)) (ket 0)) (ket 0)) as [A B]; auto.
    { apply wf_UCSB; auto. left. discriminate. }
    { intros x _. now rewrite (sem_UCSB 2) by auto. }
    split; auto. intros r HR. destruct (B r HR) as [psi' [-> HE]]. exists psi'. split; auto.
    assert (N2 : norm2 2 psi' = norm2 2 (gate1 always 0 (mkMat z 0%amp 0%amp (e 0%amp)) (ket 0))). { unfold norm2. apply asum_ext. intros x Hx2. f_equal. apply HE. now apply basis_In. }
    rewrite N2. intros F. apply He. transitivity (norm2 2 (gate1 always 0 (mkMat z 0%amp 0%amp (e 0%amp)) (ket 0))); [|rewrite F]; change (basis 2) with [0; 1; 2; 3]; unfold norm2; change (basis 2) with [0; 1; 2; 3]; unfold gate1, ket, always; cbn [m00 m01 m10 m11 N.testbit N.clearbit N.setbit N.eqb]; unfold anorm; cbn.
    all: repeat (rewrite ?sr_conj_add, ?sr_conj_mul, ?conj_1, ?conj_0); ring.
  Qed.
End U.

Lemma l_c168_uniform_refuted : forall (K : StarRing) (c : cfg) rgp (i dt : K) ex (e : K -> K), fits c 2 -> dt <> 0%amp -> (forall a b, ex (mkMat a 0%amp 0%amp b) = mkMat (e a) 0%amp 0%amp (e b)) -> anorm (e (- dt)%amp) <> 1%amp ->
  every_run (crun c rgp 2 (qi_TimeEvolve ex i dt [mkHop 0 false true (fun _ => mkMat 1 0 0 0)%amp [1] []]) (Some (ket 0)))
    (fun r => exists psi', r = Ok (Some psi') /\ norm2 2 psi' <> norm2 2 (ket 0 : mem K)).
Proof. intros. now apply (uniform_bad c rgp i dt ex e). Qed.

Lemma l_c168_uniform_partial : forall (K : StarRing) (c : cfg) rgp n ex (i dt : K) t cs (H : N -> mat2 K) (psi : mem K), fits c n -> NoDup (cs ++ [t]) -> (forall q, In q (cs ++ [t]) -> q < n) -> cs <> [] -> dt <> 0%amp ->
  every_run (crun c rgp n (qi_TimeEvolve ex i dt [mkHop t false true (fun k => times i (H k)) cs []]) (Some psi)) (fun r => exists psi', r = Ok (Some psi') /\ eqv n psi' (fun x => gate1 always t (factor ex i dt (H (ctrl_value 0 cs x))) psi x)).
Proof. intros. now apply uniform_generic. Qed.

Lemma l_c168_exp : forall (K : StarRing) (c : cfg) rgp n ex (i : K) cs q m (anti : bool) (psi : mem K), fits c n -> NoDup (cs ++ [q]) -> (forall a, In a (cs ++ [q]) -> a < n) -> cs <> [] ->
  every_run (crun c rgp n (qi_ExpM ex i cs q m anti) (Some psi)) (fun r => exists psi', r = Ok (Some psi') /\ eqv n psi' (gate1 (if anti then all_clear cs else all_set cs) q (ex (times i m)) psi)).
Proof. intros. now apply exp_generic. Qed.
