(** QUnitClifford; proofs of PropUCliff.v. *)
From Coq Require Import NArith List Bool Lia Ring.
From Verif Require Import Amp PAmp AmpQ8 AmpQ8b SpecState SpecShard MTensor MUCliff SpecUCliff PUnit3 PUCliff2 PUCliff4 PUCliff6 PUCliff7 PUnitBug PUCliffBug.
Import ListNotations.
Local Open Scope N_scope.

(** ** Examples *)
Definition ex_prog : list (kcall Q8) := [OH 0; OCNOT false 0 1; OS 1; OISwap false 1 2; OCZ true 0 2; OSwap 0 1].
Lemma ex_valid : Forall (valid (kc_ok kz) (kc_ok2 kz) 3) ex_prog.
Proof. unfold ex_prog. repeat (apply Forall_cons; [cbn; repeat split; first [reflexivity|discriminate]|]). apply Forall_nil. Qed.
Lemma ex_unsure : run_unsure z_i z_h 3 ex_prog (fun x => (1 * ket 0 x)%amp).
Proof.
  unfold ex_prog. cbn [run_unsure call_unsure]. split; [exact I|]. split; [exists 0; split; [reflexivity|]; split; [reflexivity|apply neq_by; vm_compute; reflexivity]|].
  split; [exact I|]. split; [exact I|]. split; [exists 5; split; [reflexivity|]; split; [reflexivity|apply neq_by; vm_compute; reflexivity]|]. split; exact I.
Qed.
(** The register after a program. *)
Definition bell_prog : list (kcall Q8) := [OH 0; OCNOT false 0 1; OS 1].
Definition bell_reg : ucliff Q8 := match k_run z_i z_h kz bell_prog (set_permutation 2 0 (1 : Q8)%amp) with Ret U => U | _ => set_permutation 1 0 (1 : Q8)%amp end.
Lemma bell_run : k_run z_i z_h kz bell_prog (set_permutation 2 0 (1 : Q8)%amp) = Ret bell_reg.
Proof. unfold bell_reg. assert (H : is_ret (k_run z_i z_h kz bell_prog (set_permutation 2 0 (1 : Q8)%amp)) = true) by (vm_compute; reflexivity). destruct (k_run z_i z_h kz bell_prog (set_permutation 2 0 (1 : Q8)%amp)); [reflexivity|discriminate..]. Qed.
Lemma bell_reached : reached z_i z_h kz bell_reg.
Proof.
  apply (run_reached z_i z_h kz q8_definite kz_sep kz_amps bell_prog (set_permutation 2 0 (1 : Q8)%amp) bell_reg).
  - apply r_new. apply eq_by. vm_compute. reflexivity.
  - unfold bell_prog. repeat (apply Forall_cons; [cbn; repeat split; first [reflexivity|discriminate]|]). apply Forall_nil.
  - exact bell_run.
Qed.
Lemma bell_n : k_n bell_reg = 2. Proof. vm_compute. reflexivity. Qed.
Lemma bell_w r : (anorm (kc_nrm kz (weight_at bell_reg 1 r)) * weight_at bell_reg 1 r = 1)%amp.
Proof. destruct r; apply eq_by; vm_compute; reflexivity. Qed.
Lemma bell_nz r : weight_at bell_reg 1 r <> 0%amp.
Proof. destruct r; apply neq_by; vm_compute; reflexivity. Qed.
Lemma bell_nrm : nrm_ok kz bell_reg 1. Proof. intros r _. apply bell_w. Qed.

Lemma bug_same : kideal bug_wrong 4 = kideal bug_wrong 6 \/ kideal bug_wrong 4 = (- kideal bug_wrong 6)%amp.
Proof. first [left; apply eq_by; vm_compute; reflexivity|right; apply eq_by; vm_compute; reflexivity]. Qed.
Section W.
  Context {K : StarRing}.
  Add Ring KrEI : (sr_ring K).
  Lemma wrong_vals (e a b : K) : a = (e * a)%amp -> (- b)%amp = (e * b)%amp -> a = b \/ a = (- b)%amp -> b = (- b)%amp.
  Proof.
    intros E1 E2 [-> | ->].
    - rewrite E2. exact E1.
    - transitivity (- (- b))%amp; [ring|]. transitivity (- (e * b))%amp; [now rewrite <- E2|]. transitivity (e * - b)%amp; [ring|]. symmetry. exact E1.
  Qed.
End W.
Lemma ret_inj T (a b : T) : Ret a = Ret b -> a = b. Proof. intros E. now injection E. Qed.
Lemma krun_eq p n : krun p n = k_run z_i z_h kz p (set_permutation n 0 (1 : Q8)%amp). Proof. reflexivity. Qed.
Lemma kideal_eq p x : kideal p x = ideal_run z_i z_h p (fun y => (1 * ket 0 y)%amp) x. Proof. reflexivity. Qed.
Lemma wrong_gen (o : out (ucliff Q8)) (f : N -> Q8) : amp_eqb o 4 (f 4) = true -> amp_eqb o 6 (- f 6)%amp = true -> f 4 = f 6 \/ f 4 = (- f 6)%amp -> sr_eqb (f 6) (- f 6)%amp = false -> exists V, o = Ret V /\ ~ exists e : Q8, forall x, x < 2 ^ 3 -> k_amplitude x V = Ret (e * f x)%amp.
Proof.
  destruct o as [V| |]; unfold amp_eqb; try discriminate. intros H1 H2 HS H4. exists V. split; [reflexivity|]. intros (e & He). apply ret_eqb_ok in H1, H2. pose proof (He 4 eq_refl) as E1. pose proof (He 6 eq_refl) as E2. rewrite H1 in E1. rewrite H2 in E2. apply ret_inj in E1. apply ret_inj in E2.
  exact (neq_by _ _ H4 (wrong_vals e _ _ E1 E2 HS)).
Qed.

Lemma l_c159_undefined_refuted : exists (n : N) (p : list (kcall Q8)), Forall (valid (kc_ok kz) (kc_ok2 kz) n) p /\ k_run z_i z_h kz p (set_permutation n 0 (1 : Q8)%amp) = Undef.
Proof. exists 2, bug_undef. split; [|assert (H := bug_undef_run); rewrite krun_eq in H; exact H]. unfold bug_undef. repeat (apply Forall_cons; [cbn; repeat split; first [reflexivity|discriminate]|]). apply Forall_nil. Qed.

Lemma l_c159_wrong_qubit_refuted : exists (n : N) (p : list (kcall Q8)) V, Forall (valid (kc_ok kz) (kc_ok2 kz) n) p /\ k_run z_i z_h kz p (set_permutation n 0 (1 : Q8)%amp) = Ret V /\ ~ exists e : Q8, forall x, x < 2 ^ n -> k_amplitude x V = Ret (e * ideal_run z_i z_h p (fun y => (1 * ket 0 y)%amp) x)%amp.
Proof. destruct bug_wrong_vals as (H1 & H2 & _ & H4). destruct (wrong_gen _ _ H1 H2 bug_same H4) as (V & E & H). exists 3, bug_wrong, V. rewrite krun_eq in E. split; [unfold bug_wrong; repeat (apply Forall_cons; [cbn; repeat split; first [reflexivity|discriminate]|]); apply Forall_nil|]. split; [exact E|].
  intros (e & He). apply H. exists e. intros x Hx. rewrite (He x Hx), kideal_eq. reflexivity. Qed.

Lemma l_c159_fsim_refuted : exists U : ucliff Q8, reached z_i z_h kz U /\ k_n U = 3 /\ k_fsim_iswap kz z_i 1 2 U = Undef.
Proof. exists (set_permutation 3 2 (1 : Q8)%amp). split; [apply r_new; apply eq_by; vm_compute; reflexivity|]. split; [reflexivity|]. apply is_undef_ok. exact bug_fsim. Qed.

Lemma l_c159_programs_partial : forall (K : StarRing) (ci ch : K) (c : kcfg K), definite (K := K) -> sep_ok c -> amps_ok ci ch -> forall n perm ph p, anorm ph = 1%amp -> perm < 2 ^ n -> Forall (valid (kc_ok c) (kc_ok2 c) n) p -> run_unsure ci ch n p (fun x => ph * ket perm x)%amp -> exists V, k_run ci ch c p (set_permutation n perm ph) = Ret V /\ forall x, x < 2 ^ n -> k_amplitude x V = Ret (ideal_run ci ch p (fun y => ph * ket perm y)%amp x).
Proof. intros K ci ch c D Sp A n perm ph p. exact (programs_ok ci ch c D Sp A n perm ph p). Qed.

Lemma l_c160_prob : forall (K : StarRing) (ci ch : K) (c : kcfg K), definite (K := K) -> sep_ok c -> amps_ok ci ch -> forall U, reached ci ch c U -> norm2 (k_n U) (amps U) = 1%amp /\ forall q, q < k_n U -> k_prob q U = Ret (weight_at U q true).
Proof. intros K ci ch c D Sp A U R. split; [apply (r_norm ci ch c D Sp A U R)|]. intros q Hq. apply (r_prob ci ch c D Sp A U q R Hq). Qed.

Lemma l_c159_prob_partial : forall (K : StarRing) (ci ch : K) (c : kcfg K), definite (K := K) -> sep_ok c -> amps_ok ci ch -> forall n perm ph p, anorm ph = 1%amp -> perm < 2 ^ n -> Forall (valid (kc_ok c) (kc_ok2 c) n) p -> run_unsure ci ch n p (fun x => ph * ket perm x)%amp -> exists V, k_run ci ch c p (set_permutation n perm ph) = Ret V /\ forall q, q < n -> k_prob q V = Ret (weight_of n (fun x => N.testbit x q) (ideal_run ci ch p (fun y => ph * ket perm y)%amp)).
Proof. intros K ci ch c D Sp A n perm ph p H1 H2 H3 H4. destruct (programs_ok ci ch c D Sp A n perm ph p H1 H2 H3 H4) as (V & E & _). exists V. split; [exact E|]. intros q Hq. destruct (prob_programs ci ch c D Sp A n perm ph p q H1 H2 H3 H4 Hq) as (V' & E' & H). rewrite E in E'. injection E' as <-. exact H. Qed.

Lemma l_c161_measure : forall (K : StarRing) (ci ch : K) (c : kcfg K), definite (K := K) -> sep_ok c -> amps_ok ci ch -> forall U, reached ci ch c U -> forall q, q < k_n U -> (forall res force, nrm_ok c U q -> (force = true -> weight_at U q res <> 0%amp) -> exists r V g, k_force_m c q res force true U = Ret (r, V) /\ k_n V = k_n U /\ weight_at U q r <> 0%amp /\ (force = true -> r = res) /\ (anorm g * weight_at U q r = 1)%amp /\ forall x, x < 2 ^ k_n U -> k_amplitude x V = Ret (if eqb (N.testbit x q) r then g * amps U x else 0)%amp) /\ (forall res, weight_at U q res = 0%amp -> k_force_m c q res true true U = Throws) /\ (forall res force, exists r V, k_force_m c q res force false U = Ret (r, V) /\ k_n V = k_n U /\ (forall x, x < 2 ^ k_n U -> k_amplitude x V = k_amplitude x U) /\ (force = true -> r = res) /\ (force = false -> weight_at U q r <> 0%amp)).
Proof. intros K ci ch c D Sp A U R. intros q Hq. split; [|split]. - intros res force HN HF. exact (r_measure_ok ci ch c D Sp A U q res force R Hq HN HF). - intros res. exact (r_impossible ci ch c D Sp A U q res R Hq). - intros res force. exact (r_peek ci ch c D Sp A U q res force R Hq). Qed.

Lemma l_c162_mask_refuted : exists U : ucliff Q8, reached z_i z_h kz U /\ k_n U = 2 /\ k_prob_mask 3 0 U = Ret (1 + 1)%amp /\ weight_of 2 (fun x => N.land x 3 =? 0) (amps U) = 1%amp /\ k_prob_mask 0 0 U = Ret 0%amp /\ weight_of 2 (fun x => N.land x 0 =? 0) (amps U) = 1%amp.
Proof. exists (set_permutation 2 0 (1 : Q8)%amp). split; [apply r_new; apply eq_by; vm_compute; reflexivity|]. split; [reflexivity|]. split; [exact (proj1 bug_mask)|]. split; [apply eq_by; vm_compute; reflexivity|]. split; [exact (proj2 bug_mask)|apply eq_by; vm_compute; reflexivity]. Qed.

Lemma l_c162_one_partial : forall (K : StarRing) (ci ch : K) (c : kcfg K), definite (K := K) -> sep_ok c -> amps_ok ci ch -> forall U, reached ci ch c U -> forall q perm, q < k_n U -> k_prob_mask (2 ^ q) perm U = Ret (weight_at U q (N.testbit perm q)).
Proof. intros K ci ch c D Sp A U R. intros q perm Hq. exact (r_mask ci ch c D Sp A U q perm R Hq). Qed.

Lemma l_c163_phase_refuted : exists U T V : ucliff Q8, reached z_i z_h kz U /\ reached z_i z_h kz T /\ k_n U = 1 /\ k_n T = 1 /\ k_compose T 1 U = Ret V /\ k_amplitude 0 V = Ret 1%amp /\ k_amplitude 0 U = Ret 1%amp /\ k_amplitude 0 T = Ret z_i.
Proof. destruct bug_compose as [H1 H2]. unfold amp_eqb in H1. exists (set_permutation 1 0 (1 : Q8)%amp), one_i. destruct (k_compose one_i 1 (set_permutation 1 0 (1 : Q8)%amp)) as [V| |] eqn:E; try discriminate. exists V.
  split; [apply r_new; apply eq_by; vm_compute; reflexivity|]. split; [apply r_new; apply eq_by; vm_compute; reflexivity|]. split; [reflexivity|]. split; [reflexivity|]. split; [reflexivity|]. split; [apply ret_eqb_ok; exact H1|]. split; [apply ret_eqb_ok; vm_compute; reflexivity|apply ret_eqb_ok; exact H2]. Qed.

Lemma l_c163_compose_partial : forall (K : StarRing) (ci ch : K) (c : kcfg K), definite (K := K) -> sep_ok c -> amps_ok ci ch -> forall U T start, reached ci ch c U -> reached ci ch c T -> start <= k_n U -> exists V e, k_compose T start U = Ret V /\ k_n V = k_n U + k_n T /\ anorm e = 1%amp /\ forall x, x < 2 ^ (k_n U + k_n T) -> k_amplitude x V = Ret (e * (amps U (outside x start (k_n T)) * amps T (get_reg x start (k_n T))))%amp.
Proof. intros K ci ch c D Sp A U T start RU RT Hs. exact (r_compose_ok ci ch c D Sp A U T start RU RT Hs). Qed.

Definition det_check (o : out (ucliff Q8)) : bool :=
  match o with
  | Ret U0 => (k_n U0 =? 3) && sr_eqb (anorm (kc_nrm kz (weight_at U0 0 true)) * weight_at U0 0 true)%amp 1%amp && sr_eqb (anorm (kc_nrm kz (weight_at U0 0 false)) * weight_at U0 0 false)%amp 1%amp &&
              match k_force_m kz 0 true true true U0 with
              | Ret (r, U) => (k_n U =? 3) && ret_eqb (k_prob 2 U) 1%amp && match detach kz 2 1 U with Ret (V, T) => is_throw (k_prob 0 T) | _ => false end
              | _ => false
              end
  | _ => false
  end.
Lemma detach_gen o : det_check o = true -> (forall U0, o = Ret U0 -> reached z_i z_h kz U0) -> exists U V T : ucliff Q8, reached z_i z_h kz U /\ k_n U = 3 /\ k_prob 2 U = Ret 1%amp /\ detach kz 2 1 U = Ret (V, T) /\ k_prob 0 T = Throws.
Proof.
  unfold det_check. destruct o as [U0| |]; try discriminate. intros B HR. specialize (HR U0 eq_refl). apply andb_prop in B. destruct B as [B B4]. apply andb_prop in B. destruct B as [B B3]. apply andb_prop in B. destruct B as [B1 B2]. apply N.eqb_eq in B1.
  destruct (k_force_m kz 0 true true true U0) as [[r U]| |] eqn:F; try discriminate. destruct (detach kz 2 1 U) as [[V T]| |] eqn:G; try (rewrite andb_false_r in B4; discriminate). apply andb_prop in B4. destruct B4 as [B4 C3]. apply andb_prop in B4. destruct B4 as [C1 C2]. apply N.eqb_eq in C1.
  exists U, V, T. split; [|split; [exact C1|split; [apply ret_eqb_ok; exact C2|split; [exact G|apply is_throw_ok; exact C3]]]].
  apply (r_measure z_i z_h kz U0 0 true true true r U HR); [rewrite B1; reflexivity| |exact F]. intros [] _; apply eq_by; assumption.
Qed.
Lemma detach_witness : exists U V T : ucliff Q8, reached z_i z_h kz U /\ k_n U = 3 /\ k_prob 2 U = Ret 1%amp /\ detach kz 2 1 U = Ret (V, T) /\ k_prob 0 T = Throws.
Proof.
  apply (detach_gen (krun ghz 3)); [vm_compute; reflexivity|]. intros U0 E. rewrite krun_eq in E. apply (run_reached z_i z_h kz q8_definite kz_sep kz_amps ghz (set_permutation 3 0 (1 : Q8)%amp) U0); [apply r_new; apply eq_by; vm_compute; reflexivity| |exact E]. unfold ghz. repeat (apply Forall_cons; [cbn; repeat split; first [reflexivity|discriminate]|]). apply Forall_nil.
Qed.

Lemma l_c164_decompose_refuted : exists U V T : ucliff Q8, reached z_i z_h kz U /\ k_n U = 3 /\ k_prob 2 U = Ret 1%amp /\ detach kz 2 1 U = Ret (V, T) /\ k_prob 0 T = Throws.
Proof. exact detach_witness. Qed.
