(** Programs of calls of QUnit; proofs of PropUnit.v. *)
From Coq Require Import NArith List Bool Reals.
From Verif Require Import Amp PAmp AmpC AmpC2 AmpQ8 AmpQ8b SpecState MShard MUnit SpecUnit SpecUnit2 PUnit3 PUnit5 PUnit10 PUnit14 PUnit20 PUnit22 PUnit23 PUnit24 PUnitBug.
Import ListNotations.
Local Open Scope N_scope.

(** Examples: three qubits; the second program has an H on a qubit that has been a control. *)
Definition ghz : list (@ucall Q8) := [CGate (UH 0); CProb 0; CGate (gCX 0 1); CGate (UPhase p1 z_i 1); CProb 1; CGate (gCX 1 2); CGetAmplitude 7; CGate (USwap 0 2)].
Lemma ghz_proper : Forall (proper_call 3) ghz.
Proof. repeat (apply Forall_cons; [cbn; one_tac || reflexivity || (split; reflexivity)|]). apply Forall_nil. Qed.
Lemma ghz_first : h_first_calls cxQ8 [] ghz.
Proof. cbn. repeat split; try (intros H; exact H); intros _ H; repeat (destruct H as [H|H]; [discriminate H|]); exact H. Qed.
(** The complex numbers: H, CNOT, Prob. *)
Definition bellC : list (@ucall CC) := [CGate (UH 0); CGate (UCtrl [(0, true)] (mkMat 0 1 1 0)%amp 1); CProb 1].
Lemma bellC_proper : Forall (proper_call 2) bellC.
Proof.
  repeat (apply Forall_cons; [cbn|]); [reflexivity| |reflexivity|apply Forall_nil]. split; [repeat constructor; intros []|]. split; [intros cv [<-|[]]; split; [reflexivity|discriminate]|]. split; [reflexivity|].
  unfold unitary2. apply mat2_eq; cbn; unfold c_add, c_mul, c_conj; cbn; f_equal; ring.
Qed.
Lemma bellC_first : h_first_calls cxCC [] bellC. Proof. cbn. repeat split; auto. Qed.
Lemma oneC : anorm (K := CC) 1%amp = 1%amp. Proof. cbn. unfold c_mul, c_conj. cbn. f_equal; ring. Qed.
Lemma z_i_unit : anorm (K := Q8) z_i = 1%amp. Proof. apply eq_by. vm_compute. reflexivity. Qed.

Lemma l_c108_programs_partial : forall (K : StarRing) (cx : Cplx K), positive (K := K) -> forall rgp n perm (ph : N -> K) rnd gs, (forall j, anorm (ph j) = 1%amp) -> perm < 2 ^ n -> Forall (proper_gate n) gs -> h_open cx n (fun _ _ => False) (ket perm) gs -> upto_phase n (fun x => fst (GetAmplitude cx x (run cx gs (new_unit rgp n perm ph rnd)))) (ideal_run cx gs (ket perm)).
Proof. intros K cx D rgp n perm ph rnd gs HP Hp HF HS. destruct (PUnit21.new_logical cx rgp n perm ph rnd HP Hp) as (G & En & _ & C & HL).
  destruct (run_ok cx D n gs (fun _ _ => False) _ (ket perm) G En HF) as (G' & L' & N' & _); auto; [intros c t H; destruct (C c t H)|]. apply (amps_ok cx D); assumption. Qed.

Lemma l_c108_safe_calls_partial : forall (K : StarRing) (cx : Cplx K), positive (K := K) -> forall rgp n perm (ph : N -> K) rnd cs, (forall j, anorm (ph j) = 1%amp) -> perm < 2 ^ n -> Forall (proper_call n) cs -> h_safe_calls cx n (fun _ _ => False) (ket perm) cs -> upto_phase n (fun x => fst (GetAmplitude cx x (calls cx cs (new_unit rgp n perm ph rnd)))) (ideal_calls cx cs (ket perm)).
Proof. intros K cx D rgp n perm ph rnd cs HP Hp HF HS. destruct (start_ok cx D rgp n perm ph rnd cs HP Hp HF HS) as (G & En & ER & HL). apply (amps_ok cx D); assumption. Qed.

Lemma l_c112_amplitudes : forall (K : StarRing) (cx : Cplx K), positive (K := K) -> forall rgp n perm (ph : N -> K) rnd cs, (forall j, anorm (ph j) = 1%amp) -> perm < 2 ^ n -> Forall (proper_call n) cs -> h_first_calls cx [] cs -> upto_phase n (fun x => fst (GetAmplitude cx x (calls cx cs (new_unit rgp n perm ph rnd)))) (ideal_calls cx cs (ket perm)).
Proof. intros K cx D rgp n perm ph rnd cs HP Hp HF HS. destruct (start_ok cx D rgp n perm ph rnd cs HP Hp HF (first_calls cx n cs [] (fun _ _ => False) (ket perm) (fun _ _ H => False_ind _ H) HS)) as (G & En & ER & HL). apply (amps_ok cx D); assumption. Qed.

Lemma l_c113_prob : forall (K : StarRing) (cx : Cplx K), positive (K := K) -> forall rgp n perm (ph : N -> K) rnd cs, (forall j, anorm (ph j) = 1%amp) -> perm < 2 ^ n -> Forall (proper_call n) cs -> h_first_calls cx [] cs -> exact_roots cx -> forall q, q < n -> let U := calls cx cs (new_unit rgp n perm ph rnd) in fst (Prob cx (u_sw U q) U) = asum (fun x => if N.testbit x q then anorm (ideal_calls cx cs (ket perm) x) else 0%amp) (basis n).
Proof. intros K cx D rgp n perm ph rnd cs HP Hp HF HS R q Hq. cbn zeta. destruct (start_ok cx D rgp n perm ph rnd cs HP Hp HF (first_calls cx n cs [] (fun _ _ => False) (ket perm) (fun _ _ H => False_ind _ H) HS)) as (G & En & ER & HL). set (U := calls cx cs _) in *. clearbody U. subst n. apply (prob_logical cx D); assumption. Qed.

Lemma l_c114_reads : forall (K : StarRing) (cx : Cplx K), positive (K := K) -> forall rgp n perm (ph : N -> K) rnd cs, (forall j, anorm (ph j) = 1%amp) -> perm < 2 ^ n -> Forall (proper_call n) cs -> h_first_calls cx [] cs -> let U := calls cx cs (new_unit rgp n perm ph rnd) in (forall q, q < n -> upto_phase n (fun x => fst (GetAmplitude cx x (snd (Prob cx (u_sw U q) U)))) (fun x => fst (GetAmplitude cx x U))) /\ (forall y, upto_phase n (fun x => fst (GetAmplitude cx x (snd (GetAmplitude cx y U)))) (fun x => fst (GetAmplitude cx x U))).
Proof. intros K cx D rgp n perm ph rnd cs HP Hp HF HS. cbn zeta. destruct (start_ok cx D rgp n perm ph rnd cs HP Hp HF (first_calls cx n cs [] (fun _ _ => False) (ket perm) (fun _ _ H => False_ind _ H) HS)) as (G & En & ER & HL). split.
  - intros q Hq. apply (amps_keep cx D); [exact G|]. apply (prob_keeps cx D); [exact G|]. apply (PUnit5.wf_sw _ (gd_wf cx _ G)). rewrite En. exact Hq.
  - intros y. apply (amps_keep cx D); [exact G|]. apply (amp_keeps cx D), G. Qed.

Lemma l_c115_norm : forall (K : StarRing) (cx : Cplx K), positive (K := K) -> forall rgp n perm (ph : N -> K) rnd cs, (forall j, anorm (ph j) = 1%amp) -> perm < 2 ^ n -> Forall (proper_call n) cs -> h_first_calls cx [] cs -> asum (fun x => anorm (fst (GetAmplitude cx x (calls cx cs (new_unit rgp n perm ph rnd))))) (basis n) = 1%amp.
Proof. intros K cx D rgp n perm ph rnd cs HP Hp HF HS. destruct (start_ok cx D rgp n perm ph rnd cs HP Hp HF (first_calls cx n cs [] (fun _ _ => False) (ket perm) (fun _ _ H => False_ind _ H) HS)) as (G & En & ER & HL). set (U := calls cx cs _) in *. clearbody U. subst n. apply (amps_norm cx D), G. Qed.

Lemma l_c116_layout : forall (K : StarRing) (cx : Cplx K), positive (K := K) -> forall rgp n perm (ph : N -> K) rnd cs, (forall j, anorm (ph j) = 1%amp) -> perm < 2 ^ n -> Forall (proper_call n) cs -> h_first_calls cx [] cs -> let U := calls cx cs (new_unit rgp n perm ph rnd) in u_ub U = false /\ u_n U = n /\ well_placed U.
Proof. intros K cx D rgp n perm ph rnd cs HP Hp HF HS. cbn zeta. destruct (start_ok cx D rgp n perm ph rnd cs HP Hp HF (first_calls cx n cs [] (fun _ _ => False) (ket perm) (fun _ _ H => False_ind _ H) HS)) as (G & En & ER & HL). split; [apply (gd_ub cx _ G)|]. split; [exact En|]. apply (good_placed cx), G. Qed.

Lemma l_c117_set_permutation : forall (K : StarRing) (cx : Cplx K), positive (K := K) -> forall perm (U : qunit K), (forall j, anorm (u_ph U j) = 1%amp) -> u_ub U = false -> perm < 2 ^ u_n U -> upto_phase (u_n U) (fun x => fst (GetAmplitude cx x (SetPermutation perm U))) (ket perm).
Proof. intros K cx D perm U HP HU Hp. apply (set_perm_amps cx D); assumption. Qed.
