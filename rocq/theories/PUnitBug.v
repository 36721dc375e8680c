(** Circuits on which the model of QUnit gives wrong results; proofs of PropUnitBug.v. *)
From Coq Require Import NArith List Bool.
From Verif Require Import Amp AmpQ8 SpecState MShard MUnit SpecUnit PAmp.
Import ListNotations.
Local Open Scope N_scope.

Section A.
  Context (K : StarRing).
  Add Ring KrBM : (sr_ring K).
  Local Open Scope amp_scope.
  (** A state with amplitude 0 where the other has none. *)
  Lemma zero_not_phase n (f g : N -> K) x : (x < 2 ^ n)%N -> f x = 0 -> g x <> 0 -> ~ upto_phase n f g.
  Proof.
    intros Hx Hf Hg (c & Hc & H). apply Hg. specialize (H x Hx). rewrite Hf in H. unfold anorm in Hc.
    transitivity (c * sr_conj c * g x); [rewrite Hc; ring|]. transitivity (sr_conj c * (c * g x)); [ring|]. rewrite <- H. ring.
  Qed.
  Lemma cancel_opp (c y : K) : c * - y + c * y = 0. Proof. ring. Qed.
End A.
Lemma eq_by (x y : Q8) : sr_eqb x y = true -> x = y. Proof. apply sr_eqb_ok. Qed.
Lemma neq_by (x y : Q8) : sr_eqb x y = false -> x <> y. Proof. intros H E. apply sr_eqb_ok in E. rewrite E in H. discriminate H. Qed.

(** Gates of the circuits below. *)
Definition p1 : Q8 := 1%amp.
Definition m1 : Q8 := (- (1))%amp.
Definition gX (t : N) : ugate := UInvert (K := Q8) p1 p1 t.
Definition gCX (c t : N) : ugate := UCtrl (K := Q8) [(c, true)] (mkMat 0 1 1 0)%amp t.
Definition gCP (c : N) (v : bool) (x y : Q8) (t : N) : ugate := UCtrl (K := Q8) [(c, v)] (mkMat x 0 0 y)%amp t.
Definition gCH (c t : N) : ugate := UCtrl (K := Q8) [(c, true)] (mkMat z_h z_h z_h (- z_h))%amp t.
(** Five qubits, 13 gates; four qubits, 9 gates. *)
Definition wrong5 : list (@ugate Q8) :=
  [UH 0; gCH 0 1; gCH 0 1; UH 0; gX 1; UH 2; gCP 2 true p1 m1 0; gCP 2 true p1 z_i 1; UH 3; gCX 3 1; gCX 3 1; gCP 1 true p1 m1 4; UH 2].
Definition cz2 : list (@ugate Q8) := [UH 0; UH 1; gCP 0 true p1 m1 1].
Definition half_bell : list (@ugate Q8) := [UH 0; gCH 0 1].
Definition minus_x : list (@ugate Q8) := [gX 0; UPhase m1 m1 0; gCX 0 1].
Definition start (rgp : bool) (n : N) (l : list bool) : qunit Q8 := new_unit rgp n 0 (fun _ => z_i) (stream l).
Definition z_nrm (p : Q8) : Q8 := if sr_eqb p (z_h * z_h)%amp then (z_h + z_h)%amp else if sr_eqb p z_quarter then (1 + 1)%amp else 1%amp.
Ltac one_tac := cbn;
  match goal with
  | |- (_ < _)%N => reflexivity
  | |- (_ < _)%N /\ _ = _ /\ _ = _ => split; [reflexivity|]; split; apply eq_by; vm_compute; reflexivity
  | |- NoDup _ /\ _ => split; [repeat constructor; intros []|]; split; [intros cv H; destruct H as [<-|[]]; split; [reflexivity|discriminate]|];
      split; [reflexivity|]; unfold unitary2; apply mat2_eq; apply eq_by; vm_compute; reflexivity
  end.
Ltac proper_tac := repeat (apply Forall_cons; [one_tac|]); apply Forall_nil.
Lemma wrong5_proper : Forall (proper_gate 5) wrong5. Proof. proper_tac. Qed.
Lemma cz2_proper : Forall (proper_gate 2) cz2. Proof. proper_tac. Qed.
Lemma half_bell_proper : Forall (proper_gate 2) half_bell. Proof. proper_tac. Qed.
Lemma minus_x_proper : Forall (proper_gate 2) minus_x. Proof. proper_tac. Qed.

Lemma l_c108_gates_refuted : forall rgp, exists n (gs : list (@ugate Q8)), Forall (proper_gate n) gs /\ ~ upto_phase n (fun x => fst (GetAmplitude cxQ8 x (run cxQ8 gs (new_unit rgp n 0 (fun _ => z_i) (fun _ _ => true))))) (ideal_run cxQ8 gs (ket 0)).
Proof. intros rgp. exists 5, wrong5. split; [exact wrong5_proper|]. apply (zero_not_phase Q8) with (x := 6); [reflexivity| |]; [apply eq_by; destruct rgp; vm_compute; reflexivity|apply neq_by; vm_compute; reflexivity]. Qed.

Lemma l_c109_outcomes_refuted : exists n (gs : list (@ugate Q8)) x, Forall (proper_gate n) gs /\ (x < 2 ^ n)%N /\ (anorm (ideal_run cxQ8 gs (ket 0) x) + anorm (ideal_run cxQ8 gs (ket 0) x) = z_h * z_h)%amp /\ forall l, fst (MAll cxQ8 z_nrm (run cxQ8 gs (new_unit false n 0 (fun _ => z_i) (stream l)))) <> x.
Proof. exists 2, half_bell, 3. split; [exact half_bell_proper|]. split; [reflexivity|]. split; [apply eq_by; vm_compute; reflexivity|]. intros [|[|] [|[|] l]]; intros E; vm_compute in E; discriminate E. Qed.

Lemma l_c110_no_collapse_refuted : forall rgp, exists n (gs : list (@ugate Q8)) q x, Forall (proper_gate n) gs /\ q < n /\ x < 2 ^ n /\ let U := run cxQ8 gs (new_unit rgp n 0 (fun _ => z_i) (fun _ _ => true)) in fst (GetAmplitude cxQ8 x (snd (ForceM cxQ8 z_nrm (u_sw U q) false true false U))) <> fst (GetAmplitude cxQ8 x U) /\ ~ upto_phase n (fun x => fst (GetAmplitude cxQ8 x (snd (ForceM cxQ8 z_nrm (u_sw U q) false true false U)))) (fun x => fst (GetAmplitude cxQ8 x U)).
Proof. intros rgp. exists 2, cz2, 0, 3. split; [exact cz2_proper|]. split; [reflexivity|]. split; [reflexivity|]. cbv zeta. split; [apply neq_by; destruct rgp; vm_compute; reflexivity|].
  intros (c & _ & H). pose proof (H 0 eq_refl) as H0. pose proof (H 3 eq_refl) as H3.
  set (U := run cxQ8 cz2 (new_unit rgp 2 0 (fun _ => z_i) (fun _ _ => true))) in *. set (V := snd (ForceM cxQ8 z_nrm (u_sw U 0) false true false U)) in *.
  assert (E0 : fst (GetAmplitude cxQ8 3 V) = fst (GetAmplitude cxQ8 0 V)) by (apply eq_by; unfold V, U; destruct rgp; vm_compute; reflexivity).
  assert (E1 : (fst (GetAmplitude cxQ8 3 U) = - fst (GetAmplitude cxQ8 0 U))%amp) by (apply eq_by; unfold U; destruct rgp; vm_compute; reflexivity).
  assert (E2 : (fst (GetAmplitude cxQ8 0 V) + fst (GetAmplitude cxQ8 0 V) <> 0)%amp) by (apply neq_by; unfold V, U; destruct rgp; vm_compute; reflexivity).
  cbv beta in H0, H3. apply E2. rewrite <- E0 at 1. rewrite H3, H0, E1. clear. generalize (fst (GetAmplitude cxQ8 0 U)). intros y. apply (cancel_opp Q8). Qed.

Lemma l_c111_phase_refuted : exists n (gs : list (@ugate Q8)) x, Forall (proper_gate n) gs /\ x < 2 ^ n /\ fst (GetAmplitude cxQ8 x (run cxQ8 gs (new_unit false n 0 (fun _ => z_i) (fun _ _ => true)))) <> ideal_run cxQ8 gs (ket 0) x.
Proof. exists 2, minus_x, 3. split; [exact minus_x_proper|]. split; [reflexivity|]. apply neq_by. vm_compute. reflexivity. Qed.
