(** Programs on which the model of QUnitClifford goes wrong; proofs of PropUCliff.v. *)
From Coq Require Import NArith List Bool.
From Verif Require Import Amp PAmp AmpQ8 SpecState MTensor MUCliff SpecUCliff PUCliff6 PUnitBug.
Import ListNotations.
Local Open Scope N_scope.

Definition split_z (n s l : N) (v : N -> Q8) : (N -> Q8) * (N -> Q8) := match sep_z n s v with Some p => p | None => (v, v) end.
Definition kz : kcfg Q8 := mkKC sep_z split_z (fun _ => true) (fun _ _ => true) (fun _ => true) z_nrm.
Definition krun (p : list (kcall Q8)) (n : N) : out (ucliff Q8) := k_run z_i z_h kz p (set_permutation n 0 (1 : Q8)%amp).
Definition kideal (p : list (kcall Q8)) (x : N) : Q8 := ideal_run z_i z_h p (fun y => (1 * ket 0 y)%amp) x.
Lemma kz_sep : sep_ok kz. Proof. apply sep_z_ok. reflexivity. Qed.
Lemma kz_amps : amps_ok z_i z_h.
Proof. split; [apply eq_by; vm_compute; reflexivity|]. split; [apply eq_by; vm_compute; reflexivity|]. split; [exact z_h_ok|exact z_h_conj]. Qed.

Definition is_ret {T} (o : out T) : bool := match o with Ret _ => true | _ => false end.
Definition is_throw {T} (o : out T) : bool := match o with Throws => true | _ => false end.
Definition is_undef {T} (o : out T) : bool := match o with Undef => true | _ => false end.
Definition ret_eqb (o : out Q8) (a : Q8) : bool := match o with Ret b => sr_eqb b a | _ => false end.
Definition amp_eqb (o : out (ucliff Q8)) (x : N) (a : Q8) : bool := match o with Ret V => ret_eqb (k_amplitude x V) a | _ => false end.
Lemma is_throw_ok {T} (o : out T) : is_throw o = true -> o = Throws. Proof. destruct o; cbn; congruence. Qed.
Lemma is_undef_ok {T} (o : out T) : is_undef o = true -> o = Undef. Proof. destruct o; cbn; congruence. Qed.
Lemma ret_eqb_ok o a : ret_eqb o a = true -> o = Ret a. Proof. destruct o as [b| |]; unfold ret_eqb; try congruence. intros H. rewrite (eq_by _ _ H). reflexivity. Qed.

(** A certain control: the gate goes to a qubit that the unit does not have. *)
Definition bug_undef : list (kcall Q8) := [OX 0; OCNOT false 0 1].
(** A certain control: the gate goes to another qubit. *)
Definition bug_wrong : list (kcall Q8) := [OH 0; OH 1; OCZ false 1 0; OX 2; OCNOT false 2 0].
Lemma bug_undef_run : krun bug_undef 2 = Undef.
Proof. apply is_undef_ok. vm_compute. reflexivity. Qed.
Lemma bug_wrong_vals : amp_eqb (krun bug_wrong 3) 4 (kideal bug_wrong 4) = true /\ amp_eqb (krun bug_wrong 3) 6 (- kideal bug_wrong 6)%amp = true /\ sr_eqb (kideal bug_wrong 4) 0 = false /\ sr_eqb (kideal bug_wrong 6) (- kideal bug_wrong 6)%amp = false.
Proof. vm_compute. repeat split. Qed.

(** ProbMask of |00>. *)
Lemma bug_mask : k_prob_mask 3 0 (set_permutation 2 0 (1 : Q8)%amp) = Ret (1 + 1)%amp /\ k_prob_mask 0 0 (set_permutation 2 0 (1 : Q8)%amp) = Ret 0%amp.
Proof. split; apply ret_eqb_ok; vm_compute; reflexivity. Qed.
(** FSim on qubits of a joined unit. *)
Lemma bug_fsim : is_undef (k_fsim_iswap kz z_i 1 2 (set_permutation 3 2 (1 : Q8)%amp)) = true.
Proof. vm_compute. reflexivity. Qed.
(** Compose with a register that has the phase i. *)
Definition one_i : ucliff Q8 := set_permutation 1 0 z_i.
Lemma bug_compose : amp_eqb (k_compose one_i 1 (set_permutation 1 0 (1 : Q8)%amp)) 0 1%amp = true /\ ret_eqb (k_amplitude 0 one_i) z_i = true.
Proof. split; vm_compute; reflexivity. Qed.
(** Three qubits in (|000> + |111>) / sqrt 2; qubit 0 is measured, which leaves the others in one unit; qubit 2 is decomposed. *)
Definition ghz : list (kcall Q8) := [OH 0; OCNOT false 0 1; OCNOT false 0 2].
Definition part3 : out (ucliff Q8 * ucliff Q8) := do U <- krun ghz 3; do (r, U) <- k_force_m kz 0 true true true U; detach kz 2 1 U.
Lemma bug_detach : is_throw (do (U, T) <- part3; k_prob 0 T) = true /\ ret_eqb (do U <- krun ghz 3; do (r, U) <- k_force_m kz 0 true true true U; k_prob 2 U) 1%amp = true.
Proof. split; vm_compute; reflexivity. Qed.
