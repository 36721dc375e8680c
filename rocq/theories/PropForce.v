(** Property theorems C186 and C187: M and ForceM of a list of qubits, as QInterface has them. *)
From Coq Require Import NArith ZArith Arith List Bool Lia.
From Verif Require Import Amp SpecState SpecEngine SpecAlu MTensor MForce SpecForce PForceProp.
Import ListNotations.
Local Open Scope N_scope.

(** * C186: measurements that are applied *)

(** M of a list of qubits: the mask returned is that of the listed qubits in some basis state of non-zero amplitude, and the state is projected onto the basis states that agree with it on the listed qubits; there is no exception. *)
Theorem c186_measure : forall (K : StarRing) (nrm : (N -> K) -> N -> bool -> K), (forall psi q b (a : K), a <> 0%amp -> (nrm psi q b * a)%amp <> 0%amp) -> forall n bits psi, nonzero n psi ->
  every_run (force_bits nrm n bits [] true psi) (fun r => exists m psi' x, r = Ret (m, psi') /\ x < 2 ^ n /\ psi x <> 0%amp /\ mask_of bits x m /\ measured_as n bits x psi psi').
Proof. exact @PForceProp.l_c186_measure. Qed.
Print Assumptions c186_measure.

Example c186_hyps : let nrm := fun (_ : N -> GI) (_ : N) (_ : bool) => (2, 0)%Z : GI in (forall psi q b (a : GI), a <> 0%amp -> (nrm psi q b * a)%amp <> 0%amp) /\ nonzero 2 (ket 2 : N -> GI) /\ mask_of [1] 2 2.
Proof.
  split; [|split].
  - intros psi q b [u v] H E. apply H. change ((2 * u - 0 * v, 2 * v + 0 * u)%Z = (0, 0)%Z) in E. assert (E1 := f_equal fst E). assert (E2 := f_equal snd E). cbn [fst snd] in E1, E2. change ((u, v) = (0, 0)%Z). f_equal; lia.
  - exists 2. split. reflexivity. discriminate.
  - intros q. cbn [existsb]. rewrite orb_false_r. change 2 with (2 ^ 1). rewrite N.pow2_bits_eqb. rewrite (N.eqb_sym 1 q). now destruct (q =? 1).
Qed.


(** ForceM with values, applied: if some basis state of non-zero amplitude has the listed values, the mask of these values is returned and the state is projected onto them; otherwise, and only then, an exception is thrown. *)
Theorem c186_force : forall (K : StarRing) (nrm : (N -> K) -> N -> bool -> K), (forall psi q b (a : K), a <> 0%amp -> (nrm psi q b * a)%amp <> 0%amp) -> forall n bits values psi, nonzero n psi -> length bits = length values -> bits <> [] ->
  every_run (force_bits nrm n bits values true psi) (fun r =>
    (exists m psi' x, r = Ret (m, psi') /\ x < 2 ^ n /\ psi x <> 0%amp /\ has_values bits values x /\ mask_of bits x m /\ measured_as n bits x psi psi') \/
    (r = Throws /\ forall x, x < 2 ^ n -> psi x <> 0%amp -> ~ has_values bits values x)).
Proof. exact @PForceProp.l_c186_force. Qed.
Print Assumptions c186_force.

Example c186_force_hyps : nonzero 2 (ket 2 : N -> GI) /\ length [1; 0] = length [true; false] /\ has_values [1; 0] [true; false] 2.
Proof. split; [exists 2; split; [reflexivity|discriminate]|split; [reflexivity|]]. intros q v [H|[H|[]]]; injection H as <- <-; reflexivity. Qed.


(** Lists of different lengths are refused. *)
Theorem c186_lengths : forall (K : StarRing) (nrm : (N -> K) -> N -> bool -> K) n bits values apply psi r, values <> [] -> length bits <> length values -> force_bits nrm n bits values apply psi r -> r = Throws.
Proof. exact @PForceProp.l_c186_lengths. Qed.
Print Assumptions c186_lengths.

(** * C187: measurements that are not applied *)

(** With doApply = false the state does not change.  With values, the mask returned has the bits of the qubits whose value is true.  Missing for the full statement: the mask without values, and the exception for impossible values, which both fail. *)
Theorem c187_state_partial : forall (K : StarRing) (nrm : (N -> K) -> N -> bool -> K) n bits values psi r, force_bits nrm n bits values false psi r ->
  r = Throws \/ exists m, r = Ret (m, psi) /\ (values <> [] -> forall q, N.testbit m q = existsb (fun e => (fst e =? q) && snd e) (combine bits values)).
Proof. exact @PForceProp.l_c187_state_partial. Qed.
Print Assumptions c187_state_partial.

Example c187_example : let nrm := fun (_ : N -> GI) (_ : N) (_ : bool) => 1%amp : GI in force_bits nrm 2 [1] [true] false (ket 2) (Ret (2, ket 2)).
Proof. cbv zeta. unfold force_bits. cbn [length Nat.eqb negb andb map combine force_loop]. exists (Ret (true, ket 2)). split. { left. exists true. split; [|auto]. exists 2. split. reflexivity. split. reflexivity. discriminate. } exists (Ret (0, ket 2)). split; reflexivity. Qed.


(** Without values and with doApply = false, ForceM returns not a mask of the results but the packed outcomes of MultiShotMeasureMask (qinterface.cpp:254-258): for the list of qubit 1 in the state |10> every run with doApply returns 2, and every run without returns 1. *)
Theorem c187_mask_refuted : forall (K : StarRing) (nrm : (N -> K) -> N -> bool -> K), (1 : K)%amp <> 0%amp ->
  every_run (force_bits nrm 2 [1] [] true (ket 2)) (fun r => exists psi', r = Ret (2, psi')) /\ every_run (force_bits nrm 2 [1] [] false (ket 2)) (fun r => r = Ret (1, ket 2)).
Proof. exact @PForceProp.l_c187_mask_refuted. Qed.
Print Assumptions c187_mask_refuted.

Example c187_mask_hyps : (1 : GI)%amp <> 0%amp.
Proof. discriminate. Qed.


(** With values and doApply = false every qubit is checked alone: in a state with the amplitudes of |00> and |11> only, forcing the values 0 and 1 returns the mask of these values, although no basis state of non-zero amplitude has them; with doApply = true an exception is thrown (c186_force). *)
Theorem c187_impossible_refuted : forall (K : StarRing) (nrm : (N -> K) -> N -> bool -> K), (1 : K)%amp <> 0%amp -> let bell : N -> K := fun x => if (x =? 0) || (x =? 3) then 1%amp else 0%amp in
  (forall x, x < 2 ^ 2 -> bell x <> 0%amp -> ~ has_values [0; 1] [false; true] x) /\ force_bits nrm 2 [0; 1] [false; true] false bell (Ret (2, bell)).
Proof. exact @PForceProp.l_c187_impossible_refuted. Qed.
Print Assumptions c187_impossible_refuted.

Example c187_impossible_hyps : (1 : GI)%amp <> 0%amp.
Proof. discriminate. Qed.

