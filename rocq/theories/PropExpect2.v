(** Property theorems C173 and C174: ExpectationUnitaryAll and VarianceUnitaryAll of QInterface, with matrices and with angles. *)
From Coq Require Import NArith ZArith Arith List Bool Lia Reals Lra.
From Verif Require Import Amp AmpC SpecState MTensor MApi MExpect SpecExpect MExpect2 SpecExpect2 PExpProp PExpProp2.
Import ListNotations.
Local Open Scope N_scope.

(** * C173: bases given by matrices *)

(** With unitary bases, ExpectationUnitaryAll returns the sum of the expectation values of the observables on the single qubits, and leaves the state as it was; for one qubit that is the expectation value asked for.  Missing for the full statement: the expectation value of the product, for which it fails. *)
Theorem c173_expectation_is_partial : forall (K : StarRing) (recip : K -> K) n (l : list (factor K)) (psi : N -> K), l <> [] -> proper_bits n (map f_bit l) ->
  (forall e, In e l -> unitary2 (f_basis e) /\ (recip (m00 (f_basis e) * m11 (f_basis e) - m01 (f_basis e) * m10 (f_basis e)) * (m00 (f_basis e) * m11 (f_basis e) - m01 (f_basis e) * m10 (f_basis e)) = 1)%amp) -> norm2 n psi = 1%amp ->
  exists w, unitary_all recip true n (map f_bit l) (map f_basis l) (flat_map f_eigs l) psi = Ret (asum (fun e => obs_exp n e psi) l, w) /\ forall x, w x = psi x.
Proof. exact @PExpProp2.l_c173_expectation_is_partial. Qed.
Print Assumptions c173_expectation_is_partial.

Example c173_hyps : let m : mat2 GI := mkMat 0 1 1 0%amp in let l := [@mkF GI 2 m (3, 0)%Z (5, 0)%Z; @mkF GI 0 midn (7, 0)%Z (2, 0)%Z] in
  l <> [] /\ proper_bits 3 (map f_bit l) /\ (forall e, In e l -> unitary2 (f_basis e) /\ ((fun x => x) (m00 (f_basis e) * m11 (f_basis e) - m01 (f_basis e) * m10 (f_basis e)) * (m00 (f_basis e) * m11 (f_basis e) - m01 (f_basis e) * m10 (f_basis e)) = 1)%amp) /\ norm2 3 (ket 4 : N -> GI) = 1%amp /\
  asum (fun e => obs_exp 3 e (ket 4)) l = (10, 0)%Z.
Proof.
  cbv zeta. split; [discriminate|]. split. { split. repeat constructor; cbn; intuition discriminate. intros q [<-|[<-|[]]]; reflexivity. }
  split. { intros e [<-|[<-|[]]]; split; vm_compute; reflexivity. } split; vm_compute; reflexivity.
Qed.


(** For one qubit, VarianceUnitaryAll returns the variance of the observable and leaves the state as it was. *)
Theorem c173_variance_partial : forall (K : StarRing) (recip : K -> K) n (e : factor K) (psi : N -> K), f_bit e < n -> unitary2 (f_basis e) /\ (recip (m00 (f_basis e) * m11 (f_basis e) - m01 (f_basis e) * m10 (f_basis e)) * (m00 (f_basis e) * m11 (f_basis e) - m01 (f_basis e) * m10 (f_basis e)) = 1)%amp -> norm2 n psi = 1%amp ->
  exists w, unitary_all recip false n [f_bit e] [f_basis e] (f_eigs e) psi = Ret (obs_var n e psi, w) /\ forall x, w x = psi x.
Proof. exact @PExpProp2.l_c173_variance_partial. Qed.
Print Assumptions c173_variance_partial.

(** Eigenvalues that are left out are 1 and -1. *)
Theorem c173_default : forall (K : StarRing) (recip : K -> K) isExp n bits ops (psi : N -> K), unitary_all recip isExp n bits ops [] psi = unitary_all recip isExp n bits ops (flat_map (fun _ => [1; - (1)]%amp) bits) psi.
Proof. exact @PExpProp2.l_c173_default. Qed.
Print Assumptions c173_default.

Example c173_default_example : flat_map (fun _ => [1; - (1)]%amp) [2; 0] = [(1, 0); (-1, 0); (1, 0); (-1, 0)]%Z :> list GI.
Proof. reflexivity. Qed.


(** Two factors with the computational basis and eigenvalues 1, -1 in |00>: the product has expectation value 1, and ExpectationUnitaryAll returns 2. *)
Theorem c173_product_refuted : let l := [@mkF GI 0 midn (1, 0)%Z (-1, 0)%Z; @mkF GI 1 midn (1, 0)%Z (-1, 0)%Z] in
  (exists w, unitary_all (K := GI) (fun x => x) true 2 (map f_bit l) (map f_basis l) (flat_map f_eigs l) (ket 0) = Ret ((2, 0)%Z, w)) /\ obs_prod 2 l (ket 0) = (1, 0)%Z.
Proof. exact @PExpProp2.l_c173_product_refuted. Qed.
Print Assumptions c173_product_refuted.

(** * C174: bases given by angles *)

(** With angles, the same holds when phi and lambda agree or sin (theta / 2) is 0.  Missing for the full statement: other angles, for which it fails, and the product. *)
Theorem c174_expectation_is_partial : forall (K : StarRing) n (l : list (N * u3 K * (K * K))) (psi : N -> K), l <> [] -> proper_bits n (map (fun e => fst (fst e)) l) ->
  (forall e, In e l -> angles (snd (fst e)) /\ (u_ep (snd (fst e)) = u_el (snd (fst e)) \/ u_s (snd (fst e)) = 0%amp)) -> norm2 n psi = 1%amp ->
  exists w, unitary_all3 true n (map (fun e => fst (fst e)) l) (map (fun e => snd (fst e)) l) (flat_map (fun e => [fst (snd e); snd (snd e)]) l) psi = Ret (asum (fun e => obs_exp n (u_factor e) psi) l, w) /\ forall x, w x = psi x.
Proof. exact @PExpProp2.l_c174_expectation_is_partial. Qed.
Print Assumptions c174_expectation_is_partial.

Example c174_hyps : let u := @mkU GI (0, 0)%Z (1, 0)%Z (0, 1)%Z (0, 1)%Z in 
  proper_bits 3 (map (fun e => fst (fst e)) [(1, u, ((3, 0)%Z, (5, 0)%Z))]) /\ angles u /\ u_ep u = u_el u /\ norm2 3 (ket 4 : N -> GI) = 1%amp /\ obs_exp 3 (u_factor (1, u, ((3, 0)%Z, (5, 0)%Z))) (ket 4) = (5, 0)%Z.
Proof. cbv zeta. split. { split. repeat constructor; intros []. intros q [<-|[]]; reflexivity. } split. { repeat split; vm_compute; reflexivity. } repeat split; vm_compute; reflexivity. Qed.


(** For the angles (pi/2, 0, pi), whose U is the Hadamard gate, the observable is X.  In the state with both amplitudes h, its expectation value is 1, but ExpectationUnitaryAll returns -1, and the call turns the state into its opposite (amplitudes -h and h): negating the three angles does not invert U. *)
Theorem c174_hadamard_refuted : forall (K : StarRing) (h : K), (h * h + h * h = 1)%amp -> sr_conj h = h -> let u := mkU h h 1%amp (- (1))%amp in let psi := fun _ : N => h in
  angles u /\ norm2 1 psi = 1%amp /\ obs (u_factor (0, u, (1, - (1))%amp)) = mkMat 0%amp 1%amp 1%amp 0%amp /\ obs_exp 1 (u_factor (0, u, (1, - (1))%amp)) psi = 1%amp /\
  exists w, unitary_all3 true 1 [0] [u] [] psi = Ret ((- (1))%amp, w) /\ w 0 = (- h)%amp /\ w 1 = h.
Proof. exact @PExpProp2.l_c174_hadamard_refuted. Qed.
Print Assumptions c174_hadamard_refuted.

Example c174_h : (cc_h * cc_h + cc_h * cc_h = 1)%amp /\ sr_conj cc_h = cc_h.
Proof. split; [apply two_sq; exact cc_h_ok|]. cbn. unfold c_conj, cc_h; cbn [fst snd]. f_equal; ring. Qed.

