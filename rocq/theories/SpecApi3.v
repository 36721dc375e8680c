(** Products of Pauli operators on named qubits, and their expectation values. *)
From Coq Require Import NArith List Bool.
From Verif Require Import Amp SpecState SpecApi MApi.
Import ListNotations.
Local Open Scope N_scope.

Section Paulis.
  Context {K : StarRing} (i : K).
  Local Notation nstate := ((N -> bool) -> K).
  Local Open Scope amp_scope.
  Definition pauli_mat (b : pauli) : mat2 K :=
    match b with PI => mkMat 1 0 0 1 | PX => mkMat 0 1 1 0 | PY => mkMat 0 (- i) i 0 | PZ => mkMat 1 0 0 (- (1)) end.
  (** The product of the operators applied to a state. *)
  Definition npaulis (l : list (pauli * N)) (Psi : nstate) : nstate := fold_right (fun e Phi => ngate true [] (pauli_mat (fst e)) (snd e) Phi) Psi l.
  (** The inner product of the state with the product applied to it. *)
  Definition nexpect (ids : list N) (l : list (pauli * N)) (Psi : nstate) : K := asum (fun f => sr_conj (Psi f) * npaulis l Psi f) (assign ids).
  (** exp(i phi P) for cos phi and sin phi. *)
  Definition exp_mat (b : pauli) (cph sph : K) : mat2 K :=
    let p := pauli_mat b in mkMat (cph + i * sph * m00 p) (i * sph * m01 p) (i * sph * m10 p) (cph + i * sph * m11 p).
End Paulis.

(** The call only reports an error of the simulator. *)
Definition only_error {K : StarRing} (sid : N) (a a' : @api K) : Prop :=
  a_meta a' = a_meta a /\ a_draw a' = a_draw a /\ length (a_slots a') = length (a_slots a) /\ (forall i, i <> N.to_nat sid -> nth_error (a_slots a') i = nth_error (a_slots a) i) /\
  exists s, nth_error (a_slots a) (N.to_nat sid) = Some s /\ nth_error (a_slots a') (N.to_nat sid) = Some (mkSlot (sl_res s) (sl_sim s) 1).
