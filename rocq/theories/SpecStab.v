(** Independent specification for the stabilizer simulator: Pauli operators as explicit products of one-qubit
    matrices, Clifford gates as matrices on states, projection, separability. *)
From Coq Require Import NArith List Bool.
From Verif Require Import Amp SpecState.
Import ListNotations.
Local Open Scope N_scope.

Section S.
  Context {K : StarRing}.
  Local Notation vec := (N -> K).
  (** The imaginary unit and the factor of the Hadamard matrix. *)
  Variables im h : K.
  Definition imaginary : Prop := (im * im = - (1))%amp /\ sr_conj im = (- im)%amp.

  Definition matX : mat2 K := mkMat 0%amp 1%amp 1%amp 0%amp.
  Definition matY : mat2 K := mkMat 0%amp (- im)%amp im 0%amp.
  Definition matZ : mat2 K := mkMat 1%amp 0%amp 0%amp (- (1))%amp.
  Definition matS : mat2 K := mkMat 1%amp 0%amp 0%amp im.
  Definition matIS : mat2 K := mkMat 1%amp 0%amp 0%amp (- im)%amp.
  Definition matH : mat2 K := mkMat h h h (- h)%amp.

  (** I, X, Z or Y, by the x and z bit. *)
  Definition pauli1 (x z : bool) : mat2 K :=
    match x, z with
    | false, false => midn
    | true, false => matX
    | false, true => matZ
    | true, true => matY
    end.
  (** The Pauli matrices given by the masks [x], [z] on the qubits below [k], one after the other. *)
  Fixpoint pauli_string (k : nat) (x z : N) (psi : vec) : vec :=
    match k with
    | O => psi
    | S j => gate1 always (N.of_nat j) (pauli1 (N.testbit x (N.of_nat j)) (N.testbit z (N.of_nat j))) (pauli_string j x z psi)
    end.
  (** i^r times the string: the operator denoted by a tableau row. *)
  Definition pauli_op (n x z r : N) (psi : vec) : vec :=
    fun y => (apow im (N.to_nat r) * pauli_string (N.to_nat n) x z psi y)%amp.
  (** The operator leaves the state unchanged. *)
  Definition stabilised (n x z r : N) (psi : vec) : Prop := eqv n (pauli_op n x z r psi) psi.
  (** Two operators commute, or anticommute, on all states. *)
  Definition op_commute (n : N) (A B : vec -> vec) : Prop := forall psi, eqv n (A (B psi)) (B (A psi)).
  Definition op_anticommute (n : N) (A B : vec -> vec) : Prop := forall psi, eqv n (A (B psi)) (fun y => (- B (A psi) y)%amp).

  (** Clifford gates. *)
  Inductive cgate :=
  | GX (t : N) | GY (t : N) | GZ (t : N) | GS (t : N) | GIS (t : N) | GH (t : N)
  | GCNOT (c t : N) | GACNOT (c t : N) | GCY (c t : N) | GACY (c t : N) | GCZ (c t : N) | GACZ (c t : N)
  | GSWAP (a b : N) | GISWAP (a b : N) | GIISWAP (a b : N).
  Definition gate_fits (n : N) (g : cgate) : Prop :=
    match g with
    | GX t | GY t | GZ t | GS t | GIS t | GH t => t < n
    | GCNOT c t | GACNOT c t | GCY c t | GACY c t | GCZ c t | GACZ c t | GSWAP c t | GISWAP c t | GIISWAP c t => c < n /\ t < n /\ c <> t
    end.
  (** Their action on states. *)
  Definition gate_act (g : cgate) : vec -> vec :=
    match g with
    | GX t => gate1 always t matX
    | GY t => gate1 always t matY
    | GZ t => gate1 always t matZ
    | GS t => gate1 always t matS
    | GIS t => gate1 always t matIS
    | GH t => gate1 always t matH
    | GCNOT c t => gate1 (all_set [c]) t matX
    | GACNOT c t => gate1 (all_clear [c]) t matX
    | GCY c t => gate1 (all_set [c]) t matY
    | GACY c t => gate1 (all_clear [c]) t matY
    | GCZ c t => gate1 (all_set [c]) t matZ
    | GACZ c t => gate1 (all_clear [c]) t matZ
    | GSWAP a b => gate_swap always a b (mkMat 0%amp 1%amp 1%amp 0%amp)
    | GISWAP a b => gate_swap always a b (mkMat 0%amp im im 0%amp)
    | GIISWAP a b => gate_swap always a b (mkMat 0%amp (- im)%amp (- im)%amp 0%amp)
    end.
  Definition circuit_act (l : list cgate) (psi : vec) : vec := fold_left (fun psi g => gate_act g psi) l psi.

  (** Qubit [t] has the value [b] in every basis state with a nonzero amplitude. *)
  Definition has_value (n t : N) (b : bool) (psi : vec) : Prop :=
    forall y, y < 2 ^ n -> N.testbit y t <> b -> psi y = 0%amp.
  (** Project onto value [b] of qubit [t]. *)
  Definition collapsed (t : N) (b : bool) (psi : vec) : vec := fun y => if Bool.eqb (N.testbit y t) b then psi y else 0%amp.
  (** Weight of the outcome [b]. *)
  Definition outcome_weight (n t : N) (b : bool) (psi : vec) : K := weight_of n (fun y => Bool.eqb (N.testbit y t) b) psi.
  (** Not the zero vector. *)
  Definition nonzero (n : N) (psi : vec) : Prop := exists y, y < 2 ^ n /\ psi y <> 0%amp.
  (** One state is a multiple of the other. *)
  Definition proportional (n : N) (phi psi : vec) : Prop := exists a b, a <> 0%amp /\ forall y, y < 2 ^ n -> (a * phi y = b * psi y)%amp.
End S.
