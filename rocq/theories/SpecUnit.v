(** Vocabulary for statements about QUnit: gates on logical qubits, what they mean, and how they are called. *)
From Coq Require Import NArith List Bool.
From Verif Require Import Amp SpecState MShard MUnit.
Import ListNotations.
Local Open Scope N_scope.

Section S.
  Context {K : StarRing} (cx : Cplx K).
  Local Notation vec := (N -> K).
  Local Open Scope amp_scope.

  (** Two states of [n] qubits differ by a phase factor only. *)
  Definition upto_phase (n : N) (f g : vec) : Prop := exists c, anorm c = 1 /\ forall x, (x < 2 ^ n)%N -> f x = c * g x.

  (** The listed controls have the listed values. *)
  Definition holds (cs : list (N * bool)) (x : N) : bool := forallb (fun cv => eqb (N.testbit x (fst cv)) (snd cv)) cs.

  (** Gates on logical qubits. *)
  Inductive ugate :=
  | UH (q : N)
  | US (q : N)
  | UIS (q : N)
  | UPhase (topLeft bottomRight : K) (q : N)
  | UInvert (topRight bottomLeft : K) (q : N)
  | UMtrx (m : mat2 K) (q : N)
  | UCtrl (cs : list (N * bool)) (m : mat2 K) (t : N)
  | USwap (a b : N).
  (** What they are to do. *)
  Definition ideal (g : ugate) (psi : vec) : vec :=
    match g with
    | UH q => gate1 always q (mkMat (cx_h cx) (cx_h cx) (cx_h cx) (- cx_h cx)) psi
    | US q => gate1 always q (mkMat 1 0 0 (cx_i cx)) psi
    | UIS q => gate1 always q (mkMat 1 0 0 (- cx_i cx)) psi
    | UPhase x y q => gate1 always q (mkMat x 0 0 y) psi
    | UInvert x y q => gate1 always q (mkMat 0 x y 0) psi
    | UMtrx m q => gate1 always q m psi
    | UCtrl cs m t => gate1 (holds cs) t m psi
    | USwap a b => fun x => psi (swap_bits a b x)
    end.
  (** The call; controlled gates go through UCMtrx, which passes controlled phases and inversions to UCPhase and UCInvert. *)
  Definition invoke (g : ugate) (U : qunit K) : qunit K :=
    match g with
    | UH q => GateH cx (u_sw U q) U
    | US q => GateS cx (u_sw U q) U
    | UIS q => GateIS cx (u_sw U q) U
    | UPhase x y q => Phase cx x y (u_sw U q) U
    | UInvert x y q => Invert cx x y (u_sw U q) U
    | UMtrx m q => Mtrx cx m (u_sw U q) U
    | UCtrl cs m t => UCMtrx cx (map (fun cv => (u_sw U (fst cv), snd cv)) cs) m (u_sw U t) U
    | USwap a b => QSwap a b U
    end.
  (** Different qubits in range, unitary matrices. *)
  Definition proper_gate (n : N) (g : ugate) : Prop :=
    match g with
    | UH q | US q | UIS q => (q < n)%N
    | UPhase x y q | UInvert x y q => (q < n)%N /\ anorm x = 1 /\ anorm y = 1
    | UMtrx m q => (q < n)%N /\ unitary2 m
    | UCtrl cs m t => NoDup (map fst cs) /\ (forall cv, In cv cs -> (fst cv < n)%N /\ fst cv <> t) /\ (t < n)%N /\ unitary2 m
    | USwap a b => (a < n)%N /\ (b < n)%N
    end.
  Definition run (gs : list ugate) (U : qunit K) : qunit K := fold_left (fun V g => invoke g V) gs U.
  Definition ideal_run (gs : list ugate) (psi : vec) : vec := fold_left (fun v g => ideal g v) gs psi.
  (** Results of comparisons with random numbers, in order. *)
  Definition stream (l : list bool) (k : N) (p : K) : bool := nth (N.to_nat k) l false.
End S.
