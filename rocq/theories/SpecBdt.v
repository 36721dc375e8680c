(** Vocabulary for statements about QBdt. *)
From Coq Require Import NArith List Bool.
From Verif Require Import Amp SpecState MBdt.
Import ListNotations.
Local Open Scope N_scope.

(** The qubits are a range, without a gap. *)
Definition adjacent (cs : list N) : Prop := exists lo w, 0 < w /\ forall c, In c cs <-> lo <= c /\ c < lo + w.

Section S.
  Context {K : StarRing} (A : Arith K).
  Local Open Scope amp_scope.

  (** Exact arithmetic: division by numbers other than 0 undoes multiplication; square roots of sums of squared magnitudes are real and
      right, and the root of 1 is 1; SQRT1_2_R1 is the root of 1/2.  Nothing is assumed about division by 0. *)
  Definition exact_arith : Prop :=
    (forall x y, y <> 0 -> ar_div A x y * y = x) /\
    (forall x y, let s := anorm x + anorm y in ar_sqrt A s * ar_sqrt A s = s /\ sr_conj (ar_sqrt A s) = ar_sqrt A s) /\
    ar_sqrt A 1 = 1 /\ (ar_h A * ar_h A + ar_h A * ar_h A = 1 /\ sr_conj (ar_h A) = ar_h A).
  (** Sums of squared magnitudes vanish only if all summands do. *)
  Definition positive_sums : Prop := (1 : K) <> 0 /\ forall x y : K, anorm x + anorm y = 0 -> x = 0 /\ y = 0.

  (** Calls (include/qbdt.hpp; include/qinterface.hpp: Phase, Invert, Swap, MACPhase, MACInvert). *)
  Inductive bcall :=
  | BMtrx (m : mat2 K) (q : N)
  | BPhase (p r : K) (q : N)
  | BInvert (p r : K) (q : N)
  | BSwap (a b : N)
  | BMC (cs : list N) (m : mat2 K) (q : N)
  | BMCPhase (cs : list N) (p r : K) (q : N)
  | BMCInvert (cs : list N) (p r : K) (q : N)
  | BMAC (cs : list N) (m : mat2 K) (q : N)
  | BMACPhase (cs : list N) (p r : K) (q : N)
  | BMACInvert (cs : list N) (p r : K) (q : N).
  Definition bcall_run (c : bcall) (B : qbdt) : qbdt :=
    match c with
    | BMtrx m q => mtrx A m q B
    | BPhase p r q => phase A p r q B
    | BInvert p r q => invert A p r q B
    | BSwap a b => swap A a b B
    | BMC cs m q => mcmtrx A cs m q B
    | BMCPhase cs p r q => mcphase A cs p r q B
    | BMCInvert cs p r q => mcinvert A cs p r q B
    | BMAC cs m q => macmtrx A cs m q B
    | BMACPhase cs p r q => macphase A cs p r q B
    | BMACInvert cs p r q => macinvert A cs p r q B
    end.
  Definition bcalls (l : list bcall) (B : qbdt) : qbdt := fold_left (fun B c => bcall_run c B) l B.
  (** What the calls should do. *)
  Definition ideal_bcall (c : bcall) (psi : N -> K) : N -> K :=
    match c with
    | BMtrx m q => gate1 always q m psi
    | BPhase p r q => gate1 always q (mkMat p 0 0 r) psi
    | BInvert p r q => gate1 always q (mkMat 0 p r 0) psi
    | BSwap a b => fun x => psi (swap_bits a b x)
    | BMC cs m q => gate1 (all_set cs) q m psi
    | BMCPhase cs p r q => gate1 (all_set cs) q (mkMat p 0 0 r) psi
    | BMCInvert cs p r q => gate1 (all_set cs) q (mkMat 0 p r 0) psi
    | BMAC cs m q => gate1 (all_clear cs) q m psi
    | BMACPhase cs p r q => gate1 (all_clear cs) q (mkMat p 0 0 r) psi
    | BMACInvert cs p r q => gate1 (all_clear cs) q (mkMat 0 p r 0) psi
    end.
  Definition ideal_bcalls (l : list bcall) (psi : N -> K) : N -> K := fold_left (fun psi c => ideal_bcall c psi) l psi.
  (** Arguments in range: different qubits of the simulator, unitary matrices. *)
  Definition qubits_ok (n : N) (cs : list N) (q : N) : Prop := NoDup (q :: cs) /\ forall c, In c (q :: cs) -> (c < n)%N.
  Definition in_range (n : N) (c : bcall) : Prop :=
    match c with
    | BMtrx m q => (q < n)%N /\ unitary2 m
    | BPhase p r q | BInvert p r q => (q < n)%N /\ anorm p = 1 /\ anorm r = 1
    | BSwap a b => (a < n)%N /\ (b < n)%N
    | BMC cs m q | BMAC cs m q => qubits_ok n cs q /\ unitary2 m
    | BMCPhase cs p r q | BMCInvert cs p r q | BMACPhase cs p r q | BMACInvert cs p r q => qubits_ok n cs q /\ anorm p = 1 /\ anorm r = 1
    end.
  (** MACMtrx with several controls: a matrix with two zeros, or a range of qubits below the target. *)
  Definition no_gaps (c : bcall) : Prop :=
    match c with
    | BMAC cs m q => (m01 m = 0 /\ m10 m = 0) \/ (m00 m = 0 /\ m11 m = 0) \/ (length cs <= 1)%nat \/ (adjacent cs /\ forall c, In c cs -> (c < q)%N)
    | _ => True
    end.
  Definition proper_bcall (n : N) (c : bcall) : Prop := in_range n c /\ no_gaps c.
  (** The simulator holds the state, up to a factor of magnitude 1, which is 1 unless randGlobalPhase is set. *)
  Definition holds_state (B : qbdt) (psi : N -> K) : Prop :=
    exists c, anorm c = 1 /\ (bt_rgp B = false -> c = 1) /\ forall x, (x < 2 ^ bt_n B)%N -> get_amplitude B x = c * psi x.

  (** The outcome [r] of a measurement of all qubits: bit [k] is certain, or the result of some comparison of a random number with
      the probability of 1 for qubit [k], given the outcomes for the qubits below. *)
  Definition chosen (rnd : N -> K -> bool) (p : K) (r : bool) : Prop := (p = 1 /\ r = true) \/ (p = 0 /\ r = false) \/ (p <> 1 /\ p <> 0 /\ exists j, r = rnd j p).
  Definition agree (k r x : N) : bool := (x mod 2 ^ k =? r mod 2 ^ k)%N.
  (** The value of qubit [q] is independent of the qubits below: given their values, the probability of [b] is [p]. *)
  Definition independent (n q : N) (b : bool) (p : K) (psi : N -> K) : Prop :=
    forall i, p * weight_of n (agree q i) psi = weight_of n (fun x => agree q i x && eqb (N.testbit x q) b) psi.
  Definition drawn_all (rnd : N -> K -> bool) (n : N) (psi : N -> K) (r : N) : Prop :=
    forall k, (k < n)%N -> exists p, p * weight_of n (agree k r) psi = weight_of n (fun x => agree k r x && N.testbit x k) psi /\ chosen rnd p (N.testbit r k).
End S.
