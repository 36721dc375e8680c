(** Vocabulary for statements about programs of gates on QUnit. *)
From Coq Require Import NArith List Bool.
From Verif Require Import Amp SpecState MShard MUnit SpecUnit.
Import ListNotations.
Local Open Scope N_scope.

Section S.
  Context {K : StarRing} (cx : Cplx K).
  Local Notation ii := (cx_i cx).
  Local Open Scope amp_scope.

  (** The matrices c H, c S H and c H S^-1. *)
  Definition h_like (m : mat2 K) : Prop :=
    (m00 m = m01 m /\ m00 m = m10 m /\ m00 m = - m11 m) \/
    (m00 m = m01 m /\ m00 m = - ii * m10 m /\ m00 m = ii * m11 m) \/
    (m00 m = ii * m01 m /\ m00 m = m10 m /\ m00 m = - ii * m11 m).
  Definition swapped (a b q : N) : N := if q =? a then b else if q =? b then a else q.
  (** A Hadamard-like matrix only on qubits that no earlier controlled gate had as a control.  [used]: the qubits that have been controls. *)
  Fixpoint h_first (used : list N) (gs : list (@ugate K)) : Prop :=
    match gs with
    | [] => True
    | UH q :: gs => ~ In q used /\ h_first used gs
    | UMtrx m q :: gs => (h_like m -> ~ In q used) /\ h_first used gs
    | UCtrl cs m t :: gs => (h_like m -> ~ In t used) /\ h_first (map fst cs ++ used) gs
    | USwap a b :: gs => h_first (map (swapped a b) used) gs
    | _ :: gs => h_first used gs
    end.
  (** Qubit [q] has no certain value: there are possible outcomes with 0 and with 1. *)
  Definition undecided (n q : N) (psi : N -> K) : Prop := forall v, exists x, (x < 2 ^ n)%N /\ N.testbit x q = v /\ psi x <> 0.
  (** The qubit to which a gate applies a Hadamard-like matrix. *)
  Definition hadamards (g : @ugate K) (q : N) : Prop :=
    match g with
    | UH t => q = t
    | UMtrx m t | UCtrl _ m t => h_like m /\ q = t
    | _ => False
    end.
  (** [linked c t]: a controlled gate from [c] to [t] may still be waiting.  A Hadamard-like matrix on [q] turns the gates controlled by [q] round. *)
  Definition relink (g : @ugate K) (linked : N -> N -> Prop) : N -> N -> Prop := fun c t =>
    match g with
    | USwap a b => linked (swapped a b c) (swapped a b t)
    | _ => linked c t \/ (hadamards g t /\ linked t c) \/ match g with UCtrl cs _ t' => t = t' /\ In c (map fst cs) | _ => False end
    end.
  (** Whenever a Hadamard-like matrix is applied to [q], the qubits linked with [q] are undecided in the state that the gates so far should have made from [psi]. *)
  Fixpoint h_open (n : N) (linked : N -> N -> Prop) (psi : N -> K) (gs : list (@ugate K)) : Prop :=
    match gs with
    | [] => True
    | g :: gs => (forall q p, hadamards g q -> linked q p -> undecided n p psi) /\ h_open n (relink g linked) (ideal cx g psi) gs
    end.
  (** The basis state of a permutation. *)
  Definition ket (perm : N) : N -> K := fun x => if N.eqb x perm then 1 else 0.

  (** Calls of the interface (include/qunit.hpp:171, 181, 444-452): gates, calls that only read, and a new start. *)
  Inductive ucall :=
  | CGate (g : @ugate K)
  | CGetAmplitude (perm : N)
  | CProb (q : N)
  | CSetPermutation (perm : N).
  (** The simulator after a call.  Logical qubit [q] is the shard [u_sw U q]. *)
  Definition call (c : ucall) (U : qunit K) : qunit K :=
    match c with
    | CGate g => invoke cx g U
    | CGetAmplitude perm => snd (GetAmplitude cx perm U)
    | CProb q => snd (Prob cx (u_sw U q) U)
    | CSetPermutation perm => SetPermutation perm U
    end.
  (** What the call should do to a state. *)
  Definition ideal_call (c : ucall) (psi : N -> K) : N -> K :=
    match c with
    | CGate g => ideal cx g psi
    | CSetPermutation perm => ket perm
    | _ => psi
    end.
  (** Arguments in range. *)
  Definition proper_call (n : N) (c : ucall) : Prop :=
    match c with
    | CGate g => proper_gate n g
    | CGetAmplitude perm | CSetPermutation perm => (perm < 2 ^ n)%N
    | CProb q => (q < n)%N
    end.
  Definition calls (cs : list ucall) (U : qunit K) : qunit K := fold_left (fun V c => call c V) cs U.
  Definition ideal_calls (cs : list ucall) (psi : N -> K) : N -> K := fold_left (fun v c => ideal_call c v) cs psi.
  (** [h_open] for a list of calls: after GetAmplitude and SetPermutation no gate is waiting. *)
  Definition safe_call (n : N) (linked : N -> N -> Prop) (psi : N -> K) (c : ucall) : Prop :=
    match c with
    | CGate g => forall q p, hadamards g q -> linked q p -> undecided n p psi
    | _ => True
    end.
  Definition links_after (linked : N -> N -> Prop) (c : ucall) : N -> N -> Prop :=
    match c with
    | CGate g => relink g linked
    | CProb _ => linked
    | CGetAmplitude _ | CSetPermutation _ => fun _ _ => False
    end.
  Fixpoint h_safe_calls (n : N) (linked : N -> N -> Prop) (psi : N -> K) (cs : list ucall) : Prop :=
    match cs with
    | [] => True
    | c :: cs => safe_call n linked psi c /\ h_safe_calls n (links_after linked c) (ideal_call c psi) cs
    end.
  (** The static condition [h_first] for a list of calls: the allowed gates and the qubits that have been controls after them. *)
  Definition gate_first (used : list N) (g : @ugate K) : Prop :=
    match g with
    | UH q => ~ In q used
    | UMtrx m q | UCtrl _ m q => h_like m -> ~ In q used
    | _ => True
    end.
  Definition controls_after (used : list N) (g : @ugate K) : list N :=
    match g with
    | UCtrl cs _ _ => map fst cs ++ used
    | USwap a b => map (swapped a b) used
    | _ => used
    end.
  Definition first_call (used : list N) (c : ucall) : Prop := match c with CGate g => gate_first used g | _ => True end.
  Definition used_after (used : list N) (c : ucall) : list N :=
    match c with
    | CGate g => controls_after used g
    | CProb _ => used
    | CGetAmplitude _ | CSetPermutation _ => []
    end.
  Fixpoint h_first_calls (used : list N) (cs : list ucall) : Prop :=
    match cs with
    | [] => True
    | c :: cs => first_call used c /\ h_first_calls (used_after used c) cs
    end.

  (** What is needed of the numbers: no zero divisors, and a sum of squared magnitudes is zero only if all are. *)
  Definition positive : Prop := (1 : K) <> 0 /\ (forall x y : K, x * y = 0 -> x = 0 \/ y = 0) /\
    (forall (l : list N) (f : N -> K), asum (fun x => anorm (f x)) l = 0 -> forall x, In x l -> f x = 0).
  (** The square root of a probability is a number whose squared magnitude is that probability. *)
  Definition exact_roots : Prop := forall (l : list N) (f : N -> K), anorm (cx_sqrt cx (asum (fun x => anorm (f x)) l)) = asum (fun x => anorm (f x)) l.
  (** Every qubit of an engine is one qubit of the simulator, and the other way round; logical qubits are a permutation of the shards. *)
  Definition well_placed (U : qunit K) : Prop :=
    (forall p u, (p < u_n U)%N -> s_unit (u_sh U p) = Some u -> (u < u_next U)%N /\ (s_map (u_sh U p) < fst (u_eng U u))%N) /\
    (forall p q u, (p < u_n U)%N -> (q < u_n U)%N -> s_unit (u_sh U p) = Some u -> s_unit (u_sh U q) = Some u -> s_map (u_sh U p) = s_map (u_sh U q) -> p = q) /\
    (forall u j, (u < u_next U)%N -> (j < fst (u_eng U u))%N -> exists p, (p < u_n U)%N /\ s_unit (u_sh U p) = Some u /\ s_map (u_sh U p) = j) /\
    (forall i, (i < u_n U)%N -> (u_sw U i < u_n U)%N) /\ (forall i j, (i < u_n U)%N -> (j < u_n U)%N -> u_sw U i = u_sw U j -> i = j).
End S.
