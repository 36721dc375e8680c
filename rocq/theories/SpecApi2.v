(** What a state of the C interface means for named qubits, and the calls of the specification as calls of the interface. *)
From Coq Require Import NArith List Bool Permutation.
From Verif Require Import Amp SpecState SpecUnit3 MParFor MQCircuit MTensor PQCirc1 SpecApi MApi.
Import ListNotations.
Local Open Scope N_scope.

Section Holds.
  Context {K : StarRing} (c : @acfg K).
  Local Notation nstate := ((N -> bool) -> K).
  Local Open Scope amp_scope.
  (** The simulator of an ID; no simulator is one without qubits. *)
  Definition sim_of (s : @slot K) : @sim K * list (N * N) := match sl_sim s with Some x => x | None => (mkSim 0 (ket 0), []) end.
  (** The map gives every qubit one name; the qubit count is a bitLenInt. *)
  Definition names (n : N) (m : list (N * N)) : Prop := srt (map fst m) /\ Permutation (map snd m) (upto (N.to_nat n)) /\ (n < 256)%N.
  (** The vector read with the names is the named state, up to a global phase. *)
  Definition reads_named (Q : @sim K) (m : list (N * N)) (Psi : nstate) : Prop := exists ph, anorm ph = 1 /\ forall f, s_v Q (index_of m f) = ph * Psi f.
  (** Simulator [sid] holds the qubits [ids] in the state [Psi]. *)
  Definition holds (a : @api K) (sid : N) (ids : list N) (Psi : nstate) : Prop :=
    exists s, nth_error (a_slots a) (N.to_nat sid) = Some s /\ names (s_n (fst (sim_of s))) (snd (sim_of s)) /\
      Permutation (map fst (snd (sim_of s))) ids /\ nweight ids (fun _ => true) Psi = 1 /\ reads_named (fst (sim_of s)) (snd (sim_of s)) Psi.
  (** No error is reported and other simulators are untouched. *)
  Definition only_at (sid : N) (a a' : @api K) : Prop :=
    a_meta a' = a_meta a /\ length (a_slots a') = length (a_slots a) /\ (forall i, i <> N.to_nat sid -> nth_error (a_slots a') i = nth_error (a_slots a) i) /\
    (forall s s', nth_error (a_slots a) (N.to_nat sid) = Some s -> nth_error (a_slots a') (N.to_nat sid) = Some s' -> sl_err s' = sl_err s /\ sl_res s' = sl_res s).
  (** What is asked of the configuration: normalisation; 0 is below 1/100 and 1 is not; Decompose of one qubit that is in a basis
      state gives the remaining state up to a phase. *)
  Definition proper : Prop :=
    normalizes (ac_nrm c) /\ ac_small c 0 = true /\ ac_small c 1 = false /\ (ac_max c < 256)%N /\
    forall n o b v w, (o < n)%N -> eqv n v (tensor_at o 1 w (ket b)) -> (b < 2)%N -> exists ph, anorm ph = 1 /\ eqv (n - 1) (fst (ac_split c n o 1 v)) (fun x => ph * w x).
  (** MAll of a normalised state gives a basis state with an amplitude that is not 0. *)
  Definition picks_ok : Prop := forall d n (v : N -> K), (n < 256)%N -> norm2 n v = 1 -> (ac_pick c d n v < 2 ^ n)%N /\ v (ac_pick c d n v) <> 0.

  (** The calls as calls of the interface. *)
  Definition unit_res (o : out (@api K)) : out (@nres K * @api K) := do a <- o; Ret (RNone, a).
  Definition api_call (sid : N) (k : @ncall K) (a : @api K) : out (@nres K * @api K) :=
    match k with
    | NAlloc q => unit_res (allocate c sid q a)
    | NRelease q => do (b, a) <- release c sid q a; Ret (RBit b, a)
    | NGate want cs m q => unit_res (api_gate sid want cs m q a)
    | NSwap x y => unit_res (api_swap sid x y a)
    | NM q => do (r, a) <- api_m c sid q a; Ret (match r with Some b => RBit b | None => RNone end, a)
    | NProb q => do (r, a) <- api_prob sid q a; Ret (match r with Some p => RVal p | None => RNone end, a)
    end.
  Fixpoint api_calls (sid : N) (l : list (@ncall K)) (a : @api K) : out (list (@nres K) * @api K) :=
    match l with
    | [] => Ret ([], a)
    | k :: t => do (r, a) <- api_call sid k a; do (rs, a) <- api_calls sid t a; Ret (r :: rs, a)
    end.
End Holds.
