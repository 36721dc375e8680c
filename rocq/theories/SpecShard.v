(** Vocabulary for statements about buffered two-qubit gates. *)
From Coq Require Import NArith List Bool.
From Verif Require Import Amp SpecState MShard.
Import ListNotations.
Local Open Scope N_scope.

Section S.
  Context {K : StarRing}.
  Local Notation vec := (N -> K).

  (** Equality of states. *)
  Definition same_state (f g : vec) : Prop := forall x, f x = g x.

  (** The buffer of the pair control [c], target [t], as target [t] sees it; [anti]: the gate acts where the control is 0. *)
  Definition buffer_of (s : shards K) (anti : bool) (c t : N) : option (PhaseShard K) :=
    match sh_map s (if anti then antiTargetOfShards else targetOfShards) t c with
    | Some b => Some (sh_heap s b)
    | None => None
    end.
  Definition fires (anti : bool) (c x : N) : bool := if anti then negb (N.testbit x c) else N.testbit x c.
  (** The matrix a buffer stands for (QUnit::ApplyBuffer, /repo/src/qunit.cpp:3900-3923). *)
  Definition matrix_of (anti : bool) (b : PhaseShard K) : mat2 K :=
    match isInvert b, anti with
    | false, false => mkMat (cmplxDiff b) 0 0 (cmplxSame b)
    | false, true => mkMat (cmplxSame b) 0 0 (cmplxDiff b)
    | true, false => mkMat 0 (cmplxDiff b) (cmplxSame b) 0
    | true, true => mkMat 0 (cmplxSame b) (cmplxDiff b) 0
    end%amp.
  (** The gate of a pair: nothing without a buffer. *)
  Definition gate_at (s : shards K) (k : bool * N * N) (psi : vec) : vec :=
    let '(anti, c, t) := k in
    match buffer_of s anti c t with
    | Some b => gate1 (fires anti c) t (matrix_of anti b) psi
    | None => psi
    end.
  Definition all_pairs (n : N) : list (bool * N * N) :=
    flat_map (fun a => flat_map (fun c => map (fun t => (a, c, t)) (upto (N.to_nat n))) (upto (N.to_nat n))) [false; true].
  (** All buffered gates applied to a state. *)
  Definition pending (s : shards K) (psi : vec) : vec := fold_right (gate_at s) psi (all_pairs (sh_size s)).
  (** The buffered gates can be applied in any order. *)
  Definition commuting (s : shards K) : Prop :=
    forall k k' psi, same_state (gate_at s k (gate_at s k' psi)) (gate_at s k' (gate_at s k psi)).
  (** A gate commutes with the buffered gates of all pairs but one. *)
  Definition commutes_but (s : shards K) (k : bool * N * N) (g : vec -> vec) : Prop :=
    forall k' psi, k' <> k -> same_state (g (gate_at s k' psi)) (gate_at s k' (g psi)).

  (** The maps of controls and targets mirror each other and share their buffers; a buffer belongs to one pair of different
      shards; its phases have magnitude one. *)
  Definition consistent (s : shards K) : Prop :=
    (forall c t, sh_map s controlsShards c t = sh_map s targetOfShards t c) /\
    (forall c t, sh_map s antiControlsShards c t = sh_map s antiTargetOfShards t c) /\
    (forall anti c t b, sh_map s (if anti : bool then antiTargetOfShards else targetOfShards) t c = Some b ->
       c < sh_size s /\ t < sh_size s /\ c <> t /\ b < sh_next s /\
       anorm (cmplxDiff (sh_heap s b)) = 1%amp /\ anorm (cmplxSame (sh_heap s b)) = 1%amp) /\
    (forall anti c t anti' c' t' b,
       sh_map s (if anti : bool then antiTargetOfShards else targetOfShards) t c = Some b ->
       sh_map s (if anti' : bool then antiTargetOfShards else targetOfShards) t' c' = Some b ->
       anti = anti' /\ c = c' /\ t = t').

  (** The shards stay well formed and the product of all buffered gates is the same. *)
  Definition unchanged (s s' : shards K) : Prop :=
    consistent s' /\ sh_size s' = sh_size s /\ commuting s' /\ forall psi, same_state (pending s' psi) (pending s psi).
  (** Passing the buffered gates from one side of a single-qubit gate [m] on [q] to the other turns [s] into [s']. *)
  Definition carried (q : N) (m : mat2 K) (s s' : shards K) : Prop :=
    consistent s' /\ sh_size s' = sh_size s /\ commuting s' /\
    forall psi, same_state (pending s' (gate1 always q m psi)) (gate1 always q m (pending s psi)).
  (** Positions after the removal of position [k]. *)
  Definition renumber (k x : N) : N := if x <? k then x else x - 1.

  (** No buffered gate changes the value of qubit [q]. *)
  Definition not_inverted (s : shards K) (q : N) : Prop :=
    forall anti c b, buffer_of s anti c q = Some b -> isInvert b = false.
  (** Every buffered gate on qubit [q] inverts it; none does. *)
  Definition all_inverting (s : shards K) (q : N) : Prop := forall anti c b, buffer_of s anti c q = Some b -> isInvert b = true.
  (** The buffers CommuteH is meant for: [q] controls nothing, and the two phases of each gate on [q] are equal or opposite. *)
  Definition h_ready (s : shards K) (q : N) : Prop :=
    (forall anti t, buffer_of s anti q t = None) /\
    (forall anti c b, buffer_of s anti c q = Some b -> cmplxDiff b = cmplxSame b \/ cmplxDiff b = (- cmplxSame b)%amp).
  (** Only basis states in which qubit [q] is [v] have an amplitude. *)
  Definition supported (q : N) (v : bool) (psi : vec) : Prop := forall x, N.testbit x q <> v -> psi x = 0%amp.
End S.

(** Calls of the member functions of QEngineShard that change buffers.  [anti] selects the function for anti-controls. *)
Section Ops.
  Context {K : StarRing} (po : Polar K).
  Inductive shard_op :=
  | OAdd (anti invert : bool) (this control : N) (first second : K)
  | OMake (anti asTarget : bool) (this partner : N)
  | ORemove (anti asTarget : bool) (this partner : N)
  | OOptimize (anti asTarget : bool) (this : N)
  | OOptimizeBoth (this : N)
  | OCombine (this : N)
  | OFlip (this : N)
  | OCommutePhase (this : N) (topLeft bottomRight : K)
  | OCommuteH (this : N)
  | ODumpPhase (this : N)
  | OClearInvert (this : N)
  | ODumpMulti (this : N)
  | ODumpControl (anti same : bool) (this : N).
  Definition call (o : shard_op) (s : shards K) : option (shards K) :=
    match o with
    | OAdd false false this c x y => Some (AddPhaseAngles po this c x y s)
    | OAdd true false this c x y => Some (AddAntiPhaseAngles po this c x y s)
    | OAdd false true this c x y => Some (AddInversionAngles po this c x y s)
    | OAdd true true this c x y => Some (AddAntiInversionAngles po this c x y s)
    | OMake false true this p => Some (MakePhaseControlledBy this p s)
    | OMake false false this p => Some (MakePhaseControlOf this p s)
    | OMake true true this p => Some (MakePhaseAntiControlledBy this p s)
    | OMake true false this p => Some (MakePhaseAntiControlOf this p s)
    | ORemove false true this p => Some (RemoveControl this p s)
    | ORemove false false this p => Some (RemoveTarget this p s)
    | ORemove true true this p => Some (RemoveAntiControl this p s)
    | ORemove true false this p => Some (RemoveAntiTarget this p s)
    | OOptimize false true this => Some (OptimizeTargets po this s)
    | OOptimize false false this => Some (OptimizeControls po this s)
    | OOptimize true true this => Some (OptimizeAntiTargets po this s)
    | OOptimize true false this => Some (OptimizeAntiControls po this s)
    | OOptimizeBoth this => Some (OptimizeBothTargets po this s)
    | OCombine this => Some (CombineGates po this s)
    | OFlip this => FlipPhaseAnti this s
    | OCommutePhase this x y => Some (CommutePhase po this x y s)
    | OCommuteH this => Some (CommuteH po this s)
    | ODumpPhase this => Some (DumpPhaseBuffers this s)
    | OClearInvert this => Some (ClearInvertPhase this s)
    | ODumpMulti this => Some (DumpMultiBit this s)
    | ODumpControl false false this => Some (DumpControlOf po this s)
    | ODumpControl true false this => Some (DumpAntiControlOf po this s)
    | ODumpControl false true this => Some (DumpSamePhaseControlOf po this s)
    | ODumpControl true true this => Some (DumpSamePhaseAntiControlOf po this s)
    end.
  (** Partners are two different shards; phases have magnitude one. *)
  Definition proper_call (n : N) (o : shard_op) : Prop :=
    match o with
    | OAdd _ _ this c x y => this < n /\ c < n /\ this <> c /\ anorm x = 1%amp /\ anorm y = 1%amp
    | OMake _ _ this p => this < n /\ p < n /\ this <> p
    | OCommutePhase _ x y => anorm x = 1%amp /\ anorm y = 1%amp
    | _ => True
    end.
  Fixpoint calls (os : list shard_op) (s : shards K) : option (shards K) :=
    match os with
    | [] => Some s
    | o :: t => match call o s with None => None | Some s' => calls t s' end
    end.
End Ops.
