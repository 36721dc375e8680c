(** Model of the buffers of two-qubit gates kept by QUnit for its qubits: PhaseShard and QEngineShard of
    /repo/include/qengineshard.hpp and /repo/src/qengineshard.cpp.  Line numbers without a file name are in qengineshard.cpp.

    - A QEngineShard* is the position of the shard in the vector of shards; std::map<QEngineShardPtr, ...> is a partial function
      on positions, visited in increasing order (the vector is contiguous, so this is the order of the addresses).
    - A PhaseShardPtr is the number of a buffer on a heap, so that a buffer reached from two maps is one object.  Buffers are
      numbered in the order of their creation and are never reused.
    - IS_SAME, IS_OPPOSITE (/repo/include/common/qrack_types.hpp:25-27), IS_ARG_0, IS_ARG_PI (qengineshard.hpp:24-25) compare
      exactly.
    - c / abs(c), division and abs(c) < 1 are operations of a record [Polar], with only the laws needed of them.
    - The fields unit, mapped, isProbDirty, isPhaseDirty, amp0, amp1, pauliBasis and ClampAmps (26-48) are not in this file. *)
From Coq Require Import NArith List Bool.
From Verif Require Import Amp.
Import ListNotations.
Local Open Scope N_scope.

(** Normalisation, division and comparison of magnitudes, on the numbers they are used for. *)
Record Polar (K : StarRing) := mkPolar {
  po_unit : K -> K;
  po_div : K -> K -> K;
  po_lt1 : K -> bool;
  po_unit_ok : forall x, anorm x = 1%amp -> po_unit x = x;
  po_div_ok : forall x y, anorm y = 1%amp -> po_div x y = (x * sr_conj y)%amp;
  po_lt1_0 : po_lt1 0%amp = true;
  po_lt1_2 : forall x, anorm x = 1%amp -> po_lt1 (x + x)%amp = false
}.
Arguments po_unit {_} _ _.
Arguments po_div {_} _ _ _.
Arguments po_lt1 {_} _ _.

(** qengineshard.hpp:67-73: the four maps of a shard. *)
Inductive mapsel := controlsShards | antiControlsShards | targetOfShards | antiTargetOfShards.
Definition mapsel_eqb (a b : mapsel) : bool :=
  match a, b with
  | controlsShards, controlsShards | antiControlsShards, antiControlsShards
  | targetOfShards, targetOfShards | antiTargetOfShards, antiTargetOfShards => true
  | _, _ => false
  end.

Section Shard.
  Context {K : StarRing} (po : Polar K).

  (** qengineshard.hpp:31-42. *)
  Record PhaseShard := mkPS { cmplxDiff : K; cmplxSame : K; isInvert : bool }.
  Definition newPhaseShard : PhaseShard := mkPS 1%amp 1%amp false.

  (** All shards: their number, the buffers, the number of the next buffer, and [sh_map s m this p], the entry of partner [p] in
      map [m] of shard [this]. *)
  Record shards := mkSh {
    sh_size : N;
    sh_heap : N -> PhaseShard;
    sh_next : N;
    sh_map : mapsel -> N -> N -> option N
  }.
  Definition newShards (n : N) : shards := mkSh n (fun _ => newPhaseShard) 0 (fun _ _ _ => None).

  Definition set_entry (m : mapsel) (this p : N) (v : option N) (s : shards) : shards :=
    mkSh (sh_size s) (sh_heap s) (sh_next s)
         (fun m' t' p' => if mapsel_eqb m' m && (t' =? this) && (p' =? p) then v else sh_map s m' t' p').
  Definition erase (m : mapsel) (this p : N) (s : shards) : shards := set_entry m this p None s.
  Definition set_buf (b : N) (ps : PhaseShard) (s : shards) : shards :=
    mkSh (sh_size s) (fun i => if i =? b then ps else sh_heap s i) (sh_next s) (sh_map s).
  (** The entries of a map, in order. *)
  Definition positions (s : shards) : list N := map N.of_nat (seq 0 (N.to_nat (sh_size s))).
  Definition entries (s : shards) (m : mapsel) (this : N) : list (N * N) :=
    flat_map (fun p => match sh_map s m this p with Some b => [(p, b)] | None => [] end) (positions s).

  Definition IS_SAME (a b : K) : bool := sr_eqb a b.
  Definition IS_OPPOSITE (a b : K) : bool := sr_eqb (a + b)%amp 0%amp.
  Definition IS_ARG_0 (c : K) : bool := IS_SAME c 1%amp.
  Definition IS_ARG_PI (c : K) : bool := IS_OPPOSITE c 1%amp.

  (** 74-81. *)
  Definition RemoveBuffer (localMap remoteMap : mapsel) (this p : N) (s : shards) : shards :=
    match sh_map s localMap this p with
    | None => s
    | Some _ => erase localMap this p (erase remoteMap p this s)
    end.
  (** qengineshard.hpp:147-156. *)
  Definition RemoveControl := RemoveBuffer targetOfShards controlsShards.
  Definition RemoveTarget := RemoveBuffer controlsShards targetOfShards.
  Definition RemoveAntiControl := RemoveBuffer antiTargetOfShards antiControlsShards.
  Definition RemoveAntiTarget := RemoveBuffer antiControlsShards antiTargetOfShards.

  (** 112-119. *)
  Definition AddBuffer (localMap remoteMap : mapsel) (this p : N) (s : shards) : shards :=
    match sh_map s localMap this p with
    | Some _ => s
    | None =>
        let b := sh_next s in
        set_entry remoteMap p this (Some b) (set_entry localMap this p (Some b)
          (mkSh (sh_size s) (fun i => if i =? b then newPhaseShard else sh_heap s i) (b + 1) (sh_map s)))
    end.
  (** qengineshard.hpp:181-190. *)
  Definition MakePhaseControlledBy := AddBuffer targetOfShards controlsShards.
  Definition MakePhaseControlOf := AddBuffer controlsShards targetOfShards.
  Definition MakePhaseAntiControlledBy := AddBuffer antiTargetOfShards antiControlsShards.
  Definition MakePhaseAntiControlOf := AddBuffer antiControlsShards antiTargetOfShards.

  (** 121-142.  (localMap[control] exists after localFn.) *)
  Definition AddAngles (localFn : N -> N -> shards -> shards) (localMap : mapsel) (remoteFn : N -> N -> shards -> shards)
      (this control : N) (diff same : K) (s0 : shards) : shards :=
    let s := localFn this control s0 in
    match sh_map s localMap this control with
    | None => s
    | Some b =>
        let t := sh_heap s b in
        let nd := po_unit po (cmplxDiff t * diff)%amp in
        let ns := po_unit po (cmplxSame t * same)%amp in
        if negb (isInvert t) && IS_ARG_0 nd && IS_ARG_0 ns then remoteFn this control s
        else set_buf b (mkPS nd ns (isInvert t)) s
    end.
  (** qengineshard.hpp:197-206. *)
  Definition AddPhaseAngles (this control : N) (topLeft bottomRight : K) : shards -> shards :=
    AddAngles MakePhaseControlledBy targetOfShards RemoveControl this control topLeft bottomRight.
  Definition AddAntiPhaseAngles (this control : N) (bottomRight topLeft : K) : shards -> shards :=
    AddAngles MakePhaseAntiControlledBy antiTargetOfShards RemoveAntiControl this control bottomRight topLeft.
  (** The toggling of isInvert and the exchange of the two phases, qengineshard.hpp:210-211, 217-218. *)
  Definition toggle (localMap : mapsel) (this control : N) (s : shards) : shards :=
    match sh_map s localMap this control with
    | None => s
    | Some b => let t := sh_heap s b in set_buf b (mkPS (cmplxSame t) (cmplxDiff t) (negb (isInvert t))) s
    end.
  (** qengineshard.hpp:207-220. *)
  Definition AddInversionAngles (this control : N) (topRight bottomLeft : K) (s : shards) : shards :=
    AddPhaseAngles this control topRight bottomLeft (toggle targetOfShards this control (MakePhaseControlledBy this control s)).
  Definition AddAntiInversionAngles (this control : N) (bottomLeft topRight : K) (s : shards) : shards :=
    AddAntiPhaseAngles this control bottomLeft topRight
      (toggle antiTargetOfShards this control (MakePhaseAntiControlledBy this control s)).

  (** 144-166. *)
  Definition OptimizeBuffer (localMap remoteMap : mapsel) (phaseFn : N -> N -> K -> K -> shards -> shards) (makeThisControl : bool)
      (this : N) (s0 : shards) : shards :=
    fold_left (fun s e =>
      let partner := fst e in
      let buffer := sh_heap s (snd e) in
      if isInvert buffer || negb (IS_ARG_0 (cmplxDiff buffer)) then s
      else
        let s1 := erase localMap this partner (erase remoteMap partner this s) in
        if makeThisControl then phaseFn partner this 1%amp (cmplxSame buffer) s1
        else phaseFn this partner 1%amp (cmplxSame buffer) s1)
      (entries s0 localMap this) s0.
  (** qengineshard.hpp:226-243. *)
  Definition OptimizeControls := OptimizeBuffer controlsShards targetOfShards AddPhaseAngles false.
  Definition OptimizeTargets := OptimizeBuffer targetOfShards controlsShards AddPhaseAngles true.
  Definition OptimizeAntiControls := OptimizeBuffer antiControlsShards antiTargetOfShards AddAntiPhaseAngles false.
  Definition OptimizeAntiTargets := OptimizeBuffer antiTargetOfShards antiControlsShards AddAntiPhaseAngles true.

  (** 168-209. *)
  Definition OptimizeBothTargets (this : N) (s0 : shards) : shards :=
    let s1 := fold_left (fun s e =>
      let partner := fst e in
      let buffer := sh_heap s (snd e) in
      if isInvert buffer then s
      else if IS_ARG_0 (cmplxDiff buffer) then
        AddPhaseAngles partner this 1%amp (cmplxSame buffer) (erase targetOfShards this partner (erase controlsShards partner this s))
      else if IS_ARG_0 (cmplxSame buffer) then
        AddAntiPhaseAngles partner this (cmplxDiff buffer) 1%amp (erase targetOfShards this partner (erase controlsShards partner this s))
      else s) (entries s0 targetOfShards this) s0 in
    fold_left (fun s e =>
      let partner := fst e in
      let buffer := sh_heap s (snd e) in
      if isInvert buffer then s
      else if IS_ARG_0 (cmplxDiff buffer) then
        AddAntiPhaseAngles partner this 1%amp (cmplxSame buffer)
          (erase antiTargetOfShards this partner (erase antiControlsShards partner this s))
      else if IS_ARG_0 (cmplxSame buffer) then
        AddPhaseAngles partner this (cmplxDiff buffer) 1%amp
          (erase antiTargetOfShards this partner (erase antiControlsShards partner this s))
      else s) (entries s1 antiTargetOfShards this) s1.

  (** 211-237. *)
  Definition CombineBuffers (targetMap controlMap : mapsel) (angleFn : N -> N -> K -> K -> shards -> shards) (this : N) (s0 : shards) : shards :=
    fold_left (fun s e =>
      let partner := fst e in
      match sh_map s0 targetMap this partner with
      | None => s
      | Some b2 =>
          let buffer1 := sh_heap s (snd e) in
          let buffer2 := sh_heap s b2 in
          if negb (isInvert buffer1) && IS_ARG_0 (cmplxDiff buffer1) then
            angleFn this partner 1%amp (cmplxSame buffer1) (erase controlMap this partner (erase targetMap partner this s))
          else if negb (isInvert buffer2) && IS_ARG_0 (cmplxDiff buffer2) then
            angleFn partner this 1%amp (cmplxSame buffer2) (erase targetMap this partner (erase controlMap partner this s))
          else s
      end) (entries s0 controlMap this) s0.
  (** qengineshard.hpp:252-258. *)
  Definition CombineGates (this : N) (s : shards) : shards :=
    CombineBuffers antiTargetOfShards antiControlsShards AddAntiPhaseAngles this
      (CombineBuffers targetOfShards controlsShards AddPhaseAngles this s).

  (** std::swap of the two phases of a buffer. *)
  Definition swap_phases (b : N) (s : shards) : shards :=
    let t := sh_heap s b in set_buf b (mkPS (cmplxSame t) (cmplxDiff t) (isInvert t)) s.
  (** 239-256.  [None]: an end iterator is dereferenced. *)
  Definition SwapTargetAnti (this control : N) (s : shards) : option shards :=
    match sh_map s antiTargetOfShards this control, sh_map s targetOfShards this control with
    | None, None => None
    | None, Some b => Some (erase targetOfShards this control (set_entry antiTargetOfShards this control (Some b) (swap_phases b s)))
    | Some a, None => Some (erase antiTargetOfShards this control (set_entry targetOfShards this control (Some a) (swap_phases a s)))
    | Some a, Some b =>
        Some (set_entry antiTargetOfShards this control (Some b) (set_entry targetOfShards this control (Some a)
               (swap_phases a (swap_phases b s))))
    end.
  Definition bind {A B} (x : option A) (f : A -> option B) : option B := match x with None => None | Some y => f y end.
  (** std::swap(controlsShards, antiControlsShards), 271. *)
  Definition swap_controls (this : N) (s : shards) : shards :=
    mkSh (sh_size s) (sh_heap s) (sh_next s)
         (fun m t p => if t =? this then
                         match m with
                         | controlsShards => sh_map s antiControlsShards t p
                         | antiControlsShards => sh_map s controlsShards t p
                         | _ => sh_map s m t p
                         end
                       else sh_map s m t p).
  (** 258-279.  The unordered_set [toSwap] is visited in increasing order of the positions. *)
  Definition FlipPhaseAnti (this : N) (s0 : shards) : option shards :=
    let toSwap := filter (fun p => match sh_map s0 controlsShards this p, sh_map s0 antiControlsShards this p with
                                   | None, None => false | _, _ => true end) (positions s0) in
    bind (fold_left (fun r p => bind r (SwapTargetAnti p this)) toSwap (Some s0)) (fun s1 =>
      let s2 := swap_controls this s1 in
      let s3 := fold_left (fun s e => swap_phases (snd e) s) (entries s2 targetOfShards this) s2 in
      Some (fold_left (fun s e => swap_phases (snd e) s) (entries s3 antiTargetOfShards this) s3)).

  (** One loop of CommutePhase: [true] when the function returned from inside it. *)
  Fixpoint commute_loop (fd fs : K) (es : list (N * N)) (s : shards) : bool * shards :=
    match es with
    | [] => (false, s)
    | e :: t =>
        let buffer := sh_heap s (snd e) in
        if negb (isInvert buffer) then (true, s)
        else commute_loop fd fs t (set_buf (snd e) (mkPS (cmplxDiff buffer * fd)%amp (cmplxSame buffer * fs)%amp true) s)
    end.
  (** 281-302. *)
  Definition CommutePhase (this : N) (topLeft bottomRight : K) (s : shards) : shards :=
    let '(stop, s1) := commute_loop (po_div po topLeft bottomRight) (po_div po bottomRight topLeft) (entries s targetOfShards this) s in
    if stop then s1
    else snd (commute_loop (po_div po bottomRight topLeft) (po_div po topLeft bottomRight) (entries s1 antiTargetOfShards this) s1).

  (** 304-322 and 324-341: index [i] moves on only past the entries that are kept. *)
  Fixpoint remove_loop (fuel : nat) (drop : PhaseShard -> bool) (localMap remoteMap : mapsel) (this : N) (i : nat) (s : shards) : shards :=
    match fuel with
    | O => s
    | S f =>
        match nth_error (entries s localMap this) i with
        | None => s
        | Some e =>
            if drop (sh_heap s (snd e))
            then remove_loop f drop localMap remoteMap this i (erase localMap this (fst e) (erase remoteMap (fst e) this s))
            else remove_loop f drop localMap remoteMap this (S i) s
        end
    end.
  Definition RemoveIdentityBuffers (localMap remoteMap : mapsel) (this : N) (s : shards) : shards :=
    remove_loop (length (entries s localMap this))
      (fun b => negb (isInvert b) && IS_ARG_0 (cmplxDiff b) && IS_ARG_0 (cmplxSame b)) localMap remoteMap this 0 s.
  Definition RemovePhaseBuffers (localMap remoteMap : mapsel) (this : N) (s : shards) : shards :=
    remove_loop (length (entries s localMap this)) (fun b => negb (isInvert b)) localMap remoteMap this 0 s.

  (** One buffer in the loops of CommuteH, 347-361; in the second loop, 365-379, [neg] changes the other phase. *)
  Definition commute_h (neg : K -> K -> bool -> PhaseShard) (b : N) (s : shards) : shards :=
    let t := sh_heap s b in
    if po_lt1 po (cmplxDiff t - cmplxSame t)%amp then
      if isInvert t then set_buf b (neg (cmplxDiff t) (cmplxSame t) false) s else s
    else
      if isInvert t then swap_phases b s else set_buf b (neg (cmplxDiff t) (cmplxSame t) true) s.
  (** 343-383. *)
  Definition CommuteH (this : N) (s : shards) : shards :=
    let s1 := fold_left (fun s e => commute_h (fun d m i => mkPS d (- m)%amp i) (snd e) s) (entries s targetOfShards this) s in
    let s2 := RemoveIdentityBuffers targetOfShards controlsShards this s1 in
    let s3 := fold_left (fun s e => commute_h (fun d m i => mkPS (- d)%amp m i) (snd e) s) (entries s2 antiTargetOfShards this) s2 in
    RemoveIdentityBuffers antiTargetOfShards antiControlsShards this s3.

  (** qengineshard.hpp:271-277. *)
  Definition DumpPhaseBuffers (this : N) (s : shards) : shards :=
    RemovePhaseBuffers antiControlsShards antiTargetOfShards this
      (RemovePhaseBuffers controlsShards targetOfShards this
        (RemovePhaseBuffers antiTargetOfShards antiControlsShards this
          (RemovePhaseBuffers targetOfShards controlsShards this s))).

  (** 385-417. *)
  Definition IsInvertControl (this : N) (s : shards) : bool :=
    existsb (fun e => isInvert (sh_heap s (snd e))) (entries s controlsShards this) ||
    existsb (fun e => isInvert (sh_heap s (snd e))) (entries s antiControlsShards this).
  Definition IsInvertTarget (this : N) (s : shards) : bool :=
    existsb (fun e => isInvert (sh_heap s (snd e))) (entries s targetOfShards this) ||
    existsb (fun e => isInvert (sh_heap s (snd e))) (entries s antiTargetOfShards this).

  (** 419-427. *)
  Definition ClearMapInvertPhase (m : mapsel) (this : N) (s : shards) : shards :=
    fold_left (fun s e => if isInvert (sh_heap s (snd e)) then set_buf (snd e) (mkPS 1%amp 1%amp true) s else s) (entries s m this) s.
  (** qengineshard.hpp:286-294. *)
  Definition ClearInvertPhase (this : N) (s : shards) : shards :=
    ClearMapInvertPhase antiTargetOfShards this (ClearMapInvertPhase targetOfShards this
      (ClearMapInvertPhase antiControlsShards this (ClearMapInvertPhase controlsShards this s))).

  (** The loop of 87-90: remove the first entry while there is one. *)
  Fixpoint dump_loop (fuel : nat) (localMap : mapsel) (remoteFn : N -> N -> shards -> shards) (this : N) (s : shards) : shards :=
    match fuel with
    | O => s
    | S f =>
        match entries s localMap this with
        | [] => s
        | e :: _ => dump_loop f localMap remoteFn this (remoteFn this (fst e) s)
        end
    end.
  Definition dump_all (localMap : mapsel) (remoteFn : N -> N -> shards -> shards) (this : N) (s : shards) : shards :=
    dump_loop (length (entries s localMap this)) localMap remoteFn this s.
  (** 50-72. *)
  Definition DumpMultiBit (this : N) (s : shards) : shards :=
    dump_all antiTargetOfShards RemoveAntiControl this
      (dump_all antiControlsShards RemoveAntiTarget this
        (dump_all targetOfShards RemoveControl this
          (dump_all controlsShards RemoveTarget this s))).
  (** 83-91. *)
  Definition DumpBuffer (optimizeFn : N -> shards -> shards) (localMap : mapsel) (remoteFn : N -> N -> shards -> shards) (this : N) (s : shards) : shards :=
    dump_all localMap remoteFn this (optimizeFn this s).
  (** 93-110. *)
  Fixpoint same_loop (fuel : nat) (localMap : mapsel) (remoteFn : N -> N -> shards -> shards) (this : N) (lcv : nat) (s : shards) : shards :=
    match fuel with
    | O => s
    | S f =>
        match nth_error (entries s localMap this) lcv with
        | None => s
        | Some e =>
            let buffer := sh_heap s (snd e) in
            if negb (isInvert buffer) && IS_SAME (cmplxDiff buffer) (cmplxSame buffer)
            then same_loop f localMap remoteFn this lcv (remoteFn this (fst e) s)
            else same_loop f localMap remoteFn this (S lcv) s
        end
    end.
  Definition DumpSamePhaseBuffer (optimizeFn : N -> shards -> shards) (localMap : mapsel) (remoteFn : N -> N -> shards -> shards) (this : N) (s : shards) : shards :=
    let s1 := optimizeFn this s in same_loop (length (entries s1 localMap this)) localMap remoteFn this 0 s1.
  (** qengineshard.hpp:163-175. *)
  Definition DumpControlOf := DumpBuffer OptimizeTargets controlsShards RemoveTarget.
  Definition DumpAntiControlOf := DumpBuffer OptimizeAntiTargets antiControlsShards RemoveAntiTarget.
  Definition DumpSamePhaseControlOf := DumpSamePhaseBuffer OptimizeTargets controlsShards RemoveTarget.
  Definition DumpSamePhaseAntiControlOf := DumpSamePhaseBuffer OptimizeAntiTargets antiControlsShards RemoveAntiTarget.
  (** QEngineShardMap::erase, qengineshard.hpp:364-378, one shard: the shards behind it move down by one position; the keys of the
      maps are addresses and stay as they are. *)
  Definition erase_shard (k : N) (s : shards) : shards :=
    mkSh (sh_size s - 1) (sh_heap s) (sh_next s)
         (fun m t p => if t <? sh_size s - 1 then sh_map s m (if t <? k then t else t + 1) p else None).
End Shard.
Arguments PhaseShard : clear implicits.
Arguments shards : clear implicits.
