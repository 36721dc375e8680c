(** Property theorems C99-C107: buffered two-qubit gates of QUnit (QEngineShard). *)
From Coq Require Import NArith ZArith List Bool Lia.
From Verif Require Import Amp AmpPolar SpecState MShard SpecShard AmpC PShard10.
Import ListNotations.
Local Open Scope N_scope.

(** The shards of the examples: ex_s has a controlled Z from 1 to 0 and an anti-controlled phase i from 2 to 0; ex_mixed has a controlled -1
    from 1 to 0 and a CNOT from 2 to 0. *)
Example ex_s_hyps : consistent ex_s /\ sh_size ex_s = 3 /\ commuting ex_s.
Proof. exact ex_s_ok. Qed.
Example ex_s_effect : map (fun k => pending ex_s (ket k) k) [0; 1; 3; 7] = [(1, 0)%Z; (0, 1)%Z; (0, -1)%Z; (-1, 0)%Z] :> list GI.
Proof. vm_compute. reflexivity. Qed.
Example ex_mixed_hyps : consistent ex_mixed /\ sh_size ex_mixed = 3 /\ commuting ex_mixed.
Proof. exact ex_mixed_ok. Qed.
(** [Polar] is met by the complex numbers. *)
Example polar_complex : Polar CC.
Proof. exact polarCC. Qed.

(** * C99: bookkeeping of the buffers *)

(** Any sequence of calls on new shards ends in shards whose maps mirror each other and share their buffers, with one buffer per pair of different shards and phases of magnitude one; no call dereferences an end iterator. *)
Theorem c99_calls : forall (K : StarRing) (po : Polar K) (os : list shard_op) n, Forall (proper_call n) os ->
  exists s, calls po os (newShards n) = Some s /\ consistent s /\ sh_size s = n.
Proof. exact @PShard10.l_c99_calls. Qed.
Print Assumptions c99_calls.

Example c99_hyps : Forall (proper_call 3) (ex_ops ++ [OFlip 0; OCombine 1; OOptimizeBoth 0; OCommuteH 2; ODumpControl true true 1]).
Proof. repeat constructor; try (vm_compute; reflexivity); intros H; discriminate H. Qed.

(** The same from any consistent shards. *)
Theorem c99_one_call : forall (K : StarRing) (po : Polar K) (o : shard_op) (s : shards K), consistent s -> proper_call (sh_size s) o ->
  exists s', call po o s = Some s' /\ consistent s' /\ sh_size s' = sh_size s.
Proof. exact @PShard10.l_c99_one_call. Qed.
Print Assumptions c99_one_call.

(** * C100: adding a gate to the buffers *)

(** AddPhaseAngles: the buffered gates followed by the controlled phase gate. *)
Theorem c100_phase : forall (K : StarRing) (po : Polar K) (s : shards K) this control x y, consistent s -> commuting s -> control < sh_size s -> this < sh_size s -> control <> this ->
  anorm x = 1%amp -> anorm y = 1%amp -> commutes_but s (false, control, this) (gate1 (fires false control) this (mkMat x 0%amp 0%amp y)) ->
  let s' := AddPhaseAngles po this control x y s in
  consistent s' /\ sh_size s' = sh_size s /\ commuting s' /\ forall psi, same_state (pending s' psi) (gate1 (fires false control) this (mkMat x 0%amp 0%amp y) (pending s psi)).
Proof. exact @PShard10.l_c100_phase. Qed.
Print Assumptions c100_phase.

Example c100_hyps : consistent ex_s /\ commuting ex_s /\ (forall x y : GI, commutes_but ex_s (false, 2, 1) (gate1 (fires false 2) 1 (mkMat x 0%amp 0%amp y))).
Proof. destruct ex_s_ok as (C & _ & HC). split; [exact C|]. split; [exact HC|]. exact ex_s_commutes. Qed.

(** AddAntiPhaseAngles (bottom right phase first): the anti-controlled phase gate. *)
Theorem c100_anti_phase : forall (K : StarRing) (po : Polar K) (s : shards K) this control x y, consistent s -> commuting s -> control < sh_size s -> this < sh_size s -> control <> this ->
  anorm x = 1%amp -> anorm y = 1%amp -> commutes_but s (true, control, this) (gate1 (fires true control) this (mkMat x 0%amp 0%amp y)) ->
  let s' := AddAntiPhaseAngles po this control y x s in
  consistent s' /\ sh_size s' = sh_size s /\ commuting s' /\ forall psi, same_state (pending s' psi) (gate1 (fires true control) this (mkMat x 0%amp 0%amp y) (pending s psi)).
Proof. exact @PShard10.l_c100_anti_phase. Qed.
Print Assumptions c100_anti_phase.

(** AddInversionAngles: a controlled gate with matrix entries off the diagonal. *)
Theorem c100_inversion : forall (K : StarRing) (po : Polar K) (s : shards K) this control x y, consistent s -> commuting s -> control < sh_size s -> this < sh_size s -> control <> this ->
  anorm x = 1%amp -> anorm y = 1%amp -> commutes_but s (false, control, this) (gate1 (fires false control) this (mkMat 0%amp x y 0%amp)) ->
  let s' := AddInversionAngles po this control x y s in
  consistent s' /\ sh_size s' = sh_size s /\ commuting s' /\ forall psi, same_state (pending s' psi) (gate1 (fires false control) this (mkMat 0%amp x y 0%amp) (pending s psi)).
Proof. exact @PShard10.l_c100_inversion. Qed.
Print Assumptions c100_inversion.

(** AddAntiInversionAngles (bottom left entry first). *)
Theorem c100_anti_inversion : forall (K : StarRing) (po : Polar K) (s : shards K) this control x y, consistent s -> commuting s -> control < sh_size s -> this < sh_size s -> control <> this ->
  anorm x = 1%amp -> anorm y = 1%amp -> commutes_but s (true, control, this) (gate1 (fires true control) this (mkMat 0%amp x y 0%amp)) ->
  let s' := AddAntiInversionAngles po this control y x s in
  consistent s' /\ sh_size s' = sh_size s /\ commuting s' /\ forall psi, same_state (pending s' psi) (gate1 (fires true control) this (mkMat 0%amp x y 0%amp) (pending s psi)).
Proof. exact @PShard10.l_c100_anti_inversion. Qed.
Print Assumptions c100_anti_inversion.

(** The hypotheses hold whenever only phase gates are buffered: they commute with each other and with every phase gate. *)
Theorem c100_phases : forall (K : StarRing) (s : shards K), (forall anti c t b, buffer_of s anti c t = Some b -> isInvert b = false) ->
  commuting s /\ forall k P t (x y : K), commutes_but s k (gate1 P t (mkMat x 0%amp 0%amp y)).
Proof. exact @PShard10.l_c100_phases. Qed.
Print Assumptions c100_phases.

(** * C101: moving gates between buffers *)

(** OptimizeControls leaves the product of the buffered gates as it was. *)
Theorem c101_optimize_controls : forall (K : StarRing) (po : Polar K) this (s : shards K), consistent s -> commuting s -> unchanged s (OptimizeControls po this s).
Proof. exact @PShard10.l_c101_optimize_controls. Qed.
Print Assumptions c101_optimize_controls.

Example c101_hyps : consistent ex_s /\ commuting ex_s /\ buffer_of (OptimizeTargets polarGI 0 ex_s) false 0 1 = Some (mkPS (K := GI) (1, 0)%Z (-1, 0)%Z false).
Proof. destruct ex_s_ok as (C & _ & HC). split; [exact C|]. split; [exact HC|]. vm_compute. reflexivity. Qed.

(** OptimizeTargets. *)
Theorem c101_optimize_targets : forall (K : StarRing) (po : Polar K) this (s : shards K), consistent s -> commuting s -> unchanged s (OptimizeTargets po this s).
Proof. exact @PShard10.l_c101_optimize_targets. Qed.
Print Assumptions c101_optimize_targets.

(** OptimizeAntiControls. *)
Theorem c101_optimize_anti_controls : forall (K : StarRing) (po : Polar K) this (s : shards K), consistent s -> commuting s -> unchanged s (OptimizeAntiControls po this s).
Proof. exact @PShard10.l_c101_optimize_anti_controls. Qed.
Print Assumptions c101_optimize_anti_controls.

(** OptimizeAntiTargets. *)
Theorem c101_optimize_anti_targets : forall (K : StarRing) (po : Polar K) this (s : shards K), consistent s -> commuting s -> unchanged s (OptimizeAntiTargets po this s).
Proof. exact @PShard10.l_c101_optimize_anti_targets. Qed.
Print Assumptions c101_optimize_anti_targets.

(** OptimizeBothTargets: also between controls and anti-controls. *)
Theorem c101_optimize_both : forall (K : StarRing) (po : Polar K) this (s : shards K), consistent s -> commuting s -> unchanged s (OptimizeBothTargets po this s).
Proof. exact @PShard10.l_c101_optimize_both. Qed.
Print Assumptions c101_optimize_both.

Example c101_both_moves : buffer_of (OptimizeBothTargets polarGI 0 ex_s) false 0 2 = Some (mkPS (K := GI) (0, 1)%Z (1, 0)%Z false) /\ buffer_of (OptimizeBothTargets polarGI 0 ex_s) true 2 0 = None.
Proof. vm_compute. auto. Qed.

(** CombineGates. *)
Theorem c101_combine : forall (K : StarRing) (po : Polar K) this (s : shards K), consistent s -> commuting s -> unchanged s (CombineGates po this s).
Proof. exact @PShard10.l_c101_combine. Qed.
Print Assumptions c101_combine.

(** * C102: an X gate passes the buffers *)

(** FlipPhaseAnti: the buffers before and after an X gate on the shard; the function never dereferences an end iterator. *)
Theorem c102_flip : forall (K : StarRing) q (s : shards K), consistent s -> commuting s ->
  exists s', FlipPhaseAnti q s = Some s' /\ carried q (mkMat 0%amp 1%amp 1%amp 0%amp) s s'.
Proof. exact @PShard10.l_c102_flip. Qed.
Print Assumptions c102_flip.

Example c102_flips : consistent ex_mixed /\ commuting ex_mixed /\
  match FlipPhaseAnti 2 ex_mixed with Some s => buffer_of s true 2 0 = Some (mkPS (K := GI) (1, 0)%Z (1, 0)%Z true) /\ buffer_of s false 2 0 = None | None => False end.
Proof. destruct ex_mixed_ok as (C & _ & HC). split; [exact C|]. split; [exact HC|]. vm_compute. auto. Qed.

(** * C103: a phase gate passes the buffers *)

(** CommutePhase returns at the first buffer that does not invert, so that the inverting buffers behind it are not changed: after a phase gate i on qubit 0, with a controlled -1 from 1 to 0 and a CNOT from 2 to 0, the result is wrong. *)
Theorem c103_commute_phase_refuted : exists (os : list (shard_op (K := GI))) (s : shards GI) (topLeft bottomRight : GI) (psi : N -> GI) x,
    Forall (proper_call 3) os /\ calls polarGI os (newShards 3) = Some s /\ commuting s /\ anorm topLeft = 1%amp /\ anorm bottomRight = 1%amp /\
    pending (CommutePhase polarGI 0 topLeft bottomRight s) (gate1 always 0 (mkMat topLeft 0%amp 0%amp bottomRight) psi) x
      <> gate1 always 0 (mkMat topLeft 0%amp 0%amp bottomRight) (pending s psi) x.
Proof. exact @PShard10.l_c103_commute_phase_refuted. Qed.
Print Assumptions c103_commute_phase_refuted.

(** If all buffers of which the shard is the target invert, or none does, a phase gate passes.  Missing: shards with buffers of both kinds (refuted above). *)
Theorem c103_commute_phase_partial : forall (K : StarRing) (po : Polar K) q (topLeft bottomRight : K) (s : shards K), consistent s -> commuting s -> anorm topLeft = 1%amp -> anorm bottomRight = 1%amp ->
  all_inverting s q \/ not_inverted s q -> carried q (mkMat topLeft 0%amp 0%amp bottomRight) s (CommutePhase po q topLeft bottomRight s).
Proof. exact @PShard10.l_c103_commute_phase_partial. Qed.
Print Assumptions c103_commute_phase_partial.

Example c103_hyps : consistent ex_s /\ commuting ex_s /\ not_inverted ex_s 0.
Proof. destruct ex_s_ok as (C & _ & HC). split; [exact C|]. split; [exact HC|]. exact ex_s_not_inverted. Qed.

(** * C104: an H gate passes the buffers *)

(** CommuteH: if the shard controls nothing and its buffers have equal or opposite phases, they are changed into those behind the H gate. *)
Theorem c104_commute_h : forall (K : StarRing) (po : Polar K) q (h : K) (s : shards K), consistent s -> commuting s -> h_ready s q -> (h * h + h * h = 1)%amp ->
  carried q (mkMat h h h (- h)%amp) s (CommuteH po q s).
Proof. exact @PShard10.l_c104_commute_h. Qed.
Print Assumptions c104_commute_h.

Example c104_changes : h_ready ex_mixed 0 /\ buffer_of (CommuteH polarGI 0 ex_mixed) false 2 0 = Some (mkPS (K := GI) (1, 0)%Z (-1, 0)%Z false).
Proof. split; [exact ex_mixed_ready|]. vm_compute. reflexivity. Qed.

(** * C105: buffers that do not matter for probabilities *)

(** DumpPhaseBuffers removes the buffers of the shard that do not invert; the squared magnitude of every amplitude stays. *)
Theorem c105_dump_phase : forall (K : StarRing) q (s : shards K), consistent s -> let s' := DumpPhaseBuffers q s in
  consistent s' /\ sh_size s' = sh_size s /\
  (forall anti c t, buffer_of s' anti c t =
     match buffer_of s anti c t with Some b => if ((c =? q) || (t =? q)) && negb (isInvert b) then None else Some b | None => None end) /\
  forall psi x, anorm (pending s' psi x) = anorm (pending s psi x).
Proof. exact @PShard10.l_c105_dump_phase. Qed.
Print Assumptions c105_dump_phase.

Example c105_drops : map (fun k => buffer_of (DumpPhaseBuffers 0 ex_mixed) false k 0) [1; 2] = [None; Some (mkPS (K := GI) (1, 0)%Z (1, 0)%Z true)].
Proof. vm_compute. reflexivity. Qed.

(** ClearInvertPhase sets the phases of the inverting buffers of the shard to one; the squared magnitude of every amplitude stays. *)
Theorem c105_clear_invert : forall (K : StarRing) q (s : shards K), consistent s -> let s' := ClearInvertPhase q s in
  consistent s' /\ sh_size s' = sh_size s /\
  (forall anti c t, buffer_of s' anti c t =
     match buffer_of s anti c t with Some b => if ((c =? q) || (t =? q)) && isInvert b then Some (mkPS 1%amp 1%amp true) else Some b | None => None end) /\
  forall psi x, anorm (pending s' psi x) = anorm (pending s psi x).
Proof. exact @PShard10.l_c105_clear_invert. Qed.
Print Assumptions c105_clear_invert.

(** * C106: buffers of a qubit in a basis state *)

(** DumpControlOf: for a shard in state 0 no buffer controlled by it is kept, and the state stays. *)
Theorem c106_dump_control : forall (K : StarRing) (po : Polar K) q (s : shards K), consistent s -> commuting s -> not_inverted s q -> let s' := DumpControlOf po q s in
  consistent s' /\ sh_size s' = sh_size s /\ commuting s' /\ (forall t, buffer_of s' false q t = None) /\
  forall psi, supported q false psi -> same_state (pending s' psi) (pending s psi).
Proof. exact @PShard10.l_c106_dump_control. Qed.
Print Assumptions c106_dump_control.

Example c106_hyps : not_inverted ex_s 0 /\ supported (K := GI) 0 false (ket 6) /\ buffer_of ex_s false 1 0 <> None /\ buffer_of (DumpControlOf polarGI 0 ex_s) false 1 0 = None.
Proof.
  split; [exact ex_s_not_inverted|]. split; [|split; [vm_compute; discriminate|vm_compute; reflexivity]].
  intros x Hx. unfold ket. destruct (N.eqb_spec x 6) as [->|]; [exfalso; apply Hx; reflexivity|reflexivity].
Qed.

(** DumpAntiControlOf: the same for a shard in state 1 and its anti-controlled buffers. *)
Theorem c106_dump_anti_control : forall (K : StarRing) (po : Polar K) q (s : shards K), consistent s -> commuting s -> not_inverted s q -> let s' := DumpAntiControlOf po q s in
  consistent s' /\ sh_size s' = sh_size s /\ commuting s' /\ (forall t, buffer_of s' true q t = None) /\
  forall psi, supported q true psi -> same_state (pending s' psi) (pending s psi).
Proof. exact @PShard10.l_c106_dump_anti_control. Qed.
Print Assumptions c106_dump_anti_control.

(** DumpSamePhaseControlOf: for a shard in state 1, buffers controlled by it with equal phases are dropped; the state changes by a global phase only. *)
Theorem c106_dump_same : forall (K : StarRing) (po : Polar K) q (s : shards K), consistent s -> commuting s -> not_inverted s q -> let s' := DumpSamePhaseControlOf po q s in
  consistent s' /\ sh_size s' = sh_size s /\ commuting s' /\
  (forall t b, buffer_of s' false q t = Some b -> isInvert b = true \/ cmplxDiff b <> cmplxSame b) /\
  exists u : K, anorm u = 1%amp /\ forall psi, supported q true psi -> same_state (pending s psi) (fun x => u * pending s' psi x)%amp.
Proof. exact @PShard10.l_c106_dump_same. Qed.
Print Assumptions c106_dump_same.

(** DumpSamePhaseAntiControlOf: the same for a shard in state 0. *)
Theorem c106_dump_same_anti : forall (K : StarRing) (po : Polar K) q (s : shards K), consistent s -> commuting s -> not_inverted s q -> let s' := DumpSamePhaseAntiControlOf po q s in
  consistent s' /\ sh_size s' = sh_size s /\ commuting s' /\
  (forall t b, buffer_of s' true q t = Some b -> isInvert b = true \/ cmplxDiff b <> cmplxSame b) /\
  exists u : K, anorm u = 1%amp /\ forall psi, supported q false psi -> same_state (pending s psi) (fun x => u * pending s' psi x)%amp.
Proof. exact @PShard10.l_c106_dump_same_anti. Qed.
Print Assumptions c106_dump_same_anti.

(** DumpMultiBit removes all buffers of the shard and no others. *)
Theorem c106_dump_multi : forall (K : StarRing) q (s : shards K), consistent s -> let s' := DumpMultiBit q s in
  consistent s' /\ sh_size s' = sh_size s /\ forall anti c t, buffer_of s' anti c t = if (c =? q) || (t =? q) then None else buffer_of s anti c t.
Proof. exact @PShard10.l_c106_dump_multi. Qed.
Print Assumptions c106_dump_multi.

Example c106_multi : buffer_of (DumpMultiBit 1 ex_s) false 1 0 = None /\ buffer_of (DumpMultiBit 1 ex_s) true 2 0 <> None.
Proof. vm_compute. split; [reflexivity|discriminate]. Qed.

(** * C107: removing a shard *)

(** Removing a shard without buffers: the shards behind it move, but the maps still name their old addresses, so that a buffer between two of them belongs to the wrong pair or to none. *)
Theorem c107_erase_refuted : exists (os : list (shard_op (K := GI))) (s : shards GI) k,
    Forall (proper_call 3) os /\ calls polarGI os (newShards 3) = Some s /\ k < 3 /\ (forall anti p, buffer_of s anti k p = None /\ buffer_of s anti p k = None) /\
    ~ consistent (erase_shard k s) /\
    exists anti c t, c < 3 /\ t < 3 /\ c <> k /\ t <> k /\ buffer_of (erase_shard k s) anti (renumber k c) (renumber k t) <> buffer_of s anti c t.
Proof. exact @PShard10.l_c107_erase_refuted. Qed.
Print Assumptions c107_erase_refuted.

(** If all buffers are between shards in front of the removed one, they stay with their pairs.  Missing: buffers of shards behind it (refuted above). *)
Theorem c107_erase_partial : forall (K : StarRing) k (s : shards K), consistent s -> k < sh_size s -> (forall anti c t b, buffer_of s anti c t = Some b -> c < k /\ t < k) ->
  consistent (erase_shard k s) /\
  forall anti c t, c < sh_size s -> t < sh_size s -> c <> k -> t <> k -> buffer_of (erase_shard k s) anti (renumber k c) (renumber k t) = buffer_of s anti c t.
Proof. exact @PShard10.l_c107_erase_partial. Qed.
Print Assumptions c107_erase_partial.

Example c107_hyps : consistent (after 3 [OAdd (K := GI) false false 0 1 (1, 0)%Z (-1, 0)%Z]) /\
  (forall anti c t b, buffer_of (after 3 [OAdd (K := GI) false false 0 1 (1, 0)%Z (-1, 0)%Z]) anti c t = Some b -> c < 2 /\ t < 2).
Proof. exact ex_low. Qed.
