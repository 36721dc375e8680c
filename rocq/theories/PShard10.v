(** Proofs of the property theorems of PropShard.v. *)
From Coq Require Import NArith ZArith List Bool Lia.
From Verif Require Import Amp AmpPolar SpecState MShard SpecShard PAmp PGates PGates2 PQCirc2 PShard1 PShard2 PShard3 PShard4 PShard5 PShard6 PShard7 PShard8 PShard9.
Import ListNotations.
Local Open Scope N_scope.

(** Three shards with a controlled Z from 1 to 0 and an anti-controlled phase i from 2 to 0; and with a controlled -1 (both values
    of the target) from 1 to 0 and a CNOT from 2 to 0. *)
Definition ex_ops : list (shard_op (K := GI)) := [OAdd (K := GI) false false 0 1 (1, 0)%Z (-1, 0)%Z; OAdd (K := GI) true false 0 2 (0, 1)%Z (1, 0)%Z].
Definition ex_mixed_ops : list (shard_op (K := GI)) := [OAdd (K := GI) false false 0 1 (-1, 0)%Z (-1, 0)%Z; OAdd (K := GI) false true 0 2 (1, 0)%Z (1, 0)%Z].
Definition after (n : N) (os : list (shard_op (K := GI))) : shards GI := match calls polarGI os (newShards n) with Some s => s | None => newShards n end.
Definition ex_s : shards GI := after 3 ex_ops.
Definition ex_mixed : shards GI := after 3 ex_mixed_ops.

Lemma ex_consistent os n : Forall (proper_call n) os -> consistent (after n os) /\ sh_size (after n os) = n.
Proof.
  intros H. unfold after. destruct (calls_ok polarGI os (newShards n) (new_consistent n) H) as (s' & E & C & S). rewrite E. split; [exact C|exact S].
Qed.
Ltac calls_tac := repeat constructor; vm_compute; reflexivity || (intros H; discriminate H) || idtac.
Lemma ex_s_ok : consistent ex_s /\ sh_size ex_s = 3 /\ commuting ex_s.
Proof.
  destruct (ex_consistent ex_ops 3) as [C S].
  { repeat constructor; try (vm_compute; reflexivity); intros H; discriminate H. }
  split; [exact C|]. split; [exact S|]. apply phases_commute. intros a c t b Eb. apply negb_true_iff.
  apply (pairs_forall (fun _ b => negb (isInvert b)) ex_s C) with (a := a) (c := c) (t := t); [vm_compute; reflexivity|exact Eb].
Qed.
Lemma ex_mixed_ok : consistent ex_mixed /\ sh_size ex_mixed = 3 /\ commuting ex_mixed.
Proof.
  pose (s1 := after 3 [OAdd (K := GI) false false 0 1 (-1, 0)%Z (-1, 0)%Z]). destruct (ex_consistent [OAdd (K := GI) false false 0 1 (-1, 0)%Z (-1, 0)%Z] 3) as [C1 S1].
  { repeat constructor; try (vm_compute; reflexivity); intros H; discriminate H. }
  fold s1 in C1, S1. assert (Hp : only_phases s1). { intros a c t b Eb. apply negb_true_iff. apply (pairs_forall (fun _ b => negb (isInvert b)) s1 C1) with (a := a) (c := c) (t := t); [vm_compute; reflexivity|exact Eb]. }
  assert (Hk : forall a c t b, buffer_of s1 a c t = Some b -> (a, c, t) = (false, 1, 0)).
  { intros a c t b Eb. assert (H : keq false 1 0 a c t = true); [|apply keq_spec in H; exact H].
    apply (pairs_forall (fun k _ => keq false 1 0 (fst (fst k)) (snd (fst k)) (snd k)) s1 C1) with (a := a) (c := c) (t := t) (b := b); [vm_compute; reflexivity|exact Eb]. }
  assert (Hb : commutes_but s1 (false, 2, 0) (gate1 (fires false 2) 0 (matrix_of false (mkPS (K := GI) (1, 0)%Z (1, 0)%Z true)))).
  { intros [[a c] t] psi _. rewrite !gate_at_eq. destruct (buffer_of s1 a c t) as [b|] eqn:Eb; [|apply ss_refl]. pose proof (Hk _ _ _ _ Eb) as E. injection E as -> -> ->.
    replace b with (mkPS (K := GI) (-1, 0)%Z (-1, 0)%Z false) by (vm_compute in Eb; injection Eb as <-; reflexivity). apply (scalar_commutes (K := GI) false 1 (fires false 2) 0 ((-1, 0)%Z : GI)). discriminate. }
  pose proof (add_result polarGI false 2 0 (1, 0)%Z (1, 0)%Z true s1 C1 (proj1 (phases_commute s1 Hp)) ltac:(rewrite S1; reflexivity) ltac:(rewrite S1; reflexivity) ltac:(discriminate) eq_refl eq_refl Hb) as (C2 & S2 & HC2 & _).
  assert (E : ex_mixed = AddInvT polarGI false 0 2 (1, 0)%Z (1, 0)%Z s1) by reflexivity. rewrite E.
  split; [exact C2|]. split; [rewrite S2; exact S1|exact HC2].
Qed.

Lemma l_c99_calls : forall (K : StarRing) (po : Polar K) (os : list shard_op) n, Forall (proper_call n) os ->
  exists s, calls po os (newShards n) = Some s /\ consistent s /\ sh_size s = n.
Proof. intros K po os n H. destruct (calls_ok po os (newShards n) (new_consistent n) H) as (s & E & C & S). exists s. auto. Qed.

Lemma l_c99_one_call : forall (K : StarRing) (po : Polar K) (o : shard_op) (s : shards K), consistent s -> proper_call (sh_size s) o ->
  exists s', call po o s = Some s' /\ consistent s' /\ sh_size s' = sh_size s.
Proof. intros K po o s. apply call_ok. Qed.

Lemma l_c100_phase : forall (K : StarRing) (po : Polar K) (s : shards K) this control x y, consistent s -> commuting s -> control < sh_size s -> this < sh_size s -> control <> this ->
  anorm x = 1%amp -> anorm y = 1%amp -> commutes_but s (false, control, this) (gate1 (fires false control) this (mkMat x 0%amp 0%amp y)) ->
  let s' := AddPhaseAngles po this control x y s in
  consistent s' /\ sh_size s' = sh_size s /\ commuting s' /\ forall psi, same_state (pending s' psi) (gate1 (fires false control) this (mkMat x 0%amp 0%amp y) (pending s psi)).
Proof. intros K po s this control x y C HC Hc Ht Hct Ux Uy Hb. exact (add_result po false control this x y false s C HC Hc Ht Hct Ux Uy Hb). Qed.

Lemma l_c100_anti_phase : forall (K : StarRing) (po : Polar K) (s : shards K) this control x y, consistent s -> commuting s -> control < sh_size s -> this < sh_size s -> control <> this ->
  anorm x = 1%amp -> anorm y = 1%amp -> commutes_but s (true, control, this) (gate1 (fires true control) this (mkMat x 0%amp 0%amp y)) ->
  let s' := AddAntiPhaseAngles po this control y x s in
  consistent s' /\ sh_size s' = sh_size s /\ commuting s' /\ forall psi, same_state (pending s' psi) (gate1 (fires true control) this (mkMat x 0%amp 0%amp y) (pending s psi)).
Proof. intros K po s this control x y C HC Hc Ht Hct Ux Uy Hb. exact (add_result po true control this y x false s C HC Hc Ht Hct Uy Ux Hb). Qed.

Lemma l_c100_inversion : forall (K : StarRing) (po : Polar K) (s : shards K) this control x y, consistent s -> commuting s -> control < sh_size s -> this < sh_size s -> control <> this ->
  anorm x = 1%amp -> anorm y = 1%amp -> commutes_but s (false, control, this) (gate1 (fires false control) this (mkMat 0%amp x y 0%amp)) ->
  let s' := AddInversionAngles po this control x y s in
  consistent s' /\ sh_size s' = sh_size s /\ commuting s' /\ forall psi, same_state (pending s' psi) (gate1 (fires false control) this (mkMat 0%amp x y 0%amp) (pending s psi)).
Proof. intros K po s this control x y C HC Hc Ht Hct Ux Uy Hb. exact (add_result po false control this x y true s C HC Hc Ht Hct Ux Uy Hb). Qed.

Lemma l_c100_anti_inversion : forall (K : StarRing) (po : Polar K) (s : shards K) this control x y, consistent s -> commuting s -> control < sh_size s -> this < sh_size s -> control <> this ->
  anorm x = 1%amp -> anorm y = 1%amp -> commutes_but s (true, control, this) (gate1 (fires true control) this (mkMat 0%amp x y 0%amp)) ->
  let s' := AddAntiInversionAngles po this control y x s in
  consistent s' /\ sh_size s' = sh_size s /\ commuting s' /\ forall psi, same_state (pending s' psi) (gate1 (fires true control) this (mkMat 0%amp x y 0%amp) (pending s psi)).
Proof. intros K po s this control x y C HC Hc Ht Hct Ux Uy Hb. exact (add_result po true control this y x true s C HC Hc Ht Hct Uy Ux Hb). Qed.

Lemma ex_s_commutes : forall x y : GI, commutes_but ex_s (false, 2, 1) (gate1 (fires false 2) 1 (mkMat x 0%amp 0%amp y)).
Proof.
  intros x y. apply phases_commute. destruct ex_s_ok as (C & _). intros a c t b Eb. apply negb_true_iff.
  apply (pairs_forall (fun _ b => negb (isInvert b)) ex_s C) with (a := a) (c := c) (t := t); [vm_compute; reflexivity|exact Eb].
Qed.

Lemma l_c100_phases : forall (K : StarRing) (s : shards K), (forall anti c t b, buffer_of s anti c t = Some b -> isInvert b = false) ->
  commuting s /\ forall k P t (x y : K), commutes_but s k (gate1 P t (mkMat x 0%amp 0%amp y)).
Proof. intros K s. apply phases_commute. Qed.

Lemma l_c101_optimize_controls : forall (K : StarRing) (po : Polar K) this (s : shards K), consistent s -> commuting s -> unchanged s (OptimizeControls po this s).
Proof. intros K po this s C HC. apply effect_unchanged; [exact HC|]. exact (optimize_controls po false this s C). Qed.

Lemma l_c101_optimize_targets : forall (K : StarRing) (po : Polar K) this (s : shards K), consistent s -> commuting s -> unchanged s (OptimizeTargets po this s).
Proof. intros K po this s C HC. apply effect_unchanged; [exact HC|]. exact (optimize_targets po false this s C). Qed.

Lemma l_c101_optimize_anti_controls : forall (K : StarRing) (po : Polar K) this (s : shards K), consistent s -> commuting s -> unchanged s (OptimizeAntiControls po this s).
Proof. intros K po this s C HC. apply effect_unchanged; [exact HC|]. exact (optimize_controls po true this s C). Qed.

Lemma l_c101_optimize_anti_targets : forall (K : StarRing) (po : Polar K) this (s : shards K), consistent s -> commuting s -> unchanged s (OptimizeAntiTargets po this s).
Proof. intros K po this s C HC. apply effect_unchanged; [exact HC|]. exact (optimize_targets po true this s C). Qed.

Lemma l_c101_optimize_both : forall (K : StarRing) (po : Polar K) this (s : shards K), consistent s -> commuting s -> unchanged s (OptimizeBothTargets po this s).
Proof. intros K po this s C HC. apply effect_unchanged; [exact HC|]. exact (optimize_both po this s C). Qed.

Lemma l_c101_combine : forall (K : StarRing) (po : Polar K) this (s : shards K), consistent s -> commuting s -> unchanged s (CombineGates po this s).
Proof. intros K po this s C HC. apply effect_unchanged; [exact HC|]. exact (combine_gates po this s C). Qed.

Lemma l_c102_flip : forall (K : StarRing) q (s : shards K), consistent s -> commuting s ->
  exists s', FlipPhaseAnti q s = Some s' /\ carried q (mkMat 0%amp 1%amp 1%amp 0%amp) s s'.
Proof. intros K q s. apply flip_carried. Qed.

Lemma l_c103_commute_phase_refuted : exists (os : list (shard_op (K := GI))) (s : shards GI) (topLeft bottomRight : GI) (psi : N -> GI) x,
    Forall (proper_call 3) os /\ calls polarGI os (newShards 3) = Some s /\ commuting s /\ anorm topLeft = 1%amp /\ anorm bottomRight = 1%amp /\
    pending (CommutePhase polarGI 0 topLeft bottomRight s) (gate1 always 0 (mkMat topLeft 0%amp 0%amp bottomRight) psi) x
      <> gate1 always 0 (mkMat topLeft 0%amp 0%amp bottomRight) (pending s psi) x.
Proof. exists ex_mixed_ops, ex_mixed, (1, 0)%Z, (0, 1)%Z, (ket 4), 5. split; [repeat constructor; try (vm_compute; reflexivity); intros H; discriminate H|].
  split; [reflexivity|]. split; [apply ex_mixed_ok|]. split; [reflexivity|]. split; [reflexivity|]. vm_compute. discriminate. Qed.

Lemma l_c103_commute_phase_partial : forall (K : StarRing) (po : Polar K) q (topLeft bottomRight : K) (s : shards K), consistent s -> commuting s -> anorm topLeft = 1%amp -> anorm bottomRight = 1%amp ->
  all_inverting s q \/ not_inverted s q -> carried q (mkMat topLeft 0%amp 0%amp bottomRight) s (CommutePhase po q topLeft bottomRight s).
Proof. intros K po q x y s. apply commute_phase_carried. Qed.

Lemma ex_s_not_inverted : not_inverted ex_s 0.
Proof.
  destruct ex_s_ok as (C & _). intros a c b Eb. apply negb_true_iff.
  apply (pairs_forall (fun _ b => negb (isInvert b)) ex_s C) with (a := a) (c := c) (t := 0); [vm_compute; reflexivity|exact Eb].
Qed.

Lemma l_c104_commute_h : forall (K : StarRing) (po : Polar K) q (h : K) (s : shards K), consistent s -> commuting s -> h_ready s q -> (h * h + h * h = 1)%amp ->
  carried q (mkMat h h h (- h)%amp) s (CommuteH po q s).
Proof. intros K po q h s. apply commute_h_carried. Qed.

Lemma ex_mixed_ready : h_ready ex_mixed 0.
Proof.
  destruct ex_mixed_ok as (C & _). split.
  - intros a t. destruct (buffer_of ex_mixed a 0 t) as [b|] eqn:Eb; [|reflexivity]. exfalso.
    assert (H : negb (0 =? 0) = true); [|discriminate]. apply (pairs_forall (fun k _ => negb (snd (fst k) =? 0)) ex_mixed C) with (a := a) (c := 0) (t := t) (b := b); [vm_compute; reflexivity|exact Eb].
  - intros a c b Eb. left. assert (H : sr_eqb (cmplxDiff b) (cmplxSame b) = true); [|apply sr_eqb_ok in H; exact H].
    apply (pairs_forall (fun _ b => sr_eqb (cmplxDiff b) (cmplxSame b)) ex_mixed C) with (a := a) (c := c) (t := 0); [vm_compute; reflexivity|exact Eb].
Qed.

Lemma l_c105_dump_phase : forall (K : StarRing) q (s : shards K), consistent s -> let s' := DumpPhaseBuffers q s in
  consistent s' /\ sh_size s' = sh_size s /\
  (forall anti c t, buffer_of s' anti c t =
     match buffer_of s anti c t with Some b => if ((c =? q) || (t =? q)) && negb (isInvert b) then None else Some b | None => None end) /\
  forall psi x, anorm (pending s' psi x) = anorm (pending s psi x).
Proof. intros K q s C. destruct (dump_phase_ok q s C) as (C1 & E1 & M & V). split; [exact C1|]. split; [exact E1|]. split; [|apply same_moves; assumption].
  intros a c t. rewrite V. destruct (buffer_of s a c t) as [b|]; [|destruct ((c =? q) || (t =? q)); reflexivity]. unfold obind, d_drop. destruct ((c =? q) || (t =? q)); cbn [andb]; [|reflexivity]. destruct (isInvert b); reflexivity. Qed.

Lemma l_c105_clear_invert : forall (K : StarRing) q (s : shards K), consistent s -> let s' := ClearInvertPhase q s in
  consistent s' /\ sh_size s' = sh_size s /\
  (forall anti c t, buffer_of s' anti c t =
     match buffer_of s anti c t with Some b => if ((c =? q) || (t =? q)) && isInvert b then Some (mkPS 1%amp 1%amp true) else Some b | None => None end) /\
  forall psi x, anorm (pending s' psi x) = anorm (pending s psi x).
Proof. intros K q s C. destruct (clear_invert_ok q s C) as (C1 & E1 & M & V). split; [exact C1|]. split; [exact E1|]. split; [|apply same_moves; assumption].
  intros a c t. rewrite V. destruct (buffer_of s a c t) as [b|]; [|destruct ((c =? q) || (t =? q)); reflexivity]. unfold obind, c_buf. destruct ((c =? q) || (t =? q)); cbn [andb]; [|reflexivity]. destruct (isInvert b); reflexivity. Qed.

Lemma l_c106_dump_control : forall (K : StarRing) (po : Polar K) q (s : shards K), consistent s -> commuting s -> not_inverted s q -> let s' := DumpControlOf po q s in
  consistent s' /\ sh_size s' = sh_size s /\ commuting s' /\ (forall t, buffer_of s' false q t = None) /\
  forall psi, supported q false psi -> same_state (pending s' psi) (pending s psi).
Proof. intros K po q s C HC Hn. exact (dump_control_ok po false q s C HC Hn). Qed.

Lemma l_c106_dump_anti_control : forall (K : StarRing) (po : Polar K) q (s : shards K), consistent s -> commuting s -> not_inverted s q -> let s' := DumpAntiControlOf po q s in
  consistent s' /\ sh_size s' = sh_size s /\ commuting s' /\ (forall t, buffer_of s' true q t = None) /\
  forall psi, supported q true psi -> same_state (pending s' psi) (pending s psi).
Proof. intros K po q s C HC Hn. exact (dump_control_ok po true q s C HC Hn). Qed.

Lemma l_c106_dump_same : forall (K : StarRing) (po : Polar K) q (s : shards K), consistent s -> commuting s -> not_inverted s q -> let s' := DumpSamePhaseControlOf po q s in
  consistent s' /\ sh_size s' = sh_size s /\ commuting s' /\
  (forall t b, buffer_of s' false q t = Some b -> isInvert b = true \/ cmplxDiff b <> cmplxSame b) /\
  exists u : K, anorm u = 1%amp /\ forall psi, supported q true psi -> same_state (pending s psi) (fun x => u * pending s' psi x)%amp.
Proof. intros K po q s C HC Hn. exact (dump_same_ok po false q s C HC Hn). Qed.

Lemma l_c106_dump_same_anti : forall (K : StarRing) (po : Polar K) q (s : shards K), consistent s -> commuting s -> not_inverted s q -> let s' := DumpSamePhaseAntiControlOf po q s in
  consistent s' /\ sh_size s' = sh_size s /\ commuting s' /\
  (forall t b, buffer_of s' true q t = Some b -> isInvert b = true \/ cmplxDiff b <> cmplxSame b) /\
  exists u : K, anorm u = 1%amp /\ forall psi, supported q false psi -> same_state (pending s psi) (fun x => u * pending s' psi x)%amp.
Proof. intros K po q s C HC Hn. exact (dump_same_ok po true q s C HC Hn). Qed.

Lemma l_c106_dump_multi : forall (K : StarRing) q (s : shards K), consistent s -> let s' := DumpMultiBit q s in
  consistent s' /\ sh_size s' = sh_size s /\ forall anti c t, buffer_of s' anti c t = if (c =? q) || (t =? q) then None else buffer_of s anti c t.
Proof. intros K q s. apply dump_multi_ok. Qed.

Lemma l_c107_erase_refuted : exists (os : list (shard_op (K := GI))) (s : shards GI) k,
    Forall (proper_call 3) os /\ calls polarGI os (newShards 3) = Some s /\ k < 3 /\ (forall anti p, buffer_of s anti k p = None /\ buffer_of s anti p k = None) /\
    ~ consistent (erase_shard k s) /\
    exists anti c t, c < 3 /\ t < 3 /\ c <> k /\ t <> k /\ buffer_of (erase_shard k s) anti (renumber k c) (renumber k t) <> buffer_of s anti c t.
Proof. pose (os := [OAdd (K := GI) false false 1 2 (1, 0)%Z (-1, 0)%Z] : list (shard_op (K := GI))). exists os, (after 3 os), 0.
  assert (Hos : Forall (proper_call 3) os) by (repeat constructor; try (vm_compute; reflexivity); intros H; discriminate H).
  destruct (ex_consistent os 3 Hos) as [C S]. split; [exact Hos|]. split; [reflexivity|]. split; [reflexivity|]. split; [|split].
  - intros a p. split.
    + destruct (buffer_of (after 3 os) a 0 p) as [b|] eqn:Eb; [|reflexivity]. exfalso. assert (H : negb (0 =? 0) = true); [|discriminate].
      apply (pairs_forall (fun k _ => negb (snd (fst k) =? 0)) _ C) with (a := a) (c := 0) (t := p) (b := b); [vm_compute; reflexivity|exact Eb].
    + destruct (buffer_of (after 3 os) a p 0) as [b|] eqn:Eb; [|reflexivity]. exfalso. assert (H : negb (0 =? 0) = true); [|discriminate].
      apply (pairs_forall (fun k _ => negb (snd k =? 0)) _ C) with (a := a) (c := p) (t := 0) (b := b); [vm_compute; reflexivity|exact Eb].
  - intros (H & _). specialize (H 1 1). vm_compute in H. discriminate.
  - exists false, 2, 1. split; [reflexivity|]. split; [reflexivity|]. split; [discriminate|]. split; [discriminate|]. vm_compute. discriminate. Qed.

Lemma l_c107_erase_partial : forall (K : StarRing) k (s : shards K), consistent s -> k < sh_size s -> (forall anti c t b, buffer_of s anti c t = Some b -> c < k /\ t < k) ->
  consistent (erase_shard k s) /\
  forall anti c t, c < sh_size s -> t < sh_size s -> c <> k -> t <> k -> buffer_of (erase_shard k s) anti (renumber k c) (renumber k t) = buffer_of s anti c t.
Proof. intros K k s. apply erase_low. Qed.

Lemma ex_low : consistent (after 3 [OAdd (K := GI) false false 0 1 (1, 0)%Z (-1, 0)%Z]) /\
  (forall anti c t b, buffer_of (after 3 [OAdd (K := GI) false false 0 1 (1, 0)%Z (-1, 0)%Z]) anti c t = Some b -> c < 2 /\ t < 2).
Proof.
  destruct (ex_consistent [OAdd (K := GI) false false 0 1 (1, 0)%Z (-1, 0)%Z] 3) as [C S]. { repeat constructor; try (vm_compute; reflexivity); intros H; discriminate H. }
  split; [exact C|]. intros a c t b Eb. assert (H : (c <? 2) && (t <? 2) = true).
  { apply (pairs_forall (fun k _ => (snd (fst k) <? 2) && (snd k <? 2)) _ C) with (a := a) (c := c) (t := t) (b := b); [vm_compute; reflexivity|exact Eb]. }
  apply andb_true_iff in H. destruct H as [H1 H2]. apply N.ltb_lt in H1, H2. auto.
Qed.
