(** Proofs: buffers that may be dropped. *)
From Coq Require Import NArith List Bool Lia Arith Permutation.
From Verif Require Import Amp PAmp SpecState PGates PGates2 PEngine PQCirc2 PQCirc3 MShard SpecShard PShard1 PShard2 PShard3 PShard4 PShard5.
Import ListNotations.
Local Open Scope N_scope.

Section P.
  Context {K : StarRing} (po : Polar K).
  Add Ring KrBH : (sr_ring K).
  Local Notation sh := (shards K).
  Local Notation vec := (N -> K).
  Local Notation unit1 x := (anorm x = 1%amp).
  Implicit Types (psi : vec) (s : sh).

  (** ** CommutePhase *)
  Lemma entry_buffer s a this e : In e (entries s (tsel a) this) -> buffer_of s a (fst e) this = Some (sh_heap s (snd e)).
  Proof. intros He. apply entries_in in He. destruct He as [_ He]. unfold buffer_of. change (if a then antiTargetOfShards else targetOfShards) with (tsel a). rewrite He. reflexivity. Qed.
  Lemma commute_none a fd fs this s : not_inverted s this -> exists stop, commute_loop fd fs (entries s (tsel a) this) s = (stop, s).
  Proof.
    intros H. destruct (entries s (tsel a) this) as [|e es] eqn:E; [exists false; reflexivity|]. exists true. cbn [commute_loop].
    rewrite (H a (fst e) (sh_heap s (snd e))); [reflexivity|]. apply entry_buffer. rewrite E. left. reflexivity.
  Qed.
  Lemma commute_phase_none this tl br s : not_inverted s this -> CommutePhase po this tl br s = s.
  Proof.
    intros H. unfold CommutePhase. destruct (commute_none false (po_div po tl br) (po_div po br tl) this s H) as [b1 E1]. change targetOfShards with (tsel false).
    rewrite E1. destruct b1; [reflexivity|]. destruct (commute_none true (po_div po br tl) (po_div po tl br) this s H) as [b2 E2].
    change antiTargetOfShards with (tsel true). rewrite E2. reflexivity.
  Qed.
  Lemma commute_phase_gate this (tl br : K) s : consistent s -> unit1 tl -> unit1 br -> all_inverting s this \/ not_inverted s this -> forall a c t psi,
    same_state (gate_at (CommutePhase po this tl br s) (a, c, t) (gate1 always this (mkMat tl 0%amp 0%amp br) psi)) (gate1 always this (mkMat tl 0%amp 0%amp br) (gate_at s (a, c, t) psi)).
  Proof.
    intros C U1 U2 [H|H] a c t psi.
    - destruct (commute_phase_view po this tl br s C U1 U2 H) as (_ & _ & V). rewrite !gate_at_eq, V. destruct (N.eqb_spec t this) as [->|Ht].
      + destruct (buffer_of s a c this) as [b|] eqn:Eb; [|apply ss_refl]. cbn [obind gate_buf]. destruct (buffer_bounds s a c this b C Eb) as (_ & _ & Hct).
        apply conj_target; [apply fires_indep, Hct|]. apply p_buf_conj; auto. apply (H a c b Eb).
      + destruct (buffer_of s a c t) as [b|] eqn:Eb; [|apply ss_refl]. cbn [gate_buf]. apply diag_fires, Ht.
    - rewrite commute_phase_none by exact H. rewrite !gate_at_eq. destruct (buffer_of s a c t) as [b|] eqn:Eb; [|apply ss_refl]. cbn [gate_buf].
      destruct (N.eqb_spec t this) as [->|Ht]; [|apply diag_fires, Ht]. destruct (buffer_bounds s a c this b C Eb) as (_ & _ & Hct).
      apply conj_target; [apply fires_indep, Hct|]. pose proof (H a c b Eb) as Hi. destruct b as [d m i]. cbn [isInvert] in Hi. subst i. rewrite matrix_mk.
      destruct a; unfold mmul; cbn [m00 m01 m10 m11]; f_equal; ring.
  Qed.
  Lemma commute_phase_state this (tl br : K) s : consistent s -> unit1 tl -> unit1 br -> all_inverting s this \/ not_inverted s this ->
    consistent (CommutePhase po this tl br s) /\ sh_size (CommutePhase po this tl br s) = sh_size s.
  Proof.
    intros C U1 U2 [H|H]; [destruct (commute_phase_view po this tl br s C U1 U2 H) as (H1 & H2 & _); auto|]. rewrite commute_phase_none by exact H. auto.
  Qed.
  Lemma diag_inv (tl br : K) : unit1 tl -> unit1 br -> mmul (mkMat tl 0%amp 0%amp br) (mkMat (sr_conj tl) 0%amp 0%amp (sr_conj br)) = midn.
  Proof. unfold anorm. intros U1 U2. unfold mmul, midn. cbn [m00 m01 m10 m11]. f_equal; try ring; [transitivity (tl * sr_conj tl)%amp; [ring|exact U1]|transitivity (br * sr_conj br)%amp; [ring|exact U2]]. Qed.

  (** ** Magnitudes *)
  Definition mv (a : bool) (c t : N) (ob : option (PhaseShard K)) (x : N) : N :=
    match ob with Some b => if isInvert b && fires a c x then fx t x else x | None => x end.
  Definition mvk s (x : N) (k : bool * N * N) : N := let '(a, c, t) := k in mv a c t (buffer_of s a c t) x.
  Lemma gate_mono s k x : consistent s -> exists u : K, unit1 u /\ forall psi, gate_at s k psi x = (u * psi (mvk s x k))%amp.
  Proof.
    intros C. destruct k as [[a c] t]. unfold gate_at, mvk, mv. destruct (buffer_of s a c t) as [b|] eqn:Eb.
    - destruct (buffer_units s a c t b C Eb) as [U1 U2]. unfold gate1. destruct (fires a c x) eqn:Ef; [|exists 1%amp; split; [apply unit_one|]; intros psi; rewrite andb_false_r; ring].
      rewrite andb_true_r. destruct b as [d m i]. cbn [cmplxDiff cmplxSame isInvert] in *. rewrite matrix_mk.
      destruct (N.testbit x t) eqn:Et; [rewrite (clear_fx x t Et)|rewrite (set_fx x t Et)]; destruct a, i; cbn [m00 m01 m10 m11];
        (exists d; split; [exact U1|intros psi; ring]) || (exists m; split; [exact U2|intros psi; ring]).
    - exists 1%amp. split; [apply unit_one|]. intros psi. ring.
  Qed.
  Lemma pending_mono s l : consistent s -> forall x, exists u : K, unit1 u /\ forall psi, fold_right (gate_at s) psi l x = (u * psi (fold_left (mvk s) l x))%amp.
  Proof.
    intros C. induction l as [|k l IH]; intros x.
    - exists 1%amp. split; [apply unit_one|]. intros psi. cbn. ring.
    - destruct (gate_mono s k x C) as (u & Hu & E). destruct (IH (mvk s x k)) as (v & Hv & E'). exists (u * v)%amp. split; [apply unit_mul; assumption|].
      intros psi. cbn [fold_right fold_left]. rewrite E, E'. ring.
  Qed.
  Lemma same_moves s s' : consistent s -> consistent s' -> sh_size s' = sh_size s -> (forall x k, mvk s' x k = mvk s x k) ->
    forall psi x, anorm (pending s' psi x) = anorm (pending s psi x).
  Proof.
    intros C C' E H psi x. unfold pending. rewrite E. set (l := all_pairs (sh_size s)).
    destruct (pending_mono s l C x) as (u & Hu & E1). destruct (pending_mono s' l C' x) as (v & Hv & E2). rewrite E1, E2, !(anorm_mul K), Hu, Hv.
    replace (fold_left (mvk s') l x) with (fold_left (mvk s) l x); [reflexivity|]. clear - H. clearbody l. revert x. induction l as [|k l IH]; intros x; [reflexivity|]. cbn [fold_left]. rewrite H. apply IH.
  Qed.
  Definition keeps_moves (f : PhaseShard K -> option (PhaseShard K)) : Prop :=
    forall b, match f b with Some b' => isInvert b' = isInvert b | None => isInvert b = false end.
  Lemma rewrites_moves dir a this f s s' : keeps_moves f -> rewrites dir a this f s s' -> forall x k, mvk s' x k = mvk s x k.
  Proof.
    intros Hf (_ & _ & V) x [[a' c'] t']. unfold mvk. rewrite V. destruct touch; [|reflexivity]. destruct (buffer_of s a' c' t') as [b|]; [|reflexivity]. cbn [obind].
    specialize (Hf b). unfold mv. destruct (f b) as [b'|]; rewrite Hf; reflexivity.
  Qed.

  Definition d_drop (b : PhaseShard K) : option (PhaseShard K) := if negb (isInvert b) then None else Some b.
  Lemma d_keeps : keeps_moves d_drop.
  Proof. intros b. unfold d_drop. destruct (isInvert b) eqn:E; cbn; auto. Qed.
  Lemma remove_phase_ok dir a this s : consistent s -> rewrites dir a this d_drop s (RemovePhaseBuffers (msel dir a) (rsel dir a) this s).
  Proof. intros C. unfold RemovePhaseBuffers. apply (remove_all dir a this d_drop); [reflexivity|exact C]. Qed.
  Lemma dump_phase_ok this s : consistent s -> let s' := DumpPhaseBuffers this s in
    consistent s' /\ sh_size s' = sh_size s /\ (forall x k, mvk s' x k = mvk s x k) /\
    (forall a c t, buffer_of s' a c t = if (c =? this) || (t =? this) then obind d_drop (buffer_of s a c t) else buffer_of s a c t).
  Proof.
    intros C. cbv zeta. unfold DumpPhaseBuffers.
    pose proof (remove_phase_ok true false this s C) as R1. cbn [msel rsel tsel csel] in R1. set (s1 := RemovePhaseBuffers targetOfShards controlsShards this s) in *.
    assert (C1 : consistent s1) by apply R1. pose proof (remove_phase_ok true true this s1 C1) as R2. cbn [msel rsel tsel csel] in R2. set (s2 := RemovePhaseBuffers antiTargetOfShards antiControlsShards this s1) in *.
    assert (C2 : consistent s2) by apply R2. pose proof (remove_phase_ok false false this s2 C2) as R3. cbn [msel rsel tsel csel] in R3. set (s3 := RemovePhaseBuffers controlsShards targetOfShards this s2) in *.
    assert (C3 : consistent s3) by apply R3. pose proof (remove_phase_ok false true this s3 C3) as R4. cbn [msel rsel tsel csel] in R4. set (s4 := RemovePhaseBuffers antiControlsShards antiTargetOfShards this s3) in *.
    pose proof (rewrites_moves _ _ _ _ _ _ d_keeps R1) as M1. pose proof (rewrites_moves _ _ _ _ _ _ d_keeps R2) as M2.
    pose proof (rewrites_moves _ _ _ _ _ _ d_keeps R3) as M3. pose proof (rewrites_moves _ _ _ _ _ _ d_keeps R4) as M4.
    destruct R1 as (_ & E1 & V1), R2 as (_ & E2 & V2), R3 as (_ & E3 & V3), R4 as (C4 & E4 & V4).
    split; [exact C4|]. split; [congruence|]. split; [intros x k; rewrite M4, M3, M2, M1; reflexivity|].
    intros a c t. rewrite V4, V3, V2, V1. unfold touch. destruct (buffer_of s a c t) as [b|]; cbn [obind]; unfold d_drop.
    - destruct a; cbn [Bool.eqb andb]; destruct (c =? this), (t =? this); cbn [orb]; destruct (isInvert b) eqn:Ei; cbn [negb obind]; rewrite ?Ei; cbn [negb obind]; rewrite ?Ei; reflexivity.
    - destruct a; cbn [Bool.eqb andb]; destruct (c =? this), (t =? this); reflexivity.
  Qed.

  Definition c_buf (b : PhaseShard K) : option (PhaseShard K) := Some (if isInvert b then mkPS 1%amp 1%amp true else b).
  Lemma c_keeps : keeps_moves c_buf.
  Proof. intros b. unfold c_buf. destruct (isInvert b) eqn:E; auto. Qed.
  Lemma clear_map_ok dir a this s : consistent s -> rewrites dir a this c_buf s (ClearMapInvertPhase (msel dir a) this s).
  Proof.
    intros C. unfold ClearMapInvertPhase. apply map_loop; [|exact C]. clear s C. intros s e C E. unfold c_buf. destruct (isInvert (sh_heap s (snd e))).
    - apply set_buf_ok; auto; apply unit_one.
    - apply changed_self; assumption.
  Qed.
  Lemma clear_invert_ok this s : consistent s -> let s' := ClearInvertPhase this s in
    consistent s' /\ sh_size s' = sh_size s /\ (forall x k, mvk s' x k = mvk s x k) /\
    (forall a c t, buffer_of s' a c t = if (c =? this) || (t =? this) then obind c_buf (buffer_of s a c t) else buffer_of s a c t).
  Proof.
    intros C. cbv zeta. unfold ClearInvertPhase.
    pose proof (clear_map_ok false false this s C) as R1. cbn [msel rsel tsel csel] in R1. set (s1 := ClearMapInvertPhase controlsShards this s) in *.
    assert (C1 : consistent s1) by apply R1. pose proof (clear_map_ok false true this s1 C1) as R2. cbn [msel rsel tsel csel] in R2. set (s2 := ClearMapInvertPhase antiControlsShards this s1) in *.
    assert (C2 : consistent s2) by apply R2. pose proof (clear_map_ok true false this s2 C2) as R3. cbn [msel rsel tsel csel] in R3. set (s3 := ClearMapInvertPhase targetOfShards this s2) in *.
    assert (C3 : consistent s3) by apply R3. pose proof (clear_map_ok true true this s3 C3) as R4. cbn [msel rsel tsel csel] in R4. set (s4 := ClearMapInvertPhase antiTargetOfShards this s3) in *.
    pose proof (rewrites_moves _ _ _ _ _ _ c_keeps R1) as M1. pose proof (rewrites_moves _ _ _ _ _ _ c_keeps R2) as M2.
    pose proof (rewrites_moves _ _ _ _ _ _ c_keeps R3) as M3. pose proof (rewrites_moves _ _ _ _ _ _ c_keeps R4) as M4.
    destruct R1 as (_ & E1 & V1), R2 as (_ & E2 & V2), R3 as (_ & E3 & V3), R4 as (C4 & E4 & V4).
    split; [exact C4|]. split; [congruence|]. split; [intros x k; rewrite M4, M3, M2, M1; reflexivity|].
    intros a c t. rewrite V4, V3, V2, V1. unfold touch. destruct (buffer_of s a c t) as [b|]; cbn [obind]; unfold c_buf.
    - destruct a; cbn [Bool.eqb andb]; destruct (c =? this), (t =? this); cbn [orb]; destruct (isInvert b) eqn:Ei; cbn [obind isInvert]; rewrite ?Ei; reflexivity.
    - destruct a; cbn [Bool.eqb andb]; destruct (c =? this), (t =? this); reflexivity.
  Qed.

  (** ** Buffers of eigenstates *)
  Lemma supported_gate s k q v psi : consistent s -> not_inverted s q -> supported q v psi -> supported q v (gate_at s k psi).
  Proof.
    intros C Hn Hs x Hx. destruct k as [[a c] t]. unfold gate_at. destruct (buffer_of s a c t) as [b|] eqn:Eb; [|apply Hs, Hx].
    destruct (N.eqb_spec t q) as [->|Ht].
    - pose proof (Hn a c b Eb) as Hi. destruct b as [d m i]. cbn [isInvert] in Hi. subst i. unfold gate1. rewrite matrix_mk.
      destruct (fires a c x); [|apply Hs, Hx]. destruct a; cbn [m00 m01 m10 m11]; rewrite !(Hs x Hx); destruct (N.testbit x q); ring.
    - unfold gate1. destruct (fires a c x); [|apply Hs, Hx].
      assert (H1 : psi (N.setbit x t) = 0%amp). { apply Hs. rewrite tb_setbit. destruct (N.eqb_spec t q); [contradiction|]. exact Hx. }
      assert (H2 : psi (N.clearbit x t) = 0%amp). { apply Hs. rewrite tb_clearbit. destruct (N.eqb_spec t q); [contradiction|]. cbn [negb]. rewrite andb_true_r. exact Hx. }
      rewrite H1, H2, (Hs x Hx). destruct (N.testbit x t); ring.
  Qed.
  Lemma idle_gate a q t (M : mat2 K) psi : q <> t -> supported q a psi -> same_state (gate1 (fires a q) t M psi) psi.
  Proof.
    intros Hqt Hs x. unfold gate1. destruct (fires a q x) eqn:Ef; [|reflexivity].
    assert (Hx : N.testbit x q <> a) by (unfold fires in Ef; destruct a, (N.testbit x q); discriminate).
    assert (H1 : psi (N.setbit x t) = 0%amp). { apply Hs. rewrite tb_setbit. destruct (N.eqb_spec t q); [congruence|]. exact Hx. }
    assert (H2 : psi (N.clearbit x t) = 0%amp). { apply Hs. rewrite tb_clearbit. destruct (N.eqb_spec t q); [congruence|]. cbn [negb]. rewrite andb_true_r. exact Hx. }
    rewrite H1, H2, (Hs x Hx). destruct (N.testbit x t); ring.
  Qed.
  Lemma scalar_gate a q t (d : K) psi : supported q (negb a) psi -> same_state (gate1 (fires a q) t (matrix_of a (mkPS d d false)) psi) (fun x => d * psi x)%amp.
  Proof.
    intros Hs x. unfold gate1. rewrite matrix_mk. destruct (fires a q x) eqn:Ef.
    - destruct a; cbn [m00 m01 m10 m11]; destruct (N.testbit x t); ring.
    - rewrite (Hs x); [ring|]. unfold fires in Ef. destruct a, (N.testbit x q); cbn in *; congruence.
  Qed.

  Lemma dump_controls_pending a q s s' : consistent s -> not_inverted s q -> rewrites false a q (fun _ => None) s s' ->
    forall psi, supported q a psi -> same_state (pending s' psi) (pending s psi).
  Proof.
    intros C Hn R psi Hs. unfold pending. destruct R as (C' & E & V). rewrite E.
    apply (fold_conj_on (supported q a) (gate_at s) (gate_at s') (fun p => p)); auto using gate_at_proper.
    - intros k Hk Hg. exact Hg.
    - intros k p _ Hp. apply supported_gate; assumption.
    - intros [[a' c'] t'] p _ Hp. rewrite !gate_at_eq, V. destruct (touch false a q a' c' t') eqn:Et; [|apply ss_refl].
      destruct (buffer_of s a' c' t') as [b|] eqn:Eb; [|apply ss_refl]. cbn [obind gate_buf]. destruct (buffer_bounds s a' c' t' b C Eb) as (_ & _ & Hct).
      unfold touch in Et. apply andb_true_iff in Et. destruct Et as [Ea Et]. apply eqb_prop in Ea. apply N.eqb_eq in Et. subst a' c'. apply ss_sym, idle_gate; assumption.
  Qed.
  Lemma same_controls_pending a q s s' : consistent s -> not_inverted s q ->
    rewrites false a q (fun b => if negb (isInvert b) && IS_SAME (cmplxDiff b) (cmplxSame b) then None else Some b) s s' ->
    exists u : K, unit1 u /\ forall psi, supported q (negb a) psi -> same_state (pending s psi) (fun x => u * pending s' psi x)%amp.
  Proof.
    intros C Hn R. unfold pending. destruct R as (C' & E & V). rewrite E.
    assert (Hn' : not_inverted s' q).
    { intros a' c' b Eb. rewrite V in Eb. destruct (touch false a q a' c' q); [|apply (Hn a' c' b Eb)]. destruct (buffer_of s a' c' q) as [b'|] eqn:Eb'; [|discriminate].
      cbn [obind] in Eb. destruct (negb _ && _); [discriminate|]. injection Eb as <-. apply (Hn a' c' b' Eb'). }
    assert (S' : forall psi l, supported q (negb a) psi -> supported q (negb a) (fold_right (gate_at s') psi l)).
    { intros psi l Hs. induction l as [|k l IH]; [exact Hs|]. cbn [fold_right]. apply supported_gate; assumption. }
    assert (H1 : forall k, exists u : K, unit1 u /\ forall psi, supported q (negb a) psi -> same_state (gate_at s k psi) (fun x => u * gate_at s' k psi x)%amp).
    { intros [[a' c'] t']. assert (Hid : forall f g : vec -> vec, (forall p, same_state (f p) (g p)) -> exists u : K, unit1 u /\ forall psi, supported q (negb a) psi -> same_state (f psi) (fun x => u * g psi x)%amp).
      { intros f g H. exists 1%amp. split; [apply unit_one|]. intros psi _ x. rewrite H. ring. }
      destruct (touch false a q a' c' t') eqn:Et; [|apply Hid; intros p; rewrite !gate_at_eq, V, Et; apply ss_refl].
      destruct (buffer_of s a' c' t') as [b|] eqn:Eb; [|apply Hid; intros p; rewrite !gate_at_eq, V, Et, Eb; apply ss_refl].
      destruct (negb (isInvert b) && IS_SAME (cmplxDiff b) (cmplxSame b)) eqn:Eb2; [|apply Hid; intros p; rewrite !gate_at_eq, V, Et, Eb; cbn [obind]; rewrite Eb2; apply ss_refl].
      unfold touch in Et. apply andb_true_iff in Et. destruct Et as [Ea Et]. apply eqb_prop in Ea. apply N.eqb_eq in Et. subst a' c'.
      apply andb_true_iff in Eb2. destruct Eb2 as [Ei Es]. apply negb_true_iff in Ei. unfold IS_SAME in Es. destruct (eqb_spec K (cmplxDiff b) (cmplxSame b)) as [Es'|]; [|discriminate].
      exists (cmplxDiff b). split; [apply (buffer_units s a q t' b C Eb)|]. intros psi Hs. rewrite !gate_at_eq, V. unfold touch. rewrite eqb_reflx, N.eqb_refl. cbn [andb]. rewrite Eb. cbn [obind].
      rewrite Ei. unfold IS_SAME. rewrite <- Es', (eqb_refl K). cbn [negb andb gate_buf]. destruct b as [d m i]. cbn [cmplxDiff cmplxSame isInvert] in *. subst m i.
      apply scalar_gate, Hs. }
    generalize (all_pairs (sh_size s)). induction l as [|k l (u & Hu & IH)].
    - exists 1%amp. split; [apply unit_one|]. intros psi _ x. cbn. ring.
    - destruct (H1 k) as (v & Hv & Ek). exists (u * v)%amp. split; [apply unit_mul; assumption|]. intros psi Hs. cbn [fold_right].
      eapply ss_trans; [apply gate_at_proper, IH, Hs|]. intros x.
      assert (Hsc : gate_at s k (fun y => u * fold_right (gate_at s') psi l y)%amp x = (u * gate_at s k (fold_right (gate_at s') psi l) x)%amp).
      { destruct k as [[a' c'] t']. unfold gate_at. destruct (buffer_of s a' c' t'); [apply gate1_scale|reflexivity]. }
      rewrite Hsc, (Ek _ (S' psi l Hs)). ring.
  Qed.

  (** OptimizeTargets only removes buffers that have the shard as their target. *)
  Lemma optimize_targets_keep a this s0 : consistent s0 -> let s' := OptimizeBuffer (tsel a) (csel a) (AddAnglesT po a) true this s0 in
    forall a' c', buffer_of s' a' c' this = None \/ buffer_of s' a' c' this = buffer_of s0 a' c' this.
  Proof.
    intros C0. cbv zeta. unfold OptimizeBuffer.
    apply (loop_inv _ (fun s => consistent s /\ forall a' c', buffer_of s a' c' this = None \/ buffer_of s a' c' this = buffer_of s0 a' c' this) (fun s e => sh_map s (tsel a) this (fst e) = Some (snd e)) fst).
    - intros s e [C HI] He. destruct (cons_ok s C _ _ _ _ He) as (Hc & Ht & Hct & Hb & Ud & Us).
      destruct (isInvert (sh_heap s (snd e)) || negb (IS_ARG_0 (cmplxDiff (sh_heap s (snd e))))) eqn:Eb; [split; [split; [exact C|exact HI]|auto]|].
      assert (R : changed a (fst e) this None s (erase (tsel a) this (fst e) (erase (csel a) (fst e) this s))) by (apply removed_changed, removed_two, C).
      set (s1 := erase (tsel a) this (fst e) (erase (csel a) (fst e) this s)) in *. assert (C1 : consistent s1) by apply R. assert (E1 : sh_size s1 = sh_size s) by apply R.
      pose proof (add_angles po a this (fst e) 1%amp (cmplxSame (sh_heap s (snd e))) s1 C1) as Ch. rewrite E1 in Ch. specialize (Ch Ht Hc ltac:(congruence) (unit_one) Us).
      destruct Ch as (C2 & E2 & M2 & V2). destruct R as (_ & _ & M1 & V1). split; [split; [exact C2|]|].
      + intros a' c'. rewrite V2, keq_false by congruence. rewrite V1. destruct keq; [left; reflexivity|apply HI].
      + intros e' Hn He'. rewrite M2, M1; [exact He'| |]; [congruence|]. destruct (cons_ok s C _ _ _ _ He') as (_ & _ & Hct' & _). congruence.
    - apply entries_nodup.
    - split; [exact C0|]. intros a' c'. right. reflexivity.
    - intros e He. apply entries_in in He. apply He.
  Qed.
  Lemma optimize_not_inverted a q s : consistent s -> not_inverted s q -> not_inverted (OptimizeBuffer (tsel a) (csel a) (AddAnglesT po a) true q s) q.
  Proof.
    intros C H a' c' b Eb. destruct (optimize_targets_keep a q s C a' c') as [E|E]; rewrite E in Eb; [discriminate|]. apply (H a' c' b Eb).
  Qed.

  Definition DumpT (a : bool) := DumpBuffer (OptimizeBuffer (tsel a) (csel a) (AddAnglesT po a) true) (csel a) (RemoveBuffer (csel a) (tsel a)).
  Definition DumpST (a : bool) := DumpSamePhaseBuffer (OptimizeBuffer (tsel a) (csel a) (AddAnglesT po a) true) (csel a) (RemoveBuffer (csel a) (tsel a)).
  Lemma rewrites_commuting dir a this f s s' : (forall b, f b = None \/ f b = Some b) -> rewrites dir a this f s s' -> commuting s -> commuting s'.
  Proof.
    intros Hf (_ & _ & V) HC. assert (H : forall k, (forall psi, same_state (gate_at s' k psi) psi) \/ (forall psi, same_state (gate_at s' k psi) (gate_at s k psi))).
    { intros [[a' c'] t']. destruct (touch dir a this a' c' t') eqn:Et; [|right; intros psi; rewrite !gate_at_eq, V, Et; apply ss_refl].
      destruct (buffer_of s a' c' t') as [b|] eqn:Eb; [|left; intros psi; rewrite gate_at_eq, V, Et, Eb; apply ss_refl].
      destruct (Hf b) as [E|E]; [left; intros psi; rewrite gate_at_eq, V, Et, Eb; cbn [obind]; rewrite E; apply ss_refl|].
      right. intros psi. rewrite !gate_at_eq, V, Et, Eb. cbn [obind]. rewrite E. apply ss_refl. }
    assert (Hid : forall i j psi, (forall psi, same_state (gate_at s' i psi) psi) -> same_state (gate_at s' i (gate_at s' j psi)) (gate_at s' j (gate_at s' i psi))).
    { intros i j psi Hi. eapply ss_trans; [apply Hi|]. apply gate_at_proper, ss_sym, Hi. }
    intros i j psi. destruct (H i) as [Hi|Hi]; [apply Hid, Hi|]. destruct (H j) as [Hj|Hj]; [apply ss_sym, Hid, Hj|].
    eapply ss_trans; [apply Hi|]. eapply ss_trans; [apply gate_at_proper, Hj|]. eapply ss_trans; [apply HC|]. apply ss_sym. eapply ss_trans; [apply Hj|]. apply gate_at_proper, Hi.
  Qed.
  Lemma dump_control_ok a q s : consistent s -> commuting s -> not_inverted s q -> let s' := DumpT a q s in
    consistent s' /\ sh_size s' = sh_size s /\ commuting s' /\ (forall t, buffer_of s' a q t = None) /\
    forall psi, supported q a psi -> same_state (pending s' psi) (pending s psi).
  Proof.
    intros C HC Hn. cbv zeta. unfold DumpT, DumpBuffer. pose proof (optimize_targets po a q s C) as (C1 & E1 & H1). destruct (H1 HC) as [HC1 P1].
    pose proof (optimize_not_inverted a q s C Hn) as Hn1. set (s1 := OptimizeBuffer (tsel a) (csel a) (AddAnglesT po a) true q s) in *.
    pose proof (dump_all_ok false a q s1 C1) as R. cbn [msel rsel] in R. split; [apply R|]. split; [transitivity (sh_size s1); [apply R|exact E1]|].
    split; [eapply rewrites_commuting; [|exact R|exact HC1]; auto|]. split.
    - intros t. destruct R as (_ & _ & V). rewrite V. unfold touch. rewrite eqb_reflx, N.eqb_refl. cbn [andb]. destruct (buffer_of s1 a q t); reflexivity.
    - intros psi Hs. eapply ss_trans; [|apply P1]. eapply dump_controls_pending; eassumption.
  Qed.
  Lemma dump_same_ok a q s : consistent s -> commuting s -> not_inverted s q -> let s' := DumpST a q s in
    consistent s' /\ sh_size s' = sh_size s /\ commuting s' /\
    (forall t b, buffer_of s' a q t = Some b -> isInvert b = true \/ cmplxDiff b <> cmplxSame b) /\
    exists u : K, unit1 u /\ forall psi, supported q (negb a) psi -> same_state (pending s psi) (fun x => u * pending s' psi x)%amp.
  Proof.
    intros C HC Hn. cbv zeta. unfold DumpST, DumpSamePhaseBuffer. pose proof (optimize_targets po a q s C) as (C1 & E1 & H1). destruct (H1 HC) as [HC1 P1].
    pose proof (optimize_not_inverted a q s C Hn) as Hn1. set (s1 := OptimizeBuffer (tsel a) (csel a) (AddAnglesT po a) true q s) in *.
    pose proof (same_all_ok false a q s1 C1) as R. cbn [msel rsel] in R. split; [apply R|]. split; [transitivity (sh_size s1); [apply R|exact E1]|].
    split; [refine (rewrites_commuting _ _ _ _ _ _ _ R HC1); intros b; destruct (negb (isInvert b) && IS_SAME (cmplxDiff b) (cmplxSame b)); [left|right]; reflexivity|]. split.
    - intros t b Eb. destruct R as (_ & _ & V). rewrite V in Eb. unfold touch in Eb. rewrite eqb_reflx, N.eqb_refl in Eb. cbn [andb] in Eb.
      destruct (buffer_of s1 a q t) as [b'|]; [|discriminate]. cbn [obind] in Eb. destruct (negb (isInvert b') && IS_SAME (cmplxDiff b') (cmplxSame b')) eqn:E; [discriminate|].
      injection Eb as ->. destruct (isInvert b); [left; reflexivity|right]. cbn [negb andb] in E. intros Eq. unfold IS_SAME in E. rewrite Eq, (eqb_refl K) in E. discriminate.
    - destruct (same_controls_pending a q s1 _ C1 Hn1 R) as (u & Hu & Hp). exists u. split; [exact Hu|]. intros psi Hs. eapply ss_trans; [apply ss_sym, P1|]. apply Hp, Hs.
  Qed.

  (** DumpMultiBit *)
  Lemma dump_multi_ok this s : consistent s -> let s' := DumpMultiBit this s in
    consistent s' /\ sh_size s' = sh_size s /\ (forall a c t, buffer_of s' a c t = if (c =? this) || (t =? this) then None else buffer_of s a c t).
  Proof.
    intros C. cbv zeta. unfold DumpMultiBit.
    pose proof (dump_all_ok false false this s C) as R1. cbn [msel rsel tsel csel] in R1. fold (@RemoveTarget K) in R1. set (s1 := dump_all controlsShards RemoveTarget this s) in *.
    assert (C1 : consistent s1) by apply R1. pose proof (dump_all_ok true false this s1 C1) as R2. cbn [msel rsel tsel csel] in R2. fold (@RemoveControl K) in R2. set (s2 := dump_all targetOfShards RemoveControl this s1) in *.
    assert (C2 : consistent s2) by apply R2. pose proof (dump_all_ok false true this s2 C2) as R3. cbn [msel rsel tsel csel] in R3. fold (@RemoveAntiTarget K) in R3. set (s3 := dump_all antiControlsShards RemoveAntiTarget this s2) in *.
    assert (C3 : consistent s3) by apply R3. pose proof (dump_all_ok true true this s3 C3) as R4. cbn [msel rsel tsel csel] in R4. fold (@RemoveAntiControl K) in R4. set (s4 := dump_all antiTargetOfShards RemoveAntiControl this s3) in *.
    destruct R1 as (_ & E1 & V1), R2 as (_ & E2 & V2), R3 as (_ & E3 & V3), R4 as (C4 & E4 & V4).
    split; [exact C4|]. split; [congruence|]. intros a c t. rewrite V4, V3, V2, V1. unfold touch.
    destruct (buffer_of s a c t) as [b|]; destruct a; cbn [Bool.eqb andb]; destruct (c =? this), (t =? this); reflexivity.
  Qed.
End P.
