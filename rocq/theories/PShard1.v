(** Proofs about the bookkeeping of buffered gates: every operation changes the buffers of known pairs and keeps the maps consistent. *)
From Coq Require Import NArith List Bool Lia Arith.
From Verif Require Import Amp PAmp SpecState MShard SpecShard.
Import ListNotations.
Local Open Scope N_scope.

Definition tsel (a : bool) : mapsel := if a then antiTargetOfShards else targetOfShards.
Definition csel (a : bool) : mapsel := if a then antiControlsShards else controlsShards.
Definition keq (a : bool) (c t : N) (a' : bool) (c' t' : N) : bool := Bool.eqb a' a && (c' =? c) && (t' =? t).

Lemma keq_spec a c t a' c' t' : keq a c t a' c' t' = true <-> (a', c', t') = (a, c, t).
Proof.
  unfold keq. rewrite !andb_true_iff, eqb_true_iff, !N.eqb_eq. split.
  - intros [[-> ->] ->]. reflexivity.
  - intros [= -> -> ->]. auto.
Qed.
Lemma keq_refl a c t : keq a c t a c t = true.
Proof. apply keq_spec. reflexivity. Qed.
Lemma keq_false a c t a' c' t' : (a', c', t') <> (a, c, t) -> keq a c t a' c' t' = false.
Proof. intros H. destruct (keq a c t a' c' t') eqn:E; [|reflexivity]. apply keq_spec in E. contradiction. Qed.

Lemma positions_in {K : StarRing} (s : shards K) p : In p (positions s) <-> p < sh_size s.
Proof.
  unfold positions. rewrite in_map_iff. split.
  - intros (k & <- & Hk). apply in_seq in Hk. lia.
  - intros H. exists (N.to_nat p). split; [lia|]. apply in_seq. lia.
Qed.
Lemma positions_nodup {K : StarRing} (s : shards K) : NoDup (positions s).
Proof.
  unfold positions. apply FinFun.Injective_map_NoDup; [intros x y; lia|apply seq_NoDup].
Qed.

Section P.
  Context {K : StarRing} (po : Polar K).
  Add Ring KrBC : (sr_ring K).
  Local Notation sh := (shards K).
  Local Notation unit1 x := (anorm x = 1%amp).

  Lemma unit_one : unit1 (1%amp : K).
  Proof. unfold anorm. rewrite (conj_1 K). ring. Qed.
  Lemma unit_mul (x y : K) : unit1 x -> unit1 y -> unit1 (x * y)%amp.
  Proof. intros Hx Hy. rewrite (anorm_mul K), Hx, Hy. ring. Qed.
  Lemma unit_conj (x : K) : unit1 x -> unit1 (sr_conj x).
  Proof. unfold anorm. rewrite sr_conj_invol. intros H. rewrite <- H. ring. Qed.
  Lemma unit_opp (x : K) : unit1 x -> unit1 (- x)%amp.
  Proof. unfold anorm. rewrite (conj_opp K). intros H. rewrite <- H. ring. Qed.

  Lemma set_entry_map m this p v (s : sh) m' t' p' :
    sh_map (set_entry m this p v s) m' t' p' = if mapsel_eqb m' m && (t' =? this) && (p' =? p) then v else sh_map s m' t' p'.
  Proof. reflexivity. Qed.

  Lemma cons_mirror (s : sh) : consistent s -> forall a c t, sh_map s (csel a) c t = sh_map s (tsel a) t c.
  Proof. intros (H1 & H2 & _) [|] c t; [apply H2|apply H1]. Qed.
  Lemma cons_ok (s : sh) : consistent s -> forall a c t b, sh_map s (tsel a) t c = Some b ->
    c < sh_size s /\ t < sh_size s /\ c <> t /\ b < sh_next s /\ unit1 (cmplxDiff (sh_heap s b)) /\ unit1 (cmplxSame (sh_heap s b)).
  Proof. intros (_ & _ & H & _) a c t b. apply H. Qed.
  Lemma cons_inj (s : sh) : consistent s -> forall a c t a' c' t' b, sh_map s (tsel a) t c = Some b ->
    sh_map s (tsel a') t' c' = Some b -> (a', c', t') = (a, c, t).
  Proof. intros (_ & _ & _ & H) a c t a' c' t' b H1 H2. destruct (H a c t a' c' t' b H1 H2) as (-> & -> & ->). reflexivity. Qed.

  (** [s'] is [s] with the entry of one pair replaced, in both maps. *)
  Definition maps_set (a : bool) (c t : N) (v : option N) (s s' : sh) : Prop :=
    (forall a' c' t', sh_map s' (tsel a') t' c' = if keq a c t a' c' t' then v else sh_map s (tsel a') t' c') /\
    (forall a' c' t', sh_map s' (csel a') c' t' = if keq a c t a' c' t' then v else sh_map s (csel a') c' t').

  Lemma upd_ok (s s' : sh) a c t v : consistent s -> sh_size s' = sh_size s -> sh_next s <= sh_next s' -> maps_set a c t v s s' ->
    (forall b, b < sh_next s -> v <> Some b -> sh_heap s' b = sh_heap s b) ->
    (forall b, v = Some b -> (sh_map s (tsel a) t c = Some b \/ sh_next s <= b) /\ b < sh_next s' /\
       c < sh_size s /\ t < sh_size s /\ c <> t /\ unit1 (cmplxDiff (sh_heap s' b)) /\ unit1 (cmplxSame (sh_heap s' b))) ->
    consistent s' /\ (forall a' c' t', buffer_of s' a' c' t' =
      if keq a c t a' c' t' then match v with Some b => Some (sh_heap s' b) | None => None end else buffer_of s a' c' t').
  Proof.
    intros C Esz Enx [Mt Mc] Hh Hv.
    assert (Hold : forall a' c' t' b, keq a c t a' c' t' = false -> sh_map s (tsel a') t' c' = Some b -> sh_heap s' b = sh_heap s b).
    { intros a' c' t' b Ek E. apply Hh; [apply (cons_ok s C _ _ _ _ E)|]. intros ->. destruct (Hv b eq_refl) as [[E'|E'] _].
      - rewrite (proj2 (keq_spec a c t a' c' t')) in Ek; [discriminate|]. apply (cons_inj s C _ _ _ _ _ _ _ E' E).
      - pose proof (cons_ok s C _ _ _ _ E). lia. }
    split.
    - split; [|split; [|split]].
      + intros c' t'. pose proof (Mt false c' t') as E1. pose proof (Mc false c' t') as E2. cbn [tsel csel] in E1, E2. rewrite E1, E2.
        destruct keq; [reflexivity|]. apply (cons_mirror s C false).
      + intros c' t'. pose proof (Mt true c' t') as E1. pose proof (Mc true c' t') as E2. cbn [tsel csel] in E1, E2. rewrite E1, E2.
        destruct keq; [reflexivity|]. apply (cons_mirror s C true).
      + intros a' c' t' b. change (if a' then antiTargetOfShards else targetOfShards) with (tsel a'). rewrite Mt, Esz.
        destruct (keq a c t a' c' t') eqn:Ek.
        * intros E. apply keq_spec in Ek. injection Ek as -> -> ->. destruct (Hv b E) as (_ & Hb & Hc & Ht & Hct & Hd & Hs). auto 10.
        * intros E. rewrite (Hold _ _ _ _ Ek E). destruct (cons_ok s C _ _ _ _ E) as (Hc & Ht & Hct & Hb & Hd & Hs). repeat split; auto. lia.
      + intros a1 c1 t1 a2 c2 t2 b. change (if a1 then antiTargetOfShards else targetOfShards) with (tsel a1).
        change (if a2 then antiTargetOfShards else targetOfShards) with (tsel a2). rewrite !Mt.
        destruct (keq a c t a1 c1 t1) eqn:E1, (keq a c t a2 c2 t2) eqn:E2; intros H1 H2.
        * apply keq_spec in E1, E2. injection E1 as -> -> ->. injection E2 as -> -> ->. auto.
        * exfalso. destruct (Hv b H1) as [[E'|E'] _].
          -- pose proof (cons_inj s C _ _ _ _ _ _ _ E' H2) as Ek. rewrite (proj2 (keq_spec a c t a2 c2 t2) Ek) in E2. discriminate.
          -- pose proof (cons_ok s C _ _ _ _ H2). lia.
        * exfalso. destruct (Hv b H2) as [[E'|E'] _].
          -- pose proof (cons_inj s C _ _ _ _ _ _ _ E' H1) as Ek. rewrite (proj2 (keq_spec a c t a1 c1 t1) Ek) in E1. discriminate.
          -- pose proof (cons_ok s C _ _ _ _ H1). lia.
        * pose proof (cons_inj s C _ _ _ _ _ _ _ H1 H2) as Ek. injection Ek as -> -> ->. auto.
    - intros a' c' t'. unfold buffer_of. change (if a' then antiTargetOfShards else targetOfShards) with (tsel a'). rewrite Mt.
      destruct (keq a c t a' c' t') eqn:Ek; [reflexivity|]. destruct (sh_map s (tsel a') t' c') as [b|] eqn:E; [|reflexivity].
      rewrite (Hold _ _ _ _ Ek E). reflexivity.
  Qed.

  Lemma sel_t a a' : mapsel_eqb (tsel a') (tsel a) = Bool.eqb a' a.
  Proof. destruct a, a'; reflexivity. Qed.
  Lemma sel_c a a' : mapsel_eqb (csel a') (csel a) = Bool.eqb a' a.
  Proof. destruct a, a'; reflexivity. Qed.
  Lemma sel_tc a a' : mapsel_eqb (tsel a') (csel a) = false.
  Proof. destruct a, a'; reflexivity. Qed.
  Lemma sel_ct a a' : mapsel_eqb (csel a') (tsel a) = false.
  Proof. destruct a, a'; reflexivity. Qed.

  Lemma maps_set_two a c t v (s : sh) : maps_set a c t v s (set_entry (tsel a) t c v (set_entry (csel a) c t v s)).
  Proof.
    split; intros a' c' t'; rewrite !set_entry_map, ?sel_t, ?sel_c, ?sel_tc, ?sel_ct; cbn [andb]; unfold keq;
      destruct (Bool.eqb a' a), (c' =? c), (t' =? t); reflexivity.
  Qed.
  Lemma maps_set_two' a c t v (s : sh) : maps_set a c t v s (set_entry (csel a) c t v (set_entry (tsel a) t c v s)).
  Proof.
    split; intros a' c' t'; rewrite !set_entry_map, ?sel_t, ?sel_c, ?sel_tc, ?sel_ct; cbn [andb]; unfold keq;
      destruct (Bool.eqb a' a), (c' =? c), (t' =? t); reflexivity.
  Qed.
  Lemma maps_set_id a c t (s : sh) : consistent s -> maps_set a c t (sh_map s (tsel a) t c) s s.
  Proof.
    intros C. split; intros a' c' t'; destruct (keq a c t a' c' t') eqn:E; try reflexivity; apply keq_spec in E; injection E as -> -> ->;
      [reflexivity|apply (cons_mirror s C)].
  Qed.

  (** Removing the buffer of a pair. *)
  Definition removed (a : bool) (c t : N) (s s' : sh) : Prop :=
    consistent s' /\ sh_size s' = sh_size s /\ maps_set a c t None s s' /\ (forall b, sh_heap s' b = sh_heap s b) /\
    (forall a' c' t', buffer_of s' a' c' t' = if keq a c t a' c' t' then None else buffer_of s a' c' t').
  Lemma removed_two a c t (s : sh) : consistent s ->
    removed a c t s (erase (tsel a) t c (erase (csel a) c t s)) /\ removed a c t s (erase (csel a) c t (erase (tsel a) t c s)).
  Proof.
    intros C. split.
    - destruct (upd_ok s (erase (tsel a) t c (erase (csel a) c t s)) a c t None C) as [C' V]; [reflexivity|cbn; lia|apply maps_set_two|reflexivity|discriminate|].
      split; [exact C'|]. split; [reflexivity|]. split; [apply maps_set_two|]. split; [reflexivity|exact V].
    - destruct (upd_ok s (erase (csel a) c t (erase (tsel a) t c s)) a c t None C) as [C' V]; [reflexivity|cbn; lia|apply maps_set_two'|reflexivity|discriminate|].
      split; [exact C'|]. split; [reflexivity|]. split; [apply maps_set_two'|]. split; [reflexivity|exact V].
  Qed.
  Lemma removed_none a c t (s : sh) : consistent s -> sh_map s (tsel a) t c = None -> removed a c t s s.
  Proof.
    intros C E. destruct (upd_ok s s a c t None C) as [C' V]; [reflexivity|lia|rewrite <- E; apply maps_set_id, C|reflexivity|discriminate|].
    split; [exact C'|]. split; [reflexivity|]. split; [rewrite <- E; apply maps_set_id, C|]. split; [reflexivity|exact V].
  Qed.
  Lemma remove_t a c t (s : sh) : consistent s -> removed a c t s (RemoveBuffer (tsel a) (csel a) t c s).
  Proof.
    intros C. unfold RemoveBuffer. destruct (sh_map s (tsel a) t c) as [b|] eqn:E; [apply removed_two, C|apply removed_none; assumption].
  Qed.
  Lemma remove_c a c t (s : sh) : consistent s -> removed a c t s (RemoveBuffer (csel a) (tsel a) c t s).
  Proof.
    intros C. unfold RemoveBuffer. rewrite (cons_mirror s C). destruct (sh_map s (tsel a) t c) as [b|] eqn:E; [apply removed_two, C|apply removed_none; assumption].
  Qed.

  (** The buffer of a pair, a fresh one if there is none. *)
  Definition buf_or_new (s : sh) (a : bool) (c t : N) : PhaseShard K := match buffer_of s a c t with Some b => b | None => newPhaseShard end.
  (** The pair gets the buffer [v]; the others keep theirs. *)
  Definition changed (a : bool) (c t : N) (v : option (PhaseShard K)) (s s' : sh) : Prop :=
    consistent s' /\ sh_size s' = sh_size s /\
    (forall a' c' t', (a', c', t') <> (a, c, t) -> sh_map s' (tsel a') t' c' = sh_map s (tsel a') t' c') /\
    (forall a' c' t', buffer_of s' a' c' t' = if keq a c t a' c' t' then v else buffer_of s a' c' t').
  Lemma removed_changed a c t s s' : removed a c t s s' -> changed a c t None s s'.
  Proof.
    intros (C & E & [M _] & _ & V). split; [exact C|]. split; [exact E|]. split; [|exact V].
    intros a' c' t' H. rewrite M, keq_false by exact H. reflexivity.
  Qed.

  Lemma add_buffer a c t (s : sh) : consistent s -> c < sh_size s -> t < sh_size s -> c <> t ->
    let s' := AddBuffer (tsel a) (csel a) t c s in
    changed a c t (Some (buf_or_new s a c t)) s s' /\ exists b, sh_map s' (tsel a) t c = Some b /\ sh_heap s' b = buf_or_new s a c t.
  Proof.
    intros C Hc Ht Hct. cbv zeta. unfold AddBuffer, buf_or_new, buffer_of. change (if a then antiTargetOfShards else targetOfShards) with (tsel a).
    destruct (sh_map s (tsel a) t c) as [b|] eqn:E.
    - destruct (upd_ok s s a c t (Some b) C) as [C' V]; [reflexivity|lia|rewrite <- E; apply maps_set_id, C|reflexivity| |].
      { intros b' [= <-]. destruct (cons_ok s C _ _ _ _ E) as (H1 & H2 & H3 & H4 & H5 & H6). auto 10. }
      split; [|exists b; auto]. split; [exact C'|]. split; [reflexivity|]. split; [reflexivity|exact V].
    - set (b := sh_next s). set (s0 := {| sh_size := _ |}).
      assert (Hheap : forall m t' p' v m2 t2 p2 v2 i, sh_heap (set_entry m t' p' v (set_entry m2 t2 p2 v2 s0)) i = if i =? b then newPhaseShard else sh_heap s i) by reflexivity.
      set (s' := set_entry (csel a) c t (Some b) (set_entry (tsel a) t c (Some b) s0)).
      assert (M : maps_set a c t (Some b) s s').
      { destruct (maps_set_two' a c t (Some b) s0) as [M1 M2]. split; intros a' c' t'; [exact (M1 a' c' t')|exact (M2 a' c' t')]. }
      destruct (upd_ok s s' a c t (Some b) C) as [C' V].
      + reflexivity.
      + subst s' s0 b. cbn. lia.
      + exact M.
      + intros i Hi Hn. subst s'. rewrite Hheap. destruct (N.eqb_spec i b) as [->|]; [congruence|reflexivity].
      + intros b' [= <-]. subst s'. rewrite Hheap, N.eqb_refl. split; [right; subst b; lia|]. split; [subst s0 b; cbn; lia|].
        split; [exact Hc|]. split; [exact Ht|]. split; [exact Hct|]. split; apply unit_one.
      + assert (Hb : sh_heap s' b = newPhaseShard) by (subst s'; rewrite Hheap, N.eqb_refl; reflexivity).
        split; [|exists b; split; [|exact Hb]].
        * split; [exact C'|]. split; [reflexivity|]. split.
          -- intros a' c' t' Hk. destruct M as [M _]. rewrite M, keq_false by exact Hk. reflexivity.
          -- intros a' c' t'. rewrite V. rewrite Hb. reflexivity.
        * destruct M as [M _]. rewrite M, keq_refl. reflexivity.
  Qed.

  (** Replacing the contents of the buffer of a pair. *)
  Lemma set_buf_ok a c t b ps (s : sh) : consistent s -> sh_map s (tsel a) t c = Some b ->
    unit1 (cmplxDiff ps) -> unit1 (cmplxSame ps) -> changed a c t (Some ps) s (set_buf b ps s).
  Proof.
    intros C E Hd Hs. destruct (cons_ok s C _ _ _ _ E) as (H1 & H2 & H3 & H4 & _).
    assert (M : maps_set a c t (Some b) s (set_buf b ps s)). { rewrite <- E. destruct (maps_set_id a c t s C) as [M1 M2]. split; assumption. }
    assert (Hb : sh_heap (set_buf b ps s) b = ps) by (cbn; rewrite N.eqb_refl; reflexivity).
    destruct (upd_ok s (set_buf b ps s) a c t (Some b) C) as [C' V].
    - reflexivity.
    - cbn. lia.
    - exact M.
    - intros i Hi Hn. cbn. destruct (N.eqb_spec i b) as [->|]; [congruence|reflexivity].
    - intros b' [= <-]. rewrite Hb. cbn. auto 10.
    - split; [exact C'|]. split; [reflexivity|]. split; [reflexivity|]. intros a' c' t'. rewrite V, Hb. reflexivity.
  Qed.

  Lemma changed_same a c t v (s s' s'' : sh) w : changed a c t v s s' -> changed a c t w s' s'' -> changed a c t w s s''.
  Proof.
    intros (C1 & E1 & M1 & V1) (C2 & E2 & M2 & V2). split; [exact C2|]. split; [congruence|]. split.
    - intros a' c' t' H. rewrite M2, M1 by exact H. reflexivity.
    - intros a' c' t'. rewrite V2, V1. destruct keq; reflexivity.
  Qed.
  Lemma buffer_units (s : sh) a c t b : consistent s -> buffer_of s a c t = Some b -> unit1 (cmplxDiff b) /\ unit1 (cmplxSame b).
  Proof.
    intros C. unfold buffer_of. change (if a then antiTargetOfShards else targetOfShards) with (tsel a).
    destruct (sh_map s (tsel a) t c) as [i|] eqn:E; [|discriminate]. intros [= <-]. apply (cons_ok s C _ _ _ _ E).
  Qed.
  Lemma new_units (s : sh) a c t : consistent s -> unit1 (cmplxDiff (buf_or_new s a c t)) /\ unit1 (cmplxSame (buf_or_new s a c t)).
  Proof.
    intros C. unfold buf_or_new. destruct (buffer_of s a c t) as [b|] eqn:E; [apply (buffer_units s a c t b C E)|].
    split; apply unit_one.
  Qed.
  Lemma buffer_bounds (s : sh) a c t b : consistent s -> buffer_of s a c t = Some b -> c < sh_size s /\ t < sh_size s /\ c <> t.
  Proof.
    intros C. unfold buffer_of. change (if a then antiTargetOfShards else targetOfShards) with (tsel a).
    destruct (sh_map s (tsel a) t c) as [i|] eqn:E; [|discriminate]. intros _. destruct (cons_ok s C _ _ _ _ E) as (H1 & H2 & H3 & _). auto.
  Qed.

  (** Buffer contents after adding angles: nothing when the result is the identity. *)
  Definition trivial (b : PhaseShard K) : bool := negb (isInvert b) && sr_eqb (cmplxDiff b) 1%amp && sr_eqb (cmplxSame b) 1%amp.
  Definition keep (b : PhaseShard K) : option (PhaseShard K) := if trivial b then None else Some b.
  Definition plus_angles (d m : K) (b : PhaseShard K) : PhaseShard K := mkPS (cmplxDiff b * d)%amp (cmplxSame b * m)%amp (isInvert b).
  Definition flipped (b : PhaseShard K) : PhaseShard K := mkPS (cmplxSame b) (cmplxDiff b) (negb (isInvert b)).

  Definition AddAnglesT (a : bool) := AddAngles po (AddBuffer (tsel a) (csel a)) (tsel a) (RemoveBuffer (tsel a) (csel a)).
  Lemma add_phase_eq this control d m : AddPhaseAngles po this control d m = AddAnglesT false this control d m.
  Proof. reflexivity. Qed.
  Lemma add_anti_eq this control d m : AddAntiPhaseAngles po this control d m = AddAnglesT true this control d m.
  Proof. reflexivity. Qed.

  Lemma add_angles a c t d m (s : sh) : consistent s -> c < sh_size s -> t < sh_size s -> c <> t -> unit1 d -> unit1 m ->
    changed a c t (keep (plus_angles d m (buf_or_new s a c t))) s (AddAnglesT a t c d m s).
  Proof.
    intros C Hc Ht Hct Hd Hm. unfold AddAnglesT, AddAngles. destruct (add_buffer a c t s C Hc Ht Hct) as (Ch & b & Eb & Hb).
    set (s1 := AddBuffer (tsel a) (csel a) t c s) in *. rewrite Eb, Hb. destruct (new_units s a c t C) as [U1 U2].
    set (old := buf_or_new s a c t) in *. assert (C1 : consistent s1) by (apply Ch).
    rewrite !(po_unit_ok K po) by (apply unit_mul; assumption).
    unfold keep, trivial, plus_angles. cbn [isInvert cmplxDiff cmplxSame]. unfold IS_ARG_0, IS_SAME.
    destruct (negb (isInvert old) && sr_eqb (cmplxDiff old * d)%amp 1%amp && sr_eqb (cmplxSame old * m)%amp 1%amp).
    - apply (changed_same a c t _ s s1 _ None Ch). apply removed_changed, remove_t, C1.
    - apply (changed_same a c t _ s s1 _ _ Ch). apply set_buf_ok; [exact C1|exact Eb| |]; cbn [cmplxDiff cmplxSame]; apply unit_mul; assumption.
  Qed.

  Definition AddInvT (a : bool) (this control : N) (d m : K) (s : sh) : sh :=
    AddAnglesT a this control d m (toggle (tsel a) this control (AddBuffer (tsel a) (csel a) this control s)).
  Lemma add_inv_eq this control d m s : AddInversionAngles po this control d m s = AddInvT false this control d m s.
  Proof. reflexivity. Qed.
  Lemma add_anti_inv_eq this control d m s : AddAntiInversionAngles po this control d m s = AddInvT true this control d m s.
  Proof. reflexivity. Qed.
  Lemma add_inv a c t d m (s : sh) : consistent s -> c < sh_size s -> t < sh_size s -> c <> t -> unit1 d -> unit1 m ->
    changed a c t (keep (plus_angles d m (flipped (buf_or_new s a c t)))) s (AddInvT a t c d m s).
  Proof.
    intros C Hc Ht Hct Hd Hm. unfold AddInvT. destruct (add_buffer a c t s C Hc Ht Hct) as (Ch & b & Eb & Hb).
    set (s1 := AddBuffer (tsel a) (csel a) t c s) in *. unfold toggle. rewrite Eb, Hb. destruct (new_units s a c t C) as [U1 U2].
    set (old := buf_or_new s a c t) in *. assert (C1 : consistent s1) by (apply Ch).
    fold (flipped old). assert (Ch2 : changed a c t (Some (flipped old)) s1 (set_buf b (flipped old) s1)) by (apply set_buf_ok; assumption).
    set (s2 := set_buf b (flipped old) s1) in *. assert (C2 : consistent s2) by (apply Ch2).
    assert (Esz : sh_size s2 = sh_size s) by (destruct Ch2 as (_ & E2 & _); destruct Ch as (_ & E1 & _); congruence).
    assert (Hn : buf_or_new s2 a c t = flipped old). { unfold buf_or_new. destruct Ch2 as (_ & _ & _ & V). rewrite V, keq_refl. reflexivity. }
    apply (changed_same a c t _ s s1 _ _ Ch). apply (changed_same a c t _ s1 s2 _ _ Ch2). rewrite <- Hn. rewrite <- Esz in Hc, Ht. apply add_angles; assumption.
  Qed.

  (** Entries of a map. *)
  Lemma entries_in (s : sh) m this e : In e (entries s m this) <-> fst e < sh_size s /\ sh_map s m this (fst e) = Some (snd e).
  Proof.
    unfold entries. rewrite in_flat_map. split.
    - intros (p & Hp & He). apply positions_in in Hp. destruct (sh_map s m this p) as [b|] eqn:E; [|contradiction].
      destruct He as [<-|[]]. cbn. auto.
    - intros [H1 H2]. exists (fst e). split; [apply positions_in, H1|]. rewrite H2. left. destruct e; reflexivity.
  Qed.
  Lemma entries_nodup (s : sh) m this : NoDup (map fst (entries s m this)).
  Proof.
    unfold entries. generalize (positions_nodup s). induction (positions s) as [|p l IH]; cbn [flat_map]; intros H; [constructor|].
    apply NoDup_cons_iff in H. destruct H as [H1 H2]. rewrite map_app. destruct (sh_map s m this p) as [b|]; cbn [map app fst]; [|apply IH, H2].
    constructor; [|apply IH, H2]. intros Hin. apply H1. apply in_map_iff in Hin. destruct Hin as (e & E & He). apply in_flat_map in He.
    destruct He as (q & Hq & He). destruct (sh_map s m this q); [|contradiction]. destruct He as [<-|[]]. cbn in E. subst q. exact Hq.
  Qed.
End P.
