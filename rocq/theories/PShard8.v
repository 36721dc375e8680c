(** Proofs: every call keeps the maps consistent. *)
From Coq Require Import NArith List Bool Lia Arith.
From Verif Require Import Amp PAmp SpecState MShard SpecShard PShard1 PShard2 PShard3 PShard4 PShard5 PShard6 PShard7.
Import ListNotations.
Local Open Scope N_scope.

Section P.
  Context {K : StarRing} (po : Polar K).
  Add Ring KrBJ : (sr_ring K).
  Local Notation sh := (shards K).
  Local Notation unit1 x := (anorm x = 1%amp).
  Implicit Types (s : sh).

  Lemma make_control a c t s : consistent s -> c < sh_size s -> t < sh_size s -> c <> t ->
    changed a c t (Some (buf_or_new s a c t)) s (AddBuffer (csel a) (tsel a) c t s).
  Proof.
    intros C Hc Ht Hct. destruct (add_buffer a c t s C Hc Ht Hct) as [Ch _]. unfold AddBuffer in *. rewrite (cons_mirror s C).
    destruct (sh_map s (tsel a) t c) as [i|] eqn:E; [exact Ch|]. set (s0 := {| sh_size := _ |}) in *.
    assert (Hmap : forall m x y, sh_map (set_entry (tsel a) t c (Some (sh_next s)) (set_entry (csel a) c t (Some (sh_next s)) s0)) m x y =
      sh_map (set_entry (csel a) c t (Some (sh_next s)) (set_entry (tsel a) t c (Some (sh_next s)) s0)) m x y).
    { intros m x y. rewrite !set_entry_map. destruct (mapsel_eqb m (tsel a) && (x =? t) && (y =? c)), (mapsel_eqb m (csel a) && (x =? c) && (y =? t)); reflexivity. }
    destruct Ch as (C1 & E1 & M1 & V1). split; [|split; [|split]].
    - destruct C1 as (X1 & X2 & X3 & X4). split; [|split; [|split]].
      + intros c' t'. rewrite !Hmap. apply X1.
      + intros c' t'. rewrite !Hmap. apply X2.
      + intros a' c' t' b. rewrite !Hmap. apply X3.
      + intros a' c' t' a2 c2 t2 b. rewrite !Hmap. apply X4.
    - exact E1.
    - intros a' c' t' H. rewrite Hmap. apply M1, H.
    - intros a' c' t'. rewrite <- V1. unfold buffer_of. rewrite Hmap. reflexivity.
  Qed.

  Lemma commute_loop_ok a this fd fs : unit1 fd -> unit1 fs -> forall es s, consistent s -> (forall e, In e es -> sh_map s (tsel a) this (fst e) = Some (snd e)) ->
    consistent (snd (commute_loop fd fs es s)) /\ sh_size (snd (commute_loop fd fs es s)) = sh_size s.
  Proof.
    intros Ud Us. induction es as [|e es IH]; intros s C H; cbn [commute_loop]; [auto|]. destruct (negb (isInvert (sh_heap s (snd e)))); [auto|].
    pose proof (H e (or_introl eq_refl)) as He. destruct (cons_ok s C _ _ _ _ He) as (_ & _ & _ & _ & U1 & U2).
    assert (Ch : changed a (fst e) this (Some (mkPS (cmplxDiff (sh_heap s (snd e)) * fd)%amp (cmplxSame (sh_heap s (snd e)) * fs)%amp true)) s
      (set_buf (snd e) (mkPS (cmplxDiff (sh_heap s (snd e)) * fd)%amp (cmplxSame (sh_heap s (snd e)) * fs)%amp true) s)).
    { apply set_buf_ok; auto; cbn [cmplxDiff cmplxSame]; apply unit_mul; assumption. }
    destruct Ch as (C1 & E1 & _). destruct (IH _ C1) as [X1 X2]; [|split; [exact X1|congruence]]. intros e' He'. apply H. right. exact He'.
  Qed.
  Lemma commute_phase_cons this tl br s : consistent s -> unit1 tl -> unit1 br -> consistent (CommutePhase po this tl br s) /\ sh_size (CommutePhase po this tl br s) = sh_size s.
  Proof.
    intros C U1 U2. unfold CommutePhase. rewrite !(po_div_ok K po) by assumption.
    assert (V1 : unit1 (tl * sr_conj br)%amp) by (apply unit_mul; [|apply unit_conj]; assumption).
    assert (V2 : unit1 (br * sr_conj tl)%amp) by (apply unit_mul; [|apply unit_conj]; assumption).
    assert (Hent : forall a s1, consistent s1 -> forall e, In e (entries s1 (tsel a) this) -> sh_map s1 (tsel a) this (fst e) = Some (snd e)) by (intros a s1 _ e He; apply entries_in in He; apply He).
    destruct (commute_loop_ok false this _ _ V1 V2 (entries s (tsel false) this) s C (Hent false s C)) as [C1 E1]. cbn [tsel] in C1, E1.
    destruct (commute_loop (tl * sr_conj br)%amp (br * sr_conj tl)%amp (entries s targetOfShards this) s) as [stop s1]. cbn [snd] in *. destruct stop; [auto|].
    destruct (commute_loop_ok true this _ _ V2 V1 (entries s1 (tsel true) this) s1 C1 (Hent true s1 C1)) as [C2 E2]. cbn [tsel] in C2, E2. split; [exact C2|congruence].
  Qed.
  Lemma dump_cons a q s : consistent s -> consistent (DumpT po a q s) /\ sh_size (DumpT po a q s) = sh_size s.
  Proof.
    intros C. unfold DumpT, DumpBuffer. pose proof (optimize_targets po a q s C) as (C1 & E1 & _). set (s1 := OptimizeBuffer (tsel a) (csel a) (AddAnglesT po a) true q s) in *.
    pose proof (dump_all_ok false a q s1 C1) as R. cbn [msel rsel] in R. split; [apply R|]. transitivity (sh_size s1); [apply R|exact E1].
  Qed.
  Lemma dump_same_cons a q s : consistent s -> consistent (DumpST po a q s) /\ sh_size (DumpST po a q s) = sh_size s.
  Proof.
    intros C. unfold DumpST, DumpSamePhaseBuffer. pose proof (optimize_targets po a q s C) as (C1 & E1 & _). set (s1 := OptimizeBuffer (tsel a) (csel a) (AddAnglesT po a) true q s) in *.
    pose proof (same_all_ok false a q s1 C1) as R. cbn [msel rsel] in R. split; [apply R|]. transitivity (sh_size s1); [apply R|exact E1].
  Qed.

  Lemma call_ok o s : consistent s -> proper_call (sh_size s) o -> exists s', call po o s = Some s' /\ consistent s' /\ sh_size s' = sh_size s.
  Proof.
    intros C H. destruct o as [anti inv this c x y|anti dir this p|anti dir this p|anti dir this|this|this|this|this x y|this|this|this|this|anti same this].
    - cbn [proper_call] in H. destruct H as (H1 & H2 & H3 & Ux & Uy). destruct inv.
      + destruct (add_inv_ok po anti c this x y s C H2 H1 ltac:(congruence) Ux Uy) as [C1 [E1 _]]. destruct anti; eexists; (split; [reflexivity|]); split; assumption.
      + destruct (add_angles_ok po anti c this x y s C H2 H1 ltac:(congruence) Ux Uy) as [C1 [E1 _]]. destruct anti; eexists; (split; [reflexivity|]); split; assumption.
    - cbn [proper_call] in H. destruct H as (H1 & H2 & H3). destruct dir.
      + destruct (add_buffer anti p this s C H2 H1 ltac:(congruence)) as [(C1 & E1 & _) _]. destruct anti; eexists; (split; [reflexivity|]); split; assumption.
      + destruct (make_control anti this p s C H1 H2 H3) as (C1 & E1 & _). destruct anti; eexists; (split; [reflexivity|]); split; assumption.
    - destruct dir.
      + destruct (remove_t anti p this s C) as (C1 & E1 & _). destruct anti; eexists; (split; [reflexivity|]); split; assumption.
      + destruct (remove_c anti this p s C) as (C1 & E1 & _). destruct anti; eexists; (split; [reflexivity|]); split; assumption.
    - destruct dir.
      + destruct (optimize_targets po anti this s C) as (C1 & E1 & _). destruct anti; eexists; (split; [reflexivity|]); split; assumption.
      + destruct (optimize_controls po anti this s C) as (C1 & E1 & _). destruct anti; eexists; (split; [reflexivity|]); split; assumption.
    - destruct (optimize_both po this s C) as (C1 & E1 & _). eexists. split; [reflexivity|]. split; assumption.
    - destruct (combine_gates po this s C) as (C1 & E1 & _). eexists. split; [reflexivity|]. split; assumption.
    - destruct (flip_view this s C) as (s' & F & C1 & E1 & _). exists s'. split; [exact F|]. split; assumption.
    - cbn [proper_call] in H. destruct H as [Ux Uy]. destruct (commute_phase_cons this x y s C Ux Uy) as [C1 E1]. eexists. split; [reflexivity|]. split; assumption.
    - destruct (commute_h_view po this s C) as (C1 & E1 & _). eexists. split; [reflexivity|]. split; assumption.
    - destruct (dump_phase_ok this s C) as (C1 & E1 & _). eexists. split; [reflexivity|]. split; assumption.
    - destruct (clear_invert_ok this s C) as (C1 & E1 & _). eexists. split; [reflexivity|]. split; assumption.
    - destruct (dump_multi_ok this s C) as (C1 & E1 & _). eexists. split; [reflexivity|]. split; assumption.
    - destruct same.
      + destruct (dump_same_cons anti this s C) as [C1 E1]. destruct anti; eexists; (split; [reflexivity|]); split; assumption.
      + destruct (dump_cons anti this s C) as [C1 E1]. destruct anti; eexists; (split; [reflexivity|]); split; assumption.
  Qed.
  Lemma new_consistent n : consistent (newShards (K := K) n).
  Proof. split; [reflexivity|]. split; [reflexivity|]. split; discriminate. Qed.
  Lemma calls_ok os : forall s, consistent s -> Forall (proper_call (sh_size s)) os -> exists s', calls po os s = Some s' /\ consistent s' /\ sh_size s' = sh_size s.
  Proof.
    induction os as [|o os IH]; intros s C H; [exists s; auto|]. inversion H as [|o' os' H1 H2]; subst. destruct (call_ok o s C H1) as (s1 & E & C1 & S1).
    cbn [calls]. rewrite E. destruct (IH s1 C1) as (s2 & E2 & C2 & S2); [rewrite S1; exact H2|]. exists s2. split; [exact E2|]. split; [exact C2|congruence].
  Qed.
End P.
