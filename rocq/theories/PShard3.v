(** Proofs: adding gates to the buffers and moving them between the buffers. *)
From Coq Require Import NArith List Bool Lia Arith Permutation.
From Verif Require Import Amp PAmp SpecState PGates PGates2 PQCirc2 PQCirc3 MShard SpecShard PShard1 PShard2.
Import ListNotations.
Local Open Scope N_scope.

Lemma loop_inv {S A} (step : S -> A -> S) (I : S -> Prop) (R : S -> A -> Prop) (key : A -> N) :
  (forall s e, I s -> R s e -> I (step s e) /\ forall e', key e' <> key e -> R s e' -> R (step s e) e') ->
  forall es s, NoDup (map key es) -> I s -> (forall e, In e es -> R s e) -> I (fold_left step es s).
Proof.
  intros H. induction es as [|e es IH]; intros s ND HI HR; [exact HI|]. cbn [fold_left]. cbn [map] in ND. apply NoDup_cons_iff in ND. destruct ND as [Hn ND].
  destruct (H s e HI (HR e (or_introl eq_refl))) as [H1 H2]. apply IH; [exact ND|exact H1|]. intros e' He'. apply H2; [|apply HR; right; exact He'].
  intros E. apply Hn. rewrite <- E. apply in_map, He'.
Qed.

Section P.
  Context {K : StarRing} (po : Polar K).
  Add Ring KrBE : (sr_ring K).
  Local Notation sh := (shards K).
  Local Notation vec := (N -> K).
  Local Notation unit1 x := (anorm x = 1%amp).
  Implicit Types (psi : vec) (s : sh).

  (** ** Adding gates *)
  Lemma add_angles_ok a c t (d m : K) s : consistent s -> c < sh_size s -> t < sh_size s -> c <> t -> unit1 d -> unit1 m ->
    let s' := AddAnglesT po a t c d m s in let g := gate1 (fires a c) t (matrix_of a (mkPS d m false)) in
    consistent s' /\ gains g (a, c, t) s s'.
  Proof.
    intros C Hc Ht Hct Hd Hm. cbv zeta. pose proof (add_angles po a c t d m s C Hc Ht Hct Hd Hm) as Ch. split; [apply Ch|].
    eapply gains_changed; [exact Ch|exact Hct|]. apply matrix_plus.
  Qed.
  Lemma add_inv_ok a c t (d m : K) s : consistent s -> c < sh_size s -> t < sh_size s -> c <> t -> unit1 d -> unit1 m ->
    let s' := AddInvT po a t c d m s in let g := gate1 (fires a c) t (matrix_of a (mkPS d m true)) in
    consistent s' /\ gains g (a, c, t) s s'.
  Proof.
    intros C Hc Ht Hct Hd Hm. cbv zeta. pose proof (add_inv po a c t d m s C Hc Ht Hct Hd Hm) as Ch. split; [apply Ch|].
    eapply gains_changed; [exact Ch|exact Hct|]. apply matrix_flip.
  Qed.
  Lemma gains_result g a c t s s' : proper g -> c < sh_size s -> t < sh_size s -> gains g (a, c, t) s s' -> commuting s -> commutes_but s (a, c, t) g ->
    commuting s' /\ forall psi, same_state (pending s' psi) (g (pending s psi)).
  Proof.
    intros Pg Hc Ht G HC Hg. split; [eapply commuting_gain; eassumption|]. intros psi. apply (pending_gain g a c t s s' psi Pg Hc Ht G Hg).
  Qed.

  (** ** Moving gates *)
  Lemma gains_eq g g' k s s' : (forall psi, same_state (g psi) (g' psi)) -> gains g k s s' -> gains g' k s s'.
  Proof. intros H (E & H1 & H2). split; [exact E|]. split; [exact H1|]. intros psi. eapply ss_trans; [apply H2|apply H]. Qed.

  Definition same_effect s s' : Prop :=
    consistent s' /\ sh_size s' = sh_size s /\ (commuting s -> commuting s' /\ forall psi, same_state (pending s' psi) (pending s psi)).
  Lemma effect_refl s : consistent s -> same_effect s s.
  Proof. intros C. split; [exact C|]. split; [reflexivity|]. intros H. split; [exact H|]. intros psi. apply ss_refl. Qed.
  Lemma effect_trans s1 s2 s3 : same_effect s1 s2 -> same_effect s2 s3 -> same_effect s1 s3.
  Proof.
    intros (A1 & A2 & A3) (B1 & B2 & B3). split; [exact B1|]. split; [congruence|]. intros H. destruct (A3 H) as [H1 H2]. destruct (B3 H1) as [H3 H4].
    split; [exact H3|]. intros psi. eapply ss_trans; [apply H4|apply H2].
  Qed.

  Definition erased (a : bool) (c t : N) s s1 : Prop := s1 = erase (tsel a) t c (erase (csel a) c t s) \/ s1 = erase (csel a) c t (erase (tsel a) t c s).
  Lemma move_step a c t i a' c' t' (d m : K) s s1 : consistent s -> sh_map s (tsel a) t c = Some i -> erased a c t s s1 ->
    (forall psi, same_state (gate1 (fires a c) t (matrix_of a (sh_heap s i)) psi) (gate1 (fires a' c') t' (matrix_of a' (mkPS d m false)) psi)) ->
    c' < sh_size s -> t' < sh_size s -> c' <> t' -> unit1 d -> unit1 m ->
    let s2 := AddAnglesT po a' t' c' d m s1 in
    same_effect s s2 /\ (forall a0 c0 t0, (a0, c0, t0) <> (a, c, t) -> (a0, c0, t0) <> (a', c', t') -> sh_map s2 (tsel a0) t0 c0 = sh_map s (tsel a0) t0 c0).
  Proof.
    intros C E Er Hg Hc' Ht' Hct' Hd Hm. cbv zeta. assert (R : changed a c t None s s1).
    { apply removed_changed. destruct Er as [->| ->]; apply removed_two, C. }
    destruct (cons_ok s C _ _ _ _ E) as (Hc & Ht & Hct & _). assert (Esz : sh_size s1 = sh_size s) by apply R. assert (C1 : consistent s1) by apply R.
    rewrite <- Esz in Hc', Ht'. pose proof (add_angles po a' c' t' d m s1 C1 Hc' Ht' Hct' Hd Hm) as Ch2.
    destruct (add_angles_ok a' c' t' d m s1 C1 Hc' Ht' Hct' Hd Hm) as [C2 G]. split.
    - split; [exact C2|]. split; [destruct G as [G _]; congruence|]. intros HC. rewrite Esz in Hc', Ht'. apply (move_gate a c t a' c' t' s s1); auto.
      eapply gains_eq; [|exact G]. intros psi. apply ss_sym. unfold gate_at, buffer_of. change (if a then antiTargetOfShards else targetOfShards) with (tsel a). rewrite E. apply Hg.
    - intros a0 c0 t0 H1 H2. destruct Ch2 as (_ & _ & M2 & _). destruct R as (_ & _ & M1 & _). rewrite M2, M1 by assumption. reflexivity.
  Qed.

  (** The gates that may be moved: a phase where both qubits have given values. *)
  Lemma phase_gate a c t (d m : K) psi : c <> t ->
    same_state (gate1 (fires a c) t (matrix_of a (mkPS d m false)) psi)
               (fun x => (if fires a c x then if fires a t x then m else d else 1) * psi x)%amp.
  Proof.
    intros H x. rewrite matrix_mk. unfold gate1, fires. destruct a; cbn [m00 m01 m10 m11]; destruct (N.testbit x c), (N.testbit x t); cbn [negb]; ring.
  Qed.
  Lemma swap_gate a c t (m : K) psi : c <> t ->
    same_state (gate1 (fires a c) t (matrix_of a (mkPS 1%amp m false)) psi) (gate1 (fires a t) c (matrix_of a (mkPS 1%amp m false)) psi).
  Proof.
    intros H. eapply ss_trans; [apply phase_gate, H|]. apply ss_sym. eapply ss_trans; [apply phase_gate; congruence|]. intros x.
    destruct (fires a c x), (fires a t x); reflexivity.
  Qed.
  Lemma swap_gate_anti a c t (d : K) psi : c <> t ->
    same_state (gate1 (fires a c) t (matrix_of a (mkPS d 1%amp false)) psi) (gate1 (fires (negb a) t) c (matrix_of (negb a) (mkPS d 1%amp false)) psi).
  Proof.
    intros H. eapply ss_trans; [apply phase_gate, H|]. apply ss_sym. eapply ss_trans; [apply phase_gate; congruence|]. intros x.
    unfold fires. destruct a; cbn [negb]; destruct (N.testbit x c), (N.testbit x t); cbn [negb]; reflexivity.
  Qed.

  Lemma buf_eta (b : PhaseShard K) : b = mkPS (cmplxDiff b) (cmplxSame b) (isInvert b).
  Proof. destruct b; reflexivity. Qed.
  Lemma arg0 (x : K) : IS_ARG_0 x = true -> x = 1%amp.
  Proof. unfold IS_ARG_0, IS_SAME. destruct (eqb_spec K x 1%amp); [auto|discriminate]. Qed.

  (** ** OptimizeBuffer *)
  Lemma optimize_controls a this s0 : consistent s0 ->
    same_effect s0 (OptimizeBuffer (csel a) (tsel a) (AddAnglesT po a) false this s0).
  Proof.
    intros C0. unfold OptimizeBuffer. apply (loop_inv _ (same_effect s0) (fun s e => sh_map s (tsel a) (fst e) this = Some (snd e)) fst).
    - intros s e Hs He. assert (C : consistent s) by apply Hs. destruct (cons_ok s C _ _ _ _ He) as (Hc & Ht & Hct & Hb & Ud & Us).
      destruct (isInvert (sh_heap s (snd e)) || negb (IS_ARG_0 (cmplxDiff (sh_heap s (snd e))))) eqn:Eb; [split; [exact Hs|auto]|].
      apply orb_false_iff in Eb. destruct Eb as [Ei Ed]. apply negb_false_iff in Ed. apply arg0 in Ed.
      destruct (move_step a this (fst e) (snd e) a (fst e) this 1%amp (cmplxSame (sh_heap s (snd e))) s
        (erase (csel a) this (fst e) (erase (tsel a) (fst e) this s)) C He (or_intror eq_refl)) as [H1 H2]; try assumption; try apply unit_one; try congruence.
      { intros psi. rewrite (buf_eta (sh_heap s (snd e))) at 1. rewrite Ed, Ei. apply swap_gate, Hct. }
      split; [eapply effect_trans; eassumption|]. intros e' Hn He'. rewrite H2; [exact He'| |]; [congruence|].
      destruct (cons_ok s C _ _ _ _ He') as (_ & _ & Hct' & _). intros [=]. congruence.
    - apply entries_nodup.
    - apply effect_refl, C0.
    - intros e He. apply entries_in in He. rewrite <- (cons_mirror s0 C0). apply He.
  Qed.
  Lemma optimize_targets a this s0 : consistent s0 ->
    same_effect s0 (OptimizeBuffer (tsel a) (csel a) (AddAnglesT po a) true this s0).
  Proof.
    intros C0. unfold OptimizeBuffer. apply (loop_inv _ (same_effect s0) (fun s e => sh_map s (tsel a) this (fst e) = Some (snd e)) fst).
    - intros s e Hs He. assert (C : consistent s) by apply Hs. destruct (cons_ok s C _ _ _ _ He) as (Hc & Ht & Hct & Hb & Ud & Us).
      destruct (isInvert (sh_heap s (snd e)) || negb (IS_ARG_0 (cmplxDiff (sh_heap s (snd e))))) eqn:Eb; [split; [exact Hs|auto]|].
      apply orb_false_iff in Eb. destruct Eb as [Ei Ed]. apply negb_false_iff in Ed. apply arg0 in Ed.
      destruct (move_step a (fst e) this (snd e) a this (fst e) 1%amp (cmplxSame (sh_heap s (snd e))) s
        (erase (tsel a) this (fst e) (erase (csel a) (fst e) this s)) C He (or_introl eq_refl)) as [H1 H2]; try assumption; try apply unit_one; try congruence.
      { intros psi. rewrite (buf_eta (sh_heap s (snd e))) at 1. rewrite Ed, Ei. apply swap_gate, Hct. }
      split; [eapply effect_trans; eassumption|]. intros e' Hn He'. rewrite H2; [exact He'| |]; [congruence|].
      destruct (cons_ok s C _ _ _ _ He') as (_ & _ & Hct' & _). intros [=]. congruence.
    - apply entries_nodup.
    - apply effect_refl, C0.
    - intros e He. apply entries_in in He. apply He.
  Qed.

  (** ** OptimizeBothTargets *)
  Definition both_step (a : bool) (this : N) (s : sh) (e : N * N) : sh :=
    let buffer := sh_heap s (snd e) in
    if isInvert buffer then s
    else if IS_ARG_0 (cmplxDiff buffer) then
      AddAnglesT po a (fst e) this 1%amp (cmplxSame buffer) (erase (tsel a) this (fst e) (erase (csel a) (fst e) this s))
    else if IS_ARG_0 (cmplxSame buffer) then
      AddAnglesT po (negb a) (fst e) this (cmplxDiff buffer) 1%amp (erase (tsel a) this (fst e) (erase (csel a) (fst e) this s))
    else s.
  Lemma both_loop a this s0 : consistent s0 -> same_effect s0 (fold_left (both_step a this) (entries s0 (tsel a) this) s0).
  Proof.
    intros C0. apply (loop_inv _ (same_effect s0) (fun s e => sh_map s (tsel a) this (fst e) = Some (snd e)) fst).
    - intros s e Hs He. assert (C : consistent s) by apply Hs. destruct (cons_ok s C _ _ _ _ He) as (Hc & Ht & Hct & Hb & Ud & Us). unfold both_step.
      destruct (isInvert (sh_heap s (snd e))) eqn:Ei; [split; [exact Hs|auto]|].
      destruct (IS_ARG_0 (cmplxDiff (sh_heap s (snd e)))) eqn:Ed; [|destruct (IS_ARG_0 (cmplxSame (sh_heap s (snd e)))) eqn:Es; [|split; [exact Hs|auto]]].
      + apply arg0 in Ed.
        destruct (move_step a (fst e) this (snd e) a this (fst e) 1%amp (cmplxSame (sh_heap s (snd e))) s
          (erase (tsel a) this (fst e) (erase (csel a) (fst e) this s)) C He (or_introl eq_refl)) as [H1 H2]; try assumption; try apply unit_one; try congruence.
        { intros psi. rewrite (buf_eta (sh_heap s (snd e))) at 1. rewrite Ed, Ei. apply swap_gate, Hct. }
        split; [eapply effect_trans; eassumption|]. intros e' Hn He'. rewrite H2; [exact He'| |]; [congruence|].
        destruct (cons_ok s C _ _ _ _ He') as (_ & _ & Hct' & _). intros [=]. congruence.
      + apply arg0 in Es.
        destruct (move_step a (fst e) this (snd e) (negb a) this (fst e) (cmplxDiff (sh_heap s (snd e))) 1%amp s
          (erase (tsel a) this (fst e) (erase (csel a) (fst e) this s)) C He (or_introl eq_refl)) as [H1 H2]; try assumption; try apply unit_one; try congruence.
        { intros psi. rewrite (buf_eta (sh_heap s (snd e))) at 1. rewrite Es, Ei. apply swap_gate_anti, Hct. }
        split; [eapply effect_trans; eassumption|]. intros e' Hn He'. rewrite H2; [exact He'| |]; [congruence|].
        destruct (cons_ok s C _ _ _ _ He') as (_ & _ & Hct' & _). intros [=]. congruence.
    - apply entries_nodup.
    - apply effect_refl, C0.
    - intros e He. apply entries_in in He. apply He.
  Qed.
  Lemma optimize_both this s0 : consistent s0 -> same_effect s0 (OptimizeBothTargets po this s0).
  Proof.
    intros C0. pose proof (both_loop false this s0 C0) as H1. set (s1 := fold_left (both_step false this) (entries s0 (tsel false) this) s0) in *.
    eapply effect_trans; [exact H1|]. assert (C1 : consistent s1) by apply H1. pose proof (both_loop true this s1 C1) as H2. exact H2.
  Qed.

  (** ** CombineGates *)
  Lemma combine_buffers a this s0 : consistent s0 -> same_effect s0 (CombineBuffers (tsel a) (csel a) (AddAnglesT po a) this s0).
  Proof.
    intros C0. unfold CombineBuffers.
    apply (loop_inv _ (same_effect s0) (fun s e => sh_map s (tsel a) (fst e) this = Some (snd e) /\ sh_map s (tsel a) this (fst e) = sh_map s0 (tsel a) this (fst e)) fst).
    - intros s e Hs [He He2]. assert (C : consistent s) by apply Hs. destruct (cons_ok s C _ _ _ _ He) as (Hc & Ht & Hct & Hb & Ud & Us).
      destruct (sh_map s0 (tsel a) this (fst e)) as [b2|] eqn:E2; [|split; [exact Hs|intros e' _ [R1 R2]; auto]].
      destruct (cons_ok s C _ _ _ _ He2) as (_ & _ & _ & Hb2 & Ud2 & Us2).
      destruct (negb (isInvert (sh_heap s (snd e))) && IS_ARG_0 (cmplxDiff (sh_heap s (snd e)))) eqn:Eb;
        [|destruct (negb (isInvert (sh_heap s b2)) && IS_ARG_0 (cmplxDiff (sh_heap s b2))) eqn:Eb2; [|split; [exact Hs|intros e' _ [R1 R2]; auto]]].
      + apply andb_true_iff in Eb. destruct Eb as [Ei Ed]. apply negb_true_iff in Ei. apply arg0 in Ed.
        destruct (move_step a this (fst e) (snd e) a (fst e) this 1%amp (cmplxSame (sh_heap s (snd e))) s
          (erase (csel a) this (fst e) (erase (tsel a) (fst e) this s)) C He (or_intror eq_refl)) as [H1 H2]; try assumption; try apply unit_one; try congruence.
        { intros psi. rewrite (buf_eta (sh_heap s (snd e))) at 1. rewrite Ed, Ei. apply swap_gate, Hct. }
        split; [eapply effect_trans; eassumption|]. intros e' Hn [R1 R2]. destruct (cons_ok s C _ _ _ _ R1) as (_ & _ & Hct' & _).
        rewrite !H2; [split; assumption| | | |]; congruence.
      + apply andb_true_iff in Eb2. destruct Eb2 as [Ei Ed]. apply negb_true_iff in Ei. apply arg0 in Ed.
        destruct (move_step a (fst e) this b2 a this (fst e) 1%amp (cmplxSame (sh_heap s b2)) s
          (erase (tsel a) this (fst e) (erase (csel a) (fst e) this s)) C He2 (or_introl eq_refl)) as [H1 H2]; try assumption; try apply unit_one; try congruence.
        { intros psi. rewrite (buf_eta (sh_heap s b2)) at 1. rewrite Ed, Ei. apply swap_gate; congruence. }
        split; [eapply effect_trans; eassumption|]. intros e' Hn [R1 R2]. destruct (cons_ok s C _ _ _ _ R1) as (_ & _ & Hct' & _).
        rewrite !H2; [split; assumption| | | |]; congruence.
    - apply entries_nodup.
    - apply effect_refl, C0.
    - intros e He. apply entries_in in He. rewrite <- (cons_mirror s0 C0). split; [apply He|reflexivity].
  Qed.
  Lemma combine_gates this s0 : consistent s0 -> same_effect s0 (CombineGates po this s0).
  Proof.
    intros C0. pose proof (combine_buffers false this s0 C0) as H1. set (s1 := CombineBuffers (tsel false) (csel false) (AddAnglesT po false) this s0) in *.
    eapply effect_trans; [exact H1|]. assert (C1 : consistent s1) by apply H1. exact (combine_buffers true this s1 C1).
  Qed.
End P.
