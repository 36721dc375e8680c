(** Proofs: results in the vocabulary of SpecShard.v; tools for examples. *)
From Coq Require Import NArith List Bool Lia Arith.
From Verif Require Import Amp PAmp SpecState PGates PGates2 PQCirc2 PQCirc3 MShard SpecShard PShard1 PShard2 PShard3 PShard4 PShard5 PShard6 PShard7 PShard8.
Import ListNotations.
Local Open Scope N_scope.

Section P.
  Context {K : StarRing} (po : Polar K).
  Add Ring KrBK : (sr_ring K).
  Local Notation sh := (shards K).
  Local Notation unit1 x := (anorm x = 1%amp).
  Implicit Types (s : sh).

  Definition added s s' (k : bool * N * N) (m : mat2 K) : Prop :=
    let '(a, c, t) := k in
    consistent s' /\ sh_size s' = sh_size s /\ commuting s' /\ forall psi, same_state (pending s' psi) (gate1 (fires a c) t m (pending s psi)).
  Lemma add_result a c t (d m : K) inv s : consistent s -> commuting s -> c < sh_size s -> t < sh_size s -> c <> t -> unit1 d -> unit1 m ->
    commutes_but s (a, c, t) (gate1 (fires a c) t (matrix_of a (mkPS d m inv))) ->
    added s (if inv then AddInvT po a t c d m s else AddAnglesT po a t c d m s) (a, c, t) (matrix_of a (mkPS d m inv)).
  Proof.
    intros C HC Hc Ht Hct Ud Um Hb. unfold added. destruct inv.
    - destruct (add_inv_ok po a c t d m s C Hc Ht Hct Ud Um) as [C1 G]. destruct (gains_result _ a c t s _ (gate1_proper _ _ _) Hc Ht G HC Hb) as [H1 H2].
      split; [exact C1|]. split; [apply G|]. split; [exact H1|exact H2].
    - destruct (add_angles_ok po a c t d m s C Hc Ht Hct Ud Um) as [C1 G]. destruct (gains_result _ a c t s _ (gate1_proper _ _ _) Hc Ht G HC Hb) as [H1 H2].
      split; [exact C1|]. split; [apply G|]. split; [exact H1|exact H2].
  Qed.

  Lemma effect_unchanged s s' : commuting s -> same_effect s s' -> unchanged s s'.
  Proof. intros HC (H1 & H2 & H3). destruct (H3 HC) as [H4 H5]. split; [exact H1|]. split; [exact H2|]. split; assumption. Qed.
  Lemma commute_h_carried q (h : K) s : consistent s -> commuting s -> h_ready s q -> (h * h + h * h = 1)%amp -> carried q (hmat h) s (CommuteH po q s).
  Proof.
    intros C HC R Hh. destruct (commute_h_view po q s C) as (C1 & E1 & _). pose proof (commute_h_gate po q h s C R) as G.
    split; [exact C1|]. split; [exact E1|]. split; [apply (conj_commuting q (hmat h) (hmat h) s _ (hmat_inv h Hh) G HC)|]. apply (conj_pending q (hmat h) s _ E1 G).
  Qed.
  Lemma commute_phase_carried q (tl br : K) s : consistent s -> commuting s -> unit1 tl -> unit1 br -> all_inverting s q \/ not_inverted s q ->
    carried q (mkMat tl 0%amp 0%amp br) s (CommutePhase po q tl br s).
  Proof.
    intros C HC U1 U2 R. destruct (commute_phase_state po q tl br s C U1 U2 R) as [C1 E1]. pose proof (commute_phase_gate po q tl br s C U1 U2 R) as G.
    split; [exact C1|]. split; [exact E1|]. split; [apply (conj_commuting q _ _ s _ (diag_inv tl br U1 U2) G HC)|]. apply (conj_pending q _ s _ E1 G).
  Qed.
  Lemma flip_carried q s : consistent s -> commuting s -> exists s', FlipPhaseAnti q s = Some s' /\ carried q (mkMat 0%amp 1%amp 1%amp 0%amp) s s'.
  Proof. intros C HC. destruct (flip_ok q s C HC) as (s' & H1 & H2 & H3 & H4 & H5). exists s'. split; [exact H1|]. split; [exact H2|]. split; [exact H3|]. split; [exact H4|exact H5]. Qed.

  (** Phase gates commute. *)
  Lemma diag_gates (P Q : N -> bool) t t' (a b c d : K) psi : same_state
    (gate1 P t (mkMat a 0%amp 0%amp b) (gate1 Q t' (mkMat c 0%amp 0%amp d) psi)) (gate1 Q t' (mkMat c 0%amp 0%amp d) (gate1 P t (mkMat a 0%amp 0%amp b) psi)).
  Proof. intros x. unfold gate1. cbn [m00 m01 m10 m11]. destruct (P x), (Q x), (N.testbit x t), (N.testbit x t'); ring. Qed.
  Definition only_phases s : Prop := forall a c t b, buffer_of s a c t = Some b -> isInvert b = false.
  Lemma diag_matrix a (b : PhaseShard K) : isInvert b = false -> exists p q, matrix_of a b = mkMat p 0%amp 0%amp q.
  Proof. destruct b as [d m i]. cbn. intros ->. rewrite matrix_mk. destruct a; eauto. Qed.
  Lemma phases_commute s : only_phases s -> commuting s /\ forall k P t (a b : K), commutes_but s k (gate1 P t (mkMat a 0%amp 0%amp b)).
  Proof.
    intros H. split.
    - intros [[a c] t] [[a' c'] t'] psi. rewrite !gate_at_eq. destruct (buffer_of s a c t) as [b|] eqn:Eb; [|apply ss_refl]. destruct (buffer_of s a' c' t') as [b'|] eqn:Eb'; [|apply ss_refl].
      cbn [gate_buf]. destruct (diag_matrix a b (H _ _ _ _ Eb)) as (p & q & ->). destruct (diag_matrix a' b' (H _ _ _ _ Eb')) as (p' & q' & ->). apply diag_gates.
    - intros k P t a b [[a' c'] t'] psi _. rewrite !gate_at_eq. destruct (buffer_of s a' c' t') as [b'|] eqn:Eb'; [|apply ss_refl].
      cbn [gate_buf]. destruct (diag_matrix a' b' (H _ _ _ _ Eb')) as (p' & q' & ->). apply diag_gates.
  Qed.
  Lemma new_commuting n : commuting (newShards (K := K) n) /\ forall k g, commutes_but (newShards (K := K) n) k g.
  Proof.
    split; [intros [[a c] t] [[a' c'] t'] psi; apply ss_refl|]. intros k g [[a' c'] t'] psi _. apply ss_refl.
  Qed.

  (** Checking all pairs of a given state. *)
  Lemma pairs_forall (p : bool * N * N -> PhaseShard K -> bool) s : consistent s ->
    forallb (fun k => match buffer_of s (fst (fst k)) (snd (fst k)) (snd k) with Some b => p k b | None => true end) (all_pairs (sh_size s)) = true ->
    forall a c t b, buffer_of s a c t = Some b -> p (a, c, t) b = true.
  Proof.
    intros C H a c t b Eb. rewrite forallb_forall in H. destruct (buffer_bounds s a c t b C Eb) as (H1 & H2 & _).
    specialize (H (a, c, t)). cbn [fst snd] in H. rewrite Eb in H. apply H. apply pairs_in. auto.
  Qed.
  (** A gate that multiplies by a number where qubit [c] is set commutes with gates on the other qubits. *)
  Lemma scalar_commutes a c P t (d : K) (M : mat2 K) t' psi : c <> t ->
    same_state (gate1 P t M (gate1 (fires a c) t' (mkMat d 0%amp 0%amp d) psi)) (gate1 (fires a c) t' (mkMat d 0%amp 0%amp d) (gate1 P t M psi)).
  Proof.
    intros Hct x. unfold gate1. cbn [m00 m01 m10 m11].
    assert (F1 : fires a c (N.setbit x t) = fires a c x). { unfold fires. rewrite tb_setbit. destruct (N.eqb_spec t c); [congruence|]. reflexivity. }
    assert (F2 : fires a c (N.clearbit x t) = fires a c x). { unfold fires. rewrite tb_clearbit. destruct (N.eqb_spec t c); [congruence|]. cbn [negb]. rewrite andb_true_r. reflexivity. }
    rewrite F1, F2. destruct (P x), (N.testbit x t), (fires a c x); destruct (N.testbit x t'); destruct (N.testbit (N.setbit x t) t'), (N.testbit (N.clearbit x t) t'); ring.
  Qed.
  Lemma calls_get os n s : Forall (proper_call n) os -> calls po os (newShards n) = Some s -> consistent s.
  Proof. intros H E. destruct (calls_ok po os (newShards n) (new_consistent n) H) as (s' & E' & C & _). congruence. Qed.
End P.
