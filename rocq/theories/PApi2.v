(** Proofs about the C interface, part 2: one call. *)
From Coq Require Import NArith List Bool Lia Permutation Ring.
From Verif Require Import Bits MFunctions SpecFunctions PFunctions MParFor PParFor MKernel PKernel Amp PAmp SpecState MEngine SpecEngine PLoop PApply PGates PGates2 PCompose PProb
  PShard2 PQCirc1 PQCirc4 SpecUnit3 MQCircuit MTensor SpecApi MApi SpecApi2 PApi1.
Import ListNotations.
Local Open Scope N_scope.

Lemma set_nth_same {T} i (x y : T) l : nth_error l i = Some y -> nth_error (set_nth i x l) i = Some x.
Proof. revert i. induction l as [|a t IH]; intros [|i] H; cbn in *; try discriminate; auto. apply (IH i H). Qed.
Lemma set_nth_other {T} i j (x : T) l : j <> i -> nth_error (set_nth i x l) j = nth_error l j.
Proof. revert i j. induction l as [|a t IH]; intros [|i] [|j] H; cbn; auto; try congruence. apply (IH i j). congruence. Qed.
Lemma set_nth_len {T} i (x : T) l : length (set_nth i x l) = length l.
Proof. revert i. induction l as [|a t IH]; intros [|i]; cbn; auto. f_equal. apply IH. Qed.

Section Steps.
  Context {K : StarRing} (c : @acfg K).
  Local Notation nstate := ((N -> bool) -> K).
  Local Open Scope amp_scope.
  Add Ring KrDK : (sr_ring K).
  Implicit Type Psi : nstate.

  Lemma lookup_in {T} a sid (s : slot) (bad : out T) f : nth_error (a_slots a) (N.to_nat sid) = Some s -> lookup (K := K) sid a bad f = f s.
  Proof.
    intros H. unfold lookup, count. rewrite H. assert (X : (N.to_nat sid < length (a_slots a))%nat) by (apply nth_error_Some; congruence).
    now destruct (N.ltb_spec (N.of_nat (length (a_slots a))) sid); [lia|].
  Qed.
  Lemma put_at a sid s s' : nth_error (a_slots a) (N.to_nat sid) = Some s -> nth_error (a_slots (put (K := K) sid s' a)) (N.to_nat sid) = Some s'.
  Proof. intros H. cbn [put a_slots]. eapply set_nth_same; eauto. Qed.
  Lemma put_only a sid s s' d : nth_error (a_slots a) (N.to_nat sid) = Some s -> sl_err s' = sl_err s -> sl_res s' = sl_res s -> only_at (K := K) sid a (mkApi (a_slots (put sid s' a)) (a_meta a) d).
  Proof.
    intros H1 H2 H3. split; [reflexivity|]. split; [apply set_nth_len|]. split.
    - intros i Hi. now apply set_nth_other.
    - intros t t' E1 E2. cbn [a_slots] in E2. rewrite (put_at _ _ _ _ H1) in E2. rewrite H1 in E1. injection E1 as <-. injection E2 as <-. auto.
  Qed.
  Lemma only_refl sid a : only_at (K := K) sid a a.
  Proof. repeat split; auto; rewrite H in H0; injection H0 as ->; auto. Qed.
  Lemma only_trans sid a b d : only_at (K := K) sid a b -> only_at sid b d -> (exists s, nth_error (a_slots b) (N.to_nat sid) = Some s) -> only_at sid a d.
  Proof.
    intros (A1 & A2 & A3 & A4) (B1 & B2 & B3 & B4) (t & T). repeat split; try congruence.
    - intros i Hi. rewrite B3; auto.
    - destruct (A4 s t H T), (B4 t s' T H0). congruence.
    - destruct (A4 s t H T), (B4 t s' T H0). congruence.
  Qed.

  Lemma some_sim s ids q (m : list (N * N)) : snd (sim_of s) = m -> Permutation (map fst m) ids -> In q ids -> sl_sim s = Some (sim_of (K := K) s).
  Proof.
    intros H1 H2 H3. unfold sim_of in *. destruct (sl_sim s); auto. cbn [snd] in H1. subst. apply Permutation_nil in H2. subst. destruct H3.
  Qed.
  Lemma valid_ok n l : (forall q, In q l -> (q < n)%N) -> NoDup l -> valid_qubits n l = true.
  Proof.
    intros H1 H2. unfold valid_qubits. apply andb_true_intro. split.
    - apply forallb_forall. intros q Hq. apply N.ltb_lt. auto.
    - clear H1. induction H2 as [|a t X1 X2 IH]; cbn [distinct]; auto. rewrite IH, andb_true_r. destruct (smem a t) eqn:E; auto. apply smem_In in E. contradiction.
  Qed.
  Lemma shard_ok n m q : names n m -> In q (map fst m) -> (q < 256)%N -> exists v, In (q, v) m /\ mfind q m = Some v /\ (v < n)%N /\ shard_id m q = v.
  Proof.
    intros H1 H2 H3. destruct (names_pos n m H1 q H2) as (v & V1 & V2 & V3). exists v. repeat split; auto. unfold shard_id, w8. rewrite N.mod_small by auto. now rewrite V2.
  Qed.
  Lemma shard_inj n m q q' : names n m -> In q (map fst m) -> In q' (map fst m) -> (q < 256)%N -> (q' < 256)%N -> shard_id m q = shard_id m q' -> q = q'.
  Proof.
    intros H1 H2 H3 H4 H5 E. destruct (shard_ok n m q H1 H2 H4) as (v & V1 & _ & _ & V4), (shard_ok n m q' H1 H3 H5) as (v' & W1 & _ & _ & W4).
    assert (X : v' = v) by congruence. rewrite X in W1. apply (value_key m q q' v); auto. apply (names_vals n m H1).
  Qed.
  Lemma reads_anorm Q m Psi : reads_named Q m Psi -> forall f, anorm (s_v Q (index_of m f)) = anorm (Psi f).
  Proof. intros (ph & H1 & H2) f. rewrite H2, anorm_mul, H1. ring. Qed.
  Lemma holds_put a sid s Q m ids Psi e r d : nth_error (a_slots a) (N.to_nat sid) = Some s -> names (s_n Q) m -> Permutation (map fst m) ids -> nweight ids (fun _ => true) Psi = 1 -> reads_named Q m Psi ->
    holds (mkApi (a_slots (put sid (mkSlot r (Some (Q, m)) e) a)) (a_meta a) d) sid ids Psi.
  Proof. intros H1 H2 H3 H4 H5. exists (mkSlot r (Some (Q, m)) e). cbn [a_slots]. rewrite (put_at _ _ _ _ H1). auto. Qed.
  Lemma api_eta a : mkApi (K := K) (a_slots a) (a_meta a) (a_draw a) = a.
  Proof. now destruct a. Qed.
  Lemma put_eta sid s a : put (K := K) sid s a = mkApi (a_slots (put sid s a)) (a_meta a) (a_draw a).
  Proof. reflexivity. Qed.

  (** ** Gates *)
  Lemma ctrl_index n m (want : bool) cs f : names n m -> incl cs (map fst m) -> (forall q, In q cs -> (q < 256)%N) ->
    (if want then all_set (map (shard_id m) cs) else all_clear (map (shard_id m) cs)) (index_of m f) = forallb (fun q => eqb (f q) want) cs.
  Proof.
    intros H1. induction cs as [|q t IH]; intros H2 H3. { now destruct want. }
    destruct (shard_ok n m q H1) as (v & V1 & _ & _ & V4); [apply H2; now left | apply H3; now left|].
    assert (IH' := IH (fun x Hx => H2 x (or_intror Hx)) (fun x Hx => H3 x (or_intror Hx))). cbn [map forallb]. rewrite <- IH'.
    pose proof (index_bit m f q v (names_vals n m H1) V1) as B. destruct want; unfold all_set, all_clear; cbn [forallb]; rewrite V4, B; now destruct (f q).
  Qed.
  Lemma gate_named n m (want : bool) cs (mm : mat2 K) q v Psi ph : names n m -> incl (q :: cs) (map fst m) -> (forall x, In x (q :: cs) -> (x < 256)%N) ->
    (forall f, v (index_of m f) = ph * Psi f) -> forall f, gate1 (if want then all_set (map (shard_id m) cs) else all_clear (map (shard_id m) cs)) (shard_id m q) mm v (index_of m f) = ph * ngate want cs mm q Psi f.
  Proof.
    intros H1 H2 H3 H4 f. unfold gate1, ngate. rewrite (ctrl_index n m want cs f H1 (fun x Hx => H2 x (or_intror Hx)) (fun x Hx => H3 x (or_intror Hx))).
    destruct (shard_ok n m q H1) as (t & V1 & _ & _ & V4); [apply H2; now left | apply H3; now left|]. rewrite V4.
    rewrite (index_bit m f q t (names_vals n m H1) V1). destruct (forallb _ cs); auto.
    pose proof (index_upd m f q t true (names_keys n m H1) (names_vals n m H1) V1) as U1. pose proof (index_upd m f q t false (names_keys n m H1) (names_vals n m H1) V1) as U2. cbn in U1, U2.
    destruct (f q); rewrite <- ?U1, <- ?U2, !H4; ring.
  Qed.
  Lemma step_gate a sid ids Psi want cs mm q : holds a sid ids Psi -> (forall x, In x ids -> (x < 256)%N) -> unitary2 mm -> NoDup (q :: cs) -> incl (q :: cs) ids ->
    exists a', api_gate sid want cs mm q a = Ret a' /\ holds a' sid ids (ngate want cs mm q Psi) /\ only_at sid a a'.
  Proof.
    intros (s & S1 & S2 & S3 & S4 & S5) HI U ND IN. unfold api_gate, on_sim. rewrite (lookup_in _ _ s) by auto.
    rewrite (some_sim s ids q _ eq_refl S3) by (apply IN; now left). destruct (sim_of s) as [Q m] eqn:ES. cbn [fst snd] in *.
    assert (IN' : incl (q :: cs) (map fst m)). { intros x Hx. eapply Permutation_in; [apply Permutation_sym; apply S3|]. auto. }
    assert (LT : forall x, In x (q :: cs) -> (x < 256)%N) by (intros x Hx; apply HI; auto).
    assert (VQ : valid_qubits (s_n Q) (shard_id m q :: map (shard_id m) cs) = true).
    { change (shard_id m q :: map (shard_id m) cs) with (map (shard_id m) (q :: cs)). apply valid_ok.
      - intros x Hx. apply in_map_iff in Hx. destruct Hx as (y & <- & Hy). destruct (shard_ok _ m y S2) as (v & _ & _ & V3 & ->); auto.
      - clear - ND IN' LT S2. induction ND as [|x t X1 X2 IH]; cbn [map]; constructor.
        + intros X. apply in_map_iff in X. destruct X as (y & E & Y). apply X1. replace x with y; auto.
          apply (shard_inj _ m y x S2); auto; try (apply IN'; cbn [In]; auto); apply LT; cbn [In]; auto.
        + apply IH. intros y Hy; apply IN'; now right. intros y Hy; apply LT; now right. }
    unfold sim_gate. rewrite VQ. cbn [keep bind]. eexists. split; [reflexivity|]. split.
    - rewrite put_eta. destruct S5 as (ph & P1 & P2). eapply holds_put; eauto. 2:{ exists ph. split; auto. intros f. cbn [s_v]. apply (gate_named (s_n Q)); auto. }
      rewrite <- S4. rewrite <- (norm_named (s_n Q) m ids (s_v Q) Psi), <- (norm_named (s_n Q) m ids (gate1 (if want then all_set (map (shard_id m) cs) else all_clear (map (shard_id m) cs)) (shard_id m q) mm (s_v Q)) (ngate want cs mm q Psi)); auto.
      + apply gate1_norm; auto.
        * destruct (shard_ok _ m q S2) as (v & _ & _ & V3 & ->); auto; [apply IN'|apply LT]; now left.
        * assert (NI : ~ In (shard_id m q) (map (shard_id m) cs)).
          { intros X. apply in_map_iff in X. destruct X as (y & E & Y). inversion ND as [|? ? X1 X2]; subst. apply X1. replace q with y; auto.
            apply (shard_inj _ m y q S2); auto; try (apply IN'; cbn [In]; auto); apply LT; cbn [In]; auto. }
          clear - NI. intros x. assert (E : forall b t, ~ In (shard_id m q) t -> all_set t (if b : bool then N.setbit x (shard_id m q) else N.clearbit x (shard_id m q)) = all_set t x /\ all_clear t (if b : bool then N.setbit x (shard_id m q) else N.clearbit x (shard_id m q)) = all_clear t x).
          { intros b t. induction t as [|y t IH]; intros H; auto. destruct IH as [I1 I2]. { intros X. apply H. now right. }
            unfold all_set, all_clear in *. cbn [forallb]. rewrite I1, I2, tb_setto. destruct (N.eqb_spec (shard_id m q) y); auto. exfalso. apply H. now left. }
          destruct (E true _ NI), (E false _ NI). destruct want; auto.
      + intros f. rewrite (gate_named (s_n Q) m want cs mm q (s_v Q) Psi ph) by auto. rewrite anorm_mul, P1. ring.
      + intros f. rewrite P2, anorm_mul, P1. ring.
    - rewrite put_eta. eapply put_only; eauto.
  Qed.
End Steps.
