(** Proofs for QUnit: the gates S, IS, Phase and Invert without buffers, and families of buffers. *)
From Coq Require Import Arith NArith List Bool Lia Ring.
From Verif Require Import Bits MFunctions SpecFunctions PFunctions MKernel PKernel Amp PAmp SpecState PApply PCompose PGates PGates2 PProb PQCirc2 PQCirc3 PEngine MShard SpecShard MUnit PShard1 PShard2 PShard5 PShard6 PShard7 PShard9 PUnit1 PUnit2 PUnit3 PUnit4 PUnit5 PUnit6 PUnit7 PUnit8.
Import ListNotations.
Local Open Scope N_scope.
Local Notation up n := (upto (N.to_nat n)).

Section P.
  Context {K : StarRing} (cx : Cplx K) (D : definite (K := K)).
  Add Ring KrBX : (sr_ring K).
  Local Notation wf := (wf cx).
  Local Notation vec := (N -> K).
  Local Notation unit1 x := (anorm x = 1%amp).
  Local Notation M2 := (mat2 K).
  Local Notation qu := (qunit K).
  Local Notation framed := (framed cx).
  Local Notation ii := (cx_i cx).
  Local Notation hh := (cx_h cx).
  Local Notation acts := (acts cx).
  Implicit Types (U V : qu) (psi phi : vec).

  Lemma acts_then q M1 M2' U V X : acts q M1 U V -> acts q M2' V X -> acts q (mmul M2' M1) U X.
  Proof.
    intros [A1 A2 A3 A4 A5] [B1 B2 B3 B4 B5]. split; auto; [|eapply kept_trans; eassumption|congruence].
    eapply like_trans; [exact B3|]. eapply like_trans; [apply like_gate, A3|]. apply like_ss. intros x. rewrite gate1_compose by apply indep_always. reflexivity.
  Qed.
  Lemma acts_id q U : wf U -> neat U -> acts q midn U U.
  Proof. intros W N0. split; auto; [|apply kept_refl]. apply like_ss, ss_sym. intros x. apply gate1_one. Qed.
  Lemma acts_scalar q (c : K) (M M' : M2) U V : acts q M U V -> unit1 c -> M' = mmul (phaseM c c) M -> acts q M' U V.
  Proof.
    intros [A1 A2 A3 A4 A5] Hc ->. split; auto. eapply like_trans; [exact A3|]. apply like_sym.
    apply (like_c c); [exact Hc|]. intros x. rewrite <- (gate_scalar c q (gate1 always q M (framed U)) x).
    change (mkMat c 0%amp 0%amp c) with (phaseM c c). rewrite gate1_compose by apply indep_always. reflexivity.
  Qed.

  (** The gates without the buffers. *)
  Definition core_S (q : N) (U : qu) : qu :=
    match s_bas (u_sh U q) with
    | PauliY => XBase q (on_sh q (w_bas PauliX) U)
    | PauliX => on_sh q (w_bas PauliY) U
    | PauliZ => on_sh q (fun s => w_amps (s_a0 s) (ii * s_a1 s)%amp s) (unit_gate q (mkMat 1 0 0 ii)%amp U)
    end.
  Definition core_IS (q : N) (U : qu) : qu :=
    match s_bas (u_sh U q) with
    | PauliY => on_sh q (w_bas PauliX) U
    | PauliX => XBase q (on_sh q (w_bas PauliY) U)
    | PauliZ => on_sh q (fun s => w_amps (s_a0 s) (- ii * s_a1 s)%amp s) (unit_gate q (mkMat 1 0 0 (- ii))%amp U)
    end.
  Definition core_phase (tl br : K) (q : N) (U : qu) : qu :=
    match s_bas (u_sh U q) with
    | PauliZ => on_sh q (fun s => w_amps (s_a0 s * tl)%amp (s_a1 s * br)%amp s) (unit_gate q (mkMat tl 0 0 br)%amp U)
    | _ => general cx q (TransformPhase cx tl br) U
    end.
  Definition core_invert (tr bl : K) (q : N) (U : qu) : qu :=
    match s_bas (u_sh U q) with
    | PauliZ => on_sh q (fun s => w_amps (tr * s_a1 s)%amp (bl * s_a0 s)%amp s) (unit_gate q (mkMat 0 tr bl 0)%amp U)
    | PauliX => general cx q (TransformXInvert cx tr bl) U
    | PauliY => general cx q (TransformYInvert cx tr bl) U
    end.
  Lemma GateS_eq q U : GateS cx q U = core_S q (onbuf (CommutePhase (cx_po cx) q 1%amp ii) U). Proof. reflexivity. Qed.
  Lemma GateIS_eq q U : GateIS cx q U = core_IS q (onbuf (CommutePhase (cx_po cx) q 1%amp (- ii)%amp) U). Proof. reflexivity. Qed.

  Lemma y_is_sx : bmat cx PauliY = mmul (phaseM 1 ii)%amp (bmat cx PauliX).
  Proof. apply mat2_eq; unfold bmat, mSH, mH, phaseM, mmul; cbn [m00 m01 m10 m11]; ring. Qed.
  Lemma x_is_isy : bmat cx PauliX = mmul (phaseM 1 (- ii))%amp (bmat cx PauliY).
  Proof.
    apply mat2_eq; unfold bmat, mSH, mH, phaseM, mmul; cbn [m00 m01 m10 m11]; try ring.
    - transitivity (- (ii * (ii * hh)))%amp; [rewrite (isq_l cx); ring|ring].
    - transitivity (ii * (ii * hh))%amp; [rewrite (isq_l cx); ring|ring].
  Qed.
  Lemma x_conj b : b <> PauliZ -> mmul (bmat cx b) mX = mmul (phaseM 1 (- (1)))%amp (bmat cx b).
  Proof. intros Hb. destruct b; [congruence| |]; apply mat2_eq; unfold bmat, mSH, mH, mX, phaseM, mmul; cbn [m00 m01 m10 m11]; ring. Qed.

  Lemma core_S_ok q U : wf U -> neat U -> q < u_n U -> let V := core_S q U in acts q (phaseM 1 ii)%amp U V /\ (forall p, p <> q -> bas_of V p = bas_of U p) /\ (bas_of U q = PauliZ -> bas_of V q = PauliZ).
  Proof.
    intros W N0 Hq. cbn zeta. unfold core_S. destruct (s_bas (u_sh U q)) eqn:Eb.
    - destruct (zphase_ok cx 1%amp ii (fun s => w_amps (s_a0 s) (ii * s_a1 s)%amp s) q U W N0 Hq Eb (one_unit) (i_u cx)) as [A B].
      + f_equal. ring.
      + split; [exact A|]. split; [intros p _; apply B|intros _; rewrite <- Eb; apply B].
    - assert (E : bmat cx PauliY = mmul (phaseM 1 ii)%amp (bmat cx (bas_of U q))) by (unfold bas_of; rewrite Eb; apply y_is_sx).
      destruct (rebase_ok cx PauliY q _ U W N0 Hq E) as (A & B & C). split; [exact A|]. split; [exact C|]. unfold bas_of. rewrite Eb. discriminate.
    - assert (E : bmat cx PauliX = mmul (phaseM 1 (- ii))%amp (bmat cx (bas_of U q))) by (unfold bas_of; rewrite Eb; apply x_is_isy).
      destruct (rebase_ok cx PauliX q _ U W N0 Hq E) as (A & B & C). set (U1 := on_sh q (w_bas PauliX) U) in *.
      assert (Hq1 : q < u_n U1) by exact Hq.
      assert (E1 : mmul (bmat cx (bas_of U1 q)) mX = mmul (phaseM 1 (- (1)))%amp (bmat cx (bas_of U1 q))) by (rewrite B; apply x_conj; discriminate).
      destruct (xbase_ok cx q _ U1 (ac_wf _ _ _ _ _ A) (ac_neat _ _ _ _ _ A) Hq1 E1) as (A1 & B1). cbv zeta in A1, B1.
      split; [|split; [intros p Hp; rewrite B1; apply C, Hp|unfold bas_of; rewrite Eb; discriminate]].
      pose proof (acts_then _ _ _ _ _ _ A A1) as A2. replace (phaseM 1 ii)%amp with (mmul (phaseM 1 (- (1))) (phaseM 1 (- ii)))%amp; [exact A2|].
      apply mat2_eq; unfold phaseM, mmul; cbn [m00 m01 m10 m11]; ring.
  Qed.
  Lemma core_IS_ok q U : wf U -> neat U -> q < u_n U -> let V := core_IS q U in acts q (phaseM 1 (- ii))%amp U V /\ (forall p, p <> q -> bas_of V p = bas_of U p) /\ (bas_of U q = PauliZ -> bas_of V q = PauliZ).
  Proof.
    intros W N0 Hq. cbn zeta. unfold core_IS. destruct (s_bas (u_sh U q)) eqn:Eb.
    - destruct (zphase_ok cx 1%amp (- ii)%amp (fun s => w_amps (s_a0 s) (- ii * s_a1 s)%amp s) q U W N0 Hq Eb (one_unit) (ni_u cx)) as [A B].
      + f_equal. ring.
      + split; [exact A|]. split; [intros p _; apply B|intros _; rewrite <- Eb; apply B].
    - assert (E : bmat cx PauliY = mmul (phaseM 1 ii)%amp (bmat cx (bas_of U q))) by (unfold bas_of; rewrite Eb; apply y_is_sx).
      destruct (rebase_ok cx PauliY q _ U W N0 Hq E) as (A & B & C). set (U1 := on_sh q (w_bas PauliY) U) in *.
      assert (Hq1 : q < u_n U1) by exact Hq.
      assert (E1 : mmul (bmat cx (bas_of U1 q)) mX = mmul (phaseM 1 (- (1)))%amp (bmat cx (bas_of U1 q))) by (rewrite B; apply x_conj; discriminate).
      destruct (xbase_ok cx q _ U1 (ac_wf _ _ _ _ _ A) (ac_neat _ _ _ _ _ A) Hq1 E1) as (A1 & B1). cbv zeta in A1, B1.
      split; [|split; [intros p Hp; rewrite B1; apply C, Hp|unfold bas_of; rewrite Eb; discriminate]].
      pose proof (acts_then _ _ _ _ _ _ A A1) as A2. replace (phaseM 1 (- ii))%amp with (mmul (phaseM 1 (- (1))) (phaseM 1 ii))%amp; [exact A2|].
      apply mat2_eq; unfold phaseM, mmul; cbn [m00 m01 m10 m11]; ring.
    - assert (E : bmat cx PauliX = mmul (phaseM 1 (- ii))%amp (bmat cx (bas_of U q))) by (unfold bas_of; rewrite Eb; apply x_is_isy).
      destruct (rebase_ok cx PauliX q _ U W N0 Hq E) as (A & B & C). split; [exact A|]. split; [exact C|]. unfold bas_of. rewrite Eb. discriminate.
  Qed.
  Lemma core_phase_ok tl br q U : wf U -> neat U -> q < u_n U -> unit1 tl -> unit1 br -> let V := core_phase tl br q U in
    acts q (phaseM tl br) U V /\ (bas_of U q = PauliZ -> forall p, bas_of V p = bas_of U p).
  Proof.
    intros W N0 Hq Ht Hb. cbn zeta. unfold core_phase.
    assert (G : forall b, s_bas (u_sh U q) = b -> b <> PauliZ -> acts q (phaseM tl br) U (general cx q (TransformPhase cx tl br) U)).
    { intros b Eb Hz. assert (I : in_basis cx (bas_of U q) (phaseM tl br) (TransformPhase cx tl br)).
      { pose proof (trns_phase cx tl br (bas_of U q)) as I. unfold bas_of in *. rewrite Eb in *. destruct b; [congruence|exact I|exact I]. }
      apply (general_ok cx D (TransformPhase cx tl br) (phaseM tl br) q U W N0 Hq); [|exact I]. apply (in_basis_unitary cx _ _ _ (diag_unitary tl br Ht Hb) I). }
    destruct (s_bas (u_sh U q)) eqn:Eb.
    - destruct (zphase_ok cx tl br (fun s => w_amps (s_a0 s * tl)%amp (s_a1 s * br)%amp s) q U W N0 Hq Eb Ht Hb) as [A B].
      + f_equal; ring.
      + split; [exact A|intros _; exact B].
    - split; [apply (G PauliX); [reflexivity|discriminate]|]. unfold bas_of. rewrite Eb. discriminate.
    - split; [apply (G PauliY); [reflexivity|discriminate]|]. unfold bas_of. rewrite Eb. discriminate.
  Qed.
  Lemma core_invert_ok tr bl q U : wf U -> neat U -> q < u_n U -> unit1 tr -> unit1 bl -> let V := core_invert tr bl q U in
    acts q (invertM tr bl) U V /\ (bas_of U q = PauliZ -> forall p, bas_of V p = bas_of U p).
  Proof.
    intros W N0 Hq Ht Hb. cbn zeta. unfold core_invert. pose proof (trns_invert cx tr bl (bas_of U q)) as I. unfold bas_of in I.
    destruct (s_bas (u_sh U q)) eqn:Eb.
    - destruct (zinvert_ok cx tr bl q U W N0 Hq Eb Ht Hb) as [A B]. split; [exact A|intros _; exact B].
    - split; [|unfold bas_of; rewrite Eb; discriminate].
      apply (general_ok cx D _ (invertM tr bl) q U W N0 Hq); [apply (in_basis_unitary cx _ _ _ (anti_unitary tr bl Ht Hb) I)|unfold bas_of; rewrite Eb; exact I].
    - split; [|unfold bas_of; rewrite Eb; discriminate].
      apply (general_ok cx D _ (invertM tr bl) q U W N0 Hq); [apply (in_basis_unitary cx _ _ _ (anti_unitary tr bl Ht Hb) I)|unfold bas_of; rewrite Eb; exact I].
  Qed.

  (** ** Buffers *)
  Implicit Types (s : shards K).
  (** A buffer that inverts its target is the only one that touches it. *)
  Definition exclusive (s : shards K) : Prop := forall a c t b, buffer_of s a c t = Some b -> isInvert b = true ->
    forall a' c' t' b', buffer_of s a' c' t' = Some b' -> c' = t \/ t' = t -> (a', c', t') = (a, c, t).
  Lemma gate1_at P t (m : M2) psi x : gate1 P t m psi x = ((if P x then dia m (N.testbit x t) else 1) * psi x + (if P x then off m (N.testbit x t) else 0) * psi (fx t x))%amp.
  Proof.
    destruct (P x) eqn:E; [|unfold gate1; rewrite E; ring]. rewrite <- gate1_fx. unfold gate1, always. rewrite E. reflexivity.
  Qed.
  Lemma indep_fx P t x : indep P t -> P (fx t x) = P x.
  Proof. intros H. destruct (H x) as [HS HC]. destruct (N.testbit x t) eqn:E; [rewrite <- clear_fx by exact E; exact HC|rewrite <- set_fx by exact E; exact HS]. Qed.
  Lemma gates_commute P t (m : M2) Q t' (m' : M2) psi : t <> t' -> indep Q t -> indep P t' \/ diag m' ->
    same_state (gate1 P t m (gate1 Q t' m' psi)) (gate1 Q t' m' (gate1 P t m psi)).
  Proof.
    intros Ht HQ HP x. rewrite (gate1_at P t m), (gate1_at Q t' m'), (gate1_at Q t' m'), (gate1_at Q t' m'), (gate1_at P t m), (gate1_at P t m), (indep_fx Q t x HQ).
    assert (E1 : N.testbit (fx t x) t' = N.testbit x t') by (apply tb_fx_neq, Ht).
    assert (E2 : N.testbit (fx t' x) t = N.testbit x t) by (apply tb_fx_neq; congruence).
    rewrite E1, E2, (fx_comm t' t). destruct HP as [HP|[D1 D2]].
    - rewrite (indep_fx P t' x HP). ring.
    - assert (O : off m' (N.testbit x t') = 0%amp) by (unfold off; destruct (N.testbit x t'); assumption). rewrite O.
      destruct (Q x); ring.
  Qed.
  Lemma diag_of a (b : PhaseShard K) : isInvert b = false -> diag (matrix_of a b).
  Proof. intros E. unfold matrix_of. rewrite E. destruct a; split; reflexivity. Qed.
  Lemma anti_of a (b : PhaseShard K) : isInvert b = true -> anti (matrix_of a b).
  Proof. intros E. unfold matrix_of. rewrite E. destruct a; split; reflexivity. Qed.
  Lemma unitary_of s a c t (b : PhaseShard K) : consistent s -> buffer_of s a c t = Some b -> unitary2 (matrix_of a b).
  Proof.
    intros C E. destruct (buffer_units s a c t b C E) as [U1 U2]. unfold matrix_of. destruct (isInvert b), a; (apply anti_unitary || apply diag_unitary); assumption.
  Qed.
  Lemma diag_eta (m : M2) : diag m -> m = phaseM (m00 m) (m11 m).
  Proof. intros [D1 D2]. apply mat2_eq; unfold phaseM; cbn [m00 m01 m10 m11]; auto. Qed.
  Lemma key_range s a c t b : consistent s -> buffer_of (K := K) s a c t = Some b -> c < sh_size s /\ t < sh_size s /\ c <> t.
  Proof.
    intros C E. unfold buffer_of in E. fold (tsel a) in E. destruct (sh_map s (tsel a) t c) as [i|] eqn:F; [|discriminate].
    destruct (cons_ok s C a c t i F) as (H1 & H2 & H3 & _). auto.
  Qed.
  (** A gate on [t] where the control [c] fires, against the buffered gates. *)
  Lemma exclusive_commuting s : consistent s -> exclusive s -> commuting s.
  Proof.
    intros C X. assert (G : forall a c t a' c' t' b b' psi, buffer_of s a c t = Some b -> buffer_of s a' c' t' = Some b' -> isInvert b = true ->
      same_state (gate1 (fires a c) t (matrix_of a b) (gate1 (fires a' c') t' (matrix_of a' b') psi)) (gate1 (fires a' c') t' (matrix_of a' b') (gate1 (fires a c) t (matrix_of a b) psi))).
    { intros a c t a' c' t' b b' psi E E' Ib. destruct (key_range _ _ _ _ _ C E) as (R1 & R2 & R3). destruct (key_range _ _ _ _ _ C E') as (R1' & R2' & R3').
      destruct (N.eq_dec t' t) as [Et|Ht]; [|destruct (N.eq_dec c' t) as [Ec|Hc]].
      - pose proof (X _ _ _ _ E Ib _ _ _ _ E' (or_intror Et)) as Ek. injection Ek as -> -> ->. rewrite E in E'. injection E' as <-. apply ss_refl.
      - pose proof (X _ _ _ _ E Ib _ _ _ _ E' (or_introl Ec)) as Ek. injection Ek as -> -> ->. rewrite E in E'. injection E' as <-. apply ss_refl.
      - apply gates_commute; [congruence|apply fires_indep; exact Hc|]. destruct (isInvert b') eqn:Ib'; [left|right; apply diag_of, Ib'].
        apply fires_indep. intros ->. pose proof (X _ _ _ _ E' Ib' _ _ _ _ E (or_introl eq_refl)) as Ek. injection Ek as -> -> ->. contradiction. }
    intros [[a c] t] [[a' c'] t'] psi. unfold gate_at. destruct (buffer_of s a c t) as [b|] eqn:E; [|apply ss_refl]. destruct (buffer_of s a' c' t') as [b'|] eqn:E'; [|apply ss_refl].
    destruct (isInvert b) eqn:Ib; [apply G; assumption|]. destruct (isInvert b') eqn:Ib'; [apply ss_sym, G; assumption|].
    rewrite (diag_eta _ (diag_of a b Ib)), (diag_eta _ (diag_of a' b' Ib')). apply diag_gates.
  Qed.
  Lemma entries_iff s (m : mapsel) this p i : (forall x j, sh_map s m this x = Some j -> x < sh_size s) -> In (p, i) (entries s m this) <-> sh_map (K := K) s m this p = Some i.
  Proof.
    intros R. unfold entries. rewrite in_flat_map. split.
    - intros (x & Hx & H). destruct (sh_map s m this x) as [j|] eqn:E; [|destruct H]. destruct H as [H|[]]. injection H as <- <-. exact E.
    - intros E. exists p. split; [apply positions_in, (R p i E)|]. rewrite E. left. reflexivity.
  Qed.
  Lemma tgt_entries s a this p i : consistent s -> In (p, i) (entries s (tsel a) this) <-> sh_map (K := K) s (tsel a) this p = Some i.
  Proof. intros C. apply entries_iff. intros x j E. apply (cons_ok s C a x this j E). Qed.
  Lemma ctl_entries s a this p i : consistent s -> In (p, i) (entries s (csel a) this) <-> sh_map (K := K) s (tsel a) p this = Some i.
  Proof.
    intros C. rewrite entries_iff; [rewrite (cons_mirror s C); reflexivity|]. intros x j E. rewrite (cons_mirror s C) in E. apply (cons_ok s C a this x j E).
  Qed.
  Lemma buffer_some s a c t b : buffer_of (K := K) s a c t = Some b <-> exists i, sh_map s (tsel a) t c = Some i /\ sh_heap s i = b.
  Proof.
    unfold buffer_of. fold (tsel a). destruct (sh_map s (tsel a) t c) as [i|].
    - split; [intros [= <-]; exists i; auto|intros (j & [= <-] & <-); reflexivity].
    - split; [discriminate|intros (j & [=] & _)].
  Qed.
  Lemma invert_target_iff (s : shards K) q : consistent s -> IsInvertTarget q s = true <-> exists a c b, buffer_of s a c q = Some b /\ isInvert b = true.
  Proof.
    intros C. unfold IsInvertTarget. rewrite orb_true_iff, !existsb_exists. split.
    - intros [((p & i) & Hin & H)|((p & i) & Hin & H)]; cbn [snd] in H.
      + apply (tgt_entries s false q p i C) in Hin. exists false, p, (sh_heap s i). split; [apply buffer_some; exists i; auto|exact H].
      + apply (tgt_entries s true q p i C) in Hin. exists true, p, (sh_heap s i). split; [apply buffer_some; exists i; auto|exact H].
    - intros (a & c & b & E & Ib). apply buffer_some in E. destruct E as (i & Ei & <-). apply (tgt_entries s a q c i C) in Ei. destruct a; [right|left]; exists (c, i); auto.
  Qed.
  Lemma not_inverted_iff (s : shards K) q : consistent s -> IsInvertTarget q s = false <-> not_inverted s q.
  Proof.
    intros C. split.
    - intros H a c b E. destruct (isInvert b) eqn:Ib; [|reflexivity]. rewrite <- H. symmetry. apply (invert_target_iff s q C). exists a, c, b. auto.
    - intros H. destruct (IsInvertTarget q s) eqn:E; [|reflexivity]. apply (invert_target_iff s q C) in E. destruct E as (a & c & b & E & Ib). rewrite <- Ib. apply (H a c b E).
  Qed.
  Lemma exclusive_kinds s q : consistent s -> exclusive s -> all_inverting s q \/ not_inverted s q.
  Proof.
    intros C X. destruct (IsInvertTarget q s) eqn:E; [left|right; apply (not_inverted_iff s q C), E].
    apply (invert_target_iff s q C) in E. destruct E as (a & c & b & E & Ib). intros a' c' b' E'.
    pose proof (X _ _ _ _ E Ib _ _ _ _ E' (or_intror eq_refl)) as Ek. injection Ek as -> ->. congruence.
  Qed.
  Lemma queued_iff U q : consistent (u_buf U) -> QUEUED_PHASE q U = false <-> (forall a p, buffer_of (u_buf U) a p q = None /\ buffer_of (u_buf U) a q p = None).
  Proof.
    intros C. unfold QUEUED_PHASE.
    assert (G : forall m, (match entries (u_buf U) m q with [] => false | _ => true end) = false <-> (forall p i, ~ In (p, i) (entries (u_buf U) m q))).
    { intros m. destruct (entries (u_buf U) m q) as [|[p i] l]; split; try discriminate; auto. intros H. exfalso. apply (H p i). left. reflexivity. }
    assert (B : forall a c t, buffer_of (u_buf U) a c t = None <-> sh_map (u_buf U) (tsel a) t c = None).
    { intros a c t. unfold buffer_of. fold (tsel a). destruct (sh_map (u_buf U) (tsel a) t c); split; congruence. }
    rewrite !orb_false_iff, !G. split.
    - intros [[[H1 H2] H3] H4] a p. rewrite !B. split.
      + destruct (sh_map (u_buf U) (tsel a) q p) as [i|] eqn:E; [|reflexivity]. apply (tgt_entries _ a q p i C) in E. exfalso. destruct a; [apply (H3 p i E)|apply (H1 p i E)].
      + destruct (sh_map (u_buf U) (tsel a) p q) as [i|] eqn:E; [|reflexivity]. apply (ctl_entries _ a q p i C) in E. exfalso. destruct a; [apply (H4 p i E)|apply (H2 p i E)].
    - intros H. repeat split; intros p i Hin.
      + apply (tgt_entries _ false q p i C) in Hin. destruct (H false p) as [H1 _]. apply B in H1. congruence.
      + apply (ctl_entries _ false q p i C) in Hin. destruct (H false p) as [_ H1]. apply B in H1. congruence.
      + apply (tgt_entries _ true q p i C) in Hin. destruct (H true p) as [H1 _]. apply B in H1. congruence.
      + apply (ctl_entries _ true q p i C) in Hin. destruct (H true p) as [_ H1]. apply B in H1. congruence.
  Qed.

  (** Buffers at the same pairs and of the same kinds. *)
  Definition alike (s s' : shards K) : Prop := forall a c t, option_map isInvert (buffer_of s' a c t) = option_map isInvert (buffer_of s a c t).
  Lemma alike_some s s' a c t b' : alike s s' -> buffer_of s' a c t = Some b' -> exists b, buffer_of s a c t = Some b /\ isInvert b = isInvert b'.
  Proof. intros A E. specialize (A a c t). rewrite E in A. destruct (buffer_of s a c t) as [b|]; cbn in A; [|discriminate]. exists b. split; [reflexivity|congruence]. Qed.
  Lemma alike_exclusive s s' : alike s s' -> exclusive s -> exclusive s'.
  Proof.
    intros A X a c t b E Ib a' c' t' b' E' H. destruct (alike_some _ _ _ _ _ _ A E) as (d & Ed & Id). destruct (alike_some _ _ _ _ _ _ A E') as (d' & Ed' & _).
    apply (X a c t d Ed (eq_trans Id Ib) a' c' t' d' Ed' H).
  Qed.
  Definition tidy (n : N) (s : shards K) : Prop := consistent s /\ sh_size s = n /\ exclusive s.
  Lemma tidy_commuting n s : tidy n s -> commuting s.
  Proof. intros (C & _ & X). apply exclusive_commuting; assumption. Qed.
  Lemma commute_phase_tidy n q tl br s : tidy n s -> unit1 tl -> unit1 br ->
    let s' := CommutePhase (cx_po cx) q tl br s in tidy n s' /\ alike s s' /\ carried q (phaseM tl br) s s'.
  Proof.
    intros T Ht Hb. pose proof (tidy_commuting n s T) as HC. destruct T as (C & E & X). cbn zeta.
    pose proof (exclusive_kinds s q C X) as HK.
    pose proof (commute_phase_carried (cx_po cx) q tl br s C HC Ht Hb HK) as Ca. destruct (Ca) as (C' & E' & _ & _).
    assert (A : alike s (CommutePhase (cx_po cx) q tl br s)).
    { destruct HK as [HI|HN]; [|rewrite (commute_phase_none (cx_po cx) q tl br s HN); intros a c t; reflexivity].
      destruct (commute_phase_view (cx_po cx) q tl br s C Ht Hb HI) as (_ & _ & Vw). intros a c t. rewrite Vw. destruct (N.eqb_spec t q) as [->|]; [|reflexivity].
      destruct (buffer_of s a c q) as [b|] eqn:Eb; cbn [PShard4.obind option_map]; [|reflexivity]. pose proof (HI a c b Eb) as Ib. destruct a; unfold p_buf; cbn [isInvert]; congruence. }
    split; [|split; [exact A|exact Ca]]. split; [exact C'|]. split; [congruence|]. apply (alike_exclusive s _ A X).
  Qed.
  (** Controls exchanged with anti-controls at [q]. *)
  Definition flipped_at (q : N) (s s' : shards K) : Prop := forall a c t, option_map isInvert (buffer_of s' a c t) = option_map isInvert (buffer_of s (if c =? q then negb a else a) c t).
  Lemma flip_tidy n q s : tidy n s -> exists s', FlipPhaseAnti q s = Some s' /\ tidy n s' /\ flipped_at q s s' /\ carried q (invertM 1 1)%amp s s'.
  Proof.
    intros T. pose proof (tidy_commuting n s T) as HC. destruct T as (C & E & X).
    destruct (flip_carried q s C HC) as (s' & F & Ca). exists s'. destruct (flip_view q s C) as (s2 & F2 & C2 & E2 & Vw). rewrite F in F2. injection F2 as <-.
    assert (A : flipped_at q s s').
    { intros a c t. rewrite Vw. destruct (c =? q); [destruct (buffer_of s (negb a) c t); reflexivity|]. destruct (t =? q); [destruct (buffer_of s a c t); reflexivity|reflexivity]. }
    split; [exact F|]. split; [|split; [exact A|exact Ca]]. split; [exact C2|]. split; [congruence|].
    intros a c t b Eb Ib a' c' t' b' Eb' H. pose proof (A a c t) as H1. pose proof (A a' c' t') as H2. rewrite Eb in H1. rewrite Eb' in H2. cbn [option_map] in H1, H2.
    destruct (buffer_of s (if c =? q then negb a else a) c t) as [d|] eqn:Ed; [|discriminate]. destruct (buffer_of s (if c' =? q then negb a' else a') c' t') as [d'|] eqn:Ed'; [|discriminate].
    cbn [option_map] in H1, H2. assert (Id : isInvert d = true) by congruence. pose proof (X _ _ _ _ Ed Id _ _ _ _ Ed' H) as Ek. injection Ek as Ea -> ->.
    f_equal. f_equal. destruct (c =? q), a, a'; cbn in Ea; congruence.
  Qed.
End P.
