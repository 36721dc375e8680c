(** Proofs: FlipPhaseAnti, and the removal of a shard. *)
From Coq Require Import NArith List Bool Lia Arith Permutation.
From Verif Require Import Amp PAmp SpecState PGates PGates2 PQCirc2 PQCirc3 PPager7 MShard SpecShard PShard1 PShard2 PShard3 PShard4 PShard5.
Import ListNotations.
Local Open Scope N_scope.

Section P.
  Context {K : StarRing} (po : Polar K).
  Add Ring KrBI : (sr_ring K).
  Local Notation sh := (shards K).
  Local Notation vec := (N -> K).
  Local Notation unit1 x := (anorm x = 1%amp).
  Implicit Types (psi : vec) (s : sh).

  Definition swapd (b : PhaseShard K) : PhaseShard K := mkPS (cmplxSame b) (cmplxDiff b) (isInvert b).
  Definition tinj s : Prop := forall a c t a' c' t' b, sh_map s (tsel a) t c = Some b -> sh_map s (tsel a') t' c' = Some b -> (a', c', t') = (a, c, t).

  (** One SwapTargetAnti, or several. *)
  Definition swapped (q : N) (sel : N -> bool) s s' : Prop :=
    sh_size s' = sh_size s /\ sh_next s' = sh_next s /\
    (forall a c t, sh_map s' (tsel a) t c = if (c =? q) && sel t then sh_map s (tsel (negb a)) t c else sh_map s (tsel a) t c) /\
    (forall a c t, sh_map s' (csel a) c t = sh_map s (csel a) c t) /\
    (forall a c t b, sh_map s (tsel a) t c = Some b -> sh_heap s' b = if (c =? q) && sel t then swapd (sh_heap s b) else sh_heap s b).

  Lemma swapped_inj q sel s s' : tinj s -> swapped q sel s s' -> tinj s'.
  Proof.
    intros T (_ & _ & M & _) a c t a' c' t' b. rewrite !M. destruct ((c =? q) && sel t) eqn:E1, ((c' =? q) && sel t') eqn:E2; intros H1 H2;
      pose proof (T _ _ _ _ _ _ _ H1 H2) as E; try (injection E; intros; subst; congruence).
    injection E. intros -> -> Ha. assert (a' = a) by (destruct a, a'; cbn in Ha; congruence). subst. reflexivity.
  Qed.

  Lemma swap_target_anti p q s : tinj s -> (exists a, sh_map s (tsel a) p q <> None) -> exists s', SwapTargetAnti p q s = Some s' /\ swapped q (N.eqb p) s s'.
  Proof.
    intros T Hex. unfold SwapTargetAnti. change antiTargetOfShards with (tsel true). change targetOfShards with (tsel false).
    assert (Hk : forall a c t b b', sh_map s (tsel a) t c = Some b -> forall a', sh_map s (tsel a') p q = Some b' -> b = b' -> a = a' /\ c = q /\ t = p).
    { intros a c t b b' H1 a' H2 <-. pose proof (T _ _ _ _ _ _ _ H2 H1) as E. injection E. auto. }
    destruct (sh_map s (tsel true) p q) as [i|] eqn:E1, (sh_map s (tsel false) p q) as [j|] eqn:E2.
    - eexists. split; [reflexivity|]. assert (Hij : i <> j). { intros ->. pose proof (T _ _ _ _ _ _ _ E1 E2) as E. discriminate. }
      split; [reflexivity|]. split; [reflexivity|]. split; [|split].
      + intros a c t. rewrite !set_entry_map, !sel_t. cbn [sh_map swap_phases set_buf]. rewrite (N.eqb_sym p t).
        destruct (N.eqb_spec c q) as [->|Hc], (N.eqb_spec t p) as [->|Ht]; rewrite ?andb_false_r, ?andb_true_r; cbn [andb]; try reflexivity.
        destruct a; cbn [Bool.eqb negb]; congruence.
      + intros a c t. rewrite !set_entry_map, !sel_ct. cbn [andb]. reflexivity.
      + intros a c t b Hb. cbn [sh_heap set_entry swap_phases set_buf]. rewrite (N.eqb_sym p t).
        destruct (N.eqb_spec b i) as [->|Hbi]; [|destruct (N.eqb_spec b j) as [->|Hbj]].
        * destruct (Hk _ _ _ _ _ Hb true E1 eq_refl) as (-> & -> & ->). rewrite !N.eqb_refl. cbn [andb]. destruct (N.eqb_spec i j); [contradiction|]. reflexivity.
        * destruct (Hk _ _ _ _ _ Hb false E2 eq_refl) as (-> & -> & ->). rewrite !N.eqb_refl. cbn [andb]. reflexivity.
        * destruct ((c =? q) && (t =? p)) eqn:E; [|reflexivity]. apply andb_true_iff in E. destruct E as [Ec Et]. apply N.eqb_eq in Ec, Et. subst. destruct a; congruence.
    - eexists. split; [reflexivity|]. split; [reflexivity|]. split; [reflexivity|]. split; [|split].
      + intros a c t. unfold erase. rewrite !set_entry_map, !sel_t. cbn [sh_map swap_phases set_buf]. rewrite (N.eqb_sym p t).
        destruct (N.eqb_spec c q) as [->|Hc], (N.eqb_spec t p) as [->|Ht]; rewrite ?andb_false_r, ?andb_true_r; cbn [andb]; try reflexivity.
        destruct a; cbn [Bool.eqb negb]; congruence.
      + intros a c t. unfold erase. rewrite !set_entry_map, !sel_ct. cbn [andb]. reflexivity.
      + intros a c t b Hb. unfold erase. cbn [sh_heap set_entry swap_phases set_buf]. rewrite (N.eqb_sym p t).
        destruct (N.eqb_spec b i) as [->|Hbi].
        * destruct (Hk _ _ _ _ _ Hb true E1 eq_refl) as (-> & -> & ->). rewrite !N.eqb_refl. cbn [andb]. reflexivity.
        * destruct ((c =? q) && (t =? p)) eqn:E; [|reflexivity]. apply andb_true_iff in E. destruct E as [Ec Et]. apply N.eqb_eq in Ec, Et. subst. destruct a; congruence.
    - eexists. split; [reflexivity|]. split; [reflexivity|]. split; [reflexivity|]. split; [|split].
      + intros a c t. unfold erase. rewrite !set_entry_map, !sel_t. cbn [sh_map swap_phases set_buf]. rewrite (N.eqb_sym p t).
        destruct (N.eqb_spec c q) as [->|Hc], (N.eqb_spec t p) as [->|Ht]; rewrite ?andb_false_r, ?andb_true_r; cbn [andb]; try reflexivity.
        destruct a; cbn [Bool.eqb negb]; congruence.
      + intros a c t. unfold erase. rewrite !set_entry_map, !sel_ct. cbn [andb]. reflexivity.
      + intros a c t b Hb. unfold erase. cbn [sh_heap set_entry swap_phases set_buf]. rewrite (N.eqb_sym p t).
        destruct (N.eqb_spec b j) as [->|Hbi].
        * destruct (Hk _ _ _ _ _ Hb false E2 eq_refl) as (-> & -> & ->). rewrite !N.eqb_refl. cbn [andb]. reflexivity.
        * destruct ((c =? q) && (t =? p)) eqn:E; [|reflexivity]. apply andb_true_iff in E. destruct E as [Ec Et]. apply N.eqb_eq in Ec, Et. subst. destruct a; congruence.
    - exfalso. destruct Hex as [[|] H]; congruence.
  Qed.

  Lemma swap_loop q : forall l s, NoDup l -> tinj s -> (forall p, In p l -> exists a, sh_map s (tsel a) p q <> None) ->
    exists s', fold_left (fun r p => bind r (SwapTargetAnti p q)) l (Some s) = Some s' /\ swapped q (fun t => memN t l) s s'.
  Proof.
    induction l as [|p l IH]; intros s ND T Hex.
    - exists s. split; [reflexivity|]. split; [reflexivity|]. split; [reflexivity|]. cbn [memN existsb]. split; [|split]; intros; rewrite ?andb_false_r; reflexivity.
    - apply NoDup_cons_iff in ND. destruct ND as [Hn ND]. destruct (swap_target_anti p q s T (Hex p (or_introl eq_refl))) as (s1 & E1 & W1).
      pose proof (swapped_inj _ _ _ _ T W1) as T1. destruct W1 as (A1 & A2 & A3 & A4 & A5).
      destruct (IH s1 ND T1) as (s2 & E2 & B1 & B2 & B3 & B4 & B5).
      { intros r Hr. destruct (Hex r (or_intror Hr)) as [a Ha]. exists a. rewrite A3. destruct (N.eqb_spec p r) as [->|]; [contradiction|]. rewrite andb_false_r. exact Ha. }
      exists s2. cbn [fold_left bind]. rewrite E1. split; [exact E2|]. split; [congruence|]. split; [congruence|]. split; [|split].
      + intros a c t. rewrite B3, !A3. cbn [memN existsb]. fold (memN t l). rewrite (N.eqb_sym t p). destruct (N.eqb_spec c q) as [->|]; cbn [andb]; [|reflexivity].
        destruct (N.eqb_spec p t) as [->|]; cbn [orb]; [|destruct (memN t l); reflexivity]. destruct (memN t l) eqn:Em; [apply memN_in in Em; contradiction|]. reflexivity.
      + intros a c t. rewrite B4. apply A4.
      + intros a c t b Hb. pose proof (A5 a c t b Hb) as Hh. cbn [memN existsb]. fold (memN t l). rewrite (N.eqb_sym t p).
        destruct (N.eqb_spec c q) as [->|Hc]; cbn [andb] in *.
        * destruct (N.eqb_spec p t) as [->|Ht]; cbn [orb] in *.
          -- assert (E : sh_map s1 (tsel (negb a)) t q = Some b). { rewrite A3, !N.eqb_refl. cbn [andb]. rewrite negb_involutive. exact Hb. }
             rewrite (B5 _ _ _ _ E), N.eqb_refl. cbn [andb]. destruct (memN t l) eqn:Em; [apply memN_in in Em; contradiction|]. exact Hh.
          -- assert (E : sh_map s1 (tsel a) t q = Some b). { rewrite A3, N.eqb_refl. destruct (N.eqb_spec p t); [contradiction|]. exact Hb. }
             rewrite (B5 _ _ _ _ E), N.eqb_refl, Hh. reflexivity.
        * assert (E : sh_map s1 (tsel a) t c = Some b). { rewrite A3. destruct (N.eqb_spec c q); [contradiction|]. exact Hb. }
          rewrite (B5 _ _ _ _ E). destruct (N.eqb_spec c q); [contradiction|]. exact Hh.
  Qed.

  Definition to_swap (q : N) s : list N := filter (fun p => match sh_map s controlsShards q p, sh_map s antiControlsShards q p with None, None => false | _, _ => true end) (positions s).
  Lemma to_swap_in q s : consistent s -> forall p, memN p (to_swap q s) = false -> forall a, sh_map s (tsel a) p q = None.
  Proof.
    intros C p H a. destruct (sh_map s (tsel a) p q) as [b|] eqn:E; [|reflexivity]. exfalso.
    assert (Hm : memN p (to_swap q s) = true); [|congruence]. apply memN_in. apply filter_In. destruct (cons_ok s C _ _ _ _ E) as (Hc & Ht & _). split; [apply positions_in, Ht|].
    rewrite <- (cons_mirror s C) in E. destruct a; cbn [csel] in E; rewrite E; [destruct (sh_map s controlsShards q p)|]; reflexivity.
  Qed.
  Lemma flip_first q s : consistent s -> exists s2, consistent s2 /\ sh_size s2 = sh_size s /\
    (forall a c t, buffer_of s2 a c t = if c =? q then option_map swapd (buffer_of s (negb a) c t) else buffer_of s a c t) /\
    FlipPhaseAnti q s = Some (fold_left (fun s e => swap_phases (snd e) s) (entries (fold_left (fun s e => swap_phases (snd e) s) (entries s2 targetOfShards q) s2) antiTargetOfShards q)
      (fold_left (fun s e => swap_phases (snd e) s) (entries s2 targetOfShards q) s2)).
  Proof.
    intros C. assert (T : tinj s) by (intros a c t a' c' t' b; apply (cons_inj s C)).
    destruct (swap_loop q (to_swap q s) s) as (s1 & E1 & A1 & A2 & A3 & A4 & A5).
    { apply NoDup_filter, positions_nodup. }
    { exact T. }
    { intros p Hp. apply filter_In in Hp. destruct Hp as [_ Hp]. pose proof (cons_mirror s C false q p) as Mf. pose proof (cons_mirror s C true q p) as Mt. cbn [csel] in Mf, Mt.
      rewrite Mf, Mt in Hp. destruct (sh_map s (tsel false) p q) eqn:Ef; [exists false; congruence|]. destruct (sh_map s (tsel true) p q) eqn:Et; [exists true; congruence|discriminate]. }
    assert (M1 : forall a c t, sh_map s1 (tsel a) t c = if c =? q then sh_map s (tsel (negb a)) t c else sh_map s (tsel a) t c).
    { intros a c t. rewrite A3. destruct (N.eqb_spec c q) as [->|]; cbn [andb]; [|reflexivity]. destruct (memN t (to_swap q s)) eqn:Em; [reflexivity|].
      rewrite !(to_swap_in q s C t Em). reflexivity. }
    assert (H1 : forall a c t b, sh_map s (tsel a) t c = Some b -> sh_heap s1 b = if c =? q then swapd (sh_heap s b) else sh_heap s b).
    { intros a c t b Hb. rewrite (A5 a c t b Hb). destruct (N.eqb_spec c q) as [->|]; cbn [andb]; [|reflexivity]. destruct (memN t (to_swap q s)) eqn:Em; [reflexivity|].
      rewrite (to_swap_in q s C t Em) in Hb. discriminate. }
    set (s2 := swap_controls q s1).
    assert (M2 : forall a c t, sh_map s2 (tsel a) t c = if c =? q then sh_map s (tsel (negb a)) t c else sh_map s (tsel a) t c).
    { intros a c t. rewrite <- M1. unfold s2, swap_controls. cbn [sh_map]. destruct (t =? q), a; reflexivity. }
    assert (N2 : forall a c t, sh_map s2 (csel a) c t = if c =? q then sh_map s (csel (negb a)) c t else sh_map s (csel a) c t).
    { intros a c t. rewrite <- !A4. unfold s2, swap_controls. cbn [sh_map]. destruct (c =? q), a; reflexivity. }
    assert (Hsrc : forall a c t b, sh_map s2 (tsel a) t c = Some b -> exists a0, sh_map s (tsel a0) t c = Some b /\ a0 = if c =? q then negb a else a).
    { intros a c t b Hb. rewrite M2 in Hb. destruct (c =? q); eauto. }
    exists s2. split; [|split; [|split]].
    - split; [|split; [|split]].
      + intros c t. pose proof (N2 false c t) as X1. pose proof (M2 false c t) as X2. cbn [csel tsel] in X1, X2. rewrite X1, X2. destruct (c =? q); [apply (cons_mirror s C true)|apply (cons_mirror s C false)].
      + intros c t. pose proof (N2 true c t) as X1. pose proof (M2 true c t) as X2. cbn [csel tsel] in X1, X2. rewrite X1, X2. destruct (c =? q); [apply (cons_mirror s C false)|apply (cons_mirror s C true)].
      + intros a c t b. change (if a then antiTargetOfShards else targetOfShards) with (tsel a). intros Hb. destruct (Hsrc _ _ _ _ Hb) as (a0 & Hb0 & _).
        change (sh_size s2) with (sh_size s1). change (sh_next s2) with (sh_next s1). change (sh_heap s2 b) with (sh_heap s1 b). rewrite A1, A2, (H1 _ _ _ _ Hb0).
        destruct (cons_ok s C _ _ _ _ Hb0) as (X1 & X2 & X3 & X4 & X5 & X6). destruct (c =? q); cbn [swapd cmplxDiff cmplxSame]; auto 10.
      + intros a c t a' c' t' b. change (if a then antiTargetOfShards else targetOfShards) with (tsel a). change (if a' then antiTargetOfShards else targetOfShards) with (tsel a').
        intros Hb Hb'. destruct (Hsrc _ _ _ _ Hb) as (a0 & Hb0 & Ea). destruct (Hsrc _ _ _ _ Hb') as (a1 & Hb1 & Ea'). pose proof (T _ _ _ _ _ _ _ Hb0 Hb1) as E. injection E. intros -> -> ->.
        rewrite Ea' in Ea. destruct (c =? q), a, a'; cbn in Ea; try discriminate; auto.
    - exact A1.
    - intros a c t. unfold buffer_of. change (if a then antiTargetOfShards else targetOfShards) with (tsel a). change (if negb a then antiTargetOfShards else targetOfShards) with (tsel (negb a)).
      rewrite M2. change (sh_heap s2) with (sh_heap s1). destruct (N.eqb_spec c q) as [->|Hc].
      + destruct (sh_map s (tsel (negb a)) t q) as [b|] eqn:Eb; [|reflexivity]. cbn [option_map]. rewrite (H1 _ _ _ _ Eb), N.eqb_refl. reflexivity.
      + destruct (sh_map s (tsel a) t c) as [b|] eqn:Eb; [|reflexivity]. rewrite (H1 _ _ _ _ Eb). destruct (N.eqb_spec c q); [contradiction|reflexivity].
    - unfold FlipPhaseAnti. fold (to_swap q s). rewrite E1. reflexivity.
  Qed.
  Lemma swap_phases_loop a q s : consistent s -> rewrites true a q (fun b => Some (swapd b)) s (fold_left (fun s e => swap_phases (snd e) s) (entries s (tsel a) q) s).
  Proof.
    intros C. change (tsel a) with (msel true a). apply map_loop; [|exact C]. clear s C. intros s e C E. cbn [kc kt] in *. destruct (cons_ok s C _ _ _ _ E) as (_ & _ & _ & _ & U1 & U2).
    unfold swap_phases. apply set_buf_ok; assumption.
  Qed.
  Lemma flip_view q s : consistent s -> exists s', FlipPhaseAnti q s = Some s' /\ consistent s' /\ sh_size s' = sh_size s /\
    (forall a c t, buffer_of s' a c t = if c =? q then option_map swapd (buffer_of s (negb a) c t) else if t =? q then option_map swapd (buffer_of s a c t) else buffer_of s a c t).
  Proof.
    intros C. destruct (flip_first q s C) as (s2 & C2 & E2 & V2 & F).
    destruct (swap_phases_loop false q s2 C2) as (C3 & E3 & V3). cbn [tsel] in C3, E3, V3. set (s3 := fold_left (fun s e => swap_phases (snd e) s) (entries s2 targetOfShards q) s2) in *.
    destruct (swap_phases_loop true q s3 C3) as (C4 & E4 & V4). cbn [tsel] in C4, E4, V4. eexists. split; [exact F|]. split; [exact C4|]. split; [congruence|].
    intros a c t. rewrite V4, V3, V2. unfold touch. destruct (N.eqb_spec c q) as [->|Hc].
    - destruct (N.eqb_spec t q) as [->|Ht]; [|rewrite !andb_false_r; reflexivity]. rewrite !andb_true_r.
      assert (Hnone : buffer_of s (negb a) q q = None). { destruct (buffer_of s (negb a) q q) as [b|] eqn:Eb; [|reflexivity]. destruct (buffer_bounds s _ _ _ _ C Eb) as (_ & _ & H). congruence. }
      rewrite Hnone. destruct a; reflexivity.
    - destruct (t =? q); rewrite ?andb_false_r, ?andb_true_r; [|reflexivity]. destruct a; cbn [Bool.eqb]; destruct (buffer_of s _ c t); reflexivity.
  Qed.

  (** The effect of FlipPhaseAnti. *)
  Definition xmat : mat2 K := mkMat 0%amp 1%amp 1%amp 0%amp.
  Lemma x_gate q psi x : gate1 always q xmat psi x = psi (fx q x).
  Proof. apply flip_gate. Qed.
  Lemma matrix_swapd a b : matrix_of (negb a) (swapd b) = matrix_of a b.
  Proof. destruct b as [d m i]. unfold swapd. cbn [cmplxDiff cmplxSame isInvert]. rewrite !matrix_mk. destruct a; reflexivity. Qed.
  Lemma matrix_conj a b : mmul (matrix_of a (swapd b)) xmat = mmul xmat (matrix_of a b).
  Proof.
    destruct b as [d m i]. unfold swapd, xmat. cbn [cmplxDiff cmplxSame isInvert]. rewrite !matrix_mk. destruct a, i; unfold mmul; cbn [m00 m01 m10 m11]; f_equal; ring.
  Qed.
  Lemma x_control a q t (M : mat2 K) psi : t <> q -> same_state (gate1 (fires (negb a) q) t M (gate1 always q xmat psi)) (gate1 always q xmat (gate1 (fires a q) t M psi)).
  Proof.
    intros Ht x. rewrite x_gate. unfold gate1 at 1 3. rewrite !x_gate. unfold fires. rewrite tb_fx_eq, tb_fx_neq by congruence.
    destruct (N.testbit x t) eqn:Et.
    - rewrite (clear_fx x t Et), (clear_fx (fx q x) t) by (rewrite tb_fx_neq by congruence; exact Et). rewrite (fx_comm t q). destruct a, (N.testbit x q); reflexivity.
    - rewrite (set_fx x t Et), (set_fx (fx q x) t) by (rewrite tb_fx_neq by congruence; exact Et). rewrite (fx_comm t q). destruct a, (N.testbit x q); reflexivity.
  Qed.
  Definition flipk (q : N) (k : bool * N * N) : bool * N * N := let '(a, c, t) := k in if c =? q then (negb a, c, t) else (a, c, t).
  Lemma flipk_invol q k : flipk q (flipk q k) = k.
  Proof. destruct k as [[a c] t]. unfold flipk. destruct (c =? q) eqn:E; rewrite ?E, ?negb_involutive; reflexivity. Qed.
  Lemma flip_gates q s s' : consistent s ->
    (forall a c t, buffer_of s' a c t = if c =? q then option_map swapd (buffer_of s (negb a) c t) else if t =? q then option_map swapd (buffer_of s a c t) else buffer_of s a c t) ->
    forall k psi, same_state (gate_at s' (flipk q k) (gate1 always q xmat psi)) (gate1 always q xmat (gate_at s k psi)).
  Proof.
    intros C V [[a c] t] psi. unfold flipk. destruct (N.eqb_spec c q) as [->|Hc].
    - rewrite !gate_at_eq, V, N.eqb_refl, negb_involutive. destruct (buffer_of s a q t) as [b|] eqn:Eb; [|apply ss_refl]. cbn [option_map gate_buf].
      rewrite matrix_swapd. apply x_control. destruct (buffer_bounds s _ _ _ _ C Eb) as (_ & _ & H). congruence.
    - rewrite !gate_at_eq, V. destruct (N.eqb_spec c q); [contradiction|]. destruct (N.eqb_spec t q) as [->|Ht].
      + destruct (buffer_of s a c q) as [b|] eqn:Eb; [|apply ss_refl]. cbn [option_map gate_buf]. apply conj_target; [apply fires_indep, Hc|apply matrix_conj].
      + destruct (buffer_of s a c t) as [b|] eqn:Eb; [|apply ss_refl]. cbn [gate_buf]. apply conj_apart; [apply fires_indep, Hc|exact Ht].
  Qed.
  Lemma fold_map_keys (F : bool * N * N -> vec -> vec) (g : bool * N * N -> bool * N * N) psi l : fold_right F psi (map g l) = fold_right (fun k => F (g k)) psi l.
  Proof. induction l as [|k l IH]; [reflexivity|]. cbn [map fold_right]. rewrite IH. reflexivity. Qed.
  Lemma flip_ok q s : consistent s -> commuting s -> exists s', FlipPhaseAnti q s = Some s' /\ consistent s' /\ sh_size s' = sh_size s /\ commuting s' /\
    forall psi, same_state (pending s' (gate1 always q xmat psi)) (gate1 always q xmat (pending s psi)).
  Proof.
    intros C HC. destruct (flip_view q s C) as (s' & F & C' & E & V). pose proof (flip_gates q s s' C V) as G.
    exists s'. split; [exact F|]. split; [exact C'|]. split; [exact E|].
    set (w := gate1 always q xmat) in *. assert (Pw : proper w) by apply gate1_proper.
    assert (Ww : forall psi, same_state (w (w psi)) psi). { intros psi x. unfold w. rewrite !x_gate, fx_fx. reflexivity. }
    assert (HC' : commuting s').
    { assert (E1 : forall i j psi, same_state (gate_at s' i (gate_at s' j psi)) (w (gate_at s (flipk q i) (gate_at s (flipk q j) (w psi))))).
      { intros i j psi. rewrite <- (flipk_invol q i) at 1. rewrite <- (flipk_invol q j) at 1.
        eapply ss_trans; [apply gate_at_proper, gate_at_proper, ss_sym, Ww|]. eapply ss_trans; [apply gate_at_proper, G|]. apply G. }
      intros i j psi. eapply ss_trans; [apply E1|]. eapply ss_trans; [apply Pw, HC|]. apply ss_sym, E1. }
    split; [exact HC'|]. intros psi. unfold pending. rewrite E. set (L := all_pairs (sh_size s)).
    apply ss_trans with (fold_right (gate_at s') (w psi) (map (flipk q) L)).
    - apply fold_perm; [apply gate_at_proper|exact HC'|]. apply NoDup_Permutation.
      + apply pairs_nodup.
      + apply FinFun.Injective_map_NoDup; [|apply pairs_nodup]. intros x y H. rewrite <- (flipk_invol q x), H. apply flipk_invol.
      + assert (Hf : forall k, In k L <-> In (flipk q k) L). { intros [[a c] t]. unfold flipk, L. destruct (c =? q); rewrite !pairs_in; reflexivity. }
        intros k. rewrite in_map_iff. split; [intros H; exists (flipk q k); split; [apply flipk_invol|apply Hf in H; exact H]|].
        intros (k' & <- & H). apply Hf in H. exact H.
    - rewrite fold_map_keys. apply (fold_conj (gate_at s) (fun k => gate_at s' (flipk q k)) w); [apply gate_at_proper|intros k; apply gate_at_proper|exact Pw|]. intros k p _. apply G.
  Qed.

  (** ** Removing a shard *)
  Lemma erase_low k s : consistent s -> k < sh_size s -> (forall a c t b, buffer_of s a c t = Some b -> c < k /\ t < k) ->
    consistent (erase_shard k s) /\ forall a c t, c < sh_size s -> t < sh_size s -> c <> k -> t <> k -> buffer_of (erase_shard k s) a (renumber k c) (renumber k t) = buffer_of s a c t.
  Proof.
    intros C Hk H. assert (Hm : forall a c t, c < k /\ t < k \/ sh_map s (tsel a) t c = None /\ sh_map s (csel a) c t = None).
    { intros a c t. rewrite (cons_mirror s C). destruct (sh_map s (tsel a) t c) as [b|] eqn:E; [left|right; auto]. apply (H a c t (sh_heap s b)).
      unfold buffer_of. change (if a then antiTargetOfShards else targetOfShards) with (tsel a). rewrite E. reflexivity. }
    assert (Mt : forall a c t, sh_map (erase_shard k s) (tsel a) t c = sh_map s (tsel a) t c).
    { intros a c t. unfold erase_shard. cbn [sh_map]. destruct (N.ltb_spec t (sh_size s - 1)) as [H1|H1].
      - destruct (N.ltb_spec t k) as [H2|H2]; [reflexivity|]. destruct (Hm a c (t + 1)) as [H3|[H3 _]]; [lia|]. destruct (Hm a c t) as [H4|[H4 _]]; [lia|]. congruence.
      - destruct (Hm a c t) as [H3|[H3 _]]; [|congruence]. assert (Ht : t = sh_size s - 1 \/ sh_size s - 1 < t) by lia. lia. }
    assert (Mc : forall a c t, sh_map (erase_shard k s) (csel a) c t = sh_map s (csel a) c t).
    { intros a c t. unfold erase_shard. cbn [sh_map]. destruct (N.ltb_spec c (sh_size s - 1)) as [H1|H1].
      - destruct (N.ltb_spec c k) as [H2|H2]; [reflexivity|]. destruct (Hm a (c + 1) t) as [H3|[_ H3]]; [lia|]. destruct (Hm a c t) as [H4|[_ H4]]; [lia|]. congruence.
      - destruct (Hm a c t) as [H3|[_ H3]]; [|congruence]. lia. }
    split.
    - split; [|split; [|split]].
      + intros c t. pose proof (Mc false c t) as X1. pose proof (Mt false c t) as X2. cbn [csel tsel] in X1, X2. rewrite X1, X2. apply (cons_mirror s C false).
      + intros c t. pose proof (Mc true c t) as X1. pose proof (Mt true c t) as X2. cbn [csel tsel] in X1, X2. rewrite X1, X2. apply (cons_mirror s C true).
      + intros a c t b. change (if a then antiTargetOfShards else targetOfShards) with (tsel a). rewrite Mt. intros Hb. destruct (cons_ok s C _ _ _ _ Hb) as (X1 & X2 & X3 & X4 & X5 & X6).
        destruct (Hm a c t) as [Hlt|[Hno _]]; [|congruence]. cbn [sh_size erase_shard sh_next sh_heap]. repeat split; auto; lia.
      + intros a c t a' c' t' b. change (if a then antiTargetOfShards else targetOfShards) with (tsel a). change (if a' then antiTargetOfShards else targetOfShards) with (tsel a').
        rewrite !Mt. intros H1 H2. pose proof (cons_inj s C _ _ _ _ _ _ _ H1 H2) as E. injection E. auto.
    - intros a c t Hc Ht Hck Htk. unfold buffer_of. change (if a then antiTargetOfShards else targetOfShards) with (tsel a). rewrite Mt. change (sh_heap (erase_shard k s)) with (sh_heap s).
      unfold renumber. destruct (N.ltb_spec c k) as [H1|H1], (N.ltb_spec t k) as [H2|H2]; [reflexivity| | |].
      + destruct (Hm a c (t - 1)) as [H3|[H3 _]]; [lia|]. destruct (Hm a c t) as [H4|[H4 _]]; [lia|]. rewrite H3, H4. reflexivity.
      + destruct (Hm a (c - 1) t) as [H3|[H3 _]]; [lia|]. destruct (Hm a c t) as [H4|[H4 _]]; [lia|]. rewrite H3, H4. reflexivity.
      + destruct (Hm a (c - 1) (t - 1)) as [H3|[H3 _]]; [lia|]. destruct (Hm a c t) as [H4|[H4 _]]; [lia|]. rewrite H3, H4. reflexivity.
  Qed.
End P.
