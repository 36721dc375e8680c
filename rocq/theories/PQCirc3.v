(** Commutation, identity and phase tests, AppendGate. *)
From Coq Require Import NArith List Bool Lia Ring Sorted.
From Verif Require Import Bits MFunctions MParFor MKernel Amp PAmp MEngine MAlu SpecFunctions SpecState MQCircuit SpecQCircuit PQCirc1 PQCirc2.
Import ListNotations.
Local Open Scope N_scope.

Definition fx (t x : N) : N := N.lxor x (2 ^ t).
Lemma tb_fx t x q : N.testbit (fx t x) q = xorb (N.testbit x q) (t =? q).
Proof. unfold fx. now rewrite N.lxor_spec, tb_pow2. Qed.
Lemma fx_fx t x : fx t (fx t x) = x.
Proof. unfold fx. now rewrite N.lxor_assoc, N.lxor_nilpotent, N.lxor_0_r. Qed.
Lemma fx_comm s t x : fx s (fx t x) = fx t (fx s x).
Proof. unfold fx. now rewrite !N.lxor_assoc, (N.lxor_comm (2 ^ t)). Qed.
Lemma tb_fx_neq t x q : t <> q -> N.testbit (fx t x) q = N.testbit x q.
Proof. intros H. rewrite tb_fx. destruct (N.eqb_spec t q); [contradiction|]. apply xorb_false_r. Qed.
Lemma tb_fx_eq t x : N.testbit (fx t x) t = negb (N.testbit x t).
Proof. rewrite tb_fx, N.eqb_refl. apply xorb_true_r. Qed.
Lemma clear_fx x t : N.testbit x t = true -> N.clearbit x t = fx t x.
Proof.
  intros H. apply N.bits_inj. intros q. rewrite tb_fx. destruct (N.eqb_spec t q).
  - subst. rewrite N.clearbit_eq, H. reflexivity.
  - rewrite N.clearbit_neq by auto. now rewrite xorb_false_r.
Qed.
Lemma set_fx x t : N.testbit x t = false -> N.setbit x t = fx t x.
Proof.
  intros H. apply N.bits_inj. intros q. rewrite tb_fx. destruct (N.eqb_spec t q).
  - subst. rewrite N.setbit_eq, H. reflexivity.
  - rewrite N.setbit_neq by auto. now rewrite xorb_false_r.
Qed.

Section P.
  Context {K : StarRing}.
  Add Ring KrX : (sr_ring K).
  Local Notation V := (N -> K).
  Local Notation M2 := (mat2 K).
  Implicit Types (g h o : @qgate K) (psi : V).

  (** Coefficients of a gate at a basis state. *)
  Definition dia (m : M2) (b : bool) : K := if b then m11 m else m00 m.
  Definition off (m : M2) (b : bool) : K := if b then m10 m else m01 m.
  Lemma gate1_fx t (m : M2) psi x : gate1 always t m psi x = (dia m (N.testbit x t) * psi x + off m (N.testbit x t) * psi (fx t x))%amp.
  Proof.
    unfold gate1, always, dia, off. destruct (N.testbit x t) eqn:E; [rewrite clear_fx by auto | rewrite set_fx by auto]; ring.
  Qed.
  Definition dg g x : K := dia (gm g x) (N.testbit x (qg_t g)).
  Definition og g x : K := off (gm g x) (N.testbit x (qg_t g)).
  Lemma eff_fx g psi x : eff g psi x = (dg g x * psi x + og g x * psi (fx (qg_t g) x))%amp.
  Proof. unfold eff. now rewrite gate1_fx. Qed.
  Lemma gm_ext g x y : (forall q, In q (qg_ctl g) -> N.testbit x q = N.testbit y q) -> gm g x = gm g y.
  Proof. intros H. unfold gm. f_equal. now apply ctrl_ext. Qed.
  Lemma gm_fx g t x : ~ In t (qg_ctl g) -> gm g (fx t x) = gm g x.
  Proof. intros H. apply gm_ext. intros q Hq. apply tb_fx_neq. intros ->. contradiction. Qed.
  Lemma dg_fx g t x : ~ In t (qg_ctl g) -> t <> qg_t g -> dg g (fx t x) = dg g x.
  Proof. intros H1 H2. unfold dg. rewrite gm_fx, tb_fx_neq by auto. reflexivity. Qed.
  Lemma og_fx g t x : ~ In t (qg_ctl g) -> t <> qg_t g -> og g (fx t x) = og g x.
  Proof. intros H1 H2. unfold og. rewrite gm_fx, tb_fx_neq by auto. reflexivity. Qed.
  Lemma eff_ext g psi psi' : (forall x, psi x = psi' x) -> forall x, eff g psi x = eff g psi' x.
  Proof. intros H x. now rewrite !eff_fx, !H. Qed.
  Lemma eff_scale g (c : K) psi x : eff g (fun y => c * psi y)%amp x = (c * eff g psi x)%amp.
  Proof. rewrite !eff_fx. ring. Qed.

  Lemma phase_og g : IsPhase g = true -> forall x, og g x = 0%amp.
  Proof.
    unfold IsPhase. rewrite forallb_forall. intros H x. unfold og, off, gm, payload_at.
    destruct (mfind _ (qg_pl g)) as [m|] eqn:E; [|now destruct (N.testbit x (qg_t g))].
    apply mfind_In in E. specialize (H _ E). cbn [snd] in H. unfold mat_phase in H. rewrite andb_true_iff, !z0_iff in H.
    destruct H as [H1 H2]. now destruct (N.testbit x (qg_t g)).
  Qed.

  (** ** Commutation *)
  Lemma comm_far g o psi x : qg_t g <> qg_t o -> ~ In (qg_t g) (qg_ctl o) -> ~ In (qg_t o) (qg_ctl g) ->
    eff o (eff g psi) x = eff g (eff o psi) x.
  Proof.
    intros H1 H2 H3. rewrite !eff_fx. rewrite (dg_fx g), (og_fx g), (dg_fx o), (og_fx o) by auto. rewrite (fx_comm (qg_t g)). ring.
  Qed.
  Lemma comm_diag_l g o psi x : (forall y, og o y = 0%amp) -> dg o (fx (qg_t g) x) = dg o x ->
    eff o (eff g psi) x = eff g (eff o psi) x.
  Proof. intros H1 H2. rewrite !eff_fx, !H1, H2. ring. Qed.
  Lemma comm_diag_r g o psi x : (forall y, og g y = 0%amp) -> dg g (fx (qg_t o) x) = dg g x ->
    eff o (eff g psi) x = eff g (eff o psi) x.
  Proof. intros H1 H2. rewrite !eff_fx, !H1, H2. ring. Qed.
  Lemma comm_diag g o psi x : (forall y, og g y = 0%amp) -> (forall y, og o y = 0%amp) ->
    eff o (eff g psi) x = eff g (eff o psi) x.
  Proof. intros H1 H2. rewrite !eff_fx, !H1, !H2. ring. Qed.

  (** Rewriting the keys of [o] by an involution. *)
  Lemma fold_sigma (s : N -> N) (l : list (N * M2)) : (forall k, s (s k) = k) -> NoDup (map fst l) -> forall acc k,
    mfind k (fold_left (fun acc e => mset (s (fst e)) (snd e) acc) l acc) = match mfind (s k) l with Some v => Some v | None => mfind k acc end.
  Proof.
    intros Hs. induction l as [|[a m] t IH]; intros ND acc k; cbn [fold_left mfind fst snd]; auto.
    cbn [map fst] in ND. inversion ND as [|? ? N1 N2]; subst. rewrite IH by auto. rewrite mfind_mset. destruct (N.eqb_spec (s k) a) as [E|E].
    - subst a. rewrite Hs, N.eqb_refl. now rewrite (proj2 (mfind_none (s k) t) N1).
    - destruct (mfind (s k) t); auto. destruct (N.eqb_spec k (s a)) as [F|F]; auto. subst. now rewrite Hs in E.
  Qed.
  Lemma ctrl_disj i cs x (b : bool) : N.land (if b then 2 ^ i else 0) (ctrl_value (i + 1) cs x) = 0.
  Proof.
    apply N.bits_inj. intros m. rewrite N.land_spec, N.bits_0, tb_ctrl. destruct b; [|now rewrite N.bits_0].
    rewrite tb_pow2. destruct (N.eqb_spec i m); auto. destruct (N.ltb_spec m (i + 1)); auto; lia.
  Qed.
  Lemma land_pow_0 k p : (N.land k (2 ^ p) =? 0) = negb (N.testbit k p).
  Proof.
    rewrite land_pow2_testbit. destruct (N.testbit k p); cbn [negb]; [|reflexivity]. apply N.eqb_neq, pow2_nz.
  Qed.
  Lemma pass_key_ctrl octl k x : N.of_nat (length octl) <= 126 -> forall cs j, j + N.of_nat (length cs) <= 126 ->
    (forall q, In q cs -> In q octl /\ N.testbit k (spos q octl) = N.testbit x q) ->
    pass_key j octl cs k = ctrl_value j cs x.
  Proof.
    intros Ho. induction cs as [|q t IH]; intros j Hj H; cbn [pass_key ctrl_value]; auto. cbn [length] in Hj.
    destruct (H q (or_introl eq_refl)) as [H1 H2]. destruct (spos_split q octl H1) as (l1 & l2 & E1 & E2 & E3).
    assert (Hp : spos q octl < 128). { rewrite E3. rewrite E1, app_length in Ho. cbn [length] in Ho. lia. }
    rewrite IH; [|lia|intros q' Hq'; apply H; now right]. rewrite !pow2_128_ok by lia. rewrite land_pow_0, H2.
    rewrite (add_lor (if N.testbit x q then 2 ^ j else 0)) by apply ctrl_disj. f_equal. now destruct (N.testbit x q).
  Qed.
  Lemma pass_key_ext octl k k' cs : N.of_nat (length octl) <= 126 -> (forall q, In q cs -> In q octl /\ N.testbit k (spos q octl) = N.testbit k' (spos q octl)) ->
    forall j, pass_key j octl cs k = pass_key j octl cs k'.
  Proof.
    intros Ho. induction cs as [|q t IH]; intros H j; cbn [pass_key]; auto.
    destruct (H q (or_introl eq_refl)) as [H1 H2]. destruct (spos_split q octl H1) as (l1 & l2 & E1 & E2 & E3).
    assert (Hp : spos q octl < 128). { rewrite E3. rewrite E1, app_length in Ho. cbn [length] in Ho. lia. }
    rewrite IH; [|intros q' Hq'; apply H; now right]. rewrite !(pow2_128_ok (spos q octl)) by lia. now rewrite !land_pow_0, H2.
  Qed.
  Lemma spos_nth q s : In q s -> nth_error s (N.to_nat (spos q s)) = Some q.
  Proof.
    intros H. destruct (spos_split q s H) as (l1 & l2 & E1 & E2 & E3). rewrite E3, Nnat.Nat2N.id, E1, nth_error_app2 by lia.
    now rewrite PeanoNat.Nat.sub_diag.
  Qed.
  Lemma tb_ctrl_spos q s x : In q s -> N.testbit (ctrl_value 0 s x) (spos q s) = N.testbit x q.
  Proof. intros H. now rewrite tb_ctrl0, spos_nth. Qed.
  Lemma ctrl_fx t s x : NoDup s -> In t s -> N.lxor (ctrl_value 0 s x) (2 ^ spos t s) = ctrl_value 0 s (fx t x).
  Proof.
    intros ND H. apply N.bits_inj. intros j. rewrite N.lxor_spec, tb_pow2, !tb_ctrl0. assert (X := spos_nth t s H).
    destruct (N.eqb_spec (spos t s) j).
    - subst j. rewrite X. rewrite tb_fx_eq. apply xorb_true_r.
    - rewrite xorb_false_r. destruct (nth_error s (N.to_nat j)) as [q|] eqn:E; auto. symmetry. apply tb_fx_neq. intros ->.
      apply n. apply Nnat.N2Nat.inj. eapply NoDup_nth_error; eauto; [|congruence]. apply nth_error_Some. congruence.
  Qed.
  Lemma zero_ring (x y : K) : (0 = 1 :> K)%amp -> x = y.
  Proof. intros H. replace x with (x * 1)%amp by ring. replace y with (y * 1)%amp by ring. rewrite <- H. ring. Qed.
  Lemma unitary_00 (m : M2) : unitary2 m -> m00 m = 0%amp -> m10 m = 0%amp -> (0 = 1 :> K)%amp.
  Proof.
    intros U H1 H2. unfold unitary2, mmul, mdag, midn in U. cbn [m00 m01 m10 m11] in U. injection U as U1 _ _ _.
    rewrite H1, H2 in U1. rewrite <- U1. ring.
  Qed.
  (** The invert test of CanPass. *)
  Lemma phase_invert g n x : wq n g -> IsPhaseInvert g = true ->
    if (match mfind (ctrl_value 0 (qg_ctl g) x) (qg_pl g) with Some m => z0 (m00 m) | None => false end)
    then dg g x = 0%amp else og g x = 0%amp.
  Proof.
    intros W H. unfold IsPhaseInvert in H. rewrite forallb_forall in H. unfold dg, og, dia, off, gm, payload_at.
    destruct (mfind (ctrl_value 0 (qg_ctl g) x) (qg_pl g)) as [m|] eqn:E; [|now destruct (N.testbit x (qg_t g))].
    apply mfind_In in E. destruct W as (_ & _ & _ & _ & _ & _ & G). specialize (H _ E). specialize (G _ E). cbn [snd] in H, G.
    destruct (z0 (m00 m)) eqn:Z.
    - apply z0_iff in Z. destruct (mat_invert m) eqn:I.
      + unfold mat_invert in I. rewrite andb_true_iff, !z0_iff in I. destruct I. now destruct (N.testbit x (qg_t g)).
      + cbn [negb andb] in H. destruct (mat_phase m) eqn:J; [|discriminate]. unfold mat_phase in J. rewrite andb_true_iff, !z0_iff in J.
        destruct J as [_ J]. apply zero_ring. now apply (unitary_00 m).
    - destruct (mat_invert m) eqn:I. { unfold mat_invert in I. now rewrite Z in I. }
      cbn [negb andb] in H. destruct (mat_phase m) eqn:J; [|discriminate]. unfold mat_phase in J. rewrite andb_true_iff, !z0_iff in J.
      destruct J. now destruct (N.testbit x (qg_t g)).
  Qed.

  Lemma pass_ok n g o o' : n <= 126 -> wq n g -> wq n o -> ne o -> CanPass g o = Some o' ->
    wq n o' /\ ne o' /\ qg_t o' = qg_t o /\ qg_ctl o' = qg_ctl o /\ forall psi x, eff o (eff g psi) x = eff g (eff o' psi) x.
  Proof.
    intros Hn Wg Wo No. unfold CanPass. set (yes := fun b : bool => if b then Some o else None).
    assert (Y : forall b, (b = true -> forall psi x, eff o (eff g psi) x = eff g (eff o psi) x) -> yes b = Some o' ->
      wq n o' /\ ne o' /\ qg_t o' = qg_t o /\ qg_ctl o' = qg_ctl o /\ forall psi x, eff o (eff g psi) x = eff g (eff o' psi) x).
    { intros b Hb E. unfold yes in E. destruct b; [|discriminate]. injection E as <-. split; [exact Wo|]. split; [exact No|]. split; [reflexivity|]. split; [reflexivity|]. now apply Hb. }
    destruct (smem (qg_t g) (qg_ctl o)) eqn:E1; cbn [negb].
    2:{ apply smem_not in E1. destruct (smem (qg_t o) (qg_ctl g)) eqn:E2.
        - apply Y. intros H psi x. apply comm_diag_l; [now apply phase_og|]. apply dg_fx; auto.
          apply smem_In in E2. intros E. apply Wg. now rewrite E.
        - apply smem_not in E2. apply Y. intros H psi x. destruct (N.eqb_spec (qg_t g) (qg_t o)); cbn [negb orb] in H.
          + apply andb_true_iff in H. destruct H. apply comm_diag; now apply phase_og.
          + now apply comm_far. }
    apply smem_In in E1. destruct (smem (qg_t o) (qg_ctl g)) eqn:E2.
    { apply Y. intros H psi x. apply andb_true_iff in H. destruct H. apply comm_diag; now apply phase_og. }
    apply smem_not in E2. assert (Ht : qg_t g <> qg_t o). { intros E. apply Wo. now rewrite <- E. }
    destruct (IsPhase g) eqn:E3.
    { apply (Y true). intros _ psi x. apply comm_diag_r; [now apply phase_og|]. apply dg_fx; auto. }
    destruct (IsPhaseInvert g) eqn:E4; cbn [negb orb]; [|discriminate].
    destruct (sincl (qg_ctl o) (qg_ctl g)) eqn:E5; cbn [negb]; [|discriminate]. rewrite sincl_In in E5.
    intros H. injection H as <-. cbn [qg_t qg_ctl].
    assert (Lo := wq_len n o Wo). assert (Lg := wq_len n g Wg).
    assert (NDo : NoDup (qg_ctl o)) by apply srt_nodup, Wo.
    assert (Hp : spos (qg_t g) (qg_ctl o) < N.of_nat (length (qg_ctl o))).
    { destruct (spos_split _ _ E1) as (l1 & l2 & F1 & F2 & F3). rewrite F3, F1, app_length. cbn [length]. lia. }
    set (p := spos (qg_t g) (qg_ctl o)) in *. rewrite (pow2_128_ok p) by lia.
    set (inv := fun k => match mfind (pass_key 0 (qg_ctl o) (qg_ctl g) k) (qg_pl g) with Some m => z0 (m00 m) | None => false end).
    set (s := fun k => if inv k then N.lxor k (2 ^ p) else k).
    set (pl := fold_left _ (qg_pl o) []).
    assert (Epl : pl = fold_left (fun acc e => mset (s (fst e)) (snd e) acc) (qg_pl o) []).
    { unfold pl. generalize ([] : list (N * M2)). generalize (qg_pl o). intros l. induction l as [|e t IH]; intros acc; cbn [fold_left]; auto.
      rewrite IH. f_equal. unfold s, inv. destruct (mfind _ (qg_pl g)) as [m|]; auto. now destruct (z0 (m00 m)). }
    clearbody pl. subst pl.
    assert (Hinv : forall k, inv (N.lxor k (2 ^ p)) = inv k).
    { intros k. unfold inv. rewrite (pass_key_ext (qg_ctl o) (N.lxor k (2 ^ p)) k (qg_ctl g)); auto; [lia|]. intros q Hq. split; [auto|].
      rewrite N.lxor_spec, tb_pow2. destruct (N.eqb_spec p (spos q (qg_ctl o))) as [Q|Q]; [|apply xorb_false_r].
      exfalso. assert (A := spos_nth _ _ E1). assert (B := spos_nth _ _ (E5 q Hq)). fold p in A. rewrite <- Q, A in B. injection B as <-. now apply Wg. }
    assert (Hs : forall k, s (s k) = k).
    { intros k. unfold s. destruct (inv k) eqn:I; rewrite ?Hinv, I; auto. now rewrite N.lxor_assoc, N.lxor_nilpotent, N.lxor_0_r. }
    assert (NDk : NoDup (map fst (qg_pl o))) by apply srt_nodup, Wo.
    assert (F := fold_sigma s (qg_pl o) Hs NDk []).
    split; [|split; [|split; [reflexivity|split; [reflexivity|]]]].
    - destruct Wo as (A & B & C & D & E & FF & G). unfold wq. cbn [qg_t qg_ctl qg_pl]. split; [exact A|]. split; [exact B|]. split; [exact C|].
      split; [exact D|]. split. { apply (fold_inv (fun a => srt (map fst a))); [constructor|]. intros a b _ H. now apply mset_srt. }
      split.
      + apply (fold_inv (fun a => forall k, In k (map fst a) -> k < 2 ^ N.of_nat (length (qg_ctl o)))); [intros k []|].
        intros a b Hb H k Hk. apply keys_mset in Hk. destruct Hk as [->|Hk]; [|now apply H]. unfold s.
        assert (X : fst b < 2 ^ N.of_nat (length (qg_ctl o))) by (apply FF, in_map, Hb). destruct (inv (fst b)); auto. apply lxor_lt_pow2; auto. now apply pow2_lt.
      + apply (fold_inv (fun a => forall e, In e a -> unitary2 (snd e))); [intros k []|].
        intros a b Hb H e He. apply mset_vals in He. destruct He as [->|He]; [exact (G b Hb)|auto].
    - unfold ne in *. cbn [qg_pl]. destruct (qg_pl o) as [|[k0 m0] t]; [congruence|]. intros X. specialize (F (s k0)). rewrite X in F.
      cbn [mfind] in F. rewrite Hs, N.eqb_refl in F. discriminate.
    - intros psi x. set (o' := mkGate (qg_t o) _ (qg_ctl o)).
      set (iv := fun y => match mfind (ctrl_value 0 (qg_ctl g) y) (qg_pl g) with Some m => z0 (m00 m) | None => false end).
      assert (Iv : forall y, inv (ctrl_value 0 (qg_ctl o) y) = iv y).
      { intros y. unfold inv, iv. rewrite (pass_key_ctrl (qg_ctl o) _ y); auto; [lia|lia|]. intros q Hq. split; [auto|]. apply tb_ctrl_spos. auto. }
      assert (Go : forall y, gm o' y = if iv y then gm o (fx (qg_t g) y) else gm o y).
      { intros y. unfold gm, payload_at. subst o'. cbn [qg_ctl qg_pl]. rewrite F. unfold s. rewrite Iv. destruct (iv y).
        - unfold p. rewrite ctrl_fx by auto. cbn [mfind]. now destruct (mfind _ (qg_pl o)).
        - cbn [mfind]. now destruct (mfind _ (qg_pl o)). }
      assert (Ig : ~ In (qg_t g) (qg_ctl g)) by apply Wg.
      assert (Ifx : iv (fx (qg_t g) x) = iv x).
      { unfold iv. rewrite (ctrl_ext (qg_ctl g) (fx (qg_t g) x) x); auto. intros q Hq. apply tb_fx_neq. intros E. apply Ig. now rewrite E. }
      assert (PI := phase_invert g n x Wg E4). fold (iv x) in PI. destruct (iv x) eqn:I.
      + rewrite !eff_fx. rewrite (dg_fx g), (og_fx g) by auto. rewrite PI.
        assert (D1 : dg o' (fx (qg_t g) x) = dg o x).
        { unfold dg. rewrite Go, Ifx, fx_fx. subst o'. cbn [qg_t]. now rewrite tb_fx_neq by auto. }
        assert (D2 : og o' (fx (qg_t g) x) = og o x).
        { unfold og. rewrite Go, Ifx, fx_fx. subst o'. cbn [qg_t]. now rewrite tb_fx_neq by auto. }
        rewrite D1, D2. rewrite (fx_comm (qg_t g) (qg_t o)). replace (qg_t o') with (qg_t o) by reflexivity. ring.
      + rewrite !eff_fx. rewrite (dg_fx g), (og_fx g) by auto. rewrite PI.
        assert (D1 : dg o' x = dg o x) by (unfold dg; now rewrite Go, I).
        assert (D2 : og o' x = og o x) by (unfold og; now rewrite Go, I).
        rewrite D1, D2. replace (qg_t o') with (qg_t o) by reflexivity. ring.
  Qed.
End P.
