(** Running a circuit on the engine. *)
From Coq Require Import NArith List Bool Lia Ring Sorted.
From Verif Require Import Bits MFunctions MParFor MKernel Amp PAmp MEngine MAlu SpecFunctions SpecState SpecEngine PLoop PGates PGates2 PEngine PCircuit8 PCircuit12
  MQCircuit SpecQCircuit PQCirc1 PQCirc2 PQCirc3 PQCirc4.
Import ListNotations.
Local Open Scope N_scope.

Lemma fx_lt t x n : t < n -> x < 2 ^ n -> fx t x < 2 ^ n.
Proof. intros. unfold fx. apply lxor_lt_pow2; auto. now apply pow2_lt. Qed.

Lemma iota_len k : forall a, length (iota a k) = k.
Proof. induction k; intros a; cbn [iota length]; auto. Qed.
Lemma iota_mem k : forall a q, In q (iota a k) <-> a <= q < a + N.of_nat k.
Proof.
  induction k as [|k IH]; intros a q; cbn [iota In]; [lia|]. rewrite IH. lia.
Qed.

Section P.
  Context {K : StarRing}.
  Add Ring KrZ : (sr_ring K).
  Local Notation V := (N -> K).
  Local Notation M2 := (mat2 K).
  Implicit Types (g h o ng : @qgate K) (psi : V) (gs rl : list (@qgate K)).

  Definition gd (n : N) g : Prop := good_gate n g \/ good_swap n g.
  Lemma okg_gd n g : okg n g -> gd n g.
  Proof. intros H. left. now apply good_wq. Qed.
  Lemma effect_swap n g psi x : good_swap n g -> effect g psi x = psi (swap_bits (hd 0 (qg_ctl g)) (qg_t g) x).
  Proof. intros (E & c & Ec & _). unfold effect. rewrite E, Ec. reflexivity. Qed.
  Lemma effect_ext n g : gd n g -> forall a b, (forall x, a x = b x) -> forall x, effect g a x = effect g b x.
  Proof.
    intros [G|G] a b H x. { apply good_wq in G. rewrite !eff_effect by apply G. now apply eff_ext. }
    rewrite !(effect_swap n) by auto. apply H.
  Qed.
  Lemma effect_eqv n g : gd n g -> forall a b, eqv n a b -> eqv n (effect g a) (effect g b).
  Proof.
    intros [G|G] a b H x Hx.
    - apply good_wq in G. rewrite !eff_effect by apply G. rewrite !eff_fx. rewrite (H x Hx), (H (fx (qg_t g) x)); auto. apply fx_lt; auto. now destruct G as [[Gt _] _].
    - rewrite !(effect_swap n) by auto. apply H. destruct G as (_ & c & -> & G1 & G2 & _). now apply swap_bits_lt.
  Qed.
  Lemma effect_scale n g (k : K) psi x : gd n g -> effect g (fun y => k * psi y)%amp x = (k * effect g psi x)%amp.
  Proof.
    intros [G|G]. { apply good_wq in G. rewrite !eff_effect by apply G. apply eff_scale. }
    now rewrite !(effect_swap n) by auto.
  Qed.
  Lemma effects_cons g t psi : effects (g :: t) psi = effects t (effect g psi).
  Proof. reflexivity. Qed.
  Lemma effects_app a b psi : effects (a ++ b) psi = effects b (effects a psi).
  Proof. unfold effects. apply fold_left_app. Qed.
  Lemma effects_ext n gs : Forall (gd n) gs -> forall a b, (forall x, a x = b x) -> forall x, effects gs a x = effects gs b x.
  Proof. induction 1 as [|g t Hg Ht IH]; intros a b H; [exact H|]. apply IH. now apply (effect_ext n). Qed.
  Lemma effects_eqv n gs : Forall (gd n) gs -> forall a b, eqv n a b -> eqv n (effects gs a) (effects gs b).
  Proof. induction 1 as [|g t Hg Ht IH]; intros a b H; [exact H|]. apply IH. now apply effect_eqv. Qed.
  Lemma effects_scale n gs : Forall (gd n) gs -> forall (k : K) psi x, effects gs (fun y => k * psi y)%amp x = (k * effects gs psi x)%amp.
  Proof.
    induction 1 as [|g t Hg Ht IH]; intros k psi x; [reflexivity|]. rewrite !effects_cons, <- IH. apply (effects_ext n); auto. intros y. now apply (effect_scale n).
  Qed.
  Lemma effects_effs gs : Forall ne gs -> forall psi x, effects gs psi x = effs gs psi x.
  Proof.
    induction 1 as [|g t Hg Ht IH]; intros psi x; [reflexivity|]. rewrite effects_cons, effs_cons, IH. apply effs_ext. intros y. now apply eff_effect.
  Qed.

  (** ** Swaps *)
  Definition cxn (key : bool) (c t : N) (x : N) : N := if Bool.eqb (N.testbit x c) key then fx t x else x.
  Lemma cnot_inv key g : IsCnotAt key g = true -> exists c m, qg_ctl g = [c] /\ qg_pl g = [(key, m)] /\ m = mat_X.
  Proof.
    unfold IsCnotAt. destruct (qg_ctl g) as [|c [|]]; try discriminate. destruct (qg_pl g) as [|[k m] [|]]; try discriminate.
    cbn [mfind]. destruct (N.eqb_spec key k); [|discriminate]. subst. intros H. exists c, m. split; auto. split; auto.
    unfold is_x in H. rewrite !andb_true_iff in H. destruct H as [[[A B] C] D]. apply z0_iff in A, B. apply z0_sub in C, D.
    apply mat2_eq; auto.
  Qed.
  Lemma cnot_eff key g psi x : IsCnotAt (N.b2n key) g = true -> effect g psi x = psi (cxn key (hd 0 (qg_ctl g)) (qg_t g) x).
  Proof.
    intros H. apply cnot_inv in H. destruct H as (c & m & E1 & E2 & ->). rewrite eff_effect by (unfold ne; congruence). rewrite eff_fx.
    unfold dg, og, gm, payload_at. rewrite E1, E2. cbn [mfind ctrl_value hd]. unfold cxn.
    destruct (N.testbit x c), key; cbn; unfold midn; destruct (N.testbit x (qg_t g)); cbn; ring.
  Qed.
  Lemma swap3_bits key c t x : c <> t -> cxn key c t (cxn key t c (cxn key c t x)) = swap_bits c t x.
  Proof.
    intros H. apply N.bits_inj. intros q. rewrite tb_swap. unfold cxn.
    repeat match goal with |- context [Bool.eqb ?b key] => let E := fresh in destruct (Bool.eqb b key) eqn:E end;
    repeat rewrite ?tb_fx in *; rewrite ?N.eqb_refl in *;
    destruct (N.eqb_spec t c); try congruence; destruct (N.eqb_spec c t); try congruence;
    destruct (N.eqb_spec q c), (N.eqb_spec q t), (N.eqb_spec t q), (N.eqb_spec c q); subst; try congruence;
    repeat match goal with H : Bool.eqb _ _ = true |- _ => apply Bool.eqb_prop in H | H : Bool.eqb _ _ = false |- _ => apply eqb_false_iff in H end;
    rewrite ?xorb_false_r, ?xorb_true_r in *; try congruence;
    repeat match goal with H : context [N.testbit x ?k] |- _ => destruct (N.testbit x k); rewrite ?xorb_false_r, ?xorb_true_r in * end; cbn in *; try congruence; destruct key; cbn in *; congruence.
  Qed.
  Lemma swap3_ok n a b c : gd n a -> is_swap3 a b c = true ->
    let s := swap_gate (qg_t a) (hd 0 (qg_ctl a)) in
    gd n s /\ forall psi, Forall (gd n) [a; b; c] -> forall x, effects [a; b; c] psi x = effect s psi x.
  Proof.
    intros Ga H. unfold is_swap3 in H. rewrite !andb_true_iff in H. destruct H as [[HA [[HB1 HB2] HB3]] [[HC1 HC2] HC3]].
    apply N.eqb_eq in HB2, HB3, HC2, HC3.
    assert (exists key, IsCnotAt (N.b2n key) a = true /\ IsCnotAt (N.b2n key) b = true /\ IsCnotAt (N.b2n key) c = true) as (key & K1 & K2 & K3).
    { unfold IsCnot, IsAntiCnot in *. destruct (IsCnotAt 0 a) eqn:E.
      - exists false. cbn [N.b2n] in *. cbn [negb andb] in *. rewrite orb_false_r in *. auto.
      - exists true. cbn [N.b2n negb andb] in *. rewrite orb_false_l in HB1, HC1. rewrite orb_false_r in HA. auto. }
    destruct (cnot_inv _ _ K1) as (ca & m & E1 & E2 & _). destruct Ga as [Ga|Ga]; [|destruct Ga as (F & _); congruence].
    destruct Ga as (A1 & A2 & A3 & A4 & _). rewrite E1 in *. cbn [hd] in *. apply inc_srt in A2. destruct A2 as [_ A2].
    assert (Hca : ca < n) by (apply A2; now left). assert (Hne : ca <> qg_t a) by (intros F; apply A3; left; auto).
    cbv zeta. split. { right. split; [reflexivity|]. exists ca. cbn. auto. }
    intros psi _ x. unfold effects. cbn [fold_left]. rewrite (cnot_eff key c) by auto. rewrite (cnot_eff key b) by auto. rewrite (cnot_eff key a) by auto.
    rewrite E1. cbn [hd]. rewrite HB2, <- HB3, HC2, <- HC3. rewrite swap3_bits by auto. reflexivity.
  Qed.
  Lemma fuse_ok n k : forall gs, (length gs <= k)%nat -> Forall (gd n) gs ->
    Forall (gd n) (fuse_swaps gs) /\ forall psi x, effects (fuse_swaps gs) psi x = effects gs psi x.
  Proof.
    induction k as [|k IH]; intros gs Hl Hg. { destruct gs; [|cbn [length] in Hl; lia]. split; auto. }
    destruct gs as [|a tl]; [split; auto|]. inversion Hg as [|? ? Ga Gt]; subst. cbn [length] in Hl.
    destruct tl as [|b [|c rest]]; [split; auto|split; auto|].
    change (fuse_swaps (a :: b :: c :: rest)) with (if is_swap3 a b c then swap_gate (qg_t a) (hd 0 (qg_ctl a)) :: fuse_swaps rest else a :: fuse_swaps (b :: c :: rest)).
    destruct (is_swap3 a b c) eqn:E.
    - destruct (swap3_ok n a b c Ga E) as [S1 S2]. inversion Gt as [|? ? Gb Gt2]; subst. inversion Gt2 as [|? ? Gc Gr]; subst.
      destruct (IH rest) as [I1 I2]; [cbn [length] in Hl; lia|auto|]. split; [now constructor|]. intros psi x. rewrite effects_cons, I2.
      change (a :: b :: c :: rest) with ([a; b; c] ++ rest). rewrite effects_app. apply (effects_ext n); auto. intros y. symmetry. apply S2. auto.
    - destruct (IH (b :: c :: rest)) as [I1 I2]; [cbn [length] in *; lia|auto|]. split; [now constructor|]. intros psi x. rewrite !(effects_cons a). apply I2.
  Qed.

  (** ** One gate *)
  Definition ran (n : N) (rgp : bool) (spec : V) (r : option (res (option V))) : Prop :=
    exists psi' ph, r = Some (Ok (Some psi')) /\ anorm ph = 1%amp /\ (rgp = false -> ph = 1%amp) /\ forall x, x < 2 ^ n -> spec x = (ph * psi' x)%amp.
  Lemma wq_len_lt n g : wq n g -> N.of_nat (length (qg_ctl g)) + 1 <= n.
  Proof.
    intros (A & B & C & D & _). assert (L : (length (qg_t g :: qg_ctl g) <= length (iota 0 (N.to_nat n)))%nat).
    { apply NoDup_incl_length; [constructor; auto; now apply srt_nodup|]. intros q Hq. apply iota_mem. destruct Hq as [<-|Hq]; [lia|]. specialize (C q Hq). lia. }
    rewrite iota_len in L. cbn [length] in L. lia.
  Qed.
  Lemma layout_payload g : layout (payload_array g) (payload_at g).
  Proof.
    intros k. unfold payload_array.
    assert (Q : forall j, j < 4 -> (4 * k + j) / 4 = k /\ (4 * k + j) mod 4 = j).
    { intros j Hj. rewrite N.mul_comm. split; [rewrite N.div_add_l by lia; rewrite N.div_small by lia; lia|].
      rewrite N.add_comm, N.mod_add by lia. now apply N.mod_small. }
    assert (Q0 := Q 0 ltac:(lia)). rewrite N.add_0_r in Q0. destruct Q0 as [Q0 Q0'].
    destruct (Q 1) as [Q1 Q1']; [lia|]. destruct (Q 2) as [Q2 Q2']; [lia|]. destruct (Q 3) as [Q3 Q3']; [lia|].
    rewrite Q0, Q0', Q1, Q1', Q2, Q2', Q3, Q3'. auto.
  Qed.
  Lemma run_gate_ok c rgp n g psi : fits c n -> gd n g -> every_run (run_gate c rgp n g (Some psi)) (ran n rgp (effect g psi)).
  Proof.
    intros Hf [G|G].
    - apply good_wq in G. destruct G as [W NE]. assert (WL := wq_len_lt n g W). assert (Hn : n < 64) by apply Hf. pose proof W as W'.
      destruct W' as (A & B & C & D & E & F & U). unfold run_gate.
      assert (ND : NoDup (qg_ctl g ++ [qg_t g])).
      { apply PAlu5.NoDup_app_disjoint; [now apply srt_nodup|repeat constructor; auto|]. intros q Hq [<-|[]]. contradiction. }
      assert (HI : forall q, In q (qg_ctl g ++ [qg_t g]) -> q < n).
      { intros q Hq. apply in_app_iff in Hq. destruct Hq as [Hq|[<-|[]]]; auto. }
      destruct (qg_ctl g) as [|c0 ct] eqn:EC.
      + destruct (mfind 0 (qg_pl g)) as [m|] eqn:Fm.
        2:{ exfalso. destruct (qg_pl g) as [|[k m] t] eqn:EP; [now apply NE|]. assert (k < 2 ^ N.of_nat (length (@nil N))) by (apply F; now left).
            change (2 ^ N.of_nat (length (@nil N))) with 1 in *. apply mfind_none in Fm. apply Fm. left. cbn [fst]. lia. }
        assert (Um : unitary2 m) by (apply mfind_In in Fm; now apply (U (0, m))).
        destruct (c19_either c rgp false n [] m (qg_t g) psi Hf ND HI) as [[r0 X1] X2]. split; [exists (Some r0), r0; auto|].
        intros r (r' & R1 & ->). destruct (X2 r' R1) as (psi' & ph & -> & P1 & P2). exists psi', ph. split; auto.
        assert (QQ : anorm ph = 1%amp /\ (rgp = false -> ph = 1%amp)).
        { destruct P2 as [->|(-> & _ & ->)]; [split; auto; apply anorm_1|]. split; [now apply unitary_scal|discriminate]. }
        destruct QQ. split; auto. split; auto. intros x Hx. rewrite <- P1 by auto. rewrite eff_effect by auto. unfold eff, gm, payload_at. rewrite EC. cbn [ctrl_value].
        rewrite Fm. reflexivity.
      + rewrite <- EC in *. assert (HC : qg_ctl g <> []) by congruence. destruct (qg_pl g) as [|[k m] pt] eqn:EP; [now elim NE|]. destruct pt as [|e2 pt].
        * destruct (c19_uc c rgp n (qg_ctl g) m (qg_t g) k psi Hf ND HI) as [[r0 X1] X2]. split; [exists (Some r0), r0; auto|].
          intros r (r' & -> & R1). destruct (X2 r' R1) as (psi' & ph & -> & P1 & P2). destruct P2 as [->|(_ & P2 & _)]; [|congruence].
          exists psi', 1%amp. split; auto. split; [apply anorm_1|]. split; auto. intros x Hx. rewrite <- P1 by auto. rewrite eff_effect by auto. unfold eff, gm, payload_at. rewrite EP.
          cbn [mfind]. unfold gate1 at 2. rewrite match_is by (apply F; now left). destruct (_ =? k) eqn:Ek; [reflexivity|]. rewrite gate1_fx. unfold dia, off, midn.
          cbn [m00 m01 m10 m11]. destruct (N.testbit x (qg_t g)); ring.
        * assert (LP := layout_payload g).
          destruct (c22_ucsb c rgp n (qg_ctl g) (qg_t g) (payload_array g) (payload_at g) [] 0 psi Hf LP HC ND HI) as [[r0 X1] X2].
          { exact I. } { cbn [length]. lia. } { reflexivity. }
          cbn [map] in X1, X2. split; [exists (Some r0), r0; auto|]. intros r (r' & -> & R1). destruct (X2 r' R1) as (psi' & -> & P1).
          exists psi', 1%amp. split; auto. split; [apply anorm_1|]. split; auto. intros x Hx. rewrite P1 by auto. rewrite eff_effect by auto.
          unfold insert_zeros. cbn [fold_left]. rewrite N.lor_0_r. unfold eff, gm. ring.
    - pose proof G as (E & c0 & Ec & G1 & G2 & G3). unfold run_gate. rewrite Ec, E.
      assert (ND : NoDup ([] ++ [c0; qg_t g])) by (constructor; [intros [F|[]]; auto|constructor; [intros []|constructor]]).
      destruct (c19_swap c false n [] (mat_X : M2) c0 (qg_t g) psi Hf (conj eq_refl eq_refl) ND) as [[r0 X1] X2].
      { intros q [<-|[<-|[]]]; auto. }
      split; [exists (Some r0), r0; auto|]. intros r (r' & -> & R1). destruct (X2 r' R1) as (psi' & -> & P1).
      exists psi', 1%amp. split; auto. split; [apply anorm_1|]. split; auto. intros x Hx. rewrite P1 by auto. rewrite (effect_swap n) by auto.
      rewrite Ec. cbn [hd]. unfold mat_X. change (if false then all_clear [] else all_set []) with (fun x : N => true).
      change (fun x : N => true) with always. rewrite gate_swap_x. ring.
  Qed.
  Lemma ran_ext n rgp (a b : V) r : eqv n a b -> ran n rgp a r -> ran n rgp b r.
  Proof. intros H (p & ph & A & B & C & D). exists p, ph. repeat (split; auto). intros x Hx. rewrite <- H; auto. Qed.
  Lemma run_gates_ok c rgp n gs : fits c n -> Forall (gd n) gs -> forall psi, every_run (run_gates c rgp n gs (Some psi)) (ran n rgp (effects gs psi)).
  Proof.
    intros Hf. induction 1 as [|g t Hg Ht IH]; intros psi; cbn [run_gates].
    - split; [eauto|]. intros r ->. exists psi, 1%amp. split; auto. split; [apply anorm_1|]. split; auto. intros x _. unfold effects. cbn [fold_left]. ring.
    - destruct (run_gate_ok c rgp n g psi Hf Hg) as [[r1 X1] X2]. split.
      + destruct (X2 r1 X1) as (psi1 & ph & -> & _). destruct (IH psi1) as [[r Y1] _]. exists r, (Some (Ok (Some psi1))). auto.
      + intros r (r1' & R1 & R2). destruct (X2 r1' R1) as (psi1 & ph & -> & P1 & P2 & P3). destruct (IH psi1) as [_ Y].
        destruct (Y r R2) as (psi2 & ph2 & -> & Q1 & Q2 & Q3). exists psi2, (ph * ph2)%amp. split; auto. split. { rewrite (anorm_mul K), P1, Q1. ring. }
        split. { intros F. rewrite P2, Q2 by auto. ring. } intros x Hx. rewrite effects_cons.
        assert (EQ : eqv n (effect g psi) (fun y => ph * psi1 y)%amp) by (intros y Hy; auto).
        rewrite (effects_eqv n t Ht _ _ EQ) by auto. rewrite (effects_scale n) by auto. rewrite Q3 by auto. ring.
  Qed.

  (** ** Run *)
  Definition wide (na : N) psi : V := tensor na psi (ket 0).
  Lemma wide_eqv na nb psi : eqv (na + nb) (tensor_at na nb psi ket0) (wide na psi).
  Proof.
    intros x Hx. unfold tensor_at, wide, tensor, outside, get_reg. assert (P := pow2_nz na). rewrite N.pow_add_r in *.
    rewrite (N.div_small x (2 ^ na * 2 ^ nb)) by auto. rewrite N.mul_0_l, N.add_0_r. f_equal.
    rewrite (N.mod_small (x / 2 ^ na)) by (apply N.div_lt_upper_bound; auto). reflexivity.
  Qed.
  Lemma run_same c rgp maxQB qc n psi : fits c n -> qc_count qc <= n -> Forall (gd n) (qc_gates qc) ->
    every_run (Run c rgp maxQB qc (mkEng n (Some psi))) (fun r => exists psi' ph, r = Some (Ok (mkEng n (Some psi'))) /\ anorm ph = 1%amp /\ (rgp = false -> ph = 1%amp) /\
      forall x, x < 2 ^ n -> effects (qc_gates qc) psi x = (ph * psi' x)%amp).
  Proof.
    intros Hf Hc Hg. destruct (fuse_ok n _ (qc_gates qc) (le_n _) Hg) as [F1 F2].
    destruct (run_gates_ok c rgp n _ Hf F1 psi) as [[r0 X1] X2]. unfold Run. cbn [e_n e_vec]. destruct (N.ltb_spec n (qc_count qc)); [lia|]. split; [eauto|].
    intros r (r1 & R1 & ->). destruct (X2 r1 R1) as (p & ph & -> & P1 & P2 & P3). exists p, ph. repeat (split; auto). intros x Hx. rewrite <- F2. auto.
  Qed.
  Lemma compose_some c maxQB na nb (pa pb : V) start r : 0 < na -> 0 < nb -> na + nb <= maxQB -> start <= na ->
    ComposeAt c maxQB (mkEng na (Some pa)) (mkEng nb (Some pb)) start r -> exists m, r = Ok (mkEng (na + nb) (Some m), start).
  Proof.
    intros Ha Hb Hm Hs. unfold ComposeAt. cbn [e_n e_vec]. destruct (N.ltb_spec na start); [lia|]. destruct (N.eqb_spec na 0); [lia|].
    destruct (N.eqb_spec nb 0); [lia|]. destruct (N.ltb_spec maxQB (na + nb)); [lia|]. intros (fresh & m & _ & ->). eauto.
  Qed.
  Lemma run_wide c rgp maxQB qc n psi : fits c (qc_count qc) -> 0 < n -> n < qc_count qc -> qc_count qc <= maxQB -> Forall (gd (qc_count qc)) (qc_gates qc) ->
    every_run (Run c rgp maxQB qc (mkEng n (Some psi))) (fun r => exists psi' ph, r = Some (Ok (mkEng (qc_count qc) (Some psi'))) /\ anorm ph = 1%amp /\ (rgp = false -> ph = 1%amp) /\
      forall x, x < 2 ^ qc_count qc -> effects (qc_gates qc) (wide n psi) x = (ph * psi' x)%amp).
  Proof.
    intros Hf Hn Hc HM Hg. set (N1 := qc_count qc) in *. destruct (fuse_ok N1 _ (qc_gates qc) (le_n _) Hg) as [F1 F2].
    unfold Run. cbn [e_n e_vec]. fold N1. destruct (N.ltb_spec n N1); [|lia]. assert (EN : n + (N1 - n) = N1) by lia.
    assert (CA := c23_compose_at c maxQB n (N1 - n) n (Some psi) (Some ket0)). rewrite EN in CA.
    destruct CA as [[r0 C1] C2]; [auto|auto|lia|auto|lia|].
    assert (CS : forall r, ComposeAt c maxQB (mkEng n (Some psi)) (mkEng (N1 - n) (Some ket0)) n r -> exists m, r = Ok (mkEng N1 (Some m), n) /\ eqv N1 m (wide n psi)).
    { intros r Hr. destruct (compose_some c maxQB n (N1 - n) psi ket0 n r) as [m Em]; auto; try lia. rewrite EN in Em. exists m. split; auto.
      destruct (C2 r Hr) as (v & Ev & Hv). rewrite Em in Ev. injection Ev as <-. cbn [vread] in Hv. intros x Hx. rewrite Hv by auto. rewrite <- EN in Hx. now apply wide_eqv with (nb := N1 - n). }
    split.
    - destruct (CS r0 C1) as (m & -> & _). destruct (run_gates_ok c rgp N1 _ Hf F1 m) as [[r1 X1] _]. eexists. exists (Ok (mkEng N1 (Some m), n)). split; [exact C1|]. cbn [e_n e_vec]. eauto.
    - intros r (r0' & R0 & R1). destruct (CS r0' R0) as (m & -> & Hm). destruct R1 as (r1 & R1 & ->). cbn [e_n e_vec] in *.
      destruct (run_gates_ok c rgp N1 _ Hf F1 m) as [_ X2]. destruct (X2 r1 R1) as (p & ph & -> & P1 & P2 & P3). exists p, ph. repeat (split; auto).
      intros x Hx. rewrite <- P3 by auto. rewrite F2. symmetry. apply (effects_eqv N1); auto.
  Qed.
End P.
