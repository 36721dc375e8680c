(** Proofs for QUnit: probes of a control, and the application of a buffer. *)
From Coq Require Import Arith NArith List Bool Lia Ring.
From Verif Require Import Bits MFunctions SpecFunctions PFunctions MKernel PKernel Amp PAmp SpecState PApply PCompose PGates PGates2 PProb PQCirc2 PQCirc3 PEngine MShard SpecShard MUnit SpecUnit PShard1 PShard2 PShard5 PShard6 PShard7 PShard9 PUnit1 PUnit2 PUnit3 PUnit4 PUnit5 PUnit6 PUnit7 PUnit8 PUnit9 PUnit10 PUnit11 PUnit12.
Import ListNotations.
Local Open Scope N_scope.
Local Notation up n := (upto (N.to_nat n)).

Section P.
  Context {K : StarRing} (cx : Cplx K) (D : definite (K := K)).
  Add Ring KrCB : (sr_ring K).
  Local Notation wf := (wf cx).
  Local Notation vec := (N -> K).
  Local Notation unit1 x := (anorm x = 1%amp).
  Local Notation M2 := (mat2 K).
  Local Notation qu := (qunit K).
  Local Notation framed := (framed cx).
  Implicit Types (U V X : qu) (psi phi : vec).

  Definition mono U V : Prop := forall p, bas_of V p = bas_of U p \/ bas_of V p = PauliZ.
  Lemma mono_refl U : mono U U. Proof. intros p. left. reflexivity. Qed.
  Lemma mono_trans U V X : mono U V -> mono V X -> mono U X.
  Proof. intros A B p. destruct (B p) as [E|E]; [|right; exact E]. rewrite E. apply A. Qed.
  Lemma mono_same U V : (forall p, bas_of V p = bas_of U p) -> mono U V. Proof. intros H p. left. apply H. Qed.
  Local Notation same_bases U V := (forall p, bas_of V p = bas_of U p).
  Lemma sound_acted U V : sound cx U V -> acted cx (fun psi => psi) U V.
  Proof. intros [A B C E F]. split; assumption. Qed.
  Lemma acts_acted q M U V : acts cx q M U V -> acted cx (gate1 always q M) U V.
  Proof. intros [A B C E F]. split; assumption. Qed.
  Lemma acted_after G U V X : sound cx U V -> (forall psi phi, like psi phi -> like (G psi) (G phi)) -> acted cx G V X -> acted cx G U X.
  Proof. intros [A1 A2 A3 A4 A5] HG [B1 B2 B3 B4]. split; auto; [eapply like_trans; [exact B3|apply HG, A3]|eapply kept_trans; eassumption]. Qed.
  Lemma acted_before G U V X : acted cx G U V -> sound cx V X -> acted cx G U X.
  Proof. intros [A1 A2 A3 A4] [B1 B2 B3 B4 B5]. split; auto; [eapply like_trans; eassumption|eapply kept_trans; eassumption]. Qed.
  Lemma acted_like G G' U V : acted cx G U V -> (forall psi, like (G psi) (G' psi)) -> acted cx G' U V.
  Proof. intros [A1 A2 A3 A4] H. split; auto. eapply like_trans; [exact A3|apply H]. Qed.

  Lemma revert_ok i U : wf U -> neat U -> i < u_n U -> let V := RevertBasis1Qb cx (SeparateBit cx) i U in
    sound cx U V /\ bas_of V i = PauliZ /\ (forall p, p <> i -> u_sh V p = u_sh U p) /\ (bas_of U i = PauliZ -> V = U).
  Proof.
    intros W N0 Hi. destruct (revert1_ok cx (SeparateBit cx) i U W Hi) as (A & B & C & E & F).
    - destruct (s_unit (u_sh U i)) as [u|] eqn:Eu; [intros _; apply (nt_fd U N0 i u Hi Eu)|congruence].
    - cbn zeta. set (V := RevertBasis1Qb cx (SeparateBit cx) i U) in *. destruct (F) as (F1 & F2 & F3 & _). split; [|split; [exact E|split; [exact F3|]]].
      + split; auto; [|apply like_ss, B]. apply (neat_shape U V i N0); [apply C|exact F].
      + intros Bz. unfold V, RevertBasis1Qb. unfold bas_of in Bz. rewrite Bz. reflexivity.
  Qed.

  Lemma anorm_zero (x : K) : anorm x = 0%amp -> x = 0%amp.
  Proof.
    intros E. destruct D as (_ & _ & D3). apply (D3 [0] (fun _ => x)) with (x := 0); [|left; reflexivity]. unfold asum. cbn [map fold_right]. rewrite E. ring.
  Qed.
  Lemma sup_framed U q b : bas_of U q = PauliZ -> supported q b (framed U) <-> supported q b (base U).
  Proof. intros E. apply supported_fr, E. Qed.
  Lemma two_framed U q : bas_of U q = PauliZ -> two_sided q (framed U) <-> two_sided q (base U).
  Proof. intros E. unfold two_sided. rewrite !sup_framed by exact E. reflexivity. Qed.
  Lemma sup_sound U V q b : sound cx U V -> supported q b (framed V) <-> supported q b (framed U).
  Proof. intros S. split; intros H; (eapply supported_like; [|exact H]); [apply like_sym|]; apply (so_like cx U V S). Qed.
  Lemma two_sound U V q : sound cx U V -> two_sided q (framed V) <-> two_sided q (framed U).
  Proof. intros S. unfold two_sided. rewrite !(sup_sound U V) by exact S. reflexivity. Qed.

  (** ProbBase on a shard in the Z basis. *)
  Lemma probe q U : wf U -> neat U -> q < u_n U -> bas_of U q = PauliZ -> exists V, ProbBase cx q U = (anorm (s_a1 (u_sh V q)), V) /\
    sound cx U V /\ bas_of V q = PauliZ /\ (two_sided q (framed U) -> same_bases U V) /\ (s_a1 (u_sh V q) = 0%amp <-> supported q false (framed U)) /\ (s_a0 (u_sh V q) = 0%amp <-> supported q true (framed U)).
  Proof.
    intros W N0 Hq Bz. destruct (probbase_ok cx D q U W N0 Hq) as (V & E & S & B & P & Pd & _). exists V. split; [exact E|]. split; [exact S|]. split; [congruence|].
    split; [intros T; apply P; right; apply two_framed; assumption|]. pose proof (sound_n cx U V S) as En. rewrite <- En in Hq.
    destruct (sup_amps D V q (so_wf cx U V S) Hq Pd) as [S1 S2]. assert (BV : bas_of V q = PauliZ) by congruence.
    split; [rewrite S1|rewrite S2]; rewrite <- (sup_framed V q _ BV); apply sup_sound, S.
  Qed.
  (** The cached tests. *)
  Lemma cached_probe b q U : wf U -> neat U -> q < u_n U -> CACHED b q U = true -> exists V, ProbBase cx q U = (anorm (s_a1 (u_sh V q)), V) /\
    sound cx U V /\ same_bases U V /\ bas_of U q = b /\ QUEUED_PHASE q U = false /\ ((is0 (anorm (s_a1 (u_sh V q))) = true) <-> supported q false (base U)) /\ (is0 (1 - anorm (s_a1 (u_sh V q)))%amp = true <-> supported q true (base U)).
  Proof.
    intros W N0 Hq C. unfold CACHED in C. apply andb_prop in C. destruct C as [C Cq]. apply andb_prop in C. destruct C as [Cb Cd]. apply negb_true_iff in Cd, Cq.
    assert (Bz : bas_of U q = b) by (unfold bas_of; destruct (s_bas (u_sh U q)), b; try discriminate; reflexivity).
    assert (Eu : s_unit (u_sh U q) = None). { destruct (s_unit (u_sh U q)) as [u|] eqn:E; [|reflexivity]. unfold DIRTY in Cd. rewrite (nt_fd U N0 q u Hq E) in Cd. discriminate. }
    destruct (probbase_ok cx D q U W N0 Hq) as (V & E & S & B & P & Pd & Nn). exists V. split; [exact E|]. split; [exact S|]. assert (SB : same_bases U V) by (apply P; left; exact Eu). split; [exact SB|]. split; [exact Bz|]. split; [exact Cq|].
    pose proof (sound_n cx U V S) as En. pose proof Hq as HqV. rewrite <- En in HqV. specialize (Nn Eu). destruct (wf_none V (so_wf cx U V S) q HqV Nn) as (_ & _ & _ & L4).
    assert (LB : like (base V) (base U)).
    { apply (fr_unlike cx (up (u_n U)) (bas_of U)). pose proof (so_like cx U V S) as L. unfold PUnit5.framed in L. rewrite En in L. rewrite (fr_bas cx _ (bas_of U) (bas_of V)) in L by (intros p _; apply SB). exact L. }
    destruct (sup_amps D V q (so_wf cx U V S) HqV Pd) as [S1 S2]. split.
    - rewrite is0_iff. split.
      + intros F. apply (supported_like q false _ (base V)); [apply like_sym, LB|]. apply S1, anorm_zero, F.
      + intros F. assert (E0 : s_a1 (u_sh V q) = 0%amp) by (apply S1; eapply supported_like; [exact LB|exact F]). rewrite E0. apply anorm_0.
    - rewrite is0_iff. assert (E0 : (1 - anorm (s_a1 (u_sh V q)) = anorm (s_a0 (u_sh V q)))%amp) by (rewrite <- L4; ring). rewrite E0. split.
      + intros F. apply (supported_like q true _ (base V)); [apply like_sym, LB|]. apply S2, anorm_zero, F.
      + intros F. assert (E1 : s_a0 (u_sh V q) = 0%amp) by (apply S2; eapply supported_like; [exact LB|exact F]). rewrite E1. apply anorm_0.
  Qed.
  Lemma cached_control v q U : wf U -> neat U -> q < u_n U -> exists b V, (if v : bool then CACHED_ZERO cx q U else CACHED_ONE cx q U) = (b, V) /\ sound cx U V /\ same_bases U V /\
    (b = true -> QUEUED_PHASE q U = false /\ supported q (negb v) (framed U)).
  Proof.
    intros W N0 Hq. unfold CACHED_ZERO, CACHED_ONE. destruct (CACHED PauliZ q U) eqn:C.
    - destruct (cached_probe PauliZ q U W N0 Hq C) as (V & -> & S & SB & Bz & Qp & Z0 & Z1). destruct v; eexists; exists V; (split; [reflexivity|]); split; try exact S; (split; [exact SB|]); intros F; (split; [exact Qp|]).
      + apply sup_framed, Z0, F; exact Bz.
      + apply sup_framed, Z1, F; exact Bz.
    - destruct v; exists false, U; (split; [reflexivity|]); (split; [apply sound_refl; assumption|]); (split; [reflexivity|discriminate]).
  Qed.
  (** An X on a qubit in the state plus. *)
  Lemma plus_fixed P q psi : indep P q -> supported q false psi -> same_state (gate1 P q mZ psi) psi.
  Proof.
    intros HP HS x. unfold gate1, mZ. cbn [m00 m01 m10 m11]. destruct (P x); [|reflexivity]. destruct (N.testbit x q) eqn:E.
    - rewrite (HS x) by congruence. ring.
    - ring.
  Qed.
  Lemma cached_plus q U : wf U -> neat U -> q < u_n U -> exists b V, CACHED_PLUS cx q U = (b, V) /\ sound cx U V /\ same_bases U V /\
    (b = true -> QUEUED_PHASE q U = false /\ forall P, indep P q -> same_state (gate1 P q (invertM 1 1)%amp (framed U)) (framed U)).
  Proof.
    intros W N0 Hq. unfold CACHED_PLUS. destruct (CACHED PauliX q U) eqn:C.
    - destruct (cached_probe PauliX q U W N0 Hq C) as (V & -> & S & SB & Bx & Qp & Z0 & _). eexists; exists V. split; [reflexivity|]. split; [exact S|]. split; [exact SB|]. intros F. split; [exact Qp|]. apply Z0 in F.
      intros P HP. unfold PUnit5.framed. set (l := up (u_n U)). set (phi := fr cx l (set_bas (bas_of U) q PauliZ) (base U)).
      assert (E : same_state (fr cx l (bas_of U) (base U)) (gate1 always q (bmat cx PauliX) phi)) by (rewrite <- Bx; apply fr_at; [apply upto_nodup|apply up_in, Hq]).
      assert (HS : supported q false phi) by (apply supported_fr; [unfold set_bas; rewrite N.eqb_refl; reflexivity|exact F]).
      eapply ss_trans; [apply gate1_proper, E|]. eapply ss_trans; [apply (conj_target P q mZ (invertM 1 1)%amp (bmat cx PauliX) phi HP)|].
      + apply mat2_eq; cbn; ring.
      + eapply ss_trans; [apply gate1_proper, plus_fixed; assumption|]. apply ss_sym, E.
    - exists false, U. split; [reflexivity|]. split; [apply sound_refl; assumption|]. split; [reflexivity|discriminate].
  Qed.
  (** ** Controlled gates while the buffers are frozen *)
  Lemma test_two v c U : wf U -> neat U -> c < u_n U -> bas_of U c = PauliZ -> two_sided c (framed U) -> exists V, trim_test cx (@R2_frozen K) c v U = (false, false, V) /\ sound cx U V /\ same_bases U V.
  Proof.
    intros W N0 Hc Bz T. destruct (probe c U W N0 Hc Bz) as (V & E & S & BV & SB & Z1 & Z0). exists V. split; [|split; [exact S|apply SB, T]].
    unfold trim_test. rewrite E. cbn [snd]. destruct (is0 (s_a1 (u_sh V c))) eqn:I1; [apply is0_iff, Z1 in I1; destruct (proj1 T I1)|].
    destruct (is0 (s_a0 (u_sh V c))) eqn:I0; [apply is0_iff, Z0 in I0; destruct (proj2 T I0)|]. reflexivity.
  Qed.
  Lemma trim_frozen v c U : wf U -> neat U -> c < u_n U -> two_sided c (framed U) -> exists V, TrimControls cx (@R2_frozen K) [(c, v)] U = (Some [(c, v)], V) /\ sound cx U V /\ bas_of V c = PauliZ /\ mono U V.
  Proof.
    intros W N0 Hc T. unfold TrimControls, trim1. destruct (cached_control v c U W N0 Hc) as (b & V1 & E1 & S1 & B1 & F1).
    assert (E1' : (let '(b0, U1) := if v then CACHED_ZERO cx c U else CACHED_ONE cx c U in if b0 then (true, U1) else (false, U1)) = (false, V1)).
    { rewrite E1. destruct b; [|reflexivity]. destruct (F1 eq_refl) as [_ F]. destruct v; [destruct (proj1 T F)|destruct (proj2 T F)]. }
    rewrite E1'. clear E1' E1 F1 b. pose proof (sound_n cx _ _ S1) as En1.
    assert (S2 : exists V2, trim2 cx (@R2_frozen K) [(c, v)] V1 = (false, V2) /\ sound cx V1 V2 /\ same_bases V1 V2).
    { unfold trim2. destruct (negb (pauli_eqb (s_bas (u_sh V1 c)) PauliZ) || IsInvertTarget c (u_buf V1)) eqn:Sk.
      - exists V1. split; [reflexivity|]. split; [apply sound_refl; apply S1|reflexivity].
      - apply orb_false_iff in Sk. destruct Sk as [Sk _]. apply negb_false_iff in Sk. assert (Bz : bas_of V1 c = PauliZ) by (unfold bas_of; destruct (s_bas (u_sh V1 c)); [reflexivity|discriminate|discriminate]).
        destruct (test_two v c V1) as (V2 & E2 & S2 & B2); [apply S1|apply S1|rewrite En1; exact Hc|exact Bz|apply (two_sound U V1 c S1), T|]. rewrite E2. exists V2. auto. }
    destruct S2 as (V2 & -> & S2 & B2). pose proof (sound_trans cx _ _ _ S1 S2) as S12. pose proof (sound_n cx _ _ S12) as En2.
    assert (S3 : exists V3, trim3 cx (@R2_frozen K) [(c, v)] V2 = (false, V3) /\ sound cx V2 V3 /\ mono V2 V3).
    { unfold trim3. destruct (pauli_eqb (s_bas (u_sh V2 c)) PauliZ || IsInvertTarget c (u_buf V2)) eqn:Sk.
      - exists V2. split; [reflexivity|]. split; [apply sound_refl; apply S2|apply mono_refl].
      - rewrite <- En2 in Hc. destruct (revert_ok c V2 (so_wf _ _ _ S2) (so_neat _ _ _ S2) Hc) as (R1 & R2 & R3 & _). set (V2' := RevertBasis1Qb cx (SeparateBit cx) c V2) in *. pose proof (sound_n cx _ _ R1) as En3.
        destruct (test_two v c V2') as (V3 & E3 & S3 & B3); [apply R1|apply R1|rewrite En3; exact Hc|exact R2|apply (two_sound V2 V2' c R1), (two_sound U V2 c S12), T|]. rewrite E3. exists V3. split; [reflexivity|].
        split; [eapply sound_trans; eassumption|]. eapply mono_trans; [|apply mono_same, B3]. intros p. destruct (N.eq_dec p c) as [->|Hpc]; [right; exact R2|left; unfold bas_of; rewrite (R3 p Hpc); reflexivity]. }
    destruct S3 as (V3 & -> & S3 & B3). pose proof (sound_trans cx _ _ _ S12 S3) as S13. pose proof (sound_n cx _ _ S13) as En3.
    unfold trim4. unfold ToPermBasisProb. change (R2_frozen c ONLY_INVERT ONLY_TARGETS CTRL_AND_ANTI [] [] false (RevertBasis1Qb cx (SeparateBit cx) c V3)) with (RevertBasis1Qb cx (SeparateBit cx) c V3).
    assert (Hc3 : c < u_n V3) by (rewrite En3; exact Hc).
    destruct (revert_ok c V3 (so_wf _ _ _ S3) (so_neat _ _ _ S3) Hc3) as (R1 & R2 & R3 & _). set (V3' := RevertBasis1Qb cx (SeparateBit cx) c V3) in *. pose proof (sound_n cx _ _ R1) as En4.
    destruct (test_two v c V3') as (V4 & E4 & S4 & B4); [apply R1|apply R1|rewrite En4; exact Hc3|exact R2|apply (two_sound V3 V3' c R1), (two_sound U V3 c S13), T|]. rewrite E4. exists V4. split; [reflexivity|].
    split; [eapply sound_trans; [exact S13|]; eapply sound_trans; eassumption|]. split; [rewrite B4; exact R2|].
    eapply mono_trans; [apply mono_same; exact B1|]. eapply mono_trans; [apply mono_same; exact B2|]. eapply mono_trans; [exact B3|]. eapply mono_trans; [|apply mono_same, B4].
    intros p. destruct (N.eq_dec p c) as [->|Hpc]; [right; exact R2|left; unfold bas_of; rewrite (R3 p Hpc); reflexivity].
  Qed.
  Lemma fold_id {A B} (f : A -> B -> A) l a : (forall a b, f a b = a) -> fold_left f l a = a.
  Proof. intros H. induction l as [|x l IH]; [reflexivity|]. cbn [fold_left]. rewrite H. exact IH. Qed.
  Lemma aec_frozen c v t isPhase trns U : bas_of U c = PauliZ -> ApplyEitherControlled cx (@R2_frozen K) [(c, v)] t isPhase trns U =
    joint [(c, v)] t isPhase trns (gathered (filter (fun p => (p =? t)%N || existsb (fun c => (p =? fst c)%N) [(c, v)]) (order U)) U).
  Proof.
    intros Bz. unfold ApplyEitherControlled. cbn [fold_left fst]. unfold ToPermBasisProb.
    change (R2_frozen c ONLY_INVERT ONLY_TARGETS CTRL_AND_ANTI [] [] false (RevertBasis1Qb cx (SeparateBit cx) c U)) with (RevertBasis1Qb cx (SeparateBit cx) c U).
    assert (E : RevertBasis1Qb cx (SeparateBit cx) c U = U) by (unfold RevertBasis1Qb; unfold bas_of in Bz; rewrite Bz; reflexivity). rewrite E.
    assert (E2 : (if isPhase then R2_frozen t ONLY_INVERT ONLY_TARGETS CTRL_AND_ANTI [] [] false U else R2_frozen t INVERT_AND_PHASE CONTROLS_AND_TARGETS CTRL_AND_ANTI [] [] false U) = U) by (destruct isPhase; reflexivity).
    rewrite E2. unfold EntangleInCurrentBasis. rewrite (fold_id (fun (V : qu) (i : N) => R2_frozen i INVERT_AND_PHASE CONTROLS_AND_TARGETS CTRL_AND_ANTI [] [] false V)) by reflexivity. reflexivity.
  Qed.
  Lemma ctl_one c (v : bool) p : ctl [(c, v)] p = (p =? c).
  Proof. unfold ctl. cbn [existsb fst]. apply orb_false_r. Qed.
  Lemma aec1_ok c v t isPhase trns M U : wf U -> neat U -> c < u_n U -> t < u_n U -> c <> t -> bas_of U c = PauliZ -> unitary2 (trns (bas_of U t)) -> in_basis cx (bas_of U t) M (trns (bas_of U t)) ->
    (isPhase = true -> bas_of U t = PauliZ -> diag (trns PauliZ)) -> let V := ApplyEitherControlled cx (@R2_frozen K) [(c, v)] t isPhase trns U in
    acted cx (gate1 (holds [(c, v)]) t M) U V /\ same_bases U V.
  Proof.
    intros W N0 Hc Ht Hct Bz Um EB HD. cbn zeta. rewrite aec_frozen by exact Bz. apply (tail_ok cx D [(c, v)] t isPhase trns M U W N0 Ht); auto.
    - discriminate.
    - rewrite ctl_one. apply N.eqb_neq. congruence.
    - intros p Hp. rewrite ctl_one in Hp. apply N.eqb_eq in Hp. subst. auto.
  Qed.
  Lemma like_holds cs t (M : M2) psi phi : like psi phi -> like (gate1 (holds cs) t M psi) (gate1 (holds cs) t M phi).
  Proof. apply like_gate. Qed.
  (** A controlled multiple of the identity is a phase gate on the control. *)
  Lemma kick c v t (x : K) psi : c <> t -> same_state (gate1 (holds [(c, v)]) t (phaseM x x) psi) (gate1 always c (if v : bool then phaseM 1 x else phaseM x 1)%amp psi).
  Proof.
    intros Hct y. unfold gate1, holds, always, phaseM. cbn [forallb fst snd m00 m01 m10 m11]. rewrite andb_true_r.
    destruct (N.testbit y c) eqn:Ec, v; cbn [eqb m00 m01 m10 m11]; destruct (N.testbit y t); try ring.
  Qed.
  Lemma frozen_phase c v tl br t U : wf U -> neat U -> c < u_n U -> t < u_n U -> c <> t -> unit1 tl -> unit1 br -> two_sided c (framed U) -> not_inverted (u_buf U) c ->
    let V := UCPhase cx true (@R2_frozen K) (@OPB_frozen K) [(c, v)] tl br t U in acted cx (gate1 (holds [(c, v)]) t (phaseM tl br)) U V /\ mono U V.
  Proof.
    intros W N0 Hc Ht Hct Htl Hbr T HN. cbn zeta. unfold UCPhase. destruct (sr_eqb tl 1%amp && sr_eqb br 1%amp) eqn:I1.
    - apply andb_prop in I1. destruct I1 as [E1 E2]. destruct (eqb_spec K tl 1%amp) as [->|]; [|discriminate]. destruct (eqb_spec K br 1%amp) as [->|]; [|discriminate].
      split; [|apply mono_refl]. split; auto; [|apply kept_refl]. apply like_ss, ss_sym. intros x. apply gate1_one.
    - destruct (trim_frozen v c U W N0 Hc T) as (V1 & -> & S1 & B1 & M1). pose proof (sound_n cx _ _ S1) as En. rewrite <- En in Hc, Ht.
      destruct (is0 (tl - br)%amp) eqn:I2.
      + apply is0_iff, sub_zero in I2. subst br. assert (HN1 : not_inverted (u_buf V1) c) by (replace (u_buf V1) with (u_buf U) by (symmetry; apply S1); exact HN).
        assert (A : forall M, M = (if v then phaseM 1 tl else phaseM tl 1)%amp -> acted cx (gate1 always c M) V1 (if v then Phase cx 1 tl c V1 else Phase cx tl 1 c V1) /\ same_bases V1 (if v then Phase cx 1 tl c V1 else Phase cx tl 1 c V1)).
        { intros M ->. destruct v; [destruct (phase_calm cx D 1%amp tl c V1 (so_wf _ _ _ S1) (so_neat _ _ _ S1) Hc (one_unit) Htl B1 HN1) as [A1 A2]|destruct (phase_calm cx D tl 1%amp c V1 (so_wf _ _ _ S1) (so_neat _ _ _ S1) Hc Htl (one_unit) B1 HN1) as [A1 A2]]; (split; [apply acts_acted, A1|exact A2]). }
        destruct (A _ eq_refl) as [A1 A2]. split; [|eapply mono_trans; [exact M1|apply mono_same, A2]].
        eapply acted_after; [exact S1|apply like_holds|]. eapply acted_like; [exact A1|]. intros psi. apply like_ss, ss_sym, kick, Hct.
      + destruct (aec1_ok c v t true (trnsPhase cx tl br) (phaseM tl br) V1) as [A1 A2]; auto; try apply S1.
        * apply (in_basis_unitary cx (bas_of V1 t) (phaseM tl br)); [apply diag_unitary; assumption|apply trns_phase].
        * apply trns_phase.
        * intros _ _. split; reflexivity.
        * split; [eapply acted_after; [exact S1|apply like_holds|exact A1]|eapply mono_trans; [exact M1|apply mono_same, A2]].
  Qed.
  Lemma frozen_invert c v tr bl t U : wf U -> neat U -> c < u_n U -> t < u_n U -> c <> t -> unit1 tr -> unit1 bl -> two_sided c (framed U) ->
    let V := UCInvert cx true (@R2_frozen K) (@OPB_frozen K) [(c, v)] tr bl t U in acted cx (gate1 (holds [(c, v)]) t (invertM tr bl)) U V /\ mono U V.
  Proof.
    intros W N0 Hc Ht Hct Htr Hbl T. cbn zeta. unfold UCInvert.
    assert (P0 : exists b V0, (if sr_eqb tr 1%amp && sr_eqb bl 1%amp then CACHED_PLUS cx t U else (false, U)) = (b, V0) /\ sound cx U V0 /\ same_bases U V0 /\ (b = true -> same_state (gate1 (holds [(c, v)]) t (invertM tr bl) (framed U)) (framed U))).
    { destruct (sr_eqb tr 1%amp && sr_eqb bl 1%amp) eqn:I1.
      - apply andb_prop in I1. destruct I1 as [E1 E2]. destruct (eqb_spec K tr 1%amp) as [->|]; [|discriminate]. destruct (eqb_spec K bl 1%amp) as [->|]; [|discriminate].
        destruct (cached_plus t U W N0 Ht) as (b & V0 & E & S & B & F). exists b, V0. split; [exact E|]. split; [exact S|]. split; [exact B|]. intros Hb. apply (proj2 (F Hb)). apply holds_indep. rewrite ctl_one. apply N.eqb_neq. congruence.
      - exists false, U. split; [reflexivity|]. split; [apply sound_refl; assumption|]. split; [reflexivity|discriminate]. }
    destruct P0 as (b & V0 & -> & S0 & B0 & F0). destruct b.
    - split; [|apply mono_same, B0]. destruct S0 as [A1 A2 A3 A4 A5]. split; auto. eapply like_trans; [exact A3|]. apply like_ss, ss_sym, F0. reflexivity.
    - pose proof (sound_n cx _ _ S0) as En0. assert (Hc0 : c < u_n V0) by (rewrite En0; exact Hc).
      destruct (trim_frozen v c V0 (so_wf _ _ _ S0) (so_neat _ _ _ S0) Hc0) as (V1 & -> & S1 & B1 & M1); [apply (two_sound U V0 c S0), T|].
      pose proof (sound_trans cx _ _ _ S0 S1) as S01. pose proof (sound_n cx _ _ S01) as En. rewrite <- En in Hc, Ht.
      destruct (aec1_ok c v t false (trnsInvert cx tr bl) (invertM tr bl) V1) as [A1 A2]; auto; try apply S1.
      + apply (in_basis_unitary cx (bas_of V1 t) (invertM tr bl)); [apply anti_unitary; assumption|apply trns_invert].
      + apply trns_invert.
      + discriminate.
      + split; [eapply acted_after; [exact S01|apply like_holds|exact A1]|]. eapply mono_trans; [apply mono_same; exact B0|]. eapply mono_trans; [exact M1|apply mono_same, A2].
  Qed.
  Lemma holds_fires c a x : holds [(c, negb a)] x = fires a c x.
  Proof. unfold holds, fires. cbn [forallb fst snd]. destruct a, (N.testbit x c); reflexivity. Qed.
  Lemma apply_buffer_ok b c t a U : wf U -> neat U -> c < u_n U -> t < u_n U -> c <> t -> unit1 (cmplxDiff b) -> unit1 (cmplxSame b) -> two_sided c (framed U) -> not_inverted (u_buf U) c ->
    let V := ApplyBuffer cx b c t a U in acted cx (gate1 (fires a c) t (matrix_of a b)) U V /\ mono U V.
  Proof.
    intros W N0 Hc Ht Hct Hd Hs T HN. unfold ApplyBuffer. cbn zeta.
    assert (G : forall v m V, v = negb a -> m = matrix_of a b -> acted cx (gate1 (holds [(c, v)]) t m) U V /\ mono U V -> acted cx (gate1 (fires a c) t (matrix_of a b)) U V /\ mono U V).
    { intros v m V -> -> [A B]. split; [|exact B]. eapply acted_like; [exact A|]. intros psi. apply like_ss. intros x. unfold gate1. rewrite holds_fires. reflexivity. }
    destruct (isInvert b) eqn:Ib, a; (eapply G; [reflexivity| |first [apply frozen_invert; assumption|apply frozen_phase; assumption]]); unfold matrix_of, phaseM, invertM; rewrite Ib; reflexivity.
  Qed.
End P.
