(** Proofs for QUnit: general matrices and programs of gates. *)
From Coq Require Import Arith NArith List Bool Lia Ring.
From Verif Require Import Bits MFunctions SpecFunctions PFunctions MKernel PKernel Amp PAmp SpecState PApply PCompose PGates PGates2 PProb PQCirc2 PQCirc3 PEngine MShard SpecShard MUnit SpecUnit PShard1 PShard2 PShard3 PShard4 PShard5 PShard6 PShard7 PShard9 PUnit1 PUnit2 PUnit3 PUnit4 PUnit5 PUnit6 PUnit7 PUnit8 PUnit9 PUnit10 PUnit11 PUnit12 PUnit13 PUnit14 PUnit15 PUnit16 PUnit17 PUnit18 SpecUnit2.
Import ListNotations.
Local Open Scope N_scope.

Section P.
  Context {K : StarRing} (cx : Cplx K) (D : definite (K := K)).
  Add Ring KrCH : (sr_ring K).
  Local Notation vec := (N -> K).
  Local Notation M2 := (mat2 K).
  Local Notation unit1 x := (anorm x = 1%amp).
  Local Notation qu := (qunit K).
  Local Notation po := (cx_po cx).
  Local Notation hh := (cx_h cx).
  Local Notation ii := (cx_i cx).
  Local Notation framed := (framed cx).
  Local Notation meaning := (meaning cx).
  Local Notation good := (good cx).
  Local Notation keeps := (keeps cx).
  Local Notation flushed := (flushed cx).
  Local Notation R2 := (RevertBasis2Qb cx).
  Implicit Types (L : N -> N -> Prop) (U V X : qu) (psi phi : vec) (s : shards K) (cs l : list (N * bool)).

  (** ** Mtrx *)
  Lemma untouched_does q (M : M2) U V : good U -> unitary2 M -> (forall a p, buffer_of (u_buf U) a p q = None /\ buffer_of (u_buf U) a q p = None) -> acts cx q M U V -> does cx q M U V.
  Proof.
    intros G Um HQ [A1 A2 A3 (K1 & K2 & K3 & K4 & K5 & K6 & K7) A5]. destruct (gd_tidy cx U G) as (C & Es & Xs). pose proof (tidy_commuting _ _ (gd_tidy cx U G)) as HC.
    destruct (untouched_carried q M (u_buf U) C HC HQ) as (_ & _ & _ & C4).
    assert (LL : like (meaning V) (gate1 always q M (meaning U))).
    { unfold PUnit10.meaning. rewrite K4. eapply like_trans; [apply like_pending, A3|]. apply like_ss, C4. }
    split; [|exact LL|repeat split; assumption|intros c t (a & b & E); rewrite K4 in E; exists a, b; exact E]. split; auto.
    - rewrite K2, K4. split; [exact C|]. split; assumption.
    - intros a c t b E. rewrite K4 in E. apply (two_like c _ _ LL). assert (Hc : c <> q) by (intros ->; rewrite (proj2 (HQ a t)) in E; discriminate).
      apply two_apart; [exact Hc|apply indep_always|exact Um|]. apply (gd_live cx U G _ _ _ _ E).
    - rewrite K7. apply (gd_ub cx U G).
  Qed.
  Lemma does_after q (M : M2) U V X : keeps U V -> does cx q M V X -> does cx q M U X.
  Proof.
    intros [A1 A2 A3 A4] [B1 B2 B3 B4]. split; [exact B1| |eapply held_trans; eassumption|eapply ctls_trans; eassumption]. eapply like_trans; [exact B2|apply like_gate, A2].
  Qed.
  Lemma hsq2 : (anorm (hh + hh) = 1 + 1)%amp.
  Proof. unfold anorm. rewrite (sr_conj_add K), (cx_h_conj K cx). transitivity ((hh * hh + hh * hh) + (hh * hh + hh * hh))%amp; [ring|]. rewrite (cx_h_sq K cx). reflexivity. Qed.
  Lemma hscale (x : K) : (x * (hh + hh) * hh = x)%amp.
  Proof. transitivity (x * (hh * hh + hh * hh))%amp; [ring|]. rewrite (cx_h_sq K cx). ring. Qed.
  Lemma h_unit (m : M2) : unitary2 m -> anorm (m10 m) = anorm (m00 m) -> unit1 (m00 m * (hh + hh))%amp.
  Proof.
    intros Um E. assert (H : (anorm (m00 m) + anorm (m10 m) = 1)%amp).
    { pose proof (f_equal m00 Um) as H. unfold mmul, mdag, midn in H. cbn [m00 m01 m10 m11] in H. rewrite <- H. unfold anorm. ring. }
    rewrite (anorm_mul K), hsq2. rewrite E in H. transitivity (anorm (m00 m) + anorm (m00 m))%amp; [ring|exact H].
  Qed.
  Lemma i_left (x y : K) : (x = - ii * y)%amp -> y = (ii * x)%amp.
  Proof. intros ->. transitivity (- (ii * ii) * y)%amp; [|ring]. rewrite (cx_i_sq K cx). ring. Qed.
  Lemma i_right (x y : K) : (x = ii * y)%amp -> y = (- ii * x)%amp.
  Proof. intros ->. transitivity (- (ii * ii) * y)%amp; [|ring]. rewrite (cx_i_sq K cx). ring. Qed.
  Lemma same_true (x y : K) : IS_SAME x y = true -> x = y.
  Proof. unfold IS_SAME. destruct (eqb_spec K x y); [auto|discriminate]. Qed.
  Lemma done_scalar L q (c : K) (M M' : M2) U V : done cx L (gate1 always q M) U V -> unit1 c -> M' = mmul (phaseM c c) M -> done cx L (gate1 always q M') U V.
  Proof.
    intros H Hc ->. apply (done_like cx L (gate1 always q M)); [exact H|]. apply like_sym.
    apply (like_c c); [exact Hc|]. intros x. rewrite <- (gate_scalar c q (gate1 always q M (meaning U)) x).
    change (mkMat c 0%amp 0%amp c) with (phaseM c c). rewrite gate1_compose by apply indep_always. reflexivity.
  Qed.
  Lemma done_then L q M1 M2' U V X : done cx L (gate1 always q M1) U V -> does cx q M2' V X -> done cx L (gate1 always q (mmul M2' M1)) U X.
  Proof.
    intros [A1 A2 A3 A4] [B1 B2 B3 B4]. split; [exact B1| |eapply held_trans; eassumption|intros c t H; apply A4, B4, H].
    eapply like_trans; [exact B2|]. eapply like_trans; [apply like_gate, A2|]. apply like_ss. intros x. rewrite gate1_compose by apply indep_always. reflexivity.
  Qed.
  Lemma then_done L q M1 M2' U V X : does cx q M1 U V -> done cx L (gate1 always q M2') V X -> done cx L (gate1 always q (mmul M2' M1)) U X.
  Proof.
    intros [A1 A2 A3 A4] [B1 B2 B3 B4]. split; [exact B1| |eapply held_trans; eassumption|intros c t H; destruct (B4 c t H); auto].
    eapply like_trans; [exact B2|]. eapply like_trans; [apply like_gate, A2|]. apply like_ss. intros x. rewrite gate1_compose by apply indep_always. reflexivity.
  Qed.
  Lemma done_mono L (L' : N -> N -> Prop) G U V : done cx L G U V -> (forall c t, L c t -> links U c t \/ L' c t) -> done cx L' G U V.
  Proof. intros [A1 A2 A3 A4] H. split; auto. intros c t Hl. destruct (A4 c t Hl); auto. Qed.
  Lemma open_keeps q U V : keeps U V -> open_at cx q U -> open_at cx q V.
  Proof. intros Kp H p Hl. apply (keeps_two cx U V p Kp), H, (kp_ctl cx _ _ Kp), Hl. Qed.
  Lemma open_does q (M : M2) U V : unitary2 M -> good U -> does cx q M U V -> open_at cx q U -> open_at cx q V.
  Proof.
    intros Um G [A1 A2 A3 A4] H p Hl. apply (two_like p _ _ A2). apply A4 in Hl. destruct (Hl) as (a & b & E). destruct (gd_tidy cx U G) as (C & _). destruct (key_range _ _ _ _ _ C E) as (_ & _ & Hn).
    apply two_apart; [congruence|apply indep_always|exact Um|]. apply H, Hl.
  Qed.
  Lemma mtrx_ok L (m : M2) q U : good U -> q < u_n U -> unitary2 m -> (h_like cx m -> open_at cx q U /\ forall c t, turned U q c t -> L c t) -> done cx L (gate1 always q m) U (Mtrx cx m q U).
  Proof.
    intros G Hq Um HQ. unfold Mtrx. cbn zeta. destruct (is0 (m01 m) && is0 (m10 m)) eqn:I1.
    { apply andb_prop in I1. destruct I1 as [Z1 Z2]. apply is0_iff in Z1, Z2. assert (Dm : diag m) by (split; assumption). destruct (unitary_diag m Um Dm) as [U1 U2].
      assert (Em : m = phaseM (m00 m) (m11 m)) by (apply diag_eta, Dm). rewrite Em at 1. apply does_done, phase_ok; assumption. }
    destruct (is0 (m00 m) && is0 (m11 m)) eqn:I2.
    { apply andb_prop in I2. destruct I2 as [Z1 Z2]. apply is0_iff in Z1, Z2. assert (Am : anti m) by (split; assumption). destruct (unitary_anti m Um Am) as [U1 U2].
      assert (Em : m = invertM (m01 m) (m10 m)) by (apply mat2_eq; cbn [invertM m00 m01 m10 m11]; auto). rewrite Em at 1. apply does_done, invert_ok; assumption. }
    destruct ((u_rgp U || IS_SAME (m00 m) hh) && IS_SAME (m00 m) (m01 m) && IS_SAME (m00 m) (m10 m) && IS_SAME (m00 m) (- m11 m)%amp) eqn:I3.
    { apply andb_prop in I3. destruct I3 as [I3 E3]. apply andb_prop in I3. destruct I3 as [I3 E2]. apply andb_prop in I3. destruct I3 as [_ E1]. apply same_true in E1, E2, E3.
      assert (Hl : h_like cx m) by (left; auto). destruct (HQ Hl) as [Ho HL]. apply (done_scalar L q (m00 m * (hh + hh))%amp (mH cx) m); [apply (done_mono (turned U q)); [apply gateh_open; auto|auto]|apply h_unit; [exact Um|rewrite <- E2; reflexivity]|].
      apply mat2_eq; unfold mH, phaseM, mmul; cbn [m00 m01 m10 m11].
      - transitivity (m00 m * (hh + hh) * hh)%amp; [symmetry; apply hscale|ring].
      - transitivity (m00 m * (hh + hh) * hh)%amp; [rewrite hscale; symmetry; exact E1|ring].
      - transitivity (m00 m * (hh + hh) * hh)%amp; [rewrite hscale; symmetry; exact E2|ring].
      - transitivity (- (m00 m * (hh + hh) * hh))%amp; [rewrite hscale, E3; ring|ring]. }
    destruct ((u_rgp U || IS_SAME (m00 m) hh) && IS_SAME (m00 m) (m01 m) && IS_SAME (m00 m) (- ii * m10 m)%amp && IS_SAME (m00 m) (ii * m11 m)%amp) eqn:I4.
    { apply andb_prop in I4. destruct I4 as [I4 E3]. apply andb_prop in I4. destruct I4 as [I4 E2]. apply andb_prop in I4. destruct I4 as [_ E1]. apply same_true in E1, E2, E3.
      assert (Hl : h_like cx m) by (right; left; auto). destruct (HQ Hl) as [Ho HL]. assert (A1 : done cx L (gate1 always q (mH cx)) U (GateH cx q U)) by (apply (done_mono (turned U q)); [apply gateh_open; auto|auto]).
      assert (A2 : does cx q (phaseM 1 ii)%amp (GateH cx q U) (GateS cx q (GateH cx q U))) by (apply gates_ok; [apply A1|destruct (dn_held cx _ _ _ _ A1) as (_ & -> & _); exact Hq]).
      apply i_left in E2. apply i_right in E3.
      apply (done_scalar L q (m00 m * (hh + hh))%amp (mmul (phaseM 1 ii)%amp (mH cx)) m); [apply (done_then L q _ _ _ _ _ A1 A2)|apply h_unit; [exact Um|rewrite E2, (anorm_mul K), i_unit; ring]|].
      apply mat2_eq; unfold mH, phaseM, mmul; cbn [m00 m01 m10 m11].
      - transitivity (m00 m * (hh + hh) * hh)%amp; [symmetry; apply hscale|ring].
      - transitivity (m00 m * (hh + hh) * hh)%amp; [rewrite hscale; symmetry; exact E1|ring].
      - transitivity (ii * (m00 m * (hh + hh) * hh))%amp; [rewrite hscale; exact E2|ring].
      - transitivity (- ii * (m00 m * (hh + hh) * hh))%amp; [rewrite hscale; exact E3|ring]. }
    destruct ((u_rgp U || IS_SAME (m00 m) hh) && IS_SAME (m00 m) (ii * m01 m)%amp && IS_SAME (m00 m) (m10 m) && IS_SAME (m00 m) (- ii * m11 m)%amp) eqn:I5.
    { apply andb_prop in I5. destruct I5 as [I5 E3]. apply andb_prop in I5. destruct I5 as [I5 E2]. apply andb_prop in I5. destruct I5 as [_ E1]. apply same_true in E1, E2, E3.
      assert (Hl : h_like cx m) by (right; right; auto). pose proof (gateis_ok cx q U G Hq) as A1.
      destruct (HQ Hl) as [Ho HL]. assert (A2 : done cx L (gate1 always q (mH cx)) (GateIS cx q U) (GateH cx q (GateIS cx q U))).
      { apply (done_mono (turned (GateIS cx q U) q)); [apply gateh_open; [exact D|apply A1|destruct (do_held cx _ _ _ _ A1) as (_ & -> & _); exact Hq|]|].
        - apply (open_does q (phaseM 1 (- ii))%amp U); auto. apply diag_unitary; [apply one_unit|apply unit_opp, i_unit].
        - intros c t [-> Hc]. right. apply HL. split; [reflexivity|]. apply (do_ctl cx _ _ _ _ A1), Hc. }
      apply i_right in E1. apply i_left in E3.
      apply (done_scalar L q (m00 m * (hh + hh))%amp (mmul (mH cx) (phaseM 1 (- ii))%amp) m); [apply (then_done L q _ _ _ _ _ A1 A2)|apply h_unit; [exact Um|rewrite <- E2; reflexivity]|].
      apply mat2_eq; unfold mH, phaseM, mmul; cbn [m00 m01 m10 m11].
      - transitivity (m00 m * (hh + hh) * hh)%amp; [symmetry; apply hscale|ring].
      - transitivity (- ii * (m00 m * (hh + hh) * hh))%amp; [rewrite hscale; exact E1|ring].
      - transitivity (m00 m * (hh + hh) * hh)%amp; [rewrite hscale; symmetry; exact E2|ring].
      - transitivity (ii * (m00 m * (hh + hh) * hh))%amp; [rewrite hscale; exact E3|ring]. }
    clear I1 I2 I3 I4 I5 HQ. destruct (revert2_clear cx D q U G) as [F1 H1]. cbn zeta in F1, H1. set (U1 := R2 q INVERT_AND_PHASE CONTROLS_AND_TARGETS CTRL_AND_ANTI [] [] false U) in *.
    apply does_done, (does_after q m U U1); [apply (fl_keeps cx _ _ F1)|]. pose proof (flushed_good cx _ _ F1) as G1.
    apply untouched_does; [exact G1|exact Um|exact H1|]. apply (general_ok cx D (trnsMtrx cx m (bas_of U1 q)) m q U1); [apply G1|apply G1|rewrite (flushed_n cx _ _ F1); exact Hq| |apply trns_mtrx].
    apply (in_basis_unitary cx (bas_of U1 q) m); [exact Um|apply trns_mtrx].
  Qed.

  (** ** UCMtrx *)
  Definition mtrx_tail (m : M2) (t : N) (r : option (list (N * bool))) U : qu :=
    match r with
    | None => U
    | Some [] => Mtrx cx m t U
    | Some l => ApplyEitherControlled cx R2 l t false (trnsMtrx cx m) U
    end.
  Lemma UCMtrx_eq cs (m : M2) t U : UCMtrx cx cs m t U = if is0 (m01 m) && is0 (m10 m) then QUCPhase cx cs (m00 m) (m11 m) t U
    else if is0 (m00 m) && is0 (m11 m) then QUCInvert cx cs (m01 m) (m10 m) t U else with_trim cx cs (mtrx_tail m t) U.
  Proof. reflexivity. Qed.
  Lemma ucmtrx_ok L cs (m : M2) t U : good U -> t < u_n U -> ctl cs t = false -> (forall c v, In (c, v) cs -> c < u_n U) -> (forall c v, In (c, v) cs -> L c t) -> unitary2 m -> (h_like cx m -> open_at cx t U /\ forall c p, turned U t c p -> L c p) ->
    done cx L (gate1 (holds cs) t m) U (UCMtrx cx cs m t U).
  Proof.
    intros G Ht Hct HR HL Um HQ. rewrite UCMtrx_eq. destruct (is0 (m01 m) && is0 (m10 m)) eqn:I1.
    { apply andb_prop in I1. destruct I1 as [Z1 Z2]. apply is0_iff in Z1, Z2. assert (Dm : diag m) by (split; assumption). destruct (unitary_diag m Um Dm) as [U1 U2].
      assert (Em : m = phaseM (m00 m) (m11 m)) by (apply diag_eta, Dm). rewrite Em at 1. apply ucphase_ok; assumption. }
    destruct (is0 (m00 m) && is0 (m11 m)) eqn:I2.
    { apply andb_prop in I2. destruct I2 as [Z1 Z2]. apply is0_iff in Z1, Z2. assert (Am : anti m) by (split; assumption). destruct (unitary_anti m Um Am) as [U1 U2].
      assert (Em : m = invertM (m01 m) (m10 m)) by (apply mat2_eq; cbn [invertM m00 m01 m10 m11]; auto). rewrite Em at 1. apply ucinvert_ok; assumption. }
    clear I1 I2. unfold with_trim. destruct (trim_ok cx D cs U G HR) as [K1 T1]. destruct (TrimControls cx R2 cs U) as [r V]. cbn [fst snd] in *. pose proof (keeps_n cx _ _ K1) as En. pose proof (kp_good cx _ _ K1) as GV. destruct r as [l|].
    - destruct T1 as (A1 & _ & A3 & A4). eapply done_like; [eapply done_after; [exact K1|intros psi phi; apply (like_gate (holds l) t m)|]|apply like_ss, ss_sym, holds_some; assumption].
      destruct l as [|cv l].
      + cbn [mtrx_tail]. apply (done_like cx L (gate1 always t m)); [|apply like_ss; intros x; reflexivity]. apply mtrx_ok; auto; [rewrite En; exact Ht|]. intros Hl. destruct (HQ Hl) as [Ho HL']. split; [apply (open_keeps t U V K1 Ho)|]. intros c p [-> Hc]. apply HL'. split; [reflexivity|]. apply (kp_ctl cx _ _ K1), Hc.
      + cbn [mtrx_tail]. apply (aec_ok cx D L (cv :: l) t false (trnsMtrx cx m) m V); auto; [rewrite En; exact Ht|discriminate|apply (ctl_sub _ cs t A1 Hct)|intros c v Hin; rewrite En; apply (HR c v), A1, Hin|intros b; apply trns_mtrx|discriminate].
    - cbn [mtrx_tail]. destruct T1 as (c & v & Hin & S). apply (done_like cx L (fun psi => psi)); [apply done_keeps, K1|]. apply like_ss, ss_sym, (holds_none cs t m _ c v Hin); [|exact S].
      intros ->. assert (ctl cs t = true) by (apply ctl_iff; exists v; exact Hin). congruence.
  Qed.
End P.
