(** Proofs for QUnit: separation of a qubit, and its probability. *)
From Coq Require Import Arith NArith List Bool Lia Ring.
From Verif Require Import Bits MFunctions SpecFunctions PFunctions MKernel PKernel Amp PAmp SpecState PApply PCompose PGates PGates2 PProb PQCirc2 PQCirc3 PEngine MShard SpecShard MUnit PShard1 PShard2 PShard5 PUnit1 PUnit2 PUnit3 PUnit4 PUnit5.
Import ListNotations.
Local Open Scope N_scope.
Local Notation up n := (upto (N.to_nat n)).

Section P.
  Context {K : StarRing} (cx : Cplx K) (D : definite (K := K)).
  Add Ring KrBU : (sr_ring K).
  Local Notation wf := (wf cx).
  Local Notation vec := (N -> K).
  Local Notation unit1 x := (anorm x = 1%amp).
  Local Notation M2 := (mat2 K).
  Local Notation qu := (qunit K).
  Local Notation framed := (framed cx).
  Local Notation hh := (cx_h cx).
  Local Notation ii := (cx_i cx).
  Implicit Types (U V : qu) (psi phi : vec).

  Lemma esup_slice a m (b : bool) (v : vec) j c : m < a -> j < a -> j <> m -> esup a m b v ->
    esup (a - 1) (if m <? j then j - 1 else j) c (slice m 1 (if b then 1 else 0) v) <-> esup a j c v.
  Proof.
    intros Hm Hj Hjm HZ. set (p := if b then 1 else 0). assert (Hp : p < 2 ^ 1) by (destruct b; reflexivity).
    assert (TB : forall y, N.testbit (slice_ix m 1 p y) j = N.testbit y (if m <? j then j - 1 else j)).
    { intros y. rewrite tb_slice_ix by exact Hp. destruct (N.ltb_spec j m); [destruct (N.ltb_spec m j); [lia|reflexivity]|].
      destruct (N.ltb_spec m j); [|lia]. destruct (N.ltb_spec j (m + 1)); [lia|reflexivity]. }
    split; intros H y Hy Hc.
    - destruct (Bool.bool_dec (N.testbit y m) b) as [E|E]; [|apply HZ; assumption].
      assert (Er : get_reg y m 1 = p).
      { apply N.bits_inj. intros k. rewrite tb_get_reg. unfold p. destruct (N.ltb_spec k 1).
        - replace k with 0 by lia. rewrite N.add_0_l, E. destruct b; reflexivity.
        - cbn [andb]. destruct b; [|symmetry; apply N.bits_0]. symmetry. apply (tb_high 1 1); [reflexivity|lia]. }
      rewrite <- (slice_outside m 1 y), Er. apply H.
      + apply outside_lt; [lia|]. replace (a - 1 + 1) with a by lia. exact Hy.
      + rewrite <- TB. rewrite <- Er, slice_outside. exact Hc.
    - unfold slice. fold (slice_ix m 1 p y). apply H; [replace a with (a - 1 + 1) by lia; apply slice_ix_lt; [lia|exact Hp|exact Hy]|].
      rewrite TB. exact Hc.
  Qed.
  Lemma weight_zero n (P : N -> bool) (psi : vec) : weight_of n P psi = 0%amp <-> (forall y, y < 2 ^ n -> P y = true -> psi y = 0%amp).
  Proof.
    destruct D as (_ & _ & D3). assert (E : weight_of n P psi = asum (fun x => anorm (if P x then psi x else 0)%amp) (basis n)).
    { unfold weight_of. apply asum_ext. intros x _. destruct (P x); [reflexivity|symmetry; apply anorm_0]. }
    rewrite E. split; intros H.
    - intros y Hy HP. specialize (D3 (basis n) (fun x => if P x then psi x else 0%amp) H y). cbn beta in D3. rewrite HP in D3. apply D3, up_in, Hy.
    - transitivity (asum (fun _ : N => 0 : K)%amp (basis n)); [|apply asum_zero; reflexivity]. apply asum_ext. intros x Hx. destruct (P x) eqn:EP; [rewrite H; [apply anorm_0|apply up_in, Hx|exact EP]|apply anorm_0].
  Qed.
  Lemma draw_ok U : wf U -> exists ph d, draw U = (ph, set_draw d U) /\ unit1 ph.
  Proof.
    intros W. unfold draw. destruct (u_rgp U).
    - exists (u_ph U (u_draw U)), (u_draw U + 1). split; [reflexivity|apply (wf_ph U W)].
    - exists 1%amp, (u_draw U). split; [destruct U; reflexivity|apply unit_one].
  Qed.
  Lemma gate_scalar (c : K) t psi : same_state (gate1 always t (mkMat c 0 0 c)%amp psi) (fun x => c * psi x)%amp.
  Proof.
    intros x. unfold gate1, always. cbn [m00 m01 m10 m11]. destruct (N.testbit x t) eqn:E.
    - transitivity (c * psi x)%amp; [ring|reflexivity].
    - ring.
  Qed.
  Lemma like_c (c : K) (f g : vec) : unit1 c -> same_state f (fun x => c * g x)%amp -> like f g.
  Proof. intros Hc H. exists c. split; [exact Hc|exact H]. Qed.

  (** ** A qubit alone in an engine *)
  Definition fits1 (m : M2) (x0 x1 y0 y1 : K) : Prop := (y0 = m00 m * x0 + m01 m * x1 /\ y1 = m10 m * x0 + m11 m * x1)%amp.
  Lemma is0_iff (x : K) : is0 x = true <-> x = 0%amp.
  Proof. unfold is0. apply sr_eqb_ok. Qed.
  Lemma is0_false (x : K) : is0 x = false <-> x <> 0%amp.
  Proof. rewrite <- is0_iff. destruct (is0 x); split; congruence. Qed.
  Lemma same_half (x y : K) : (anorm x + anorm y = 1)%amp -> anorm y = anorm x -> po_unit (cx_po cx) x = (x * (hh + hh))%amp.
  Proof.
    intros H E. apply (cx_unit_h K cx). rewrite E in H. transitivity (MUnit.half cx * (anorm x + anorm x))%amp; [symmetry; apply two_half|]. rewrite H. unfold MUnit.half. ring.
  Qed.
  Lemma mdag_mdag (m : M2) : mdag (mdag m) = m.
  Proof. apply mat2_eq; unfold mdag; cbn [m00 m01 m10 m11]; apply sr_conj_invol. Qed.
  Lemma choose_basis (a0 a1 : K) : (anorm a0 + anorm a1 = 1)%amp -> let '(b, c0, c1) :=
      if is0 (a0 - a1)%amp then (PauliX, po_unit (cx_po cx) a0, 0%amp)
      else if is0 (a0 + a1)%amp then (PauliX, 0%amp, po_unit (cx_po cx) a0)
      else if is0 (ii * a0 - a1)%amp then (PauliY, po_unit (cx_po cx) a0, 0%amp)
      else if is0 (ii * a0 + a1)%amp then (PauliY, 0%amp, po_unit (cx_po cx) a0)
      else (PauliZ, a0, a1) in exists m, unitary2 m /\ mmul (bmat cx b) m = midn /\ fits1 m a0 a1 c0 c1.
  Proof.
    intros HN. assert (I2 : (ii * sr_conj ii = 1)%amp) by apply (i_unit cx). pose proof (cx_h_sq K cx) as H2. pose proof (cx_i_sq K cx) as J2.
    assert (BI : forall b, unitary2 (mdag (bmat cx b)) /\ mmul (bmat cx b) (mdag (bmat cx b)) = midn).
    { intros b. split; [apply unitary_dag, bmat_unitary|rewrite <- (mdag_mdag (bmat cx b)) at 1; apply unitary_dag, bmat_unitary]. }
    destruct (is0 (a0 - a1)%amp) eqn:E1; [|destruct (is0 (a0 + a1)%amp) eqn:E2; [|destruct (is0 (ii * a0 - a1)%amp) eqn:E3; [|destruct (is0 (ii * a0 + a1)%amp) eqn:E4]]].
    - apply is0_iff in E1. assert (E : a1 = a0) by (transitivity (a0 - (a0 - a1))%amp; [ring|rewrite E1; ring]).
      rewrite (same_half a0 a1 HN) by (rewrite E; reflexivity). exists (mdag (bmat cx PauliX)). destruct (BI PauliX) as [B1 B2]. split; [exact B1|split; [exact B2|]].
      unfold fits1, mdag, bmat, mH. cbn [m00 m01 m10 m11]. rewrite conj_opp, (cx_h_conj K cx), E. split; ring.
    - apply is0_iff in E2. assert (E : a1 = (- a0)%amp) by (transitivity (a0 + a1 - a0)%amp; [ring|rewrite E2; ring]).
      rewrite (same_half a0 a1 HN) by (rewrite E; unfold anorm; rewrite conj_opp; ring). exists (mdag (bmat cx PauliX)). destruct (BI PauliX) as [B1 B2]. split; [exact B1|split; [exact B2|]].
      unfold fits1, mdag, bmat, mH. cbn [m00 m01 m10 m11]. rewrite conj_opp, (cx_h_conj K cx), E. split; ring.
    - apply is0_iff in E3. assert (E : a1 = (ii * a0)%amp) by (transitivity (ii * a0 - (ii * a0 - a1))%amp; [ring|rewrite E3; ring]).
      rewrite (same_half a0 a1 HN). 2:{ rewrite E, anorm_mul. unfold anorm at 1. rewrite I2. ring. }
      exists (mdag (bmat cx PauliY)). destruct (BI PauliY) as [B1 B2]. split; [exact B1|split; [exact B2|]].
      unfold fits1, mdag, bmat, mSH. cbn [m00 m01 m10 m11]. rewrite conj_opp, !sr_conj_mul, (cx_h_conj K cx), (cx_i_conj K cx), E. split.
      + transitivity (hh * a0 - hh * (ii * ii) * a0)%amp; [rewrite J2; ring|ring].
      + transitivity (hh * a0 + hh * (ii * ii) * a0)%amp; [rewrite J2; ring|ring].
    - apply is0_iff in E4. assert (E : a1 = (- (ii * a0))%amp) by (transitivity (ii * a0 + a1 - ii * a0)%amp; [ring|rewrite E4; ring]).
      rewrite (same_half a0 a1 HN). 2:{ rewrite E. unfold anorm at 1. rewrite conj_opp, sr_conj_mul. transitivity (ii * sr_conj ii * anorm a0)%amp; [unfold anorm; ring|rewrite I2; ring]. }
      exists (mdag (bmat cx PauliY)). destruct (BI PauliY) as [B1 B2]. split; [exact B1|split; [exact B2|]].
      unfold fits1, mdag, bmat, mSH. cbn [m00 m01 m10 m11]. rewrite conj_opp, !sr_conj_mul, (cx_h_conj K cx), (cx_i_conj K cx), E. split.
      + transitivity (hh * a0 + hh * (ii * ii) * a0)%amp; [rewrite J2; ring|ring].
      + transitivity (hh * a0 - hh * (ii * ii) * a0)%amp; [rewrite J2; ring|ring].
    - exists midn. split; [apply unitary_1|]. split; [unfold bmat; apply mmul_1_l|]. unfold fits1, midn. cbn [m00 m01 m10 m11]. split; ring.
  Qed.
  Lemma single_ok q u U : wf U -> q < u_n U -> s_unit (u_sh U q) = Some u -> fst (u_eng U u) = 1 -> s_fd (u_sh U q) = true ->
    let V := prob_single cx q U in wf V /\ same_state (framed V) (framed U) /\ kept U V /\ u_next V = u_next U /\ s_unit (u_sh V q) = None /\
      (forall p, p <> q -> u_sh V p = u_sh U p) /\ (forall w, fst (u_eng V w) = if w =? u then 0 else fst (u_eng U w)).
  Proof.
    intros W Hq E E1 Hf. unfold prob_single. destruct (revert1_ok cx (sep_last) q U W Hq (fun _ => Hf)) as (W1 & F1 & K1 & B1 & X1 & G1 & P1 & S1 & M1 & D1).
    set (U1 := RevertBasis1Qb cx sep_last q U) in *. cbn zeta. rewrite S1, E.
    assert (N1 : u_n U1 = u_n U) by apply K1. assert (Hq1 : q < u_n U1) by (rewrite N1; exact Hq).
    set (v := snd (u_eng U1 u)). assert (Eb : s_bas (u_sh U1 q) = PauliZ) by exact B1. rewrite Eb. assert (Es : s_unit (u_sh U1 q) = Some u) by (rewrite S1; exact E).
    assert (En : fst (u_eng U1 u) = 1) by (rewrite G1; exact E1).
    destruct (pl_in _ _ _ _ (wf_placed U1 W1) q u Hq1 Es) as [Hu _].
    assert (HN : (anorm (v 0%N) + anorm (v 1%N) = 1)%amp) by (rewrite <- norm_one; unfold v; rewrite <- En; apply (wf_norm U1 W1), Hu).
    pose proof (choose_basis (v 0%N) (v 1%N) HN) as C.
    destruct (if is0 (v 0%N - v 1%N) then (PauliX, po_unit (cx_po cx) (v 0%N), 0)
      else if is0 (v 0%N + v 1%N) then (PauliX, 0, po_unit (cx_po cx) (v 0%N))
      else if is0 (ii * v 0%N - v 1%N) then (PauliY, po_unit (cx_po cx) (v 0%N), 0)
      else if is0 (ii * v 0%N + v 1%N) then (PauliY, 0, po_unit (cx_po cx) (v 0%N))
      else (PauliZ, v 0%N, v 1%N))%amp as [[b c0] c1]. destruct C as (m & Um & Bm & F0 & F2).
    set (s2 := mkQS None 0 false false c0 c1 b).
    assert (L2 : local_ok s2). { unfold local_ok, s2. cbn [s_map s_pd s_fd s_a0 s_a1]. repeat split. rewrite F0, F2, unitary_pair by exact Um. exact HN. }
    rewrite (local_clamp cx s2 L2).
    set (V0 := put_sh q (mkQS None 0 false false (v 0%N) (v 1%N) PauliZ) (free_eng u U1)).
    set (V := put_sh q s2 (free_eng u U1)).
    assert (EV : forall w, u_eng V w = if w =? u then (0, tab 0 (fun _ => 1%amp)) else u_eng U1 w) by reflexivity.
    assert (Eu : forall w, u_eng V0 w = u_eng V w) by reflexivity.
    assert (SV0 : forall p, u_sh V0 p = if p =? q then mkQS None 0 false false (v 0%N) (v 1%N) PauliZ else u_sh U1 p) by reflexivity.
    assert (SV : forall p, u_sh V p = if p =? q then s2 else u_sh U1 p) by reflexivity.
    assert (P0 : forall p, p < u_n U1 -> p <> q -> u_sh V0 p = u_sh U1 p) by (intros p _ Hp; rewrite SV0; destruct (N.eqb_spec p q); [congruence|reflexivity]).
    assert (U0 : s_unit (u_sh V0 q) = None) by (rewrite SV0, N.eqb_refl; reflexivity).
    assert (E0 : forall w, w < u_next U1 -> w <> u -> u_eng V0 w = u_eng U1 w) by (intros w _ Hw; rewrite Eu, EV; destruct (N.eqb_spec w u); [congruence|reflexivity]).
    assert (Z0 : fst (u_eng V0 u) = 0) by (rewrite Eu, EV, N.eqb_refl; reflexivity).
    assert (O0 : snd (u_eng V0 u) 0 = 1%amp) by (rewrite Eu, EV, N.eqb_refl; apply (tab_ok 0 (fun _ => 1%amp) 0); reflexivity).
    assert (W0 : wf V0).
    { split; change (u_n V0) with (u_n U1); change (u_next V0) with (u_next U1).
      - apply (single_placed _ _ _ _ (wf_placed U1 W1) q u Hq1 Es En); assumption.
      - intros w Hw. destruct (N.eq_dec w u) as [->|Hwu]; [rewrite Z0, norm_zero, O0; apply unit_one|rewrite E0 by assumption; apply (wf_norm U1 W1), Hw].
      - intros p Hp Ep. destruct (N.eq_dec p q) as [->|Hpq]; [rewrite SV0, N.eqb_refl; unfold local_ok; cbn [s_map s_pd s_fd s_a0 s_a1]; auto|].
        rewrite P0 in * by assumption. apply (wf_none U1 W1); assumption.
      - intros p w Hp Ep. destruct (N.eq_dec p q) as [->|Hpq]; [congruence|]. rewrite P0 in * by assumption.
        rewrite E0; [apply (wf_faith U1 W1); assumption|apply (pl_in _ _ _ _ (wf_placed U1 W1) p w Hp Ep)|].
        intros ->. apply Hpq, (single_only _ _ _ _ (wf_placed U1 W1) q u Hq1 Es En (u_eng V0) Z0 p Hp Ep).
      - apply (wf_ph U1 W1).
      - apply (wf_sw U1 W1). }
    assert (BS : same_state (base V0) (base U1)).
    { unfold base. change (u_n V0) with (u_n U1). change (u_next V0) with (u_next U1). apply (base_single _ _ _ _ (wf_placed U1 W1) q u Hq1 Es En); try assumption; rewrite SV0, N.eqb_refl; reflexivity. }
    assert (FS : same_state (framed V0) (framed U1)).
    { unfold PUnit5.framed. change (u_n V0) with (u_n U1). rewrite (fr_bas cx (up (u_n U1)) (bas_of U1) (bas_of V0)); [apply fr_proper, BS|].
      intros p Hp. apply up_in in Hp. unfold bas_of. rewrite SV0. destruct (N.eqb_spec p q) as [->|]; [symmetry; exact B1|reflexivity]. }
    assert (ED : forall w, u_eng V w = u_eng (unit_gate q m V0) w) by (intros w; rewrite eng_gate_none by exact U0; reflexivity).
    assert (SW : forall p, u_sh V p = if p =? q then (fun _ => s2) (u_sh V0 q) else u_sh V0 p) by (intros p; rewrite SV, SV0; destruct (N.eqb_spec p q); reflexivity).
    destruct (op1 V0 V q (fun _ => s2) m W0 Hq1 Um) as (WV & BV & GV); try assumption; try (repeat split; reflexivity); try reflexivity.
    - symmetry. exact U0.
    - rewrite SV0, N.eqb_refl. reflexivity.
    - intros _. rewrite SV0, N.eqb_refl. cbn [s_a0 s_a1]. unfold s2. cbn [s_pd s_fd s_a0 s_a1]. auto.
    - intros _ F. congruence.
    - split; [exact WV|]. split; [|split; [|split; [|split; [|split]]]].
      + eapply ss_trans; [|exact F1]. eapply ss_trans; [|exact FS]. eapply ss_trans; [apply (step1_framed cx V0 V q m midn Hq1); try reflexivity|apply gate_midn].
        * intros p _ Hp. rewrite SV, SV0. destruct (N.eqb_spec p q); [congruence|reflexivity].
        * exact BV.
        * unfold bas_of. rewrite SV, SV0, N.eqb_refl. unfold s2. cbn [s_bas]. rewrite Bm. unfold bmat. rewrite mmul_1_l. reflexivity.
      + eapply kept_trans; [exact K1|]. repeat split; reflexivity.
      + exact X1.
      + rewrite SV, N.eqb_refl. reflexivity.
      + intros p Hp. rewrite SV. destruct (N.eqb_spec p q); [congruence|]. apply P1, Hp.
      + intros w. rewrite EV. destruct (N.eqb_spec w u); [reflexivity|apply G1].
  Qed.
End P.
Arguments draw_ok {K cx}.
