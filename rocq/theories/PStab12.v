(** A qubit that is no eigenstate of X, Y or Z is entangled with the others. *)
From Coq Require Import NArith ZArith List Bool Lia Ring.
From Verif Require Import Amp PAmp Bits MFunctions MParFor MQCircuit MEngine MStab SpecState SpecStab SpecStab2 PStab1 PStab2 PStab3 PStab4 PStab5 PStab6 PStab7 PStab8 PStab9 PStab10 PStab11 PGates2 PLoop PCompose.
Import ListNotations.
Local Open Scope N_scope.

Lemma phi_at n t x z y : t < n -> phi n x z y = phi n (N.clearbit x t) (N.clearbit z t) y + phi1 (N.testbit x t) (N.testbit z t) (N.testbit y t).
Proof.
  intros Ht. unfold phi. assert (A := sumf_upd1 (phij x z y) (phij (N.clearbit x t) (N.clearbit z t) y) (N.to_nat n) t ltac:(lia)).
  assert (B : phij (N.clearbit x t) (N.clearbit z t) y t = 0) by (unfold phij; rewrite !N.clearbit_eqb, N.eqb_refl; cbn; now rewrite !andb_false_r). rewrite B in A.
  change (phi1 (N.testbit x t) (N.testbit z t) (N.testbit y t)) with (phij x z y t). rewrite <- A; [now rewrite N.add_0_r|]. intros j Hj Hn. unfold phij. rewrite !N.clearbit_eqb. replace (t =? j) with false by (symmetry; apply N.eqb_neq; auto). cbn. now rewrite !andb_true_r.
Qed.
Lemma phi_indep n t x z y y' : (forall j, j <> t -> N.testbit y j = N.testbit y' j) -> phi n (N.clearbit x t) (N.clearbit z t) y = phi n (N.clearbit x t) (N.clearbit z t) y'.
Proof.
  intros H. unfold phi. apply sumf_ext. intros j _. unfold phij. destruct (N.eq_dec j t) as [->|Hn]; [|now rewrite H]. rewrite !N.clearbit_eqb, N.eqb_refl. cbn. now rewrite !andb_false_r.
Qed.

Section K.
  Context {K : StarRing}.
  Add Ring KrAP : (sr_ring K).
  Variables im h : K.
  Hypothesis Him : (im * im = - (1))%amp.
  Hypothesis Hh : (h * h + h * h = 1)%amp.
  Hypothesis tors : forall a : K, (a + a = 0)%amp -> a = 0%amp.
  Hypothesis dom : forall a b : K, (a * b = 0)%amp -> a = 0%amp \/ b = 0%amp.
  Local Notation vec := (N -> K).
  Local Notation good := (good im).
  Local Notation ph := (ph im).

  (** One-qubit Pauli on a pair of amplitudes. *)
  Definition p1 (x z : bool) (a : bool -> K) : bool -> K := fun c => (ph (phi1 x z c) * a (xorb c x))%amp.
  Lemma p1_anti x z x' z' a c : sym1 x z x' z' = true -> p1 x z (p1 x' z' a) c = (- p1 x' z' (p1 x z a) c)%amp.
  Proof.
    intros H. unfold p1. rewrite !xorb_assoc, (xorb_comm x' x). assert (A := phi1_comm x z x' z' c). rewrite H in A. cbn [b2n] in A.
    transitivity (ph (phi1 x z c + phi1 x' z' (xorb c x)) * a (xorb c (xorb x x')))%amp; [rewrite ph_add; ring|].
    transitivity (- (ph (phi1 x' z' c + phi1 x z (xorb c x')) * a (xorb c (xorb x x'))))%amp; [|rewrite ph_add; ring].
    rewrite <- (ph_eq im Him _ _ A). rewrite (ph_add im _ (2 * 1)). change (2 * 1) with 2. rewrite (ph_2 im Him). ring.
  Qed.
  Lemma p1_scale x z a (k : K) c : p1 x z (fun d => (k * a d)%amp) c = (k * p1 x z a c)%amp.
  Proof. unfold p1. ring. Qed.
  Lemma p1_ext x z a a' c : (forall d, a d = a' d) -> p1 x z a c = p1 x z a' c.
  Proof. intros H. unfold p1. now rewrite H. Qed.

  (** A stabilizer with x, z at [t] maps the pair of amplitudes at [o] to a multiple. *)
  Lemma stab_pair n t w (b a : vec) o : t < n -> o < 2 ^ (n - 1) -> fitrow n w -> stab im n w (tensor_at t 1 b a) ->
    exists beta, forall c : bool, (b o * a (b2n c) = beta * p1 (N.testbit (rx w) t) (N.testbit (rz w) t) (fun d => a (b2n d)) c)%amp.
  Proof.
    intros Ht Ho F S. set (y0 := slice_ix t 1 0 o). exists (ph (rr w + phi n (N.clearbit (rx w) t) (N.clearbit (rz w) t) y0) * b (N.lxor o (erase_cols t 1 (rx w))))%amp.
    intros c. set (y := slice_ix t 1 (b2n c) o). assert (Hc : b2n c < 2 ^ 1) by (destruct c; cbn; lia).
    assert (Hy : y < 2 ^ n) by (replace n with (n - 1 + 1) by lia; apply slice_ix_lt; auto; lia).
    assert (A := S y Hy). change (rop im n w (tensor_at t 1 b a) y = tensor_at t 1 b a y) in A. rewrite (rop_closed im Him) in A by auto. unfold tensor_at in A.
    rewrite outside_lxor_out, reg_lxor in A. unfold y in A at 2 3 4 5. rewrite outside_slice, reg_slice in A by auto.
    assert (BT : N.testbit y t = c). { unfold y. rewrite tb_slice_ix by auto. replace (t <? t) with false by (symmetry; apply N.ltb_ge; lia). replace (t <? t + 1) with true by (symmetry; apply N.ltb_lt; lia). rewrite N.sub_diag. destruct c; reflexivity. }
    rewrite (phi_at n t) in A by auto. rewrite BT in A. rewrite (phi_indep n t _ _ y y0) in A.
    2:{ intros j Hj. unfold y, y0. rewrite !tb_slice_ix by (auto; lia). destruct (N.ltb_spec j t); auto. destruct (N.ltb_spec j (t + 1)); auto. lia. }
    replace (N.lxor (b2n c) ((rx w / 2 ^ t) mod 2 ^ 1)) with (b2n (xorb c (N.testbit (rx w) t))) in A.
    2:{ assert (X : (rx w / 2 ^ t) mod 2 ^ 1 = b2n (N.testbit (rx w) t)). { change (2 ^ 1) with 2. rewrite <- N.bit0_mod. rewrite tb_div2, N.add_0_l. destruct (N.testbit (rx w) t); reflexivity. } rewrite X. destruct c, (N.testbit (rx w) t); reflexivity. }
    rewrite <- A. unfold p1. rewrite N.add_assoc, ph_add. ring.
  Qed.
  Lemma anti_zero n t u v (b a : vec) : t < n -> fitrow n u -> fitrow n v -> stab im n u (tensor_at t 1 b a) -> stab im n v (tensor_at t 1 b a) ->
    sym1 (N.testbit (rx u) t) (N.testbit (rz u) t) (N.testbit (rx v) t) (N.testbit (rz v) t) = true -> eqv n (tensor_at t 1 b a) (fun _ => 0%amp).
  Proof.
    intros Ht Fu Fv Su Sv H y Hy. set (o := outside y t 1). assert (Ho : o < 2 ^ (n - 1)) by (apply outside_lt; [lia|]; replace (n - 1 + 1) with n by lia; auto).
    destruct (stab_pair n t u b a o Ht Ho Fu Su) as (be & E1). destruct (stab_pair n t v b a o Ht Ho Fv Sv) as (be' & E2).
    set (pu := p1 (N.testbit (rx u) t) (N.testbit (rz u) t)) in *. set (pv := p1 (N.testbit (rx v) t) (N.testbit (rz v) t)) in *. set (f := fun d : bool => a (b2n d)) in *. set (g := b o) in *.
    assert (X : forall c, (g * g * f c = be * be' * pu (pv f) c)%amp).
    { intros c. transitivity (g * (be * pu f c))%amp; [rewrite <- E1; unfold f; ring|]. transitivity (be * pu (fun d => g * f d) c)%amp; [unfold pu; rewrite p1_scale; ring|].
      transitivity (be * pu (fun d => be' * pv f d) c)%amp; [f_equal; unfold pu; apply p1_ext; intros d; apply E2|]. unfold pu. rewrite p1_scale. ring. }
    assert (Y : forall c, (g * g * f c = be * be' * pv (pu f) c)%amp).
    { intros c. transitivity (g * (be' * pv f c))%amp; [rewrite <- E2; unfold f; ring|]. transitivity (be' * pv (fun d => g * f d) c)%amp; [unfold pv; rewrite p1_scale; ring|].
      transitivity (be' * pv (fun d => be * pu f d) c)%amp; [f_equal; unfold pv; apply p1_ext; intros d; apply E1|]. unfold pv. rewrite p1_scale. ring. }
    assert (Z : forall c, (g * (g * f c) = 0)%amp).
    { intros c. apply tors. transitivity (g * g * f c + g * g * f c)%amp; [ring|]. rewrite X at 1. rewrite Y. unfold pu at 1, pv at 1. rewrite p1_anti by exact H. unfold pv, pu. ring. }
    unfold tensor_at. fold o g. set (r := get_reg y t 1). assert (R : a r = f (N.odd r)).
    { unfold f. f_equal. assert (B := get_reg_lt y t 1). fold r in B. change (2 ^ 1) with 2 in B. destruct r as [|[p|p|]]; cbn; try lia; reflexivity. }
    rewrite R. destruct (dom _ _ (Z (N.odd r))) as [D|D]; auto. rewrite D. ring.
  Qed.

  (** Rows of one kind at [t]. *)
  Lemma no_z_eigen T t (psi : vec) : valid T -> t < t_n T -> good T psi -> (forall p, p < t_n T -> N.testbit (rz (t_row T (t_n T + p))) t = false) -> eigen (t_n T) t matX psi.
  Proof.
    intros V Ht G H. rewrite (eigen_x im h) by auto. destruct (step_h im h Him true T t Ht V) as (T1 & E1 & N1 & V1 & G1).
    unfold sg_h, par_rows in E1. rewrite qubits_ok in E1 by (intros q [<-|[]]; auto). cbn [rbind] in E1. injection E1 as E1. assert (HM := valid_lcv T V).
    assert (D : determined T1 t).
    { intros p Hp. rewrite N1 in *. rewrite <- E1. cbn [t_row]. rewrite HM. replace (t_n T + p <? 2 * t_n T) with true by (symmetry; apply N.ltb_lt; lia). unfold upd1, h_bits. cbn [rx]. rewrite tb_setb, N.eqb_refl. auto. }
    destruct (force_det true false T1 t false false true V1 ltac:(lia) D eq_refl) as (b & _ & HV). exists b. rewrite <- N1. apply (HV K im); auto. apply (G1 psi G).
  Qed.
  Lemma only_y_eigen T t (psi : vec) : valid T -> t < t_n T -> good T psi -> (forall p, p < t_n T -> N.testbit (rx (t_row T (t_n T + p))) t = N.testbit (rz (t_row T (t_n T + p))) t) -> eigen (t_n T) t (matY im) psi.
  Proof.
    intros V Ht G H. rewrite (eigen_y im) by auto. destruct (step_is im h Him tors true T t Ht V) as (T1 & E1 & N1 & V1 & G1).
    unfold sg_is, par_rows in E1. rewrite qubits_ok in E1 by (intros q [<-|[]]; auto). cbn [rbind] in E1. injection E1 as E1. assert (HM := valid_lcv T V).
    rewrite <- N1. apply (no_z_eigen T1); auto; [lia|apply (G1 psi G)|].
    intros p Hp. rewrite N1 in *. rewrite <- E1. cbn [t_row]. rewrite HM. replace (t_n T + p <? 2 * t_n T) with true by (symmetry; apply N.ltb_lt; lia). unfold upd1, is_bits. cbn [rz]. rewrite tb_setb, N.eqb_refl, H by auto. apply xorb_nilpotent.
  Qed.
  Lemma pick (f : N -> bool) n : (exists p, p < n /\ f p = true) \/ (forall p, p < n -> f p = false).
  Proof.
    destruct (existsb f (iota 0 (N.to_nat n))) eqn:E.
    - left. apply existsb_exists in E. destruct E as (p & Hp & E). apply in_iota in Hp. exists p. split; auto. lia.
    - right. intros p Hp. destruct (f p) eqn:F; auto. rewrite <- E. symmetry. apply existsb_exists. exists p. split; auto. apply in_iota. lia.
  Qed.
  Theorem entangled T t (psi : vec) : valid T -> t < t_n T -> good T psi -> notzero (t_n T) psi ->
    ~ eigen (t_n T) t matZ psi -> ~ eigen (t_n T) t matX psi -> ~ eigen (t_n T) t (matY im) psi ->
    forall b a, ~ eqv (t_n T) psi (tensor_at t 1 b a).
  Proof.
    intros V Ht G NZ HZ HX HY b a E. set (R := fun p => t_row T (t_n T + p)).
    assert (GT : good T (tensor_at t 1 b a)) by (apply (good_eqv im Him T psi); auto).
    assert (AZ : forall u v, u < t_n T -> v < t_n T -> sym1 (N.testbit (rx (R u)) t) (N.testbit (rz (R u)) t) (N.testbit (rx (R v)) t) (N.testbit (rz (R v)) t) = true -> False).
    { intros u v Hu Hv S. apply NZ. intros y Hy. rewrite (E y Hy). apply (anti_zero (t_n T) t (R u) (R v)); auto; first [now apply S_fit|now apply GT]. }
    destruct (pick (fun p => N.testbit (rx (R p)) t) (t_n T)) as [(p & Hp & Ep)|F].
    2:{ apply HZ. apply (eigen_z tors); auto. destruct (force_det true false T t false false true V Ht F eq_refl) as (c & _ & HV). exists c. now apply (HV K im). }
    destruct (pick (fun p => N.testbit (rz (R p)) t) (t_n T)) as [(q & Hq & Eq)|F]; [|apply HX; now apply no_z_eigen].
    destruct (pick (fun p => xorb (N.testbit (rx (R p)) t) (N.testbit (rz (R p)) t)) (t_n T)) as [(r & Hr & Er)|F].
    2:{ apply HY. apply only_y_eigen; auto. intros p' Hp'. apply xorb_eq. now apply F. }
    cbv beta in Ep, Eq, Er. assert (S1 := AZ p q Hp Hq). assert (S2 := AZ p r Hp Hr). assert (S3 := AZ q r Hq Hr). rewrite Ep, Eq in *. unfold sym1 in *.
    destruct (N.testbit (rz (R p)) t), (N.testbit (rx (R q)) t), (N.testbit (rx (R r)) t), (N.testbit (rz (R r)) t); cbn in *; try discriminate; auto.
  Qed.
  Theorem is_separable_entangled rgp T t (psi : vec) T' : valid T -> t < t_n T -> good T psi -> notzero (t_n T) psi -> is_separable rgp T t = Ok (0, T') ->
    forall b a, ~ eqv (t_n T) psi (tensor_at t 1 b a).
  Proof.
    intros V Ht G NZ H. destruct (sep_spec im h Him Hh tors rgp T t psi V Ht G NZ) as (c & T2 & E & _ & _ & _ & [[C _]|[[C _]|[[C _]|(C & A1 & A2 & A3)]]]); rewrite E in H; injection H as H1 H2; subst; try discriminate. now apply entangled.
  Qed.
End K.
