(** Dispose when CanDecomposeDispose agrees; sequences of gates and measurements; the other separability tests. *)
From Coq Require Import NArith ZArith List Bool Lia Ring.
From Verif Require Import Amp PAmp Bits MFunctions MParFor MQCircuit MEngine MStab SpecState SpecStab SpecStab2 PStab1 PStab2 PStab3 PStab4 PStab5 PStab6 PStab7 PStab8 PStab9 PStab10 PGates2 PLoop PCompose.
Import ListNotations.
Local Open Scope N_scope.

Lemma row_clear_spec w a k : row_clear w a k = true -> forall j, a <= j -> j < a + k -> N.testbit (rx w) j = false /\ N.testbit (rz w) j = false.
Proof.
  intros H j H1 H2. unfold row_clear in H. rewrite forallb_forall in H. specialize (H j ltac:(apply in_iota; lia)). apply negb_true_iff, orb_false_iff in H. exact H.
Qed.
Theorem can_dispose_clean T s m T1 : valid T -> 0 < m -> can_dispose T s m = Ok (true, T1) ->
  s + m <= t_n T /\ t_n T1 = t_n T /\ valid T1 /\ equi T T1 /\ equi T (reduced T1) /\ clean_block (reduced T1) (t_n T - m) m s.
Proof.
  intros V Hm H. unfold can_dispose, bad_range in H. destruct (N.ltb_spec (t_n T) (s + m)) as [L|L]; [discriminate|]. split; auto.
  assert (Q := reduced_equi T V). assert (NR : t_n (reduced T) = t_n T) by apply Q. assert (VR : valid (reduced T)) by (apply Q; auto).
  destruct (N.eqb_spec (t_n T) 1) as [E1|E1].
  - injection H as <-. split; auto. split; auto. split; [apply equi_refl|]. split; auto. constructor.
    + intros a h Ha. lia.
    + intros b h Hb Hh j Hj. replace (t_n T - m + m) with (t_n T) by lia. assert (F := valid_fit _ (s + b + h * t_n T) VR). rewrite NR in F. specialize (F ltac:(apply hrow_lt; auto; lia)). split; apply (tb_high _ (t_n T)); try apply F; lia.
  - rewrite NR in H. injection H as H <-. split; auto. split; auto. split; auto. rewrite reduced_idem by auto. split; auto. rewrite !andb_true_iff in H. destruct H as [[H1 H2] H3]. rewrite forallb_forall in H1, H2, H3.
    replace (t_n T) with (t_n T - m + m) in H1, H2, H3 by lia. constructor.
    + intros a h Ha Hh j J1 J2. assert (B : row_clear (t_row (reduced T) (up s m a)) s m && row_clear (t_row (reduced T) (up s m a + (t_n T - m + m))) s m = true).
      { unfold up. destruct (N.ltb_spec a s) as [A|A]; [apply H1; apply in_iota; lia|apply H2; apply in_iota; lia]. }
      apply andb_true_iff in B. destruct B as [B1 B2]. destruct Hh as [-> | ->].
      * rewrite N.mul_0_l, N.add_0_r. now apply (row_clear_spec _ s m).
      * rewrite N.mul_1_l. now apply (row_clear_spec _ s m).
    + intros b h Hb Hh j J. specialize (H3 (s + b) ltac:(apply in_iota; lia)). rewrite !andb_true_iff in H3. destruct H3 as [[B1 B2] [B3 B4]].
      assert (F := valid_fit _ (s + b + h * t_n T) VR). rewrite NR in F. specialize (F ltac:(apply hrow_lt; auto; lia)). replace (t_n T - m + m) with (t_n T) in * by lia.
      destruct (N.lt_ge_cases j (t_n T)) as [JN|JN]; [|split; apply (tb_high _ (t_n T)); try apply F; auto].
      destruct Hh as [-> | ->]; rewrite ?N.mul_0_l, ?N.add_0_r, ?N.mul_1_l; destruct J as [J|J].
      * apply (row_clear_spec _ 0 s); auto; lia.
      * apply (row_clear_spec _ (s + m) (t_n T - (s + m))); auto; lia.
      * apply (row_clear_spec _ 0 s); auto; lia.
      * apply (row_clear_spec _ (s + m) (t_n T - (s + m))); auto; lia.
Qed.
Theorem decompose_spec rgp dest T s m T1 : valid T -> 0 < m -> can_dispose T s m = Ok (true, T1) ->
  exists R D, decompose_dispose rgp dest T1 s m = Ok (R, D) /\ t_n R = t_n T - m /\ t_n D = m /\ valid R /\ valid D /\
   forall (K : StarRing) (im : K) psi, (im * im = - (1))%amp -> (forall a : K, (a + a = 0)%amp -> a = 0%amp) -> good im T psi ->
     exists a b, eqv (t_n T) psi (tensor_at s m a b) /\ good im R a /\ good im D b.
Proof.
  intros V Hm H. destruct (can_dispose_clean T s m T1 V Hm H) as (L & N1 & V1 & Q1 & Q2 & CB). unfold decompose_dispose, bad_range. rewrite N1. replace (t_n T <? s + m) with false by (symmetry; apply N.ltb_ge; auto).
  replace (m =? 0) with false by (symmetry; apply N.eqb_neq; lia).
  assert (ER : reduced (if rgp || dest then T1 else reduced T1) = reduced T1) by (destruct (rgp || dest); auto; now apply reduced_idem). rewrite ER. set (T2 := reduced T1) in *.
  assert (N2 : t_n T2 = t_n T) by apply Q2. assert (V2 : valid T2) by (apply Q2; auto). rewrite N2. set (n := t_n T - m) in *. assert (En : t_n T = n + m) by lia. rewrite En.
  set (R := mkTab n _). set (D := mkTab m _).
  destruct (block_spec T2 R D n m s V2 ltac:(congruence) ltac:(lia) CB) as (VR & VD & _ & P).
  - reflexivity.
  - intros a h Ha Hh. cbn [R t_row]. unfold era, erase_rows, up. destruct Hh as [-> | ->].
    + rewrite !N.mul_0_l, !N.add_0_r. destruct (N.ltb_spec a s) as [A|A].
      * replace (a <? n + m + s) with true by (symmetry; apply N.ltb_lt; lia). reflexivity.
      * replace (a + m <? n + m + s) with true by (symmetry; apply N.ltb_lt; lia). reflexivity.
    + rewrite !N.mul_1_l. replace (a + n <? s) with false by (symmetry; apply N.ltb_ge; lia). destruct (N.ltb_spec a s) as [A|A].
      * replace (a + n + m <? n + m + s) with true by (symmetry; apply N.ltb_lt; lia). do 2 f_equal. lia.
      * replace (a + n + m <? n + m + s) with false by (symmetry; apply N.ltb_ge; lia). do 2 f_equal. lia.
  - reflexivity.
  - intros b h Hb Hh. cbn [D t_row]. unfold cut. destruct Hh as [-> | ->].
    + rewrite !N.mul_0_l, !N.add_0_r. replace (b <? m) with true by (symmetry; apply N.ltb_lt; auto). reflexivity.
    + rewrite !N.mul_1_l. replace (b + m <? m) with false by (symmetry; apply N.ltb_ge; lia). do 2 f_equal. lia.
  - assert (GP : forall (K : StarRing) (im : K) psi, (im * im = - (1))%amp -> good im T psi -> good im T2 psi) by (intros K im psi Him G; destruct Q2 as [_ Q2]; now apply (proj2 (Q2 V) K im Him)).
    exists (if rgp || dest then R else reduced R), D. split; [reflexivity|].
    assert (QR : equi R (if rgp || dest then R else reduced R)) by (destruct (rgp || dest); [apply equi_refl|now apply reduced_equi]). destruct QR as [QN QR]. destruct (QR VR) as [QV QG].
    split; [rewrite QN; reflexivity|]. split; [reflexivity|]. split; auto. split; auto. intros K im psi Him tors G. destruct (P K im psi Him tors (GP K im psi Him G)) as (a & b & E & Ga & Gb). exists a, b. split; auto. split; auto. now apply (QG K im Him).
Qed.

(** ** Sequences of gates and measurements *)
(** A command: a gate, or a measurement of [t] with random bit [rnd], or one forced to [b]. *)
Lemma rc_throw rgp cs : fold_left (fun r c => rbind r (fun st => run_command rgp st c)) cs Throw = Throw.
Proof. induction cs as [|c cs IH]; cbn [fold_left rbind]; auto. Qed.

Section K.
  Context {K : StarRing}.
  Add Ring KrAO : (sr_ring K).
  Variables im h : K.
  Hypothesis Him : (im * im = - (1))%amp.
  Hypothesis Hh : (h * h + h * h = 1)%amp.
  Hypothesis tors : forall a : K, (a + a = 0)%amp -> a = 0%amp.
  Local Notation vec := (N -> K).
  Local Notation good := (good im).

  Lemma run_commands_gen rgp cs : forall l T psi, valid T -> Forall (command_fits (t_n T)) cs -> good T psi ->
    match fold_left (fun r c => rbind r (fun st => run_command rgp st c)) cs (Ok (l, T)) with
    | Ok (bs, T') => exists bs', bs = l ++ bs' /\ length bs' = count_meas cs /\ t_n T' = t_n T /\ valid T' /\ good T' (commands_act im h cs bs' psi)
    | Throw => exists cs1 t b cs2 bs, cs = cs1 ++ Force t b :: cs2 /\ length bs = count_meas cs1 /\ has_value (t_n T) t (negb b) (commands_act im h cs1 bs psi)
    end.
  Proof.
    induction cs as [|c cs IH]; intros l T psi V HF G; cbn [fold_left].
    - exists []. rewrite app_nil_r. split; [reflexivity|]. split; [reflexivity|]. split; [reflexivity|]. split; [exact V|exact G].
    - inversion HF as [|? ? Hc HF']; subst. cbn [rbind]. destruct c as [g|t rnd|t b]; cbn [command_fits run_command] in *.
      + destruct (step_gate im h Him Hh tors rgp T g Hc V) as (T1 & E1 & N1 & V1 & G1). rewrite E1. cbn [rbind]. specialize (IH l T1 (gate_act im h g psi) V1 ltac:(now rewrite N1) (G1 _ G)).
        destruct (fold_left _ cs (Ok (l, T1))) as [|[bs T']].
        * destruct IH as (cs1 & t & b & cs2 & bs & -> & L & HV). exists (Gate g :: cs1), t, b, cs2, bs. split; [reflexivity|]. split; [exact L|]. rewrite <- N1. exact HV.
        * destruct IH as (bs' & -> & L & NN & VV & GG). exists bs'. split; auto. split; auto. split; [congruence|]. split; auto.
      + assert (A := force_apply rgp rnd T t false false V Hc). destruct (force_m rgp rnd T t false false true) as [|[b T1]]; [destruct A; discriminate|]. cbn [rbind fst snd].
        destruct A as (N1 & V1 & _ & _ & G1 & _). specialize (IH (l ++ [b]) T1 (collapsed t b psi) V1 ltac:(now rewrite N1) (G1 K im psi Him tors G)). destruct (fold_left _ cs (Ok (l ++ [b], T1))) as [|[bs T']].
        * destruct IH as (cs1 & t' & b' & cs2 & bs & -> & L & HV). exists (Measure t rnd :: cs1), t', b', cs2, (b :: bs). split; [reflexivity|]. split; [cbn; f_equal; exact L|]. rewrite <- N1. exact HV.
        * destruct IH as (bs' & -> & L & NN & VV & GG). exists (b :: bs'). split; [now rewrite <- app_assoc|]. split; [cbn; f_equal; exact L|]. split; [congruence|]. split; auto.
      + assert (A := force_apply rgp false T t b true V Hc). destruct (force_m rgp false T t b true true) as [|[c T1]]; cbn [rbind fst snd].
        * rewrite rc_throw. exists [], t, b, cs, []. split; [reflexivity|]. split; [reflexivity|]. cbn [commands_act]. now apply (proj2 A K im).
        * destruct A as (N1 & V1 & _ & Ec & G1 & _). rewrite (Ec eq_refl) in *. specialize (IH (l ++ [b]) T1 (collapsed t b psi) V1 ltac:(now rewrite N1) (G1 K im psi Him tors G)). destruct (fold_left _ cs (Ok (l ++ [b], T1))) as [|[bs T']].
          -- destruct IH as (cs1 & t' & b' & cs2 & bs & -> & L & HV). exists (Force t b :: cs1), t', b', cs2, (b :: bs). split; [reflexivity|]. split; [cbn; f_equal; exact L|]. rewrite <- N1. exact HV.
          -- destruct IH as (bs' & -> & L & NN & VV & GG). exists (b :: bs'). split; [now rewrite <- app_assoc|]. split; [cbn; f_equal; exact L|]. split; [congruence|]. split; auto.
  Qed.
  Theorem run_commands_spec rgp cs T psi : valid T -> Forall (command_fits (t_n T)) cs -> good T psi ->
    match run_commands rgp T cs with
    | Ok (bs, T') => length bs = count_meas cs /\ t_n T' = t_n T /\ valid T' /\ good T' (commands_act im h cs bs psi)
    | Throw => exists cs1 t b cs2 bs, cs = cs1 ++ Force t b :: cs2 /\ length bs = count_meas cs1 /\ has_value (t_n T) t (negb b) (commands_act im h cs1 bs psi)
    end.
  Proof.
    intros V HF G. assert (A := run_commands_gen rgp cs [] T psi V HF G). unfold run_commands. destruct (fold_left _ cs (Ok ([], T))) as [|[bs T']]; auto. destruct A as (bs' & -> & A). exact A.
  Qed.

  (** ** Eigenstates of one-qubit Pauli operators *)
  Lemma gate1_eqv n t M (a b : vec) : t < n -> eqv n a b -> eqv n (gate1 always t M a) (gate1 always t M b).
  Proof.
    intros Ht E y Hy. unfold gate1. destruct (always y); [|now apply E]. rewrite !(E (N.clearbit y t)), !(E (N.setbit y t)); auto.
    - now rewrite (E y Hy).
    - apply lt_pow2_bits. intros m Hm. rewrite N.setbit_eqb. destruct (N.eqb_spec t m); [lia|]. now apply (tb_high _ n).
    - apply lt_pow2_bits. intros m Hm. rewrite N.clearbit_eqb. destruct (N.eqb_spec t m); [lia|]. rewrite (tb_high _ n); auto.
  Qed.
  Lemma gate1_signed t M s (a : vec) y : gate1 always t M (signed s a) y = signed s (gate1 always t M a) y.
  Proof. unfold gate1, signed. destruct (always y), (N.testbit y t), s; ring. Qed.
  Lemma eigen_conj n t A B U U' (psi : vec) : t < n -> (forall psi y, gate1 always t A (gate1 always t U psi) y = gate1 always t U (gate1 always t B psi) y) ->
    (forall psi y, gate1 always t U' (gate1 always t U psi) y = psi y) -> eigen n t A (gate1 always t U psi) <-> eigen n t B psi.
  Proof.
    intros Ht C I. split; intros (s & E); exists s; intros y Hy.
    - rewrite <- (I (gate1 always t B psi) y). rewrite <- (I (signed s psi) y). apply (gate1_eqv n t U'); auto. intros u Hu. rewrite <- C. rewrite (E u Hu). symmetry. apply gate1_signed.
    - rewrite C. rewrite <- gate1_signed. now apply (gate1_eqv n t U).
  Qed.
  Lemma eigen_z n t (psi : vec) : t < n -> eigen n t matZ psi <-> exists b, has_value n t b psi.
  Proof.
    intros Ht. assert (Z : forall y, gate1 always t matZ psi y = if N.testbit y t then (- psi y)%amp else psi y).
    { intros y. unfold gate1, always, matZ. cbn [m00 m01 m10 m11]. destruct (N.testbit y t) eqn:E; ring. }
    split; intros (s & E); exists s.
    - intros y Hy Hb. assert (A := E y Hy). rewrite Z in A. unfold signed in A. apply tors. destruct (N.testbit y t), s; try (now elim Hb); [rewrite <- A at 1|rewrite A at 1]; ring.
    - intros y Hy. rewrite Z. unfold signed. destruct (Bool.eqb (N.testbit y t) s) eqn:B; [apply eqb_prop in B; now rewrite B|]. rewrite (E y Hy) by (intros C; rewrite C, eqb_reflx in B; discriminate). destruct (N.testbit y t), s; ring.
  Qed.

  Lemma hh t (psi : vec) y : gate1 always t (matH h) (gate1 always t (matH h) psi) y = psi y.
  Proof.
    rewrite !(gateH_closed im h Him). rewrite N.lxor_assoc, N.lxor_nilpotent, N.lxor_0_r, tb_lxor, tb_pow2, N.eqb_refl. destruct (N.testbit y t); cbn [xorb b2n]; change (2 * 1) with 2; change (2 * 0) with 0; rewrite ?(ph_2 im Him), ?ph_0.
    - transitivity ((h * h + h * h) * psi y)%amp; [ring|]. rewrite Hh. ring.
    - transitivity ((h * h + h * h) * psi y)%amp; [ring|]. rewrite Hh. ring.
  Qed.
  Lemma zh_hx t (psi : vec) y : gate1 always t matZ (gate1 always t (matH h) psi) y = gate1 always t (matH h) (gate1 always t matX psi) y.
  Proof.
    change (@matZ K) with (pauli1 im false true). change (@matX K) with (pauli1 im true false). rewrite (gate1_pauli im Him), !(gateH_closed im h Him), !(gate1_pauli im Him). rewrite N.lxor_0_r, N.lxor_assoc, N.lxor_nilpotent, N.lxor_0_r.
    unfold phi1. cbn [andb b2n]. rewrite xorb_false_r. destruct (N.testbit y t); cbn [b2n]; change (0 + 2 * 1) with 2; change (2 * 1) with 2; change (0 + 2 * 0) with 0; change (2 * 0) with 0; rewrite ?(ph_2 im Him), ?ph_0; ring.
  Qed.
  Lemma xis_isy t (psi : vec) y : gate1 always t matX (gate1 always t (matIS im) psi) y = gate1 always t (matIS im) (gate1 always t (matY im) psi) y.
  Proof.
    unfold gate1, always, matX, matIS, matY. cbn [m00 m01 m10 m11]. rewrite !N.setbit_eqb, !N.clearbit_eqb, !N.eqb_refl. cbn [andb orb negb].
    rewrite ?andb_false_r. destruct (N.testbit y t) eqn:E; cbn [orb andb negb].
    - transitivity (psi (N.clearbit y t)); [ring|]. transitivity (- (im * im) * psi (N.clearbit y t))%amp; [rewrite Him; ring|ring].
    - ring.
  Qed.
  Lemma s_is t (psi : vec) y : gate1 always t (matS im) (gate1 always t (matIS im) psi) y = psi y.
  Proof.
    unfold gate1, always, matS, matIS. cbn [m00 m01 m10 m11]. destruct (N.testbit y t) eqn:E; [|ring]. transitivity (- (im * im) * psi y)%amp; [ring|rewrite Him; ring].
  Qed.
  Lemma eigen_x n t (psi : vec) : t < n -> eigen n t matX psi <-> exists b, has_value n t b (gate1 always t (matH h) psi).
  Proof. intros Ht. rewrite <- eigen_z by auto. symmetry. apply (eigen_conj n t matZ matX (matH h) (matH h)); auto; intros; [apply zh_hx|apply hh]. Qed.
  Lemma eigen_y n t (psi : vec) : t < n -> eigen n t (matY im) psi <-> eigen n t matX (gate1 always t (matIS im) psi).
  Proof. intros Ht. symmetry. apply (eigen_conj n t matX (matY im) (matIS im) (matS im)); auto; intros; [apply xis_isy|apply s_is]. Qed.

  Lemma notzero_gate n t U U' (psi : vec) : t < n -> (forall psi y, gate1 always t U' (gate1 always t U psi) y = psi y) -> notzero n psi -> notzero n (gate1 always t U psi).
  Proof.
    intros Ht I NZ E. apply NZ. intros y Hy. rewrite <- (I psi y). rewrite (gate1_eqv n t U' _ (fun _ => 0%amp) Ht E y Hy). unfold gate1. destruct (always y), (N.testbit y t); ring.
  Qed.
  Lemma sep_z_nz T t (psi : vec) : valid T -> t < t_n T -> good T psi -> notzero (t_n T) psi -> exists s, is_separable_z T t = Ok s /\ (s = true <-> eigen (t_n T) t matZ psi).
  Proof.
    intros V Ht G NZ. destruct (sep_total T t Ht) as [s S]. exists s. split; auto. rewrite eigen_z by auto. split.
    - intros ->. assert (D := m_find T t V Ht S). destruct (force_det true false T t false false true V Ht D eq_refl) as (b & _ & HV). exists b. now apply (HV K im).
    - intros (b & HV). destruct s; auto. exfalso. apply NZ. destruct (sep_false T t Ht S) as (p & Hp & E). intros y Hy. assert (F := S_fit T p V Hp). rewrite N.add_comm in E.
      assert (A := G p Hp y Hy). change (rop im (t_n T) (t_row T (t_n T + p)) psi y = psi y) in A. rewrite (rop_closed im Him) in A by auto.
      destruct (Bool.eqb (N.testbit y t) b) eqn:B.
      + rewrite <- A. rewrite HV; [apply mul_0_r_|apply lxor_lt_pow2; auto; apply F|]. rewrite tb_lxor, E. apply eqb_prop in B. rewrite B. destruct b; discriminate.
      + apply HV; auto. intros C. rewrite C, eqb_reflx in B. discriminate.
  Qed.
  Theorem sep_x_spec rgp T t (psi : vec) : valid T -> t < t_n T -> good T psi -> notzero (t_n T) psi ->
    exists s T', is_separable_x rgp T t = Ok (s, T') /\ t_n T' = t_n T /\ valid T' /\ good T' psi /\ (s = true <-> eigen (t_n T) t matX psi).
  Proof.
    intros V Ht G NZ. unfold is_separable_x. destruct (step_h im h Him rgp T t Ht V) as (T1 & E1 & N1 & V1 & G1). rewrite E1. cbn [rbind].
    assert (NZ1 : notzero (t_n T) (gate1 always t (matH h) psi)) by (apply (notzero_gate _ _ _ (matH h)); auto; intros; apply hh).
    destruct (sep_z_nz T1 t (gate_act im h (GH t) psi) V1 ltac:(lia) (G1 _ G)) as (s & E2 & Q); [rewrite N1; exact NZ1|]. rewrite E2. cbn [rbind].
    destruct (step_h im h Him rgp T1 t ltac:(lia) V1) as (T2 & E3 & N2 & V2 & G2). rewrite E3. cbn [rbind]. exists s, T2. split; auto. split; [congruence|]. split; auto. split.
    - apply (good_eqv im Him T2 _ _ V2) with (2 := G2 _ (G1 _ G)). intros y _. apply hh.
    - rewrite Q, N1. rewrite eigen_x by auto. cbn [gate_act]. now rewrite eigen_z.
  Qed.
  Theorem sep_y_spec rgp T t (psi : vec) : valid T -> t < t_n T -> good T psi -> notzero (t_n T) psi ->
    exists s T', is_separable_y rgp T t = Ok (s, T') /\ t_n T' = t_n T /\ valid T' /\ good T' psi /\ (s = true <-> eigen (t_n T) t (matY im) psi).
  Proof.
    intros V Ht G NZ. unfold is_separable_y. destruct (step_is im h Him tors rgp T t Ht V) as (T1 & E1 & N1 & V1 & G1). rewrite E1. cbn [rbind].
    assert (NZ1 : notzero (t_n T) (gate1 always t (matIS im) psi)) by (apply (notzero_gate _ _ _ (matS im)); auto; intros; apply s_is).
    destruct (sep_x_spec rgp T1 t (gate_act im h (GIS t) psi) V1 ltac:(lia) (G1 _ G)) as (s & T2 & E2 & N2 & V2 & G2 & Q); [rewrite N1; exact NZ1|]. rewrite E2. cbn [rbind fst snd].
    destruct (step_s im h Him tors rgp T2 t ltac:(lia) V2) as (T3 & E3 & N3 & V3 & G3). rewrite E3. cbn [rbind]. exists s, T3. split; auto. split; [congruence|]. split; auto. split.
    - apply (good_eqv im Him T3 _ _ V3) with (2 := G3 _ G2). intros y _. apply s_is.
    - rewrite Q, N1. rewrite eigen_y by auto. reflexivity.
  Qed.
  Theorem sep_spec rgp T t (psi : vec) : valid T -> t < t_n T -> good T psi -> notzero (t_n T) psi ->
    exists c T', is_separable rgp T t = Ok (c, T') /\ t_n T' = t_n T /\ valid T' /\ good T' psi /\
      ((c = 1 /\ eigen (t_n T) t matZ psi) \/ (c = 2 /\ eigen (t_n T) t matX psi) \/ (c = 3 /\ eigen (t_n T) t (matY im) psi) \/
       (c = 0 /\ ~ eigen (t_n T) t matZ psi /\ ~ eigen (t_n T) t matX psi /\ ~ eigen (t_n T) t (matY im) psi)).
  Proof.
    intros V Ht G NZ. unfold is_separable. destruct (sep_z_nz T t psi V Ht G NZ) as (s & E & Q). rewrite E. cbn [rbind]. destruct s.
    { exists 1, T. split; auto. split; auto. split; auto. split; auto. left. split; auto. now apply Q. }
    destruct (sep_x_spec rgp T t psi V Ht G NZ) as (s & T1 & E1 & N1 & V1 & G1 & Q1). rewrite E1. cbn [rbind fst snd]. destruct s.
    { exists 2, T1. split; auto. split; auto. split; auto. split; auto. right. left. split; auto. now apply Q1. }
    destruct (sep_y_spec rgp T1 t psi V1 ltac:(lia) G1) as (s & T2 & E2 & N2 & V2 & G2 & Q2); [now rewrite N1|]. rewrite E2. cbn [rbind fst snd]. rewrite N1 in *. exists (if s then 3 else 0), T2. split; auto. split; [congruence|]. split; auto. split; auto. destruct s.
    - right; right; left. split; auto. now apply Q2.
    - right; right; right. split; auto. repeat split; intros X; [apply Q in X|apply Q1 in X|apply Q2 in X]; discriminate.
  Qed.
End K.
