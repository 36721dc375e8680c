(** The initial tableau, measurement, separability, probability, readout. *)
From Coq Require Import NArith ZArith List Bool Lia Ring.
From Verif Require Import Amp PAmp Bits MFunctions MParFor MQCircuit MEngine MStab SpecState SpecStab SpecStab2 PStab1 PStab2 PStab3 PStab4 PStab5 PStab6 PStab7 PGates2 PLoop.
Import ListNotations.
Local Open Scope N_scope.

(** ** Initial tableau *)
Lemma setbit0 i : N.setbit 0 i = 2 ^ i.
Proof. rewrite N.setbit_spec'. apply N.lor_0_l. Qed.
Definition xrow (t r : N) : row := mkRow (2 ^ t) 0 r.
Lemma sym_xx n i j : sym n (xrow i 0) (xrow j 0) = false.
Proof. apply sx_false. intros k _. unfold symj, sym1, xrow. cbn [rx rz]. rewrite N.bits_0, andb_false_r. reflexivity. Qed.
Lemma tab_zero_row n i : n <= 127 -> i < 2 * n -> t_row (tab_zero n) i = if i <? n then xrow i 0 else zrow (i - n) 0.
Proof.
  intros Hn Hi. cbn [tab_zero t_row]. unfold max_lcv, w8. rewrite (N.mod_small (2 * n)) by lia. replace (i <? 2 * n) with true by (symmetry; apply N.ltb_lt; auto). rewrite !setbit0. reflexivity.
Qed.
Lemma tab_zero_valid n : n <= 127 -> valid (tab_zero n).
Proof.
  intros Hn. unfold valid. change (t_n (tab_zero n)) with n. split; auto. split; [|split].
  - intros i Hi. rewrite tab_zero_row by auto. destruct (N.ltb_spec i n) as [L|L]; (split; [|cbn; lia]).
    + split; cbn [xrow rx rz]; [apply N.pow_lt_mono_r; lia|apply pow2_pos].
    + apply fit_zrow. lia.
  - intros i j Hi Hj. rewrite !tab_zero_row by auto. destruct (N.ltb_spec i n) as [L|L]; destruct (N.ltb_spec j n) as [M|M].
    + rewrite sym_xx. symmetry. apply pat_f; lia.
    + rewrite sym_comm, sym_zrow by lia. cbn [xrow rx]. rewrite tb_pow2. destruct (N.eqb_spec i (j - n)) as [E|E]; symmetry; [apply pat_t; lia|apply pat_f; lia].
    + rewrite sym_zrow by lia. cbn [xrow rx]. rewrite tb_pow2. destruct (N.eqb_spec j (i - n)) as [E|E]; symmetry; [apply pat_t; lia|apply pat_f; lia].
    + rewrite sym_zrow by lia. cbn [zrow rx]. rewrite N.bits_0. symmetry. apply pat_f; lia.
  - intros i Hi Hi2. rewrite tab_zero_row by auto. replace (i <? n) with false by (symmetry; apply N.ltb_ge; auto). reflexivity.
Qed.

Section I.
  Context {K : StarRing}.
  Add Ring KrAL : (sr_ring K).
  Variables im h : K.
  Hypothesis Him : (im * im = - (1))%amp.
  Hypothesis Hh : (h * h + h * h = 1)%amp.
  Hypothesis tors : forall a : K, (a + a = 0)%amp -> a = 0%amp.
  Local Notation vec := (N -> K).
  Local Notation good := (good im).

  Lemma tab_zero_good n : n <= 127 -> good (tab_zero n) (ket 0).
  Proof.
    intros Hn p Hp y Hy. change (t_n (tab_zero n)) with n in *. change (rop im n (t_row (tab_zero n) (n + p)) (ket 0) y = ket 0 y).
    rewrite tab_zero_row by lia. replace (n + p <? n) with false by (symmetry; apply N.ltb_ge; lia). rewrite (rop_zrow im Him) by lia. replace (n + p - n) with p by lia.
    unfold ket. destruct (N.eqb_spec y 0) as [->|E]; [|ring]. rewrite N.bits_0. cbn [b2n]. change (0 + 2 * 0) with 0. rewrite ph_0. ring.
  Qed.
  Lemma x_ket t k y : gate1 always t (@matX K) (ket k) y = ket (N.lxor k (2 ^ t)) y.
  Proof.
    change (@matX K) with (pauli1 im true false). rewrite (gate1_pauli im Him). unfold phi1. cbn [andb b2n]. change (0 + 2 * 0) with 0. rewrite ph_0.
    unfold ket. destruct (N.eqb_spec (N.lxor y (2 ^ t)) k) as [E|E]; destruct (N.eqb_spec y (N.lxor k (2 ^ t))) as [F|F]; try ring; exfalso.
    - apply F. rewrite <- E, N.lxor_assoc, N.lxor_nilpotent. now rewrite N.lxor_0_r.
    - apply E. rewrite F, N.lxor_assoc, N.lxor_nilpotent. now rewrite N.lxor_0_r.
  Qed.
  Theorem set_permutation_good rgp n perm : n <= 127 -> exists T, set_permutation rgp n perm = Ok T /\ t_n T = n /\ valid T /\ good T (ket (perm mod 2 ^ n)).
  Proof.
    intros Hn. assert (Z : exists T, Ok (tab_zero n) = Ok T /\ t_n T = n /\ valid T /\ good T (ket 0)).
    { exists (tab_zero n). split; auto. split; auto. split; [now apply tab_zero_valid|now apply tab_zero_good]. }
    unfold set_permutation. destruct (N.eqb_spec perm 0) as [->|E].
    - rewrite N.mod_0_l by apply pow2_nz. exact Z.
    - assert (Q : forall k, N.of_nat k <= n -> exists T, fold_left (fun r j => rbind r (fun T => if N.testbit perm j then sg_x rgp T j else Ok T)) (iota 0 k) (Ok (tab_zero n)) = Ok T /\ t_n T = n /\ valid T /\ good T (ket (perm mod 2 ^ N.of_nat k))).
      { induction k as [|k IH]; intros Hk.
        - cbn [iota fold_left]. rewrite N.pow_0_r, N.mod_1_r. exact Z.
        - destruct (IH ltac:(lia)) as (T & E1 & N1 & V1 & G1). rewrite iota_S, fold_left_app, E1. cbn [fold_left rbind]. rewrite N.add_0_l.
          assert (M := lxor_mod_S 0 perm (N.of_nat k)). rewrite !N.lxor_0_l in M. replace (N.of_nat k + 1) with (N.of_nat (S k)) in M by lia.
          destruct (N.testbit perm (N.of_nat k)) eqn:B.
          + destruct (step_x im h Him Hh tors rgp T (N.of_nat k) ltac:(lia) V1) as (T2 & E2 & N2 & V2 & G2). exists T2. split; auto. split; [congruence|]. split; auto.
            apply (good_eqv im Him T2 _ _ V2) with (2 := G2 _ G1). intros y _. cbn [gate_act]. rewrite x_ket. f_equal. rewrite <- M. apply N.lxor_comm.
          + exists T. split; auto. split; auto. split; auto. rewrite N.lxor_0_l in M. rewrite <- M. exact G1. }
      destruct (Q (N.to_nat n) ltac:(lia)) as (T & H). rewrite N2Nat.id in H. now exists T.
  Qed.
End I.

Section J.
  Context {K : StarRing}.
  Add Ring KrAM : (sr_ring K).
  Lemma mul_0_r_ (a : K) : (a * 0 = 0)%amp. Proof. ring. Qed.
End J.

(** ** A state over the Gaussian integers for every tableau *)
Lemma gim_sq : (gim * gim = - (1))%amp. Proof. reflexivity. Qed.
Lemma gi_tors (a : GI) : (a + a = 0)%amp -> a = 0%amp.
Proof. destruct a as [x y]. cbn. intros [= A B]. f_equal; lia. Qed.
Lemma gi_one : (1 : GI)%amp <> 0%amp. Proof. discriminate. Qed.
Lemma gi_state T : valid T -> exists psi : N -> GI, good gim T psi /\ exists y, y < 2 ^ t_n T /\ psi y = 1%amp.
Proof.
  intros V. assert (S := gaussian_spec T V). destruct (gaussian T) as [T' g]. destruct S as [[En E] R]. destruct (E V) as [V' G].
  exists (span_state gim T' g). split; [apply (G GI gim gim_sq), span_good; auto using gim_sq|]. exists (rx (seed T' g)). split; [rewrite <- En; now apply seed_spec|]. apply span_seed; auto using gim_sq.
Qed.

Lemma stab_z_value {K : StarRing} (im : K) n t b psi : (im * im = - (1))%amp -> (forall a : K, (a + a = 0)%amp -> a = 0%amp) -> t < n -> stab im n (zrow t (if b : bool then 2 else 0)) psi -> has_value n t b psi.
Proof.
  intros Him tors Ht S y Hy Hb. assert (E := S y Hy). change (rop im n (zrow t (if b then 2 else 0)) psi y = psi y) in E. rewrite (rop_zrow im Him) in E by auto.
  apply tors. transitivity (psi y + ph im ((if b then 2 else 0) + 2 * b2n (N.testbit y t)) * psi y)%amp; [now rewrite E|]. rewrite (ph_eq im Him _ 2), (ph_2 im Him); [apply neg_cancel|].
  destruct (N.testbit y t), b; try reflexivity; now elim Hb.
Qed.
(** The qubit has a definite value exactly when no stabilizer row has an X on it. *)
Lemma has_value_determined {K : StarRing} (im : K) T t b (psi : N -> K) : (im * im = - (1))%amp -> valid T -> good im T psi -> nonzero (t_n T) psi -> has_value (t_n T) t b psi -> determined T t.
Proof.
  intros Him V G (y & Hy & Ny) HV p Hp. destruct (N.testbit (rx (t_row T (t_n T + p))) t) eqn:E; auto. exfalso. apply Ny.
  assert (F := S_fit T p V Hp). assert (A := G p Hp y Hy). change (rop im (t_n T) (t_row T (t_n T + p)) psi y = psi y) in A. rewrite (rop_closed im Him) in A by auto.
  destruct (Bool.eqb (N.testbit y t) b) eqn:B.
  - rewrite <- A. rewrite HV.
    + apply mul_0_r_.
    + apply lxor_lt_pow2; auto. apply F.
    + rewrite tb_lxor, E. apply eqb_prop in B. rewrite B. destruct b; discriminate.
  - apply HV; auto. intros C. rewrite C, eqb_reflx in B. discriminate.
Qed.

Lemma reduced_equi T : valid T -> equi T (reduced T).
Proof. intros V. apply equi_reduced, V. Qed.
Lemma determined_equi T T' t : valid T -> equi T T' -> t < t_n T -> determined T t -> determined T' t.
Proof.
  intros V [En E] Ht D. destruct (E V) as [V' G]. destruct (gi_state T V) as (psi & Gp & y & Hy & Ey).
  destruct (force_det true false T t false false true V Ht D eq_refl) as (b & _ & HV). specialize (HV GI gim psi gim_sq gi_tors Gp).
  apply (has_value_determined gim T' t b psi gim_sq V').
  - now apply (G GI gim gim_sq).
  - exists y. rewrite En, Ey. split; [auto|exact gi_one].
  - now rewrite En.
Qed.

(** ** Measurement *)
Lemma has_value_collapsed {K : StarRing} n t b (psi : N -> K) : has_value n t b psi -> eqv n psi (collapsed t b psi).
Proof. intros H y Hy. unfold collapsed. destruct (Bool.eqb (N.testbit y t) b) eqn:E; auto. apply H; auto. intros C. rewrite C, eqb_reflx in E. discriminate. Qed.
Theorem force_random rgp rnd T t result doForce doApply : valid T -> t < t_n T -> is_separable_z T t = Ok false -> doForce && negb doApply = false ->
  let b := if doForce then result else rnd in
  exists T', force_m rgp rnd T t result doForce doApply = Ok (b, T') /\ t_n T' = t_n T /\ valid T' /\
    (doApply = false -> T' = T) /\
    (doApply = true -> determined T' t /\ (forall (K : StarRing) (im : K) psi, (im * im = - (1))%amp -> good im T psi -> good im T' (collapsed t b psi)) /\
       (forall (K : StarRing) (im : K) psi, (im * im = - (1))%amp -> (forall a : K, (a + a = 0)%amp -> a = 0%amp) -> good im T' psi -> has_value (t_n T) t b psi)) /\
    (forall (K : StarRing) (im : K) psi, (im * im = - (1))%amp -> sr_conj im = (- im)%amp -> good im T psi -> outcome_weight (t_n T) t true psi = outcome_weight (t_n T) t false psi).
Proof.
  intros V Ht S HF b. destruct (sep_false T t Ht S) as (p0 & Hp0 & E0).
  assert (W : forall (K : StarRing) (im : K) psi, (im * im = - (1))%amp -> sr_conj im = (- im)%amp -> good im T psi -> outcome_weight (t_n T) t true psi = outcome_weight (t_n T) t false psi).
  { intros K im psi Him Hc G. now apply (random_weights im Him T t p0). }
  unfold force_m. replace (t_n T <=? t) with false by (symmetry; apply N.leb_gt; auto). rewrite HF.
  destruct (find (fun p => N.testbit (rx (t_row T (p + t_n T))) t) (iota 0 (N.to_nat (t_n T)))) as [p|] eqn:F.
  2:{ exfalso. rewrite (find_iota_none _ _ _ F p0) in E0 by lia. discriminate. }
  apply find_split in F. destruct F as (F1 & F2 & _). fold b. destruct doApply; cbn [negb].
  2:{ exists T. split; auto. split; auto. split; auto. split; auto. split; [discriminate|exact W]. }
  set (T1 := collapse T t p b). assert (N1 : t_n T1 = t_n T) by apply collapse_n. assert (V1 : valid T1) by (apply collapse_valid; auto; lia).
  assert (D1 : determined T1 t).
  { intros q Hq. rewrite N1 in *. unfold T1. rewrite collapse_rows by (auto; lia). replace (t_n T + q =? p) with false by (symmetry; apply N.eqb_neq; lia).
    destruct (t_n T + q =? p + t_n T); [apply N.bits_0|]. now apply upd_row_bit. }
  assert (Z1 : forall (K : StarRing) (im : K) psi, (im * im = - (1))%amp -> (forall a : K, (a + a = 0)%amp -> a = 0%amp) -> good im T1 psi -> has_value (t_n T) t b psi).
  { intros K im psi Him tors G. apply (stab_z_value im); auto. assert (A := G p ltac:(lia)). rewrite N1 in A. unfold T1 in A. rewrite collapse_rows in A by (auto; lia).
    replace (t_n T + p =? p) with false in A by (symmetry; apply N.eqb_neq; lia). rewrite (N.add_comm (t_n T) p), N.eqb_refl in A. exact A. }
  assert (G1 : forall (K : StarRing) (im : K) psi, (im * im = - (1))%amp -> good im T psi -> good im T1 (collapsed t b psi)).
  { intros K im psi Him G. apply (collapse_good im Him); auto. lia. }
  destruct rgp.
  - exists T1. split; auto. split; auto. split; auto. split; [discriminate|]. split; auto.
  - assert (Q := reduced_equi T1 V1). destruct Q as [En E]. destruct (E V1) as [V2 G2]. exists (reduced T1). split; auto. split; [congruence|]. split; auto. split; [discriminate|]. split; auto. intros _. split; [|split].
    + apply (determined_equi T1); auto; [now split|lia].
    + intros K im psi Him G. apply (G2 K im Him). now apply G1.
    + intros K im psi Him tors G. apply (Z1 K im psi Him tors). now apply (G2 K im Him).
Qed.
Theorem force_apply rgp rnd T t result doForce : valid T -> t < t_n T ->
  match force_m rgp rnd T t result doForce true with
  | Ok (b, T') => t_n T' = t_n T /\ valid T' /\ determined T' t /\ (doForce = true -> b = result) /\
      (forall (K : StarRing) (im : K) psi, (im * im = - (1))%amp -> (forall a : K, (a + a = 0)%amp -> a = 0%amp) -> good im T psi -> good im T' (collapsed t b psi)) /\
      (forall (K : StarRing) (im : K) psi, (im * im = - (1))%amp -> (forall a : K, (a + a = 0)%amp -> a = 0%amp) -> good im T' psi -> has_value (t_n T) t b psi)
  | Throw => doForce = true /\
      (forall (K : StarRing) (im : K) psi, (im * im = - (1))%amp -> (forall a : K, (a + a = 0)%amp -> a = 0%amp) -> good im T psi -> has_value (t_n T) t (negb result) psi)
  end.
Proof.
  intros V Ht. assert (HF : doForce && negb true = false) by apply andb_false_r. destruct (sep_total T t Ht) as [[|] S].
  - assert (D := m_find T t V Ht S). destruct (force_det rgp rnd T t result doForce true V Ht D HF) as (b & E & HV). rewrite E. destruct doForce; cbn [andb].
    + destruct (Bool.eqb result b) eqn:Q; cbn [negb].
      * apply eqb_prop in Q. subst b. split; auto. split; auto. split; auto. split; auto. split.
        -- intros K im psi Him tors G. apply (good_eqv im Him T psi); auto. apply has_value_collapsed. now apply (HV K im).
        -- exact HV.
      * split; auto. replace (negb result) with b; auto. destruct result, b; try reflexivity; discriminate.
    + split; auto. split; auto. split; auto. split; [discriminate|]. split.
      * intros K im psi Him tors G. apply (good_eqv im Him T psi); auto. apply has_value_collapsed. now apply (HV K im).
      * exact HV.
  - destruct (force_random rgp rnd T t result doForce true V Ht S HF) as (T' & E & N1 & V1 & _ & A & _). rewrite E. destruct (A eq_refl) as (A1 & A2 & A3). split; auto. split; auto. split; auto. split; [intros ->; reflexivity|]. split; auto.
Qed.
Lemma value_unique {K : StarRing} n t b c (psi : N -> K) : nonzero n psi -> has_value n t b psi -> has_value n t c psi -> b = c.
Proof.
  intros (y & Hy & Ny) H1 H2. destruct (N.testbit y t) eqn:E, b, c; auto; exfalso; apply Ny; first [apply H1; auto; rewrite E; discriminate | apply H2; auto; rewrite E; discriminate].
Qed.
Theorem force_twice rgp rnd T t result doForce b T' : valid T -> t < t_n T -> force_m rgp rnd T t result doForce true = Ok (b, T') ->
  forall rgp2 rnd2 r2 doForce2 doApply2, doForce2 && negb doApply2 = false -> force_m rgp2 rnd2 T' t r2 doForce2 doApply2 = if doForce2 && negb (Bool.eqb r2 b) then Throw else Ok (b, T').
Proof.
  intros V Ht E rgp2 rnd2 r2 doForce2 doApply2 HF. assert (A := force_apply rgp rnd T t result doForce V Ht). rewrite E in A. destruct A as (N1 & V1 & D & _ & _ & HV).
  destruct (force_det rgp2 rnd2 T' t r2 doForce2 doApply2 V1 ltac:(lia) D HF) as (b2 & E2 & HV2). replace b2 with b in E2; auto.
  destruct (gi_state T' V1) as (psi & G & y & Hy & Ey). rewrite N1 in *. apply (value_unique (t_n T) t b b2 psi).
  - exists y. split; auto. rewrite Ey. exact gi_one.
  - apply (HV GI gim); auto using gim_sq, gi_tors.
  - apply (HV2 GI gim); auto using gim_sq, gi_tors.
Qed.

(** ** Separability, probability *)
Theorem separable_z_value {K : StarRing} (im : K) T t (psi : N -> K) : (im * im = - (1))%amp -> (forall a : K, (a + a = 0)%amp -> a = 0%amp) -> valid T -> t < t_n T -> good im T psi -> nonzero (t_n T) psi ->
  exists s, is_separable_z T t = Ok s /\ (s = true <-> exists b, has_value (t_n T) t b psi).
Proof.
  intros Him tors V Ht G NZ. destruct (sep_total T t Ht) as [s S]. exists s. split; auto. split.
  - intros ->. assert (D := m_find T t V Ht S). destruct (force_det true false T t false false true V Ht D eq_refl) as (b & _ & HV). exists b. now apply (HV K im).
  - intros (b & HV). assert (D := has_value_determined im T t b psi Him V G NZ HV). rewrite (m_find2 T t Ht D) in S. congruence.
Qed.
(** Twice the probability. *)
Theorem prob2_spec rgp T t : valid T -> t < t_n T -> exists r, prob2 rgp T t = Ok (r, T) /\ forall (K : StarRing) (im : K) psi, (im * im = - (1))%amp -> sr_conj im = (- im)%amp -> (forall a : K, (a + a = 0)%amp -> a = 0%amp) -> good im T psi ->
    (r = 0 /\ has_value (t_n T) t false psi) \/ (r = 2 /\ has_value (t_n T) t true psi) \/ (r = 1 /\ outcome_weight (t_n T) t true psi = outcome_weight (t_n T) t false psi).
Proof.
  intros V Ht. unfold prob2. destruct (sep_total T t Ht) as [[|] S]; rewrite S; cbn [rbind].
  - assert (D := m_find T t V Ht S). destruct (force_det rgp false T t false false true V Ht D eq_refl) as (b & E & HV). cbn [andb] in E. unfold m_det. rewrite E. cbn [rbind fst snd]. exists (if b then 2 else 0). split; auto.
    intros K im psi Him Hc tors G. specialize (HV K im psi Him tors G). destruct b; auto.
  - exists 1. split; auto. intros K im psi Him Hc tors G. right; right. split; auto.
    destruct (sep_false T t Ht S) as (p & Hp & Ep). now apply (random_weights im Him T t p).
Qed.

(** ** Readout *)
Theorem all_amps_spec T : valid T ->
  length (all_amps T) = N.to_nat (2 ^ gauss_rank T) /\ NoDup (map fst (all_amps T)) /\ gauss_rank T <= t_n T /\
  exists s, s < 2 ^ t_n T /\ forall (K : StarRing) (im : K) psi, (im * im = - (1))%amp -> (forall a : K, (a + a = 0)%amp -> a = 0%amp) -> good im T psi ->
    forall y, y < 2 ^ t_n T -> psi y = (psi s * match get_amplitude T y with Some e => ph im e | None => 0 end)%amp.
Proof.
  intros V. unfold get_amplitude, all_amps, gauss_rank. assert (S := gaussian_spec T V). destruct (gaussian T) as [T' g]. destruct S as [[En E] R]. destruct (E V) as [V' G]. cbn [snd].
  fold (amp_list T' g). split; [apply amp_list_len|]. split; [apply (amp_list_keys gim gim_sq gi_tors T' g V' R)|]. split; [rewrite <- En; apply R|].
  exists (rx (seed T' g)). split; [rewrite <- En; now apply seed_spec|]. intros K im psi Him tors Gp y Hy.
  assert (U := span_unique im Him tors T' g psi V' R (proj2 (G K im Him psi) Gp) y ltac:(now rewrite En)). rewrite U at 1. cbv beta. f_equal. rewrite (amp_list_find im Him tors T' g y V' R) by now rewrite En.
  destruct (find (fun a => fst a =? y) (amp_list T' g)) as [a|]; reflexivity.
Qed.
