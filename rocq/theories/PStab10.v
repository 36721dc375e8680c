(** Composition and disposal: the theorems. *)
From Coq Require Import NArith ZArith List Bool Lia Ring.
From Verif Require Import Amp PAmp Bits MFunctions MParFor MQCircuit MEngine MStab SpecState SpecStab SpecStab2 PStab1 PStab2 PStab3 PStab4 PStab5 PStab6 PStab7 PStab8 PStab9 PGates2 PLoop PCompose.
Import ListNotations.
Local Open Scope N_scope.

Lemma split_i n i : i < 2 * n -> exists q h, q < n /\ (h = 0 \/ h = 1) /\ i = q + h * n.
Proof. intros H. destruct (N.lt_ge_cases i n) as [L|L]; [exists i, 0|exists (i - n), 1]; repeat split; auto; lia. Qed.
Lemma pat_h n q q' h h' : q < n -> q' < n -> (h = 0 \/ h = 1) -> (h' = 0 \/ h' = 1) -> pat n (q + h * n) (q' + h' * n) = (q =? q') && negb (h =? h').
Proof.
  intros Hq Hq' Hh Hh'. destruct (N.eqb_spec q q') as [->|E]; cbn [andb].
  - destruct Hh as [-> | ->], Hh' as [-> | ->]; cbn [N.eqb negb Pos.eqb]; [apply pat_f|apply pat_t|apply pat_t|apply pat_f]; lia.
  - apply pat_f; destruct Hh as [-> | ->], Hh' as [-> | ->]; lia.
Qed.
Lemma hrow_lt n q h : q < n -> (h = 0 \/ h = 1) -> q + h * n < 2 * n. Proof. intros H [-> | ->]; lia. Qed.

(** ** Composition *)
Definition tq (s m q : N) : N + N := if q <? s then inl q else if q <? s + m then inr (q - s) else inl (q - m).
Lemma tq_l n m s q a : s <= n -> q < n + m -> tq s m q = inl a -> a < n.
Proof. intros Hs Hq. unfold tq. destruct (N.ltb_spec q s); [intros [= <-]; lia|]. destruct (N.ltb_spec q (s + m)); [discriminate|intros [= <-]; lia]. Qed.
Lemma tq_r m s q a : tq s m q = inr a -> a < m.
Proof. unfold tq. destruct (N.ltb_spec q s); [discriminate|]. destruct (N.ltb_spec q (s + m)); [intros [= <-]; lia|discriminate]. Qed.
Lemma tq_inj s m q q' : tq s m q = tq s m q' -> q = q'.
Proof. unfold tq. destruct (N.ltb_spec q s), (N.ltb_spec q' s); try (intros [= ->]; lia); destruct (N.ltb_spec q (s + m)), (N.ltb_spec q' (s + m)); try discriminate; intros [= E]; lia. Qed.
Definition ins (s m : N) (w : row) : row := map_row (insert_cols s m) w.
Definition pad (s : N) (w : row) : row := map_row (fun v => v * 2 ^ s) w.
Lemma era_ins s m w : era s m (ins s m w) = w.
Proof.
  unfold era, ins, map_row. cbn [rx rz rr]. destruct w as [x z r]. cbn [rx rz rr].
  assert (A : forall v, erase_cols s m (insert_cols s m v) = v); [|now rewrite !A]. intros v. apply N.bits_inj. intros j. rewrite tb_era, !tb_ins.
  destruct (N.ltb_spec j s); auto. replace (j + m <? s) with false by (symmetry; apply N.ltb_ge; lia). replace (j + m <? s + m) with false by (symmetry; apply N.ltb_ge; lia). f_equal. lia.
Qed.
Lemma clean_ins s m w : clean_out s m (ins s m w).
Proof. intros j H1 H2. cbn [ins map_row rx rz]. rewrite !tb_ins. replace (j <? s) with false by (symmetry; apply N.ltb_ge; lia). replace (j <? s + m) with true by (symmetry; apply N.ltb_lt; lia). auto. Qed.
Lemma fit_ins n m s w : s <= n -> fitrow n w -> fitrow (n + m) (ins s m w).
Proof.
  intros Hs [A B]. split; cbn [ins map_row rx rz]; apply lt_pow2_bits; intros j Hj; rewrite tb_ins; (destruct (N.ltb_spec j s); [lia|]); (destruct (N.ltb_spec j (s + m)); auto); apply (tb_high _ n); auto; lia.
Qed.
Lemma cut_pad s m w : fitrow m w -> cut s m (pad s w) = w.
Proof.
  intros [A B]. unfold cut, pad, map_row. cbn [rx rz rr]. rewrite !N.div_mul by apply pow2_nz. rewrite !N.mod_small by auto. now destruct w.
Qed.
Lemma clean_pad s m w : fitrow m w -> clean_in s m (pad s w).
Proof.
  intros [A B] j Hj. cbn [pad map_row rx rz]. rewrite !tb_pad. destruct (N.ltb_spec j s); auto. split; apply (tb_high _ m); auto; lia.
Qed.
Lemma fit_pad n m s w : s <= n -> fitrow m w -> fitrow (n + m) (pad s w).
Proof.
  intros Hs [A B]. split; cbn [pad map_row rx rz]; apply lt_pow2_bits; intros j Hj; rewrite tb_pad; (destruct (N.ltb_spec j s); auto); apply (tb_high _ m); auto; lia.
Qed.
Definition src (T C : tab) (s q h : N) : row :=
  match tq s (t_n C) q with inl a => ins s (t_n C) (t_row T (a + h * t_n T)) | inr b => pad s (t_row C (b + h * t_n C)) end.
Lemma compose_eq T C s : t_n T + t_n C <= 127 -> s <= t_n T -> exists R, stab_compose T C s = Ok R /\ t_n R = t_n T + t_n C /\
  forall q h, q < t_n T + t_n C -> (h = 0 \/ h = 1) -> t_row R (q + h * (t_n T + t_n C)) = src T C s q h.
Proof.
  intros Hn Hs. unfold stab_compose. replace (t_n T <? s) with false by (symmetry; apply N.ltb_ge; auto). set (n := t_n T) in *. set (m := t_n C) in *.
  assert (E1 : w8 (n + s) = n + s) by (unfold w8; apply N.mod_small; lia). assert (E2 : w8 (n + m) = n + m) by (unfold w8; apply N.mod_small; lia). rewrite E1, E2.
  eexists. split; [reflexivity|]. split; [reflexivity|]. intros q h Hq Hh. cbn [t_row]. unfold src, tq. fold m n. unfold insert_rows.
  destruct Hh as [-> | ->].
  - rewrite !N.mul_0_l, !N.add_0_r. destruct (N.ltb_spec q s) as [L|L].
    + replace (q <? n + s) with true by (symmetry; apply N.ltb_lt; lia). rewrite N.add_0_r. reflexivity.
    + destruct (N.ltb_spec q (s + m)) as [M|M]; [rewrite N.add_0_r; reflexivity|]. replace (q - m <? n + s) with true by (symmetry; apply N.ltb_lt; lia). rewrite N.add_0_r. reflexivity.
  - rewrite !N.mul_1_l. replace (q + (n + m) <? s) with false by (symmetry; apply N.ltb_ge; lia). replace (q + (n + m) <? s + m) with false by (symmetry; apply N.ltb_ge; lia).
    destruct (N.ltb_spec q s) as [L|L].
    + replace (q + (n + m) - m <? n + s) with true by (symmetry; apply N.ltb_lt; lia). unfold ins. do 2 f_equal. lia.
    + replace (q + (n + m) - m <? n + s) with false by (symmetry; apply N.ltb_ge; lia). destruct (N.ltb_spec q (s + m)) as [M|M].
      * replace (q + (n + m) - m <? n + s + m) with true by (symmetry; apply N.ltb_lt; lia). unfold pad. do 2 f_equal. lia.
      * replace (q + (n + m) - m <? n + s + m) with false by (symmetry; apply N.ltb_ge; lia). unfold ins. do 2 f_equal. lia.
Qed.
Theorem compose_spec T C s : valid T -> valid C -> t_n T + t_n C <= 127 -> s <= t_n T -> exists R, stab_compose T C s = Ok R /\ t_n R = t_n T + t_n C /\ valid R /\
  forall (K : StarRing) (im : K) a b, (im * im = - (1))%amp -> good im T a -> good im C b -> good im R (tensor_at s (t_n C) a b).
Proof.
  intros VT VC Hn Hs. destruct (compose_eq T C s Hn Hs) as (R & E & En & ER). exists R. split; auto. split; auto. set (n := t_n T) in *. set (m := t_n C) in *.
  assert (FT : forall a h, a < n -> (h = 0 \/ h = 1) -> fitrow n (t_row T (a + h * n)) /\ rr (t_row T (a + h * n)) < 4) by (intros a h Ha Hh; apply VT, hrow_lt; auto).
  assert (FC : forall a h, a < m -> (h = 0 \/ h = 1) -> fitrow m (t_row C (a + h * m)) /\ rr (t_row C (a + h * m)) < 4) by (intros a h Ha Hh; apply VC, hrow_lt; auto).
  assert (FR : forall q h, q < n + m -> (h = 0 \/ h = 1) -> fitrow (n + m) (src T C s q h) /\ rr (src T C s q h) < 4).
  { intros q h Hq Hh. unfold src. fold m n. destruct (tq s m q) as [a|b] eqn:Q.
    - apply (tq_l n) in Q; auto. destruct (FT a h Q Hh). split; [now apply fit_ins|assumption].
    - apply tq_r in Q. destruct (FC b h Q Hh). split; [now apply fit_pad|assumption]. }
  split.
  - unfold valid. rewrite En. split; auto. split; [|split].
    + intros i Hi. destruct (split_i _ _ Hi) as (q & h & Hq & Hh & ->). rewrite ER by auto. now apply FR.
    + intros i j Hi Hj. destruct (split_i _ _ Hi) as (q & h & Hq & Hh & ->). destruct (split_i _ _ Hj) as (q' & h' & Hq' & Hh' & ->). rewrite !ER by auto. rewrite pat_h by auto.
      unfold src. fold m n. destruct (tq s m q) as [a|b] eqn:Q; destruct (tq s m q') as [a'|b'] eqn:Q'.
      * assert (Ha := tq_l n _ _ _ _ Hs Hq Q). assert (Ha' := tq_l n _ _ _ _ Hs Hq' Q'). rewrite (sym_era n m s) by (auto using clean_ins). rewrite !era_ins. rewrite (proj1 (proj2 (proj2 VT))) by (now apply hrow_lt). fold n. rewrite pat_h by auto. f_equal.
        destruct (N.eqb_spec a a') as [->|D]; destruct (N.eqb_spec q q') as [F|F]; auto; exfalso; [apply F, (tq_inj s m); congruence|apply D; congruence].
      * assert (Hb' := tq_r _ _ _ _ Q'). rewrite (sym_cross n m s) by (auto using clean_ins; apply clean_pad; now apply FC). replace (q =? q') with false; auto. symmetry. apply N.eqb_neq. intros F. congruence.
      * assert (Hb := tq_r _ _ _ _ Q). rewrite sym_comm. rewrite (sym_cross n m s) by (auto using clean_ins; apply clean_pad; now apply FC). replace (q =? q') with false; auto. symmetry. apply N.eqb_neq. intros F. congruence.
      * assert (Hb := tq_r _ _ _ _ Q). assert (Hb' := tq_r _ _ _ _ Q'). rewrite (sym_cut n m s) by (auto; apply clean_pad; now apply FC). rewrite !cut_pad by now apply FC. rewrite (proj1 (proj2 (proj2 VC))) by (now apply hrow_lt). fold m. rewrite pat_h by auto. f_equal.
        destruct (N.eqb_spec b b') as [->|D]; destruct (N.eqb_spec q q') as [F|F]; auto; exfalso; [apply F, (tq_inj s m); congruence|apply D; congruence].
    + intros i H1 H2. replace i with ((i - (n + m)) + 1 * (n + m)) by lia. rewrite ER by (auto; lia). unfold src. fold m n. destruct (tq s m (i - (n + m))) as [a|b] eqn:Q; cbn [ins pad map_row rr].
      * apply (tq_l n) in Q; auto; [|lia]. apply VT; fold n; lia.
      * apply tq_r in Q. apply VC; fold m; lia.
  - intros K im a b Him Ga Gb p Hp. rewrite En in *. replace (n + m + p) with (p + 1 * (n + m)) by lia. rewrite ER by auto. assert (FP := proj1 (FR p 1 Hp ltac:(auto))). unfold src in FP |- *. fold m n in FP |- *. destruct (tq s m p) as [x|x] eqn:Q.
    + apply (tq_l n) in Q; auto. apply (stab_out im Him); auto using clean_ins. rewrite era_ins. replace (x + 1 * n) with (n + x) by lia. now apply Ga.
    + apply tq_r in Q. assert (FX := proj1 (FC x 1 Q ltac:(auto))). apply (stab_in im Him); auto using clean_pad. rewrite cut_pad by auto. replace (x + 1 * m) with (m + x) by lia. now apply Gb.
Qed.

(** ** Taking a block out *)
Definition up (s m a : N) : N := if a <? s then a else a + m.
Record clean_block (T : tab) (n m s : N) : Prop := mkCB {
  cb_out : forall a h, a < n -> (h = 0 \/ h = 1) -> clean_out s m (t_row T (up s m a + h * (n + m)));
  cb_in : forall b h, b < m -> (h = 0 \/ h = 1) -> clean_in s m (t_row T (s + b + h * (n + m))) }.
Theorem block_spec T R D n m s : valid T -> t_n T = n + m -> s <= n -> clean_block T n m s ->
  t_n R = n -> (forall a h, a < n -> (h = 0 \/ h = 1) -> t_row R (a + h * n) = era s m (t_row T (up s m a + h * (n + m)))) ->
  t_n D = m -> (forall b h, b < m -> (h = 0 \/ h = 1) -> t_row D (b + h * m) = cut s m (t_row T (s + b + h * (n + m)))) ->
  valid R /\ valid D /\
  (forall (K : StarRing) (im : K) psi, (im * im = - (1))%amp -> good im T psi -> (forall v, v < 2 ^ m -> good im R (slice s m v psi)) /\ (forall u, u < 2 ^ n -> good im D (block_slice s m u psi))) /\
  (forall (K : StarRing) (im : K) psi, (im * im = - (1))%amp -> (forall a : K, (a + a = 0)%amp -> a = 0%amp) -> good im T psi ->
     exists a b, eqv (n + m) psi (tensor_at s m a b) /\ good im R a /\ good im D b).
Proof.
  intros V En Hs [CO CI] NR ER ND ED. assert (Vn := valid_n T V). rewrite En in Vn.
  assert (UP : forall a, a < n -> up s m a < n + m) by (intros a Ha; unfold up; destruct (N.ltb_spec a s); lia).
  assert (IN : forall b, b < m -> s + b < n + m) by (intros; lia).
  assert (F : forall q h, q < n + m -> (h = 0 \/ h = 1) -> fitrow (n + m) (t_row T (q + h * (n + m))) /\ rr (t_row T (q + h * (n + m))) < 4).
  { intros q h Hq Hh. destruct V as (_ & V2 & _). rewrite En in V2. apply V2. now apply hrow_lt. }
  assert (VR : valid R).
  { unfold valid. rewrite NR. split; [lia|]. split; [|split].
    - intros i Hi. destruct (split_i _ _ Hi) as (a & h & Ha & Hh & ->). rewrite ER by auto. destruct (F (up s m a) h (UP a Ha) Hh). split; [now apply fit_era|assumption].
    - intros i j Hi Hj. destruct (split_i _ _ Hi) as (a & h & Ha & Hh & ->). destruct (split_i _ _ Hj) as (a' & h' & Ha' & Hh' & ->). rewrite !ER by auto.
      rewrite <- sym_era by auto. destruct V as (_ & _ & V3 & _). rewrite En in V3. rewrite V3 by (apply hrow_lt; auto). rewrite !pat_h by auto. f_equal.
      unfold up. destruct (N.ltb_spec a s), (N.ltb_spec a' s); [auto| | |]; destruct (N.eqb_spec a a') as [G|G]; match goal with |- (?x =? ?y) = _ => destruct (N.eqb_spec x y) as [G2|G2] end; auto; lia.
    - intros i H1 H2. replace i with (i - n + 1 * n) by lia. rewrite ER by (auto; lia). cbn [era map_row rr]. apply V; rewrite En; specialize (UP (i - n) ltac:(lia)); lia. }
  assert (VD : valid D).
  { unfold valid. rewrite ND. split; [lia|]. split; [|split].
    - intros i Hi. destruct (split_i _ _ Hi) as (b & h & Hb & Hh & ->). rewrite ED by auto. destruct (F (s + b) h (IN b Hb) Hh). split; [apply fit_cut|assumption].
    - intros i j Hi Hj. destruct (split_i _ _ Hi) as (a & h & Ha & Hh & ->). destruct (split_i _ _ Hj) as (a' & h' & Ha' & Hh' & ->). rewrite !ED by auto.
      rewrite <- (sym_cut n) by auto. destruct V as (_ & _ & V3 & _). rewrite En in V3. rewrite V3 by (apply hrow_lt; auto). rewrite !pat_h by auto. f_equal.
      destruct (N.eqb_spec a a') as [G|G]; destruct (N.eqb_spec (s + a) (s + a')) as [G2|G2]; auto; lia.
    - intros i H1 H2. replace i with (i - m + 1 * m) by lia. rewrite ED by (auto; lia). cbn [cut map_row rr]. apply V; rewrite En; lia. }
  assert (SL : forall (K : StarRing) (im : K) psi, (im * im = - (1))%amp -> good im T psi -> (forall v, v < 2 ^ m -> good im R (slice s m v psi)) /\ (forall u, u < 2 ^ n -> good im D (block_slice s m u psi))).
  { intros K im psi Him G. split; intros v Hv p Hp.
    - rewrite NR in *. replace (n + p) with (p + 1 * n) by lia. rewrite ER by auto. apply (stab_slice im Him); auto; [apply F; [now apply UP|auto]|]. replace (up s m p + 1 * (n + m)) with (t_n T + up s m p) by (rewrite En; lia). rewrite <- En. apply G. rewrite En. now apply UP.
    - rewrite ND in *. replace (m + p) with (p + 1 * m) by lia. rewrite ED by auto. apply (stab_block im Him n); auto; [apply F; [now apply IN|auto]|]. replace (s + p + 1 * (n + m)) with (t_n T + (s + p)) by (rewrite En; lia). rewrite <- En. apply G. rewrite En. now apply IN. }
  split; auto. split; auto. split; auto. intros K im psi Him tors G. destruct (SL K im psi Him G) as [S1 S2].
  assert (GS := gaussian_spec R VR). destruct (gaussian R) as [R' g]. destruct GS as [[En' E'] RF]. destruct (E' VR) as [VR' GR]. rewrite NR in En'. destruct (seed_spec R' g VR' RF) as [Q _]. rewrite En' in Q.
  exists (span_state im R' g), (block_slice s m (rx (seed R' g)) psi). split; [|split].
  - intros y Hy. unfold tensor_at. assert (HO := outside_lt y s m n Hs Hy). assert (HG := get_reg_lt y s m).
    assert (U := span_unique im Him tors R' g (slice s m (get_reg y s m) psi) VR' RF (proj2 (GR K im Him _) (S1 _ HG)) (outside y s m)). rewrite En' in U. specialize (U HO). cbv beta in U.
    transitivity (slice s m (get_reg y s m) psi (outside y s m)).
    + unfold slice. fold (slice_ix s m (get_reg y s m) (outside y s m)). now rewrite slice_outside.
    + rewrite U. apply (Rmul_comm (sr_ring K)).
  - apply (GR K im Him). now apply (span_good im Him).
  - now apply S2.
Qed.

(** ** Reducing a reduced tableau changes nothing *)
Lemma elim_noop sel j i l : forall T, (forall k, In k l -> N.testbit (sel (t_row T k)) j = false) ->
  fold_left (fun T k2 => if N.testbit (sel (t_row T k2)) j then rowmult (rowmult T k2 i) (i - t_n T) (k2 - t_n T) else T) l T = T.
Proof. induction l as [|a l IH]; intros T H; cbn [fold_left]; auto. rewrite (H a) by now left. apply IH. intros k Hk. apply H. now right. Qed.
Lemma idem_cols sel T lo hi piv : valid T -> lo <= hi -> hi <= t_n T ->
  (forall a, lo <= a -> a < hi -> lead sel (t_row T (t_n T + a)) (piv a) /\ piv a < t_n T) -> (forall a b, lo <= a -> a < b -> b < hi -> piv a < piv b) ->
  (forall a, hi <= a -> a < t_n T -> sel (t_row T (t_n T + a)) = 0) ->
  fold_left (gauss_col sel) (iota 0 (N.to_nat (t_n T))) (T, t_n T + lo) = (T, t_n T + hi).
Proof.
  intros V Hlo Hhi L INC Z. assert (HM := valid_lcv T V). set (n := t_n T) in *.
  assert (Q : forall k, N.of_nat k <= n -> exists c, fold_left (gauss_col sel) (iota 0 k) (T, n + lo) = (T, n + c) /\ lo <= c /\ c <= hi /\ (forall a, lo <= a -> a < c -> piv a < N.of_nat k) /\ (forall a, c <= a -> a < hi -> N.of_nat k <= piv a)).
  { induction k as [|k IH]; intros Hk.
    - exists lo. split; [reflexivity|]. split; [lia|]. split; [lia|]. split; intros; lia.
    - destruct (IH ltac:(lia)) as (c & E & C1 & C2 & C3 & C4). rewrite iota_S, fold_left_app, E. cbn [fold_left]. rewrite N.add_0_l. unfold gauss_col at 1. fold n. rewrite HM.
      assert (CLR : forall a, lo <= a -> a < n -> (hi <= a \/ (a < hi /\ N.of_nat k < piv a)) -> N.testbit (sel (t_row T (n + a))) (N.of_nat k) = false).
      { intros a Ha1 Ha2 [B|[B1 B2]]; [rewrite Z by auto; apply N.bits_0|]. destruct (L a Ha1 B1) as [[_ M] _]. now apply M. }
      destruct (N.lt_ge_cases c hi) as [D|D].
      + destruct (N.eq_dec (piv c) (N.of_nat k)) as [F|F].
        * assert (FI : find (fun k0 => N.testbit (sel (t_row T k0)) (N.of_nat k)) (iota (n + c) (N.to_nat (2 * n - (n + c)))) = Some (n + c)).
          { destruct (N.to_nat (2 * n - (n + c))) as [|r] eqn:R; [lia|]. cbn [iota find]. destruct (L c C1 D) as [[M _] _]. rewrite F in M. now rewrite M. }
          rewrite FI. assert (SW : forall a, rowswap T a a = T) by (intros a; unfold rowswap; now rewrite N.eqb_refl). rewrite !SW. unfold gauss_elim. fold n. rewrite HM. rewrite elim_noop.
          -- exists (c + 1). split; [f_equal; lia|]. split; [lia|]. split; [lia|]. split.
             ++ intros a H1 H2. destruct (N.eq_dec a c) as [->|]; [lia|]. specialize (C3 a H1 ltac:(lia)). lia.
             ++ intros a H1 H2. assert (X := INC c a C1 ltac:(lia) H2). lia.
          -- intros r Hr. apply in_iota in Hr. replace r with (n + (r - n)) by lia. apply CLR; [lia|lia|]. destruct (N.lt_ge_cases (r - n) hi); [right|left; auto]. split; auto. rewrite <- F. apply INC; lia.
        * assert (FI : find (fun k0 => N.testbit (sel (t_row T k0)) (N.of_nat k)) (iota (n + c) (N.to_nat (2 * n - (n + c)))) = None).
          { destruct (find _ _) as [r|] eqn:R; auto. exfalso. apply find_split in R. destruct R as (R1 & R2 & _). replace r with (n + (r - n)) in R2 by lia. rewrite CLR in R2; [discriminate|lia|lia|]. destruct (N.lt_ge_cases (r - n) hi); [right|left; auto]. split; auto.
            assert (X := C4 c ltac:(lia) D). destruct (N.eq_dec (r - n) c) as [->|]; [lia|]. assert (Y := INC c (r - n) C1 ltac:(lia) ltac:(lia)). lia. }
          rewrite FI. exists c. split; auto. split; auto. split; auto. split.
          -- intros a H1 H2. specialize (C3 a H1 H2). lia.
          -- intros a H1 H2. assert (X := C4 c ltac:(lia) D). destruct (N.eq_dec a c) as [->|]; [lia|]. assert (Y := INC c a C1 ltac:(lia) H2). lia.
      + assert (FI : find (fun k0 => N.testbit (sel (t_row T k0)) (N.of_nat k)) (iota (n + c) (N.to_nat (2 * n - (n + c)))) = None).
        { destruct (find _ _) as [r|] eqn:R; auto. exfalso. apply find_split in R. destruct R as (R1 & R2 & _). replace r with (n + (r - n)) in R2 by lia. rewrite CLR in R2; [discriminate|lia|lia|]. left. lia. }
        rewrite FI. exists c. split; auto. split; auto. split; auto. split; [intros a H1 H2; specialize (C3 a H1 H2); lia|intros; lia]. }
  destruct (Q (N.to_nat n) ltac:(lia)) as (c & E & C1 & C2 & C3 & C4). rewrite E. f_equal. f_equal. destruct (N.eq_dec c hi) as [|H]; auto. exfalso.
  specialize (C4 c ltac:(lia) ltac:(lia)). destruct (L c C1 ltac:(lia)) as [_ P]. lia.
Qed.
Theorem gaussian_idem T g : valid T -> reduced_form T g -> gaussian T = (T, g).
Proof.
  intros V [G (p1 & A1 & A2) A3 (p2 & B1 & B2)]. unfold gaussian.
  assert (E1 := idem_cols rx T 0 g p1 V ltac:(lia) G (fun a _ H => A1 a H) (fun a b _ => A2 a b) A3). rewrite N.add_0_r in E1. rewrite E1.
  assert (E2 := idem_cols rz T g (t_n T) p2 V G ltac:(lia) B1 B2 ltac:(intros; lia)). rewrite E2. f_equal. lia.
Qed.
Lemma reduced_idem T : valid T -> reduced (reduced T) = reduced T.
Proof.
  intros V. unfold reduced. assert (S := gaussian_spec T V). destruct (gaussian T) as [T' g]. destruct S as [[En E] R]. destruct (E V) as [V' _]. cbn [fst]. now rewrite (gaussian_idem T' g).
Qed.
