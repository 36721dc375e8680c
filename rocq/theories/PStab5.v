(** Measurement of a stabilizer tableau. *)
From Coq Require Import NArith ZArith List Bool Lia Ring FinFun Permutation.
From Verif Require Import Amp PAmp Bits MFunctions MParFor MQCircuit MEngine MStab SpecState SpecStab PStab1 PStab2 PStab3 PStab4 PLoop.
Import ListNotations.
Local Open Scope N_scope.

Lemma iota_length a k : length (iota a k) = k.
Proof. revert a. induction k as [|k IH]; intros a; cbn [iota length]; auto. Qed.

(** ** The rows are a basis: only the zero vector commutes with all of them *)
(** Combination of the first k rows with coefficients c (bits), signs dropped. *)
Fixpoint comb (T : tab) (c : N) (k : nat) : row :=
  match k with O => row0 | S j => if N.testbit c (N.of_nat j) then row_mul (t_n T) (comb T c j) (t_row T (N.of_nat j)) else comb T c j end.
Lemma comb_fit T c k : valid T -> (k <= N.to_nat (2 * t_n T))%nat -> fitrow (t_n T) (comb T c k).
Proof.
  intros V. induction k as [|k IH]; intros H; cbn [comb]; [split; cbn; apply pow2_pos|]. destruct (N.testbit c (N.of_nat k)); [|apply IH; lia].
  apply fitrow_mul; [apply IH; lia|]. apply valid_fit; auto. lia.
Qed.
Lemma sym_row0 n v : sym n row0 v = false. Proof. apply sx_false. intros j _. unfold symj. cbn [rx rz row0]. rewrite N.bits_0. reflexivity. Qed.
Definition partner (n i : N) : N := if i <? n then i + n else i - n.
Lemma pat_partner n i j : i < 2 * n -> j < 2 * n -> pat n i (partner n j) = (i =? j).
Proof.
  intros Hi Hj. unfold partner. destruct (N.ltb_spec j n) as [L|L]; destruct (N.eqb_spec i j) as [->|E].
  - apply pat_t. lia.
  - apply pat_f; lia.
  - apply pat_t. lia.
  - apply pat_f; lia.
Qed.
Lemma partner_lt n j : j < 2 * n -> partner n j < 2 * n. Proof. unfold partner. destruct (N.ltb_spec j n); lia. Qed.
Lemma comb_pair T c k j : valid T -> (k <= N.to_nat (2 * t_n T))%nat -> j < 2 * t_n T ->
  sym (t_n T) (comb T c k) (t_row T (partner (t_n T) j)) = N.testbit c j && (j <? N.of_nat k).
Proof.
  intros V. induction k as [|k IH]; intros H Hj.
  - cbn [comb]. rewrite sym_row0. replace (j <? N.of_nat 0) with false by (symmetry; apply N.ltb_ge; lia). now rewrite andb_false_r.
  - cbn [comb]. specialize (IH ltac:(lia) Hj). assert (A : sym (t_n T) (t_row T (N.of_nat k)) (t_row T (partner (t_n T) j)) = (N.of_nat k =? j)).
    { rewrite (proj1 (proj2 (proj2 V))) by (try lia; now apply partner_lt). apply pat_partner; lia. }
    destruct (N.testbit c (N.of_nat k)) eqn:E; [rewrite sym_mul_l, IH, A|rewrite IH]; destruct (N.eqb_spec (N.of_nat k) j) as [F|F].
    + subst j. rewrite E, N.ltb_irrefl. replace (N.of_nat k <? N.of_nat (S k)) with true by (symmetry; apply N.ltb_lt; lia). reflexivity.
    + rewrite xorb_false_r. f_equal. destruct (N.ltb_spec j (N.of_nat k)), (N.ltb_spec j (N.of_nat (S k))); auto; lia.
    + subst j. rewrite E. reflexivity.
    + f_equal. destruct (N.ltb_spec j (N.of_nat k)), (N.ltb_spec j (N.of_nat (S k))); auto; lia.
Qed.
Definition code (n : N) (w : row) : N := rx w + rz w * 2 ^ n.
Lemma code_lt n w : fitrow n w -> code n w < 2 ^ (2 * n).
Proof.
  intros [A B]. unfold code. replace (2 * n) with (n + n) by lia. rewrite N.pow_add_r. generalize dependent (2 ^ n). intros p A B. nia.
Qed.
Lemma code_inj n w v : fitrow n w -> fitrow n v -> code n w = code n v -> rx w = rx v /\ rz w = rz v.
Proof.
  intros [A B] [C D]. unfold code. generalize dependent (2 ^ n). intros p A B C D H. assert (rz w = rz v) by nia. split; auto. nia.
Qed.
Lemma sym_masks n a b v : rx a = rx b -> rz a = rz b -> sym n a v = sym n b v.
Proof. intros E1 E2. apply sx_ext. intros j _. unfold symj. now rewrite E1, E2. Qed.
Lemma nondegenerate T v : valid T -> fitrow (t_n T) v -> (forall i, i < 2 * t_n T -> sym (t_n T) v (t_row T i) = false) -> rx v = 0 /\ rz v = 0.
Proof.
  intros V Fv H. set (n := t_n T) in *. set (M := N.to_nat (2 ^ (2 * n))). set (f := fun c => code n (comb T c (N.to_nat (2 * n)))).
  assert (Fc : forall c, fitrow n (comb T c (N.to_nat (2 * n)))) by (intros c; now apply comb_fit).
  assert (INJ : forall c d, c < 2 ^ (2 * n) -> d < 2 ^ (2 * n) -> f c = f d -> c = d).
  { intros c d Hc Hd E. apply (code_inj n) in E; auto. destruct E as [E1 E2]. apply (bits_inj_below (2 * n)); auto. intros j Hj.
    assert (A := comb_pair T c (N.to_nat (2 * n)) j V ltac:(lia) Hj). assert (B := comb_pair T d (N.to_nat (2 * n)) j V ltac:(lia) Hj).
    rewrite N2Nat.id in A, B. replace (j <? 2 * n) with true in A, B by (symmetry; now apply N.ltb_lt). rewrite andb_true_r in A, B.
    rewrite <- A, <- B. now apply sym_masks. }
  assert (ND : NoDup (map f (iota 0 M))).
  { assert (G : forall l, (forall x, In x l -> x < 2 ^ (2 * n)) -> NoDup l -> NoDup (map f l)).
    { induction l as [|a l IH]; intros HL HN; cbn [map]; [constructor|]. inversion HN as [|? ? Hn HN']; subst. constructor.
      - intros Hin. apply in_map_iff in Hin. destruct Hin as (b & Eb & Hb). apply INJ in Eb; [subst; contradiction|apply HL; now right|apply HL; now left].
      - apply IH; auto. intros x Hx. apply HL. now right. }
    apply G; [|apply iota_nodup]. intros x Hx. apply in_iota in Hx. unfold M in Hx. lia. }
  assert (SUR : In (code n v) (map f (iota 0 M))).
  { apply (NoDup_length_incl ND (l' := iota 0 M)).
    - rewrite map_length, !iota_length. lia.
    - intros x Hx. apply in_map_iff in Hx. destruct Hx as (c & Ec & Hc). subst x. apply in_iota. assert (L := code_lt n _ (Fc c)). unfold f, M. lia.
    - apply in_iota. assert (L := code_lt n _ Fv). unfold M. lia. }
  apply in_map_iff in SUR. destruct SUR as (c & Ec & Hc). apply in_iota in Hc. apply (code_inj n) in Ec; auto. destruct Ec as [E1 E2].
  assert (c = 0).
  { apply (bits_inj_below (2 * n)); [unfold M in Hc; lia|apply pow2_pos|]. intros j Hj. rewrite N.bits_0.
    assert (A := comb_pair T c (N.to_nat (2 * n)) j V ltac:(lia) Hj). rewrite N2Nat.id in A. replace (j <? 2 * n) with true in A by (symmetry; now apply N.ltb_lt). rewrite andb_true_r in A.
    rewrite <- A. rewrite (sym_masks _ _ v) by auto. apply H. now apply partner_lt. }
  subst c. rewrite <- E1, <- E2. assert (Z : forall k, comb T 0 k = row0) by (induction k as [|k IH]; cbn [comb]; auto). rewrite Z. auto.
Qed.

(** ** Z on one qubit as a row *)
Definition zrow (t : N) (r : N) : row := mkRow 0 (2 ^ t) r.
Lemma sym_zrow n t r w : t < n -> sym n (zrow t r) w = N.testbit (rx w) t.
Proof.
  intros Ht. unfold sym. rewrite (sx_single _ _ t).
  - unfold symj, sym1, zrow. cbn [rx rz]. rewrite N.bits_0, tb_pow2, N.eqb_refl. destruct (N.testbit (rx w) t), (N.testbit (rz w) t); reflexivity.
  - lia.
  - intros j _ Hj. unfold symj, sym1, zrow. cbn [rx rz]. rewrite N.bits_0, tb_pow2. replace (t =? j) with false by (symmetry; apply N.eqb_neq; auto). reflexivity.
Qed.
Lemma fit_zrow n t r : t < n -> fitrow n (zrow t r).
Proof. intros H. split; cbn [zrow rx rz]; [apply pow2_pos|]. apply N.pow_lt_mono_r; lia. Qed.

(** ** Random outcome *)
Definition upd_row (T : tab) (t : N) (w : row) (S : row) : row := if N.testbit (rx w) t then row_mul (t_n T) w S else w.
Lemma collapse_fold t p l : forall T, ~ In p l -> NoDup l ->
  let T' := fold_left (fun T i => if N.testbit (rx (t_row T i)) t then rowmult T i p else T) l T in
  t_n T' = t_n T /\ forall i, t_row T' i = if existsb (N.eqb i) l then upd_row T t (t_row T i) (t_row T p) else t_row T i.
Proof.
  induction l as [|a l IH]; intros T Hp ND; cbn [fold_left existsb]; [split; reflexivity|].
  inversion ND as [|? ? Hna ND']; subst. set (T1 := if N.testbit (rx (t_row T a)) t then rowmult T a p else T).
  assert (N1 : t_n T1 = t_n T) by (unfold T1; destruct (N.testbit (rx (t_row T a)) t); reflexivity).
  assert (R1 : forall i, t_row T1 i = if i =? a then upd_row T t (t_row T a) (t_row T p) else t_row T i).
  { intros i. unfold T1, upd_row. destruct (N.testbit (rx (t_row T a)) t); [unfold rowmult; rewrite t_row_set; destruct (i =? a); reflexivity|]. destruct (N.eqb_spec i a) as [->|]; reflexivity. }
  destruct (IH T1) as [A B]; auto; [intros Hin; apply Hp; now right|]. split; [congruence|]. intros i. rewrite B.
  assert (Hpa : p <> a) by (intros ->; apply Hp; now left). assert (Pr : t_row T1 p = t_row T p) by (rewrite R1; now rewrite (proj2 (N.eqb_neq p a) Hpa)).
  rewrite Pr. destruct (N.eqb_spec i a) as [->|Hia]; cbn [orb].
  - replace (existsb (N.eqb a) l) with false; [rewrite R1, N.eqb_refl; reflexivity|]. symmetry. apply not_true_iff_false. intros E. apply existsb_exists in E. destruct E as (x & Hx & Ex). apply N.eqb_eq in Ex. now subst.
  - destruct (existsb (N.eqb i) l); rewrite !R1; rewrite (proj2 (N.eqb_neq i a) Hia); unfold upd_row; rewrite ?N1; reflexivity.
Qed.
Lemma existsb_iota i a k : existsb (N.eqb i) (iota a k) = (a <=? i) && (i <? a + N.of_nat k).
Proof.
  apply eq_true_iff_eq. rewrite existsb_exists, andb_true_iff, N.leb_le, N.ltb_lt. split.
  - intros (x & Hx & E). apply N.eqb_eq in E. subst x. now apply in_iota.
  - intros H. exists i. split; [now apply in_iota|apply N.eqb_refl].
Qed.
Lemma collapse_rows T t p b i : valid T -> p < t_n T -> i < 2 * t_n T ->
  t_row (collapse T t p b) i =
    if i =? p then t_row T (p + t_n T) else if i =? p + t_n T then zrow t (if b then 2 else 0) else upd_row T t (t_row T i) (t_row T (p + t_n T)).
Proof.
  intros V Hp Hi. unfold collapse. rewrite (valid_lcv T V).
  set (T2 := set_row _ _ _).
  assert (N2 : t_n T2 = t_n T). { unfold T2, rowset, rowcopy. destruct (p =? p + t_n T); reflexivity. }
  assert (R2 : forall j, t_row T2 j = if j =? p then t_row T (p + t_n T) else if j =? p + t_n T then zrow t (if b then 2 else 0) else t_row T j).
  { intros j. unfold T2, rowset, rowcopy. replace (p =? p + t_n T) with false by (symmetry; apply N.eqb_neq; lia). cbn [t_n set_row t_row]. rewrite !N.eqb_refl.
    replace (t + t_n T <? t_n T) with false by (symmetry; apply N.ltb_ge; lia). cbn [rx rz]. replace (t + t_n T - t_n T) with t by lia.
    destruct (N.eqb_spec j (p + t_n T)) as [->|E].
    - replace (p + t_n T =? p) with false by (symmetry; apply N.eqb_neq; lia). unfold zrow. f_equal. rewrite N.setbit_spec'. reflexivity.
    - reflexivity. }
  clearbody T2. set (f := fun T i => if N.testbit (rx (t_row T i)) t then rowmult T i p else T).
  destruct (collapse_fold t p (iota 0 (N.to_nat p)) T2) as [A B]; [rewrite in_iota; lia|apply iota_nodup|]. fold f in A, B.
  set (T3 := fold_left f (iota 0 (N.to_nat p)) T2) in *.
  destruct (collapse_fold t p (iota (p + 1) (N.to_nat (2 * t_n T - (p + 1)))) T3) as [C D]; [rewrite in_iota; lia|apply iota_nodup|]. fold f in C, D.
  rewrite D. rewrite !existsb_iota.
  assert (P3 : t_row T3 p = t_row T (p + t_n T)) by (rewrite B, existsb_iota; replace (p <? 0 + N.of_nat (N.to_nat p)) with false by (symmetry; apply N.ltb_ge; lia); rewrite andb_false_r, R2, N.eqb_refl; reflexivity).
  assert (Pb : t_row T2 p = t_row T (p + t_n T)) by (rewrite R2, N.eqb_refl; reflexivity).
  rewrite P3, B, existsb_iota, Pb. rewrite R2.
  destruct (N.eqb_spec i p) as [->|E1].
  - replace (p + 1 <=? p) with false by (symmetry; apply N.leb_gt; lia). replace (p <? 0 + N.of_nat (N.to_nat p)) with false by (symmetry; apply N.ltb_ge; lia). rewrite andb_false_r. reflexivity.
  - destruct (N.eqb_spec i (p + t_n T)) as [->|E2].
    + replace (p + t_n T <? 0 + N.of_nat (N.to_nat p)) with false by (symmetry; apply N.ltb_ge; lia). rewrite andb_false_r. unfold upd_row. cbn [zrow rx]. rewrite N.bits_0. destruct ((p + 1 <=? p + t_n T) && _); reflexivity.
    + destruct (N.lt_ge_cases i p) as [L|L].
      * replace (p + 1 <=? i) with false by (symmetry; apply N.leb_gt; lia). replace (0 <=? i) with true by (symmetry; apply N.leb_le; lia). replace (i <? 0 + N.of_nat (N.to_nat p)) with true by (symmetry; apply N.ltb_lt; lia). cbn [andb].
        unfold upd_row. rewrite N2. reflexivity.
      * replace (i <? 0 + N.of_nat (N.to_nat p)) with false by (symmetry; apply N.ltb_ge; lia). rewrite andb_false_r.
        replace (p + 1 <=? i) with true by (symmetry; apply N.leb_le; lia). replace (i <? _) with true by (symmetry; apply N.ltb_lt; lia). cbn [andb].
        unfold upd_row. rewrite A, N2. reflexivity.
Qed.
Lemma collapse_n T t p b : t_n (collapse T t p b) = t_n T.
Proof.
  unfold collapse. set (T2 := set_row _ _ _).
  assert (N2 : t_n T2 = t_n T). { unfold T2, rowset, rowcopy. destruct (p =? p + t_n T); reflexivity. }
  set (f := fun T i => if N.testbit (rx (t_row T i)) t then rowmult T i p else T).
  assert (F : forall l T, t_n (fold_left f l T) = t_n T). { induction l as [|a l IH]; intros U; cbn [fold_left]; [reflexivity|]. rewrite IH. unfold f. destruct (N.testbit _ _); reflexivity. }
  now rewrite !F.
Qed.

Lemma upd_row_bit T t w S : N.testbit (rx S) t = true -> N.testbit (rx (upd_row T t w S)) t = false.
Proof. intros H. unfold upd_row. destruct (N.testbit (rx w) t) eqn:E; auto. cbn [row_mul rx]. rewrite tb_lxor, E, H. reflexivity. Qed.
Lemma sym_upd_l T t w S v : sym (t_n T) S v = false -> sym (t_n T) (upd_row T t w S) v = sym (t_n T) w v.
Proof. intros H. unfold upd_row. destruct (N.testbit (rx w) t); auto. now rewrite sym_mul_l, H, xorb_false_r. Qed.
Lemma sym_upd_r T t w S v : sym (t_n T) v S = false -> sym (t_n T) v (upd_row T t w S) = sym (t_n T) v w.
Proof. intros H. unfold upd_row. destruct (N.testbit (rx w) t); auto. now rewrite sym_mul_r, H, xorb_false_r. Qed.

Theorem collapse_valid T t p b : valid T -> t < t_n T -> p < t_n T -> N.testbit (rx (t_row T (p + t_n T))) t = true -> valid (collapse T t p b).
Proof.
  intros V Ht Hp Hx. assert (V' := V). destruct V' as (V1 & V2 & V3 & V4). unfold valid. rewrite collapse_n. assert (R := fun i => collapse_rows T t p b i V Hp).
  set (S := t_row T (p + t_n T)) in *. assert (FS : fitrow (t_n T) S) by (apply valid_fit; auto; lia).
  assert (SS : forall i, i < 2 * t_n T -> i <> p -> sym (t_n T) S (t_row T i) = false).
  { intros i Hi Hn. unfold S. rewrite V3 by lia. apply pat_f; lia. }
  split; [auto|]. split; [|split].
  - intros i Hi. rewrite R by auto. destruct (i =? p); [apply V2; lia|]. destruct (i =? p + t_n T).
    + split; [now apply fit_zrow|destruct b; cbn; lia].
    + unfold upd_row. destruct (N.testbit (rx (t_row T i)) t); [|now apply V2]. split; [apply fitrow_mul; auto; now apply V2|apply clifford_lt].
  - intros i j Hi Hj. rewrite !R by auto. destruct (N.eqb_spec i p) as [Ei|Ei]; [|destruct (N.eqb_spec i (p + t_n T)) as [Ei2|Ei2]];
      (destruct (N.eqb_spec j p) as [Ej|Ej]; [|destruct (N.eqb_spec j (p + t_n T)) as [Ej2|Ej2]]); subst.
    + rewrite sym_self. symmetry. apply pat_f; lia.
    + rewrite sym_comm, sym_zrow by auto. rewrite Hx. symmetry. apply pat_t. lia.
    + rewrite sym_upd_r by apply sym_self. rewrite SS by auto. symmetry. apply pat_f; lia.
    + rewrite sym_zrow by auto. rewrite Hx. symmetry. apply pat_t. lia.
    + rewrite sym_self. symmetry. apply pat_f; lia.
    + rewrite sym_zrow, upd_row_bit by auto. symmetry. apply pat_f; lia.
    + rewrite sym_upd_l by apply sym_self. rewrite sym_comm, SS by auto. symmetry. apply pat_f; lia.
    + rewrite sym_comm, sym_zrow, upd_row_bit by auto. symmetry. apply pat_f; lia.
    + assert (Q : forall k, k < 2 * t_n T -> k <> p -> sym (t_n T) S (upd_row T t (t_row T k) S) = false) by (intros k Hk Hk2; rewrite sym_upd_r by apply sym_self; auto).
      rewrite sym_upd_l by auto. rewrite sym_upd_r by (rewrite sym_comm; auto). now apply V3.
  - intros i Hi Hi2. rewrite R by auto. destruct (N.eqb_spec i p) as [E|E]; [lia|]. destruct (N.eqb_spec i (p + t_n T)) as [E2|E2]; [destruct b; reflexivity|].
    unfold upd_row. destruct (N.testbit (rx (t_row T i)) t); [|now apply V4]. rewrite row_mul_parity, sym_comm, SS by auto. assert (A := V4 i Hi Hi2). assert (B := V4 (p + t_n T) ltac:(lia) ltac:(lia)). fold S in B.
    cbn [b2n]. clear - A B. mlia.
Qed.

Section K.
  Context {K : StarRing}.
  Add Ring KrAH : (sr_ring K).
  Variable im : K.
  Hypothesis Him : (im * im = - (1))%amp.
  Local Notation vec := (N -> K).
  Local Notation stab := (stab im). Local Notation rop := (rop im). Local Notation ph := (ph im). Local Notation good := (good im).

  Lemma phi_zero n y : phi n 0 0 y = 0.
  Proof.
    unfold phi. transitivity (sumf (fun _ => 0) (N.to_nat n)).
    - apply sumf_ext. intros j _. unfold phij. rewrite !N.bits_0. reflexivity.
    - generalize (N.to_nat n). induction n0 as [|k IH]; cbn [sumf]; [reflexivity|rewrite IH; reflexivity].
  Qed.
  Lemma phi_z n t y : t < n -> phi n 0 (2 ^ t) y = 2 * b2n (N.testbit y t).
  Proof.
    intros Ht. assert (A := sumf_upd1 (phij 0 (2 ^ t) y) (fun _ => 0) (N.to_nat n) t ltac:(lia)).
    assert (Z : sumf (fun _ => 0) (N.to_nat n) = 0) by (generalize (N.to_nat n); induction n0 as [|k IH]; cbn [sumf]; [reflexivity|rewrite IH; reflexivity]).
    unfold phi. rewrite Z in A. cbv beta in A. assert (B : phij 0 (2 ^ t) y t = 2 * b2n (N.testbit y t)). { unfold phij, phi1. rewrite N.bits_0, tb_pow2, N.eqb_refl, xorb_false_r. reflexivity. }
    rewrite B in A. rewrite N.add_0_r, N.add_0_l in A. apply A. intros j _ Hj. unfold phij, phi1. rewrite N.bits_0, tb_pow2. replace (t =? j) with false by (symmetry; apply N.eqb_neq; auto). reflexivity.
  Qed.
  Lemma rop_zrow n t r psi y : t < n -> rop n (zrow t r) psi y = (ph (r + 2 * b2n (N.testbit y t)) * psi y)%amp.
  Proof. intros Ht. rewrite (rop_closed im Him) by now apply fit_zrow. cbn [zrow rx rz rr]. rewrite phi_z, N.lxor_0_r by auto. reflexivity. Qed.
  Lemma stab_collapsed n w t b (psi : vec) : fitrow n w -> N.testbit (rx w) t = false -> stab n w psi -> stab n w (collapsed t b psi).
  Proof.
    intros Fw Hx S y Hy. assert (A := S y Hy). change (rop n w psi y = psi y) in A. change (rop n w (collapsed t b psi) y = collapsed t b psi y).
    rewrite (rop_closed im Him) in * by auto. unfold collapsed. rewrite tb_lxor, Hx, xorb_false_r. destruct (Bool.eqb (N.testbit y t) b); [exact A|ring].
  Qed.
  Theorem collapse_good T t p b (psi : vec) : valid T -> t < t_n T -> p < t_n T -> N.testbit (rx (t_row T (p + t_n T))) t = true ->
    good T psi -> good (collapse T t p b) (collapsed t b psi).
  Proof.
    intros V Ht Hp Hx G q Hq. rewrite collapse_n in *. rewrite collapse_rows by (auto; lia). replace (t_n T + q =? p) with false by (symmetry; apply N.eqb_neq; lia).
    destruct (N.eqb_spec (t_n T + q) (p + t_n T)) as [E|E].
    - intros y Hy. change (rop (t_n T) (zrow t (if b then 2 else 0)) (collapsed t b psi) y = collapsed t b psi y). rewrite rop_zrow by auto.
      unfold collapsed. destruct (N.testbit y t), b; cbn [Bool.eqb b2n]; try ring.
      + rewrite (ph_eq im Him (2 + 2 * 1) 0) by reflexivity. rewrite ph_0. ring.
      + change (0 + 2 * 0) with 0. rewrite ph_0. ring.
    - assert (Fq : fitrow (t_n T) (t_row T (t_n T + q))) by (apply valid_fit; auto; lia). assert (FS : fitrow (t_n T) (t_row T (p + t_n T))) by (apply valid_fit; auto; lia).
      apply stab_collapsed; [|now apply upd_row_bit|].
      + unfold upd_row. destruct (N.testbit (rx (t_row T (t_n T + q))) t); auto. now apply fitrow_mul.
      + unfold upd_row. destruct (N.testbit (rx (t_row T (t_n T + q))) t); [|now apply G]. apply rowmul_stab; auto. rewrite N.add_comm. now apply G.
  Qed.
  (** Both outcomes are equally likely. *)
  Lemma conj_ph : sr_conj im = (- im)%amp -> forall e, (ph e * sr_conj (ph e) = 1)%amp.
  Proof.
    intros Hc e. unfold PStab1.ph. generalize (N.to_nat e). intros k. induction k as [|k IH]; cbn [apow].
    - rewrite (conj_1 K). ring.
    - rewrite (sr_conj_mul K), Hc. transitivity ((im * - im) * (apow im k * sr_conj (apow im k)))%amp; [ring|]. rewrite IH. transitivity (- (im * im))%amp; [ring|]. rewrite Him. ring.
  Qed.
  Lemma anorm_ph e a : sr_conj im = (- im)%amp -> anorm (ph e * a)%amp = anorm a.
  Proof. intros Hc. unfold anorm. rewrite (sr_conj_mul K). transitivity ((ph e * sr_conj (ph e)) * (a * sr_conj a))%amp; [ring|]. rewrite conj_ph by auto. ring. Qed.
  Lemma flip_perm n x : x < 2 ^ n -> Permutation (map (fun y => N.lxor y x) (basis n)) (basis n).
  Proof.
    intros Hx. apply NoDup_Permutation_bis.
    - apply Injective_map_NoDup; [|apply basis_NoDup]. intros a b E. apply (f_equal (fun u => N.lxor u x)) in E. now rewrite !N.lxor_assoc, N.lxor_nilpotent, !N.lxor_0_r in E.
    - rewrite map_length. lia.
    - intros y Hy. apply in_map_iff in Hy. destruct Hy as (u & <- & Hu). apply basis_In in Hu. apply basis_In. now apply lxor_lt_pow2.
  Qed.
  Lemma weight_flip n w t (psi : vec) : sr_conj im = (- im)%amp -> fitrow n w -> N.testbit (rx w) t = true -> stab n w psi -> outcome_weight n t true psi = outcome_weight n t false psi.
  Proof.
    intros Hc Fw Hx S. unfold outcome_weight, weight_of. rewrite <- (asum_perm K _ _ _ (flip_perm n (rx w) (proj1 Fw))). rewrite (asum_map K). apply (asum_ext K). intros y Hy. apply basis_In in Hy.
    rewrite tb_lxor, Hx. replace (Bool.eqb (xorb (N.testbit y t) true) true) with (Bool.eqb (N.testbit y t) false) by (destruct (N.testbit y t); reflexivity).
    destruct (Bool.eqb (N.testbit y t) false); auto. assert (A := S y Hy). change (rop n w psi y = psi y) in A. rewrite (rop_closed im Him) in A by auto. rewrite <- A. symmetry. now apply anorm_ph.
  Qed.
  Theorem random_weights T t p (psi : vec) : sr_conj im = (- im)%amp -> valid T -> p < t_n T -> N.testbit (rx (t_row T (p + t_n T))) t = true -> good T psi ->
    outcome_weight (t_n T) t true psi = outcome_weight (t_n T) t false psi.
  Proof. intros Hc V Hp Hx G. apply (weight_flip _ (t_row T (p + t_n T))); auto; [apply valid_fit; auto; lia|]. rewrite N.add_comm. now apply G. Qed.
End K.

(** ** Determined outcome *)
Definition det_fold (T : tab) (t : N) (l : list N) (w : row) : row :=
  fold_left (fun w i => if N.testbit (rx (t_row T i)) t then row_mul (t_n T) w (t_row T (i + t_n T)) else w) l w.
(** Product of the stabilizers of distinct indices [l] commuting with each other. *)
Record prod_of (T : tab) (l : list N) (w : row) : Prop := mkPO {
  po_l : forall i, In i l -> i < t_n T;
  po_fit : fitrow (t_n T) w;
  po_r : rr w < 4 /\ rr w mod 2 = 0;
  po_sym : forall j, j < 2 * t_n T -> sym (t_n T) w (t_row T j) = existsb (N.eqb j) l;
  po_stab : forall (K : StarRing) (im : K) psi, (im * im = - (1))%amp -> good im T psi -> stab im (t_n T) w psi }.
Lemma prod_snoc T l w i : valid T -> prod_of T l w -> i < t_n T -> ~ In i l -> prod_of T (i :: l) (row_mul (t_n T) w (t_row T (i + t_n T))).
Proof.
  intros V [P0 P1 P2 P3 P4] Hi Hn. assert (FS : fitrow (t_n T) (t_row T (i + t_n T))) by (apply valid_fit; auto; lia). constructor.
  - intros j [<-|Hj]; auto.
  - now apply fitrow_mul.
  - split; [apply clifford_lt|]. rewrite row_mul_parity. rewrite P3 by lia.
    replace (existsb (N.eqb (i + t_n T)) l) with false.
    + assert (A := proj2 (proj2 (proj2 V)) (i + t_n T) ltac:(lia) ltac:(lia)). destruct P2 as [_ B]. cbn [b2n]. clear - A B. mlia.
    + symmetry. apply not_true_iff_false. intros Ex. apply existsb_exists in Ex. destruct Ex as (x & Hx & Ex). apply N.eqb_eq in Ex. subst x. apply P0 in Hx. lia.
  - intros j Hj. rewrite sym_mul_l, P3 by auto. rewrite (proj1 (proj2 (proj2 V))) by lia. cbn [existsb].
    destruct (N.eqb_spec j i) as [->|E].
    + rewrite pat_t by lia. replace (existsb (N.eqb i) l) with false; [reflexivity|]. symmetry. apply not_true_iff_false. intros Ex. apply existsb_exists in Ex. destruct Ex as (x & Hx & Ex). apply N.eqb_eq in Ex. now subst.
    + rewrite pat_f by lia. now rewrite xorb_false_r.
  - intros K im psi Him G. apply rowmul_stab; auto. rewrite N.add_comm. now apply G.
Qed.
Lemma prod_one T i : valid T -> i < t_n T -> prod_of T [i] (t_row T (i + t_n T)).
Proof.
  intros V Hi. constructor.
  - intros j [<-|[]]. auto.
  - apply valid_fit; auto. lia.
  - split; [apply V; lia|apply V; lia].
  - intros j Hj. rewrite (proj1 (proj2 (proj2 V))) by lia. cbn [existsb]. rewrite orb_false_r. destruct (N.eqb_spec j i) as [->|E]; [apply pat_t; lia|apply pat_f; lia].
  - intros K im psi Him G. rewrite N.add_comm. now apply G.
Qed.
Lemma det_prod T t l' : valid T -> forall l w, prod_of T l w -> (forall i, In i l' -> i < t_n T) -> NoDup l' -> (forall i, In i l' -> ~ In i l) ->
  exists l'', prod_of T l'' (det_fold T t l' w) /\ forall j, In j l'' <-> In j l \/ (In j l' /\ N.testbit (rx (t_row T j)) t = true).
Proof.
  intros V. induction l' as [|a l' IH]; intros l w P HL ND HD; cbn [det_fold fold_left].
  - exists l. split; auto. intros j. split; [auto|]. intros [H|[[] _]]; auto.
  - inversion ND as [|? ? Hna ND']; subst. fold (det_fold T t l'). destruct (N.testbit (rx (t_row T a)) t) eqn:E.
    + destruct (IH (a :: l) (row_mul (t_n T) w (t_row T (a + t_n T)))) as (l'' & P'' & H''); auto.
      * apply prod_snoc; auto; [apply HL; now left|apply HD; now left].
      * intros i Hi. apply HL. now right.
      * intros i Hi [<-|Hl]; [contradiction|]. apply (HD i); auto. now right.
      * exists l''. split; auto. intros j. rewrite H''. cbn [In]. split; [intros [[<-|H]|[H1 H2]]; auto|intros [H|[[<-|H1] H2]]; auto].
    + destruct (IH l w) as (l'' & P'' & H''); auto.
      * intros i Hi. apply HL. now right.
      * intros i Hi. apply HD. now right.
      * exists l''. split; auto. intros j. rewrite H''. cbn [In]. split; [intros [H|[H1 H2]]; auto|intros [H|[[<-|H1] H2]]; auto]. congruence.
Qed.
Lemma find_split (f : N -> bool) a k m : find f (iota a k) = Some m -> a <= m < a + N.of_nat k /\ f m = true /\ forall j, a <= j -> j < m -> f j = false.
Proof.
  revert a. induction k as [|k IH]; intros a; cbn [iota find]; [discriminate|]. destruct (f a) eqn:E.
  - intros [= <-]. split; [lia|]. split; auto. intros; lia.
  - intros H. apply IH in H. destruct H as (H1 & H2 & H3). split; [lia|]. split; auto. intros j Hj Hj2. destruct (N.eq_dec j a) as [->|]; auto. apply H3; lia.
Qed.
Lemma find_iota_none (f : N -> bool) a k : find f (iota a k) = None -> forall j, a <= j -> j < a + N.of_nat k -> f j = false.
Proof. intros H j Hj Hj2. apply (find_none _ _ H). apply in_iota. lia. Qed.

Definition determined (T : tab) (t : N) : Prop := forall p, p < t_n T -> N.testbit (rx (t_row T (t_n T + p))) t = false.
(** The scratch row holds Z_t, up to sign. *)
Lemma det_exists T t : valid T -> t < t_n T -> determined T t -> exists m, m < t_n T /\ N.testbit (rx (t_row T m)) t = true.
Proof.
  intros V Ht D. destruct (find (fun m => N.testbit (rx (t_row T m)) t) (iota 0 (N.to_nat (t_n T)))) as [m|] eqn:F.
  - apply find_split in F. exists m. split; [lia|tauto].
  - exfalso. assert (F' := find_iota_none _ _ _ F). destruct (nondegenerate T (zrow t 0) V (fit_zrow _ _ _ Ht)) as [_ B].
    + intros i Hi. rewrite sym_zrow by auto. destruct (N.lt_ge_cases i (t_n T)) as [L|L]; [apply F'; lia|]. replace i with (t_n T + (i - t_n T)) by lia. apply D. lia.
    + cbn [zrow rz] in B. revert B. apply pow2_nz.
Qed.
Lemma det_row T t m : valid T -> t < t_n T -> determined T t -> find (fun m => N.testbit (rx (t_row T m)) t) (iota 0 (N.to_nat (t_n T))) = Some m ->
  let w := det_fold T t (iota (m + 1) (N.to_nat (t_n T - (m + 1)))) (t_row T (m + t_n T)) in
  rx w = 0 /\ rz w = 2 ^ t /\ (rr w = 0 \/ rr w = 2) /\ forall (K : StarRing) (im : K) psi, (im * im = - (1))%amp -> good im T psi -> stab im (t_n T) w psi.
Proof.
  intros V Ht D F. apply find_split in F. destruct F as (F1 & F2 & F3).
  destruct (det_prod T t (iota (m + 1) (N.to_nat (t_n T - (m + 1)))) V [m] (t_row T (m + t_n T))) as (l & P & HL).
  - apply prod_one; auto. lia.
  - intros i Hi. apply in_iota in Hi. lia.
  - apply iota_nodup.
  - intros i Hi [<-|[]]. apply in_iota in Hi. lia.
  - cbv zeta. set (w := det_fold T t _ _) in *. destruct P as [P0 P1 P2 P3 P4].
    assert (LL : forall j, j < 2 * t_n T -> existsb (N.eqb j) l = N.testbit (rx (t_row T j)) t).
    { intros j Hj. destruct (existsb (N.eqb j) l) eqn:E.
      - apply existsb_exists in E. destruct E as (x & Hx & Ex). apply N.eqb_eq in Ex. subst x. apply HL in Hx. destruct Hx as [[<-|[]]|[_ H]]; auto.
      - destruct (N.testbit (rx (t_row T j)) t) eqn:E2; auto. exfalso. assert (L : j < t_n T). { destruct (N.lt_ge_cases j (t_n T)) as [L|L]; auto. replace j with (t_n T + (j - t_n T)) in E2 by lia. rewrite D in E2 by lia. discriminate. }
        assert (In j l). { apply HL. destruct (N.lt_trichotomy j m) as [A|[A|A]]; [rewrite F3 in E2 by lia; discriminate|left; left; auto|right; split; auto; apply in_iota; lia]. }
        apply not_true_iff_false in E. apply E. apply existsb_exists. exists j. split; auto. apply N.eqb_refl. }
    destruct (nondegenerate T (row_mul (t_n T) w (zrow t 0)) V) as [A B].
    + apply fitrow_mul; auto. now apply fit_zrow.
    + intros i Hi. rewrite sym_mul_l, sym_zrow, P3, LL by auto. apply xorb_nilpotent.
    + cbn [row_mul rx rz zrow] in A, B. rewrite N.lxor_0_r in A. apply N.lxor_eq in B. split; auto. split; auto. split.
      * destruct P2 as [Q1 Q2]. clear - Q1 Q2. assert (rr w = 0 \/ rr w = 1 \/ rr w = 2 \/ rr w = 3) by lia. destruct H as [H|[H|[H|H]]]; auto; rewrite H in Q2; discriminate.
      * exact P4.
Qed.
