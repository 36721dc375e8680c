(** Gates conjugate every generator; the commutation pattern. *)
From Coq Require Import NArith ZArith List Bool Lia Ring.
From Verif Require Import Amp PAmp Bits MFunctions MParFor MQCircuit MEngine MStab SpecState SpecStab PStab1.
Import ListNotations.
Local Open Scope N_scope.

Definition bb : list bool := [true; false].
Lemma in_bb b : In b bb. Proof. destruct b; cbn; auto. Qed.

(** ** Symplectic product *)
Fixpoint sx (f : N -> bool) (k : nat) : bool := match k with O => false | S j => xorb (sx f j) (f (N.of_nat j)) end.
Lemma sx_ext f g k : (forall j, j < N.of_nat k -> f j = g j) -> sx f k = sx g k.
Proof. induction k as [|k IH]; intros H; cbn [sx]; [reflexivity|]. rewrite IH, H; auto; [lia|]. intros j Hj. apply H. lia. Qed.
Lemma sx_xor f g k : sx (fun j => xorb (f j) (g j)) k = xorb (sx f k) (sx g k).
Proof. induction k as [|k IH]; cbn [sx]; [reflexivity|]. rewrite IH. destruct (sx f k), (sx g k), (f (N.of_nat k)), (g (N.of_nat k)); reflexivity. Qed.
Lemma sx_false f k : (forall j, j < N.of_nat k -> f j = false) -> sx f k = false.
Proof. induction k as [|k IH]; intros H; cbn [sx]; [reflexivity|]. rewrite IH, H; auto; [lia|]. intros j Hj. apply H. lia. Qed.
Lemma sx_single f k t : t < N.of_nat k -> (forall j, j < N.of_nat k -> j <> t -> f j = false) -> sx f k = f t.
Proof.
  induction k as [|k IH]; intros Ht H; [lia|]. cbn [sx]. destruct (N.eq_dec t (N.of_nat k)) as [->|Hne].
  - rewrite sx_false by (intros j Hj; apply H; lia). apply xorb_false_l.
  - rewrite IH, (H (N.of_nat k)) by (try lia; intros; apply H; lia). now rewrite xorb_false_r.
Qed.
Lemma sx_upd1 f g k t : t < N.of_nat k -> (forall j, j < N.of_nat k -> j <> t -> f j = g j) -> sx f k = xorb (sx g k) (xorb (f t) (g t)).
Proof.
  intros Ht H. rewrite <- (sx_single (fun j => xorb (f j) (g j)) k t Ht) by (intros j Hj Hn; rewrite H by auto; apply xorb_nilpotent).
  rewrite sx_xor. destruct (sx f k), (sx g k); reflexivity.
Qed.
Lemma sx_upd2 f g k c t : c < N.of_nat k -> t < N.of_nat k -> c <> t -> (forall j, j < N.of_nat k -> j <> c -> j <> t -> f j = g j) ->
  sx f k = xorb (sx g k) (xorb (xorb (f c) (g c)) (xorb (f t) (g t))).
Proof.
  intros Hc Ht Hne H. set (m := fun j => if j =? c then g j else f j).
  assert (A : sx f k = xorb (sx m k) (xorb (f c) (m c))).
  { apply sx_upd1; auto. intros j _ Hj. unfold m. apply N.eqb_neq in Hj. now rewrite Hj. }
  assert (B : sx m k = xorb (sx g k) (xorb (m t) (g t))).
  { apply sx_upd1; auto. intros j Hj Hjt. unfold m. destruct (j =? c) eqn:E; auto. apply N.eqb_neq in E. auto. }
  rewrite A, B. assert (Mc : m c = g c) by (unfold m; now rewrite N.eqb_refl).
  assert (Mt : m t = f t) by (unfold m; replace (t =? c) with false by (symmetry; apply N.eqb_neq; auto); reflexivity). rewrite Mc, Mt.
  destruct (sx g k), (f c), (g c), (f t), (g t); reflexivity.
Qed.

Definition sym1 (x z x' z' : bool) : bool := xorb (x && z') (z && x').
Definition symj (w v : row) (j : N) : bool := sym1 (N.testbit (rx w) j) (N.testbit (rz w) j) (N.testbit (rx v) j) (N.testbit (rz v) j).
Definition sym (n : N) (w v : row) : bool := sx (symj w v) (N.to_nat n).
Lemma sym_comm n w v : sym n w v = sym n v w.
Proof. apply sx_ext. intros j _. unfold symj, sym1. rewrite xorb_comm, (andb_comm (N.testbit (rz w) j)), (andb_comm (N.testbit (rx w) j)). reflexivity. Qed.
Lemma sym_self n w : sym n w w = false.
Proof. apply sx_false. intros j _. unfold symj, sym1. now rewrite andb_comm, xorb_nilpotent. Qed.
Lemma sym_mul_l n a b v : sym n (row_mul n a b) v = xorb (sym n a v) (sym n b v).
Proof.
  unfold sym. rewrite <- sx_xor. apply sx_ext. intros j _. unfold symj, sym1. cbn [row_mul rx rz]. rewrite !tb_lxor.
  destruct (N.testbit (rx a) j), (N.testbit (rz a) j), (N.testbit (rx b) j), (N.testbit (rz b) j), (N.testbit (rx v) j), (N.testbit (rz v) j); reflexivity.
Qed.
Lemma sym_mul_r n a b v : sym n v (row_mul n a b) = xorb (sym n v a) (sym n v b).
Proof. rewrite sym_comm, sym_mul_l, (sym_comm n a), (sym_comm n b). reflexivity. Qed.
(** Parity of the power of i of a product. *)
Lemma row_mul_parity n a b : rr (row_mul n a b) mod 2 = (rr a + rr b + b2n (sym n a b)) mod 2.
Proof.
  assert (A : clifford n a b mod 4 = (sumf (cliffj a b) (N.to_nat n) + rr a + rr b) mod 4) by apply clifford_mod.
  assert (B : forall k, sumf (cliffj a b) k mod 2 = b2n (sx (symj a b) k) mod 2).
  { induction k as [|k IH]; [reflexivity|]. cbn [sumf sx]. rewrite N.add_mod, IH by lia. unfold cliffj, symj, cliff1, sym1.
    destruct (sx (fun _ : N => _) k), (N.testbit (rx a) (N.of_nat k)), (N.testbit (rz a) (N.of_nat k)), (N.testbit (rx b) (N.of_nat k)), (N.testbit (rz b) (N.of_nat k)); reflexivity. }
  specialize (B (N.to_nat n)). cbn [row_mul rr]. unfold sym. revert A B. generalize (clifford n a b), (sumf (cliffj a b) (N.to_nat n)), (b2n (sx (symj a b) (N.to_nat n))). intros; mlia.
Qed.
Lemma phi1_comm x z x' z' y : (phi1 x z y + phi1 x' z' (xorb y x) + 2 * b2n (sym1 x z x' z')) mod 4 = (phi1 x' z' y + phi1 x z (xorb y x')) mod 4.
Proof. destruct x, z, x', z', y; reflexivity. Qed.
Lemma sum_parity f k : sumf (fun j => 2 * b2n (f j)) k mod 4 = (2 * b2n (sx f k)) mod 4.
Proof. induction k as [|k IH]; [reflexivity|]. cbn [sumf sx]. rewrite N.add_mod, IH by lia. destruct (sx f k), (f (N.of_nat k)); reflexivity. Qed.
Lemma phi_comm n w v y : (phi n (rx w) (rz w) y + phi n (rx v) (rz v) (N.lxor y (rx w)) + 2 * b2n (sym n w v)) mod 4 =
  (phi n (rx v) (rz v) y + phi n (rx w) (rz w) (N.lxor y (rx v))) mod 4.
Proof.
  unfold phi, sym. assert (P := sum_parity (symj w v) (N.to_nat n)).
  transitivity ((sumf (phij (rx w) (rz w) y) (N.to_nat n) + sumf (phij (rx v) (rz v) (N.lxor y (rx w))) (N.to_nat n) + sumf (fun j => 2 * b2n (symj w v j)) (N.to_nat n)) mod 4).
  { rewrite N.add_mod, <- P, <- N.add_mod by lia. reflexivity. }
  rewrite <- !sumf_add. apply sumf_mod4. intros j _. unfold phij, symj. rewrite !tb_lxor. apply phi1_comm.
Qed.

(** ** Local checks *)
Definition local1 (th : bool -> N) (de : bool -> bool) (f : bool -> bool -> bool * bool * bool) : bool :=
  forallb (fun x => forallb (fun z => forallb (fun y =>
    let '(x', z', s) := f x z in
    Bool.eqb (xorb (de y) x) (xorb x' (de (xorb y x'))) &&
    ((th y + phi1 x z (xorb y (de y))) mod 4 =? (2 * b2n s + phi1 x' z' y + th (xorb y x')) mod 4)) bb) bb) bb.
Definition local2 (th : bool -> bool -> N) (de : bool -> bool -> bool * bool) (f : bool -> bool -> bool -> bool -> bool * bool * bool * bool * bool) : bool :=
  forallb (fun xc => forallb (fun zc => forallb (fun xt => forallb (fun zt => forallb (fun yc => forallb (fun yt =>
    let '(xc', zc', xt', zt', s) := f xc zc xt zt in
    let '(dc, dt) := de yc yt in
    let '(dc', dt') := de (xorb yc xc') (xorb yt xt') in
    Bool.eqb (xorb dc xc) (xorb xc' dc') && Bool.eqb (xorb dt xt) (xorb xt' dt') &&
    ((th yc yt + phi1 xc zc (xorb yc dc) + phi1 xt zt (xorb yt dt)) mod 4 =?
     (2 * b2n s + phi1 xc' zc' yc + phi1 xt' zt' yt + th (xorb yc xc') (xorb yt xt')) mod 4)) bb) bb) bb) bb) bb) bb.
(** The update keeps the symplectic product. *)
Definition keeps1 (f : bool -> bool -> bool * bool * bool) : bool :=
  forallb (fun x => forallb (fun z => forallb (fun x' => forallb (fun z' =>
    let '(a, b, _) := f x z in let '(a', b', _) := f x' z' in Bool.eqb (sym1 a b a' b') (sym1 x z x' z')) bb) bb) bb) bb.
Definition keeps2 (f : bool -> bool -> bool -> bool -> bool * bool * bool * bool * bool) : bool :=
  forallb (fun xc => forallb (fun zc => forallb (fun xt => forallb (fun zt =>
  forallb (fun xc' => forallb (fun zc' => forallb (fun xt' => forallb (fun zt' =>
    let '(a, b, c, d, _) := f xc zc xt zt in let '(a', b', c', d', _) := f xc' zc' xt' zt' in
    Bool.eqb (xorb (sym1 a b a' b') (sym1 c d c' d')) (xorb (sym1 xc zc xc' zc') (sym1 xt zt xt' zt'))) bb) bb) bb) bb) bb) bb) bb) bb.

Definition dm1 (t : N) (d : bool) : N := if d then 2 ^ t else 0.
Definition dm2 (c t : N) (d : bool * bool) : N := N.lxor (dm1 c (fst d)) (dm1 t (snd d)).
Lemma tb_dm1 t d m : N.testbit (dm1 t d) m = (t =? m) && d.
Proof. unfold dm1. destruct d; [now rewrite tb_pow2, andb_true_r|now rewrite N.bits_0, andb_false_r]. Qed.
Lemma tb_dm2 c t d m : N.testbit (dm2 c t d) m = xorb ((c =? m) && fst d) ((t =? m) && snd d).
Proof. unfold dm2. now rewrite tb_lxor, !tb_dm1. Qed.

Lemma fit_upd1 n t f w : t < n -> fitrow n w -> fitrow n (upd1 t f w).
Proof. intros Ht [A B]. unfold upd1. destruct (f _ _) as [[x' z'] s]. split; cbn [rx rz]; now apply setb_lt. Qed.
Lemma fit_upd2 n c t f w : c < n -> t < n -> fitrow n w -> fitrow n (upd2 c t f w).
Proof. intros Hc Ht [A B]. unfold upd2. destruct (f _ _ _ _) as [[[[xc zc] xt] zt] s]. split; cbn [rx rz]; repeat apply setb_lt; auto. Qed.
Lemma rr_upd1 t f w : rr (upd1 t f w) mod 4 = (rr w + 2 * b2n (snd (f (N.testbit (rx w) t) (N.testbit (rz w) t)))) mod 4.
Proof. unfold upd1. destruct (f _ _) as [[x' z'] []]; cbn [rr snd b2n]; mlia. Qed.
Lemma rr_upd2 c t f w : rr (upd2 c t f w) mod 4 = (rr w + 2 * b2n (snd (f (N.testbit (rx w) c) (N.testbit (rz w) c) (N.testbit (rx w) t) (N.testbit (rz w) t)))) mod 4.
Proof. unfold upd2. destruct (f _ _ _ _) as [[[[xc zc] xt] zt] []]; cbn [rr snd b2n]; mlia. Qed.
Lemma rr4_upd1 t f w : rr w < 4 -> rr (upd1 t f w) < 4.
Proof. intros H. unfold upd1. destruct (f _ _) as [[x' z'] []]; cbn [rr]; auto. apply N.mod_lt. lia. Qed.
Lemma rr4_upd2 c t f w : rr w < 4 -> rr (upd2 c t f w) < 4.
Proof. intros H. unfold upd2. destruct (f _ _ _ _) as [[[[xc zc] xt] zt] []]; cbn [rr]; auto. apply N.mod_lt. lia. Qed.

Lemma sym_upd1 n t f w v : t < n -> keeps1 f = true -> sym n (upd1 t f w) (upd1 t f v) = sym n w v.
Proof.
  intros Ht HK. unfold sym. rewrite (sx_upd1 (symj (upd1 t f w) (upd1 t f v)) (symj w v) (N.to_nat n) t); [|lia|].
  - match goal with |- xorb ?a ?b = _ => replace b with false; [apply xorb_false_r|] end. symmetry.
    unfold symj, upd1. unfold keeps1 in HK. rewrite forallb_forall in HK. specialize (HK (N.testbit (rx w) t) (in_bb _)). cbv beta in HK.
    rewrite forallb_forall in HK. specialize (HK (N.testbit (rz w) t) (in_bb _)). cbv beta in HK. rewrite forallb_forall in HK. specialize (HK (N.testbit (rx v) t) (in_bb _)). cbv beta in HK.
    rewrite forallb_forall in HK. specialize (HK (N.testbit (rz v) t) (in_bb _)). cbv beta in HK.
    destruct (f (N.testbit (rx w) t) _) as [[a b] s]. destruct (f (N.testbit (rx v) t) _) as [[a' b'] s']. cbn [rx rz]. rewrite !tb_setb, !N.eqb_refl. apply eqb_prop in HK. rewrite HK. apply xorb_nilpotent.
  - intros j _ Hj. unfold symj, upd1. destruct (f _ _) as [[a b] s]. destruct (f _ _) as [[a' b'] s']. cbn [rx rz]. rewrite !tb_setb. replace (t =? j) with false by (symmetry; apply N.eqb_neq; auto). reflexivity.
Qed.
Lemma sym_upd2 n c t f w v : c < n -> t < n -> c <> t -> keeps2 f = true -> sym n (upd2 c t f w) (upd2 c t f v) = sym n w v.
Proof.
  intros Hc Ht Hne HK. unfold sym. rewrite (sx_upd2 (symj (upd2 c t f w) (upd2 c t f v)) (symj w v) (N.to_nat n) c t); [|lia|lia|auto|].
  - match goal with |- xorb ?a ?b = _ => replace b with false; [apply xorb_false_r|] end. symmetry.
    unfold symj, upd2. unfold keeps2 in HK.
    rewrite forallb_forall in HK. specialize (HK (N.testbit (rx w) c) (in_bb _)). cbv beta in HK.
    rewrite forallb_forall in HK. specialize (HK (N.testbit (rz w) c) (in_bb _)). cbv beta in HK.
    rewrite forallb_forall in HK. specialize (HK (N.testbit (rx w) t) (in_bb _)). cbv beta in HK.
    rewrite forallb_forall in HK. specialize (HK (N.testbit (rz w) t) (in_bb _)). cbv beta in HK.
    rewrite forallb_forall in HK. specialize (HK (N.testbit (rx v) c) (in_bb _)). cbv beta in HK.
    rewrite forallb_forall in HK. specialize (HK (N.testbit (rz v) c) (in_bb _)). cbv beta in HK.
    rewrite forallb_forall in HK. specialize (HK (N.testbit (rx v) t) (in_bb _)). cbv beta in HK.
    rewrite forallb_forall in HK. specialize (HK (N.testbit (rz v) t) (in_bb _)). cbv beta in HK.
    destruct (f (N.testbit (rx w) c) _ _ _) as [[[[a b] a2] b2] s]. destruct (f (N.testbit (rx v) c) _ _ _) as [[[[a' b'] a2'] b2'] s']. cbn [rx rz]. rewrite !tb_setb, !N.eqb_refl.
    replace (t =? c) with false by (symmetry; apply N.eqb_neq; auto). apply eqb_prop in HK.
    revert HK. generalize (sym1 a b a' b'), (sym1 a2 b2 a2' b2'). intros u1 u2.
    generalize (sym1 (N.testbit (rx w) c) (N.testbit (rz w) c) (N.testbit (rx v) c) (N.testbit (rz v) c)), (sym1 (N.testbit (rx w) t) (N.testbit (rz w) t) (N.testbit (rx v) t) (N.testbit (rz v) t)).
    intros [] []; destruct u1, u2; cbn; intros H; congruence || reflexivity.
  - intros j _ Hjc Hjt. unfold symj, upd2. destruct (f _ _ _ _) as [[[[a b] a2] b2] s]. destruct (f _ _ _ _) as [[[[a' b'] a2'] b2'] s']. cbn [rx rz]. rewrite !tb_setb.
    replace (t =? j) with false by (symmetry; apply N.eqb_neq; auto). replace (c =? j) with false by (symmetry; apply N.eqb_neq; auto). reflexivity.
Qed.

Section K.
  Context {K : StarRing}.
  Add Ring KrAF : (sr_ring K).
  Variable im h : K.
  Hypothesis Him : (im * im = - (1))%amp.
  Local Notation vec := (N -> K).
  Local Notation ph := (ph im).
  Local Notation rop := (rop im).

  (** Product of two operators in either order. *)
  Lemma rop_comm n w v psi y : fitrow n w -> fitrow n v -> rop n w (rop n v psi) y = (ph (2 * b2n (sym n w v)) * rop n v (rop n w psi) y)%amp.
  Proof.
    intros Hw Hv. rewrite (rop_closed im Him n w), (rop_closed im Him n v) by auto. rewrite (rop_closed im Him n v), (rop_closed im Him n w) by auto.
    rewrite !N.lxor_assoc, (N.lxor_comm (rx v) (rx w)). rewrite !(Rmul_assoc (sr_ring K)), <- !ph_add. f_equal. apply ph_eq; auto.
    assert (A := phi_comm n w v y). revert A. generalize (phi n (rx w) (rz w) y), (phi n (rx v) (rz v) (N.lxor y (rx w))), (phi n (rx v) (rz v) y), (phi n (rx w) (rz w) (N.lxor y (rx v))).
    destruct (sym n w v); cbn [b2n]; intros; mlia.
  Qed.

  (** Gates that map basis states to multiples of basis states. *)
  Definition mono1 (t : N) (th : bool -> N) (de : bool -> bool) (U : vec -> vec) : Prop :=
    forall psi y, U psi y = (ph (th (N.testbit y t)) * psi (N.lxor y (dm1 t (de (N.testbit y t)))))%amp.
  Definition mono2 (c t : N) (th : bool -> bool -> N) (de : bool -> bool -> bool * bool) (U : vec -> vec) : Prop :=
    forall psi y, U psi y = (ph (th (N.testbit y c) (N.testbit y t)) * psi (N.lxor y (dm2 c t (de (N.testbit y c) (N.testbit y t)))))%amp.
  Lemma conj1 n t th de U f w psi y : t < n -> fitrow n w -> mono1 t th de U -> local1 th de f = true ->
    U (rop n w psi) y = rop n (upd1 t f w) (U psi) y.
  Proof.
    intros Ht Hw HU HL. assert (Hf := fit_upd1 n t f w Ht Hw). rewrite HU, rop_closed, (rop_closed im Him n (upd1 t f w)) by auto. rewrite HU. rewrite !(Rmul_assoc (sr_ring K)), <- !ph_add.
    assert (RR := rr_upd1 t f w). unfold local1 in HL.
    rewrite forallb_forall in HL. specialize (HL (N.testbit (rx w) t) (in_bb _)). cbv beta in HL.
    rewrite forallb_forall in HL. specialize (HL (N.testbit (rz w) t) (in_bb _)). cbv beta in HL.
    rewrite forallb_forall in HL. specialize (HL (N.testbit y t) (in_bb _)). cbv beta in HL.
    assert (TX : forall m, N.testbit (rx (upd1 t f w)) m = if t =? m then fst (fst (f (N.testbit (rx w) t) (N.testbit (rz w) t))) else N.testbit (rx w) m) by (intros m; unfold upd1; destruct (f _ _) as [[? ?] ?]; cbn [rx fst]; apply tb_setb).
    assert (TZ : forall m, N.testbit (rz (upd1 t f w)) m = if t =? m then snd (fst (f (N.testbit (rx w) t) (N.testbit (rz w) t))) else N.testbit (rz w) m) by (intros m; unfold upd1; destruct (f _ _) as [[? ?] ?]; cbn [rz fst snd]; apply tb_setb).
    destruct (f (N.testbit (rx w) t) (N.testbit (rz w) t)) as [[x' z'] s]. cbn [fst snd] in *. apply andb_true_iff in HL. destruct HL as [HL1 HL2]. apply eqb_prop in HL1. apply N.eqb_eq in HL2.
    assert (Xt : N.testbit (rx (upd1 t f w)) t = x') by (rewrite TX, N.eqb_refl; auto).
    rewrite tb_lxor, Xt. f_equal.
    - apply ph_eq; auto. unfold phi.
      assert (S := sumf_upd1 (phij (rx w) (rz w) (N.lxor y (dm1 t (de (N.testbit y t))))) (phij (rx (upd1 t f w)) (rz (upd1 t f w)) y) (N.to_nat n) t ltac:(lia)).
      match type of S with ?A -> _ => assert (SA : A) end.
      { intros j _ Hj. unfold phij. rewrite TX, TZ, tb_lxor, tb_dm1. replace (t =? j) with false by (symmetry; apply N.eqb_neq; auto). cbn. now rewrite xorb_false_r. }
      specialize (S SA). clear SA. unfold phij at 2 4 in S. rewrite TX, TZ, N.eqb_refl, tb_lxor, tb_dm1, N.eqb_refl in S. cbn [andb] in S.
      revert S RR HL2. generalize (sumf (phij (rx w) (rz w) (N.lxor y (dm1 t (de (N.testbit y t))))) (N.to_nat n)), (sumf (phij (rx (upd1 t f w)) (rz (upd1 t f w)) y) (N.to_nat n)), (rr (upd1 t f w)), (b2n s).
      generalize (phi1 (N.testbit (rx w) t) (N.testbit (rz w) t) (xorb (N.testbit y t) (de (N.testbit y t)))), (phi1 x' z' (N.testbit y t)), (th (N.testbit y t)), (th (xorb (N.testbit y t) x')). intros; mlia.
    - f_equal. apply N.bits_inj. intros m. rewrite !tb_lxor, !tb_dm1, TX. destruct (t =? m) eqn:E; cbn [andb].
      + apply N.eqb_eq in E. subst m. rewrite !xorb_assoc. f_equal. exact HL1.
      + now rewrite !xorb_false_r.
  Qed.
  Lemma conj2 n c t th de U f w psi y : c < n -> t < n -> c <> t -> fitrow n w -> mono2 c t th de U -> local2 th de f = true ->
    U (rop n w psi) y = rop n (upd2 c t f w) (U psi) y.
  Proof.
    intros Hc Ht Hne Hw HU HL. assert (Hf := fit_upd2 n c t f w Hc Ht Hw). rewrite HU, rop_closed, (rop_closed im Him n (upd2 c t f w)) by auto. rewrite HU. rewrite !(Rmul_assoc (sr_ring K)), <- !ph_add.
    assert (Hct : (c =? t) = false) by now apply N.eqb_neq. assert (Htc : (t =? c) = false) by (apply N.eqb_neq; auto).
    assert (RR := rr_upd2 c t f w). unfold local2 in HL.
    rewrite forallb_forall in HL. specialize (HL (N.testbit (rx w) c) (in_bb _)). cbv beta in HL.
    rewrite forallb_forall in HL. specialize (HL (N.testbit (rz w) c) (in_bb _)). cbv beta in HL.
    rewrite forallb_forall in HL. specialize (HL (N.testbit (rx w) t) (in_bb _)). cbv beta in HL.
    rewrite forallb_forall in HL. specialize (HL (N.testbit (rz w) t) (in_bb _)). cbv beta in HL.
    rewrite forallb_forall in HL. specialize (HL (N.testbit y c) (in_bb _)). cbv beta in HL.
    rewrite forallb_forall in HL. specialize (HL (N.testbit y t) (in_bb _)). cbv beta in HL.
    set (F := f (N.testbit (rx w) c) (N.testbit (rz w) c) (N.testbit (rx w) t) (N.testbit (rz w) t)) in *.
    assert (TX : forall m, N.testbit (rx (upd2 c t f w)) m = if t =? m then snd (fst (fst F)) else if c =? m then fst (fst (fst (fst F))) else N.testbit (rx w) m).
    { intros m; unfold upd2. fold F. destruct F as [[[[? ?] ?] ?] ?]; cbn [rx fst snd]. now rewrite !tb_setb. }
    assert (TZ : forall m, N.testbit (rz (upd2 c t f w)) m = if t =? m then snd (fst F) else if c =? m then snd (fst (fst (fst F))) else N.testbit (rz w) m).
    { intros m; unfold upd2. fold F. destruct F as [[[[? ?] ?] ?] ?]; cbn [rz fst snd]. now rewrite !tb_setb. }
    clearbody F. destruct F as [[[[xc' zc'] xt'] zt'] s]. cbn [fst snd] in *.
    destruct (de (N.testbit y c) (N.testbit y t)) as [dc dt].
    assert (Xt : N.testbit (rx (upd2 c t f w)) t = xt') by (rewrite TX, N.eqb_refl; auto).
    assert (Xc : N.testbit (rx (upd2 c t f w)) c = xc') by (rewrite TX, N.eqb_refl, Htc; auto).
    rewrite !tb_lxor, Xt, Xc.
    destruct (de (xorb (N.testbit y c) xc') (xorb (N.testbit y t) xt')) as [dc' dt'].
    rewrite !andb_true_iff in HL. destruct HL as [[HL1 HL3] HL2]. apply eqb_prop in HL1, HL3. apply N.eqb_eq in HL2.
    f_equal.
    - apply ph_eq; auto. unfold phi.
      assert (S := sumf_upd2 (phij (rx w) (rz w) (N.lxor y (dm2 c t (dc, dt)))) (phij (rx (upd2 c t f w)) (rz (upd2 c t f w)) y) (N.to_nat n) c t ltac:(lia) ltac:(lia) Hne).
      match type of S with ?A -> _ => assert (SA : A) end.
      { intros j _ Hjc Hjt. unfold phij. rewrite TX, TZ, tb_lxor, tb_dm2. replace (t =? j) with false by (symmetry; apply N.eqb_neq; auto). replace (c =? j) with false by (symmetry; apply N.eqb_neq; auto). cbn. now rewrite xorb_false_r. }
      specialize (S SA). clear SA. unfold phij at 2 3 5 6 in S. rewrite !TX, !TZ, !N.eqb_refl, Htc, !tb_lxor, !tb_dm2, !N.eqb_refl, Hct, Htc in S. cbn [andb fst snd] in S. rewrite xorb_false_r, xorb_false_l in S.
      revert S RR HL2. generalize (sumf (phij (rx w) (rz w) (N.lxor y (dm2 c t (dc, dt)))) (N.to_nat n)), (sumf (phij (rx (upd2 c t f w)) (rz (upd2 c t f w)) y) (N.to_nat n)), (rr (upd2 c t f w)), (b2n s).
      generalize (phi1 (N.testbit (rx w) t) (N.testbit (rz w) t) (xorb (N.testbit y t) dt)), (phi1 (N.testbit (rx w) c) (N.testbit (rz w) c) (xorb (N.testbit y c) dc)), (phi1 xt' zt' (N.testbit y t)), (phi1 xc' zc' (N.testbit y c)),
        (th (N.testbit y c) (N.testbit y t)), (th (xorb (N.testbit y c) xc') (xorb (N.testbit y t) xt')).
      intros; mlia.
    - f_equal. apply N.bits_inj. intros m. rewrite !tb_lxor, !tb_dm2, TX. cbn [fst snd]. destruct (t =? m) eqn:E; cbn [andb].
      + apply N.eqb_eq in E. subst m. rewrite Hct. cbn [andb]. rewrite !xorb_false_l, !xorb_assoc. f_equal. exact HL3.
      + destruct (c =? m) eqn:E2; cbn [andb].
        * apply N.eqb_eq in E2. subst m. rewrite !xorb_false_r, !xorb_assoc. f_equal. exact HL1.
        * now rewrite !xorb_false_r.
  Qed.

  (** The Hadamard gate. *)
  Lemma gateH_closed t (psi : vec) y : gate1 always t (matH h) psi y = (h * (ph (2 * b2n (N.testbit y t)) * psi y + psi (N.lxor y (2 ^ t))))%amp.
  Proof.
    unfold gate1, always, matH. destruct (N.testbit y t) eqn:E; cbn [m00 m01 m10 m11 b2n].
    - rewrite (clear_flip _ _ E). change (2 * 1) with 2. rewrite ph_2 by auto. ring.
    - rewrite (set_flip _ _ E). change (2 * 0) with 0. rewrite ph_0. ring.
  Qed.
  Lemma conjH n t w psi y : t < n -> fitrow n w -> gate1 always t (matH h) (rop n w psi) y = rop n (upd1 t h_bits w) (gate1 always t (matH h) psi) y.
  Proof.
    intros Ht Hw. assert (Hf := fit_upd1 n t h_bits w Ht Hw). rewrite gateH_closed, (rop_closed im Him n (upd1 t h_bits w)) by auto. rewrite gateH_closed. rewrite !(rop_closed im Him n w) by auto.
    assert (RR := rr_upd1 t h_bits w). cbn [h_bits snd] in RR.
    assert (TX : forall m, N.testbit (rx (upd1 t h_bits w)) m = if t =? m then N.testbit (rz w) t else N.testbit (rx w) m) by (intros m; unfold upd1, h_bits; cbn [rx fst]; apply tb_setb).
    assert (TZ : forall m, N.testbit (rz (upd1 t h_bits w)) m = if t =? m then N.testbit (rx w) t else N.testbit (rz w) m) by (intros m; unfold upd1, h_bits; cbn [rz fst snd]; apply tb_setb).
    assert (Xt : N.testbit (rx (upd1 t h_bits w)) t = N.testbit (rz w) t) by (rewrite TX, N.eqb_refl; auto).
    rewrite tb_lxor, Xt.
    assert (S1 := sumf_upd1 (phij (rx w) (rz w) y) (phij (rx (upd1 t h_bits w)) (rz (upd1 t h_bits w)) y) (N.to_nat n) t ltac:(lia)).
    match type of S1 with ?A -> _ => assert (SA : A) end.
    { intros j _ Hj. unfold phij. rewrite TX, TZ. replace (t =? j) with false by (symmetry; apply N.eqb_neq; auto). reflexivity. }
    specialize (S1 SA). clear SA.
    assert (S2 := sumf_upd1 (phij (rx w) (rz w) (N.lxor y (2 ^ t))) (phij (rx (upd1 t h_bits w)) (rz (upd1 t h_bits w)) y) (N.to_nat n) t ltac:(lia)).
    match type of S2 with ?A -> _ => assert (SA : A) end.
    { intros j _ Hj. unfold phij. rewrite TX, TZ, tb_lxor, tb_pow2. replace (t =? j) with false by (symmetry; apply N.eqb_neq; auto). now rewrite xorb_false_r. }
    specialize (S2 SA). clear SA.
    unfold phij at 2 4 in S1. unfold phij at 2 4 in S2. rewrite TX, TZ, N.eqb_refl in S1, S2. rewrite tb_lxor, tb_pow2, N.eqb_refl in S2.
    fold (phi n (rx w) (rz w) y) in S1. fold (phi n (rx w) (rz w) (N.lxor y (2 ^ t))) in S2. fold (phi n (rx (upd1 t h_bits w)) (rz (upd1 t h_bits w)) y) in S1, S2.
    assert (EX : if eqb (N.testbit (rx w) t) (N.testbit (rz w) t) then rx (upd1 t h_bits w) = rx w else rx (upd1 t h_bits w) = N.lxor (rx w) (2 ^ t)).
    { destruct (eqb (N.testbit (rx w) t) (N.testbit (rz w) t)) eqn:E.
      - apply eqb_prop in E. apply N.bits_inj. intros m. rewrite TX. destruct (t =? m) eqn:Em; auto. apply N.eqb_eq in Em. subst m. now rewrite E.
      - apply eqb_false_iff in E. apply N.bits_inj. intros m. rewrite TX, tb_lxor, tb_pow2. destruct (t =? m) eqn:Em; [|now rewrite xorb_false_r]. apply N.eqb_eq in Em. subst m. destruct (N.testbit (rx w) t), (N.testbit (rz w) t); try reflexivity; congruence. }
    revert S1 S2 RR. generalize (phi n (rx w) (rz w) y), (phi n (rx w) (rz w) (N.lxor y (2 ^ t))), (phi n (rx (upd1 t h_bits w)) (rz (upd1 t h_bits w)) y). intros a b c S1 S2 RR.
    destruct (N.testbit (rx w) t), (N.testbit (rz w) t); cbn [eqb xorb] in EX; rewrite EX; clear EX TX TZ Xt;
      rewrite ?N.lxor_assoc, ?(N.lxor_comm (2 ^ t) (rx w)), ?N.lxor_nilpotent, ?N.lxor_0_r; rewrite <- ?N.lxor_assoc;
      rewrite ?(N.lxor_assoc y (2 ^ t)), ?(N.lxor_comm (2 ^ t) (rx w)), <- ?N.lxor_assoc.
    1, 4: match goal with |- (h * (?p * (?q * ?u) + ?s * ?v))%amp = (?e * (h * (?p' * ?u' + ?v')))%amp =>
        replace (p * (q * u))%amp with (p * q * u)%amp by ring; replace (e * (h * (p' * u' + v')))%amp with (h * (e * p' * u' + e * v'))%amp by ring end;
      rewrite <- !ph_add; f_equal; f_equal; f_equal; apply ph_eq; auto.
    5, 6: match goal with |- (h * (?p * (?q * ?u) + ?s * ?v))%amp = (?e * (h * (?p' * ?u' + ?v')))%amp =>
        replace (p * (q * u))%amp with (p * q * u)%amp by ring; replace (e * (h * (p' * u' + v')))%amp with (h * (e * v' + e * p' * u'))%amp by ring end;
      rewrite <- !ph_add; f_equal; f_equal; f_equal; apply ph_eq; auto.
    all: revert S1 S2 RR; generalize (rr (upd1 t h_bits w)), (rr w); clear; intros r' r S1 S2 RR.
    all: destruct (N.testbit y t); cbv [phi1 b2n andb xorb] in S1, S2, RR |- *.
    all: first [clear S2; mlia | clear S1; mlia].
  Qed.
End K.
