(** Pauli operators in closed form; products and row multiplication. *)
From Coq Require Import NArith ZArith List Bool Lia Ring.
From Verif Require Import Amp PAmp Bits MFunctions MParFor MQCircuit MEngine MStab SpecState SpecStab.
Import ListNotations.
Local Open Scope N_scope.
(** Linear arithmetic with division by constants. *)
Ltac mlia := zify; Z.to_euclidean_division_equations; lia.

(** ** Bits *)
Lemma tb_lxor a b m : N.testbit (N.lxor a b) m = xorb (N.testbit a m) (N.testbit b m).
Proof. apply N.lxor_spec. Qed.
Lemma tb_setb v q b m : N.testbit (setb v q b) m = if q =? m then b else N.testbit v m.
Proof.
  unfold setb. destruct b.
  - rewrite N.setbit_eqb. destruct (q =? m); reflexivity.
  - rewrite N.clearbit_eqb. destruct (q =? m); cbn; [now rewrite andb_false_r|now rewrite andb_true_r].
Qed.
Lemma setb_lt v q b n : v < 2 ^ n -> q < n -> setb v q b < 2 ^ n.
Proof.
  intros Hv Hq. apply lt_pow2_bits. intros m Hm. rewrite tb_setb. destruct (q =? m) eqn:E; [apply N.eqb_eq in E; lia|]. now apply (tb_high v n).
Qed.
Lemma clear_flip y t : N.testbit y t = true -> N.clearbit y t = N.lxor y (2 ^ t).
Proof.
  intros H. apply N.bits_inj. intros m. rewrite N.clearbit_eqb, tb_lxor, tb_pow2. destruct (t =? m) eqn:E.
  - apply N.eqb_eq in E. subst m. rewrite H. reflexivity.
  - cbn. now rewrite andb_true_r, xorb_false_r.
Qed.
Lemma set_flip y t : N.testbit y t = false -> N.setbit y t = N.lxor y (2 ^ t).
Proof.
  intros H. apply N.bits_inj. intros m. rewrite N.setbit_eqb, tb_lxor, tb_pow2. destruct (t =? m) eqn:E.
  - apply N.eqb_eq in E. subst m. rewrite H. reflexivity.
  - cbn. now rewrite xorb_false_r.
Qed.

(** ** Sums over qubits *)
Fixpoint sumf (f : N -> N) (k : nat) : N := match k with O => 0 | S j => sumf f j + f (N.of_nat j) end.
Lemma sumf_ext f g k : (forall j, j < N.of_nat k -> f j = g j) -> sumf f k = sumf g k.
Proof. induction k as [|k IH]; intros H; cbn [sumf]; [reflexivity|]. rewrite IH, H; auto; [lia|]. intros j Hj. apply H. lia. Qed.
Lemma sumf_add f g k : sumf (fun j => f j + g j) k = sumf f k + sumf g k.
Proof. induction k as [|k IH]; cbn [sumf]; [reflexivity|]. rewrite IH. lia. Qed.
Lemma sumf_mod4 f g k : (forall j, j < N.of_nat k -> f j mod 4 = g j mod 4) -> sumf f k mod 4 = sumf g k mod 4.
Proof.
  induction k as [|k IH]; intros H; cbn [sumf]; [reflexivity|].
  assert (A := IH (fun j Hj => H j ltac:(lia))). assert (B := H (N.of_nat k) ltac:(lia)). clear H IH.
  rewrite N.add_mod, A, B, <- N.add_mod by lia. reflexivity.
Qed.
(** Two functions that differ at one or two places only. *)
Lemma sumf_upd1 f g k t : t < N.of_nat k -> (forall j, j < N.of_nat k -> j <> t -> f j = g j) -> sumf f k + g t = sumf g k + f t.
Proof.
  induction k as [|k IH]; intros Ht H; [lia|]. cbn [sumf]. destruct (N.eq_dec t (N.of_nat k)) as [->|Hne].
  - assert (E : sumf f k = sumf g k) by (apply sumf_ext; intros j Hj; apply H; lia). lia.
  - assert (E := IH ltac:(lia) (fun j Hj Hn => H j ltac:(lia) Hn)). assert (E2 := H (N.of_nat k) ltac:(lia) ltac:(lia)). lia.
Qed.
Lemma sumf_upd2 f g k c t : c < N.of_nat k -> t < N.of_nat k -> c <> t -> (forall j, j < N.of_nat k -> j <> c -> j <> t -> f j = g j) ->
  sumf f k + g c + g t = sumf g k + f c + f t.
Proof.
  intros Hc Ht Hne H. set (m := fun j => if j =? c then g j else f j).
  assert (A : sumf f k + m c = sumf m k + f c).
  { apply (sumf_upd1 f m k c Hc). intros j _ Hj. unfold m. apply N.eqb_neq in Hj. now rewrite Hj. }
  assert (B : sumf m k + g t = sumf g k + m t).
  { apply (sumf_upd1 m g k t Ht). intros j Hj Hjt. unfold m. destruct (j =? c) eqn:E; auto. apply N.eqb_neq in E. auto. }
  assert (Mc : m c = g c) by (unfold m; now rewrite N.eqb_refl).
  assert (Mt : m t = f t) by (unfold m; replace (t =? c) with false by (symmetry; apply N.eqb_neq; auto); reflexivity).
  clearbody m. lia.
Qed.

(** ** The phase of a Pauli operator *)
Definition phi1 (x z y : bool) : N := b2n (x && z) + 2 * b2n (z && xorb y x).
Definition phij (x z y j : N) : N := phi1 (N.testbit x j) (N.testbit z j) (N.testbit y j).
Definition phi (n x z y : N) : N := sumf (phij x z y) (N.to_nat n).

Section K.
  Context {K : StarRing}.
  Add Ring KrAD : (sr_ring K).
  Variable im : K.
  Hypothesis Him : (im * im = - (1))%amp.
  Local Notation vec := (N -> K).

  Definition ph (e : N) : K := apow im (N.to_nat e).
  Lemma apow_add (x : K) a b : apow x (a + b) = (apow x a * apow x b)%amp.
  Proof. induction a as [|a IH]; cbn [apow Nat.add]; [ring|]. rewrite IH. ring. Qed.
  Lemma ph_add a b : ph (a + b) = (ph a * ph b)%amp.
  Proof. unfold ph. rewrite N2Nat.inj_add. apply apow_add. Qed.
  Lemma ph_0 : ph 0 = 1%amp. Proof. reflexivity. Qed.
  Lemma ph_1 : ph 1 = im. Proof. unfold ph. change (N.to_nat 1) with 1%nat. cbn [apow]. ring. Qed.
  Lemma ph_2 : ph 2 = (- (1))%amp.
  Proof. replace 2 with (1 + 1) by reflexivity. rewrite ph_add, ph_1. exact Him. Qed.
  Lemma ph_3 : ph 3 = (- im)%amp.
  Proof. replace 3 with (2 + 1) by reflexivity. rewrite ph_add, ph_1, ph_2. ring. Qed.
  Lemma ph_4 k : ph (4 * k) = 1%amp.
  Proof.
    induction k as [|k IH] using N.peano_ind; [reflexivity|]. replace (4 * N.succ k) with (2 + 2 + 4 * k) by lia. rewrite !ph_add, IH, ph_2. ring.
  Qed.
  Lemma ph_mod a : ph (a mod 4) = ph a.
  Proof. rewrite (N.div_mod a 4) at 2 by lia. rewrite ph_add, ph_4. ring. Qed.
  Lemma ph_eq a b : a mod 4 = b mod 4 -> ph a = ph b.
  Proof. intros H. rewrite <- (ph_mod a), H. apply ph_mod. Qed.

  (** One Pauli matrix in closed form. *)
  Lemma gate1_pauli t x z (psi : vec) y :
    gate1 always t (pauli1 im x z) psi y = (ph (phi1 x z (N.testbit y t)) * psi (N.lxor y (if x then 2 ^ t else 0)))%amp.
  Proof.
    unfold gate1, always, phi1, pauli1, matX, matY, matZ, midn. destruct (N.testbit y t) eqn:E.
    - rewrite (clear_flip _ _ E). destruct x, z; cbn [andb xorb b2n m00 m01 m10 m11]; rewrite ?N.lxor_0_r.
      + change (1 + 2 * 0) with 1. rewrite ph_1. ring.
      + change (0 + 2 * 0) with 0. rewrite ph_0. ring.
      + change (0 + 2 * 1) with 2. rewrite ph_2. ring.
      + change (0 + 2 * 0) with 0. rewrite ph_0. ring.
    - rewrite (set_flip _ _ E). destruct x, z; cbn [andb xorb b2n m00 m01 m10 m11]; rewrite ?N.lxor_0_r.
      + change (1 + 2 * 1) with 3. rewrite ph_3. ring.
      + change (0 + 2 * 0) with 0. rewrite ph_0. ring.
      + change (0 + 2 * 0) with 0. rewrite ph_0. ring.
      + change (0 + 2 * 0) with 0. rewrite ph_0. ring.
  Qed.
  Lemma lxor_mod_S y x k : N.lxor (N.lxor y (if N.testbit x k then 2 ^ k else 0)) (x mod 2 ^ k) = N.lxor y (x mod 2 ^ (k + 1)).
  Proof.
    apply N.bits_inj. intros m. rewrite !tb_lxor, !tb_mod2.
    replace (N.testbit (if N.testbit x k then 2 ^ k else 0) m) with ((k =? m) && N.testbit x m).
    2: { destruct (k =? m) eqn:E; [apply N.eqb_eq in E; subst m|]; destruct (N.testbit x k) eqn:Ex; rewrite ?tb_pow2, ?N.eqb_refl, ?E, ?Ex, ?N.bits_0; reflexivity. }
    destruct (k =? m) eqn:E.
    - apply N.eqb_eq in E. subst m. rewrite N.ltb_irrefl. replace (k <? k + 1) with true by (symmetry; apply N.ltb_lt; lia). cbn. now rewrite xorb_false_r.
    - apply N.eqb_neq in E. replace (m <? k + 1) with (m <? k). 2: { destruct (m <? k) eqn:L; symmetry; [apply N.ltb_lt in L; apply N.ltb_lt; lia|apply N.ltb_ge in L; apply N.ltb_ge; lia]. } cbn. now rewrite xorb_false_r.
  Qed.
  Lemma phij_flip_low x z y v k j : j < k -> phij x z (N.lxor y (if N.testbit v k then 2 ^ k else 0)) j = phij x z y j.
  Proof.
    intros H. unfold phij. rewrite tb_lxor. replace (N.testbit (if N.testbit v k then 2 ^ k else 0) j) with false; [now rewrite xorb_false_r|].
    destruct (N.testbit v k); [|now rewrite N.bits_0]. rewrite tb_pow2. symmetry. apply N.eqb_neq. lia.
  Qed.
  Lemma string_closed k x z (psi : vec) : forall y, pauli_string im k x z psi y = (ph (sumf (phij x z y) k) * psi (N.lxor y (x mod 2 ^ N.of_nat k)))%amp.
  Proof.
    induction k as [|k IH]; intros y; cbn [pauli_string sumf].
    - rewrite N.pow_0_r, N.mod_1_r, N.lxor_0_r, ph_0. ring.
    - rewrite gate1_pauli, IH, lxor_mod_S, ph_add.
      rewrite (sumf_ext (phij x z (N.lxor y (if N.testbit x (N.of_nat k) then 2 ^ N.of_nat k else 0))) (phij x z y)) by (intros j Hj; now apply phij_flip_low).
      rewrite Nat2N.inj_succ, <- N.add_1_r. change (phij x z y (N.of_nat k)) with (phi1 (N.testbit x (N.of_nat k)) (N.testbit z (N.of_nat k)) (N.testbit y (N.of_nat k))). ring.
  Qed.
  Lemma op_closed n x z r (psi : vec) y : x < 2 ^ n -> pauli_op im n x z r psi y = (ph (r + phi n x z y) * psi (N.lxor y x))%amp.
  Proof.
    intros H. unfold pauli_op. rewrite string_closed. rewrite N2Nat.id, N.mod_small by auto. rewrite ph_add. unfold phi, ph. ring.
  Qed.
  (** Operators are local: they respect equality of states, and are linear. *)
  Lemma op_ext n x z r (psi psi' : vec) : x < 2 ^ n -> eqv n psi psi' -> eqv n (pauli_op im n x z r psi) (pauli_op im n x z r psi').
  Proof. intros Hx H y Hy. rewrite !op_closed by auto. f_equal. apply H. now apply lxor_lt_pow2. Qed.
End K.

(** ** Row multiplication *)
Definition cliff1 (xi zi xk zk : bool) : N :=
  if xk then (if zk then b2n (negb xi && zi) + 3 * b2n (xi && negb zi) else b2n (xi && zi) + 3 * b2n (negb xi && zi))
  else if zk then b2n (xi && negb zi) + 3 * b2n (xi && zi) else 0.
Definition cliffj (wi wk : row) (j : N) : N := cliff1 (N.testbit (rx wi) j) (N.testbit (rz wi) j) (N.testbit (rx wk) j) (N.testbit (rz wk) j).
Lemma w8_mod4 a : w8 a mod 4 = a mod 4.
Proof. unfold w8. mlia. Qed.
Lemma cliff_step_mod a b c d e : clifford_step a b c d e mod 4 = (e + cliff1 a b c d) mod 4.
Proof. unfold clifford_step, cliff1, w8. destruct a, b, c, d; cbn [andb negb b2n]; mlia. Qed.
Lemma iota_S a k : iota a (S k) = iota a k ++ [a + N.of_nat k].
Proof.
  revert a. induction k as [|k IH]; intros a; [cbn; now rewrite N.add_0_r|]. change (iota a (S (S k))) with (a :: iota (a + 1) (S k)). rewrite IH.
  cbn [iota app]. do 2 f_equal. f_equal. lia.
Qed.
Lemma clifford_mod n wi wk : clifford n wi wk mod 4 = (sumf (cliffj wi wk) (N.to_nat n) + rr wi + rr wk) mod 4.
Proof.
  unfold clifford. rewrite N.mod_mod by lia.
  assert (A : forall k, fold_left (fun e j => clifford_step (N.testbit (rx wi) j) (N.testbit (rz wi) j) (N.testbit (rx wk) j) (N.testbit (rz wk) j) e) (iota 0 k) 0 mod 4 = sumf (cliffj wi wk) k mod 4).
  { induction k as [|k IH]; [reflexivity|]. rewrite iota_S, fold_left_app. cbn [fold_left sumf]. rewrite cliff_step_mod, N.add_mod, IH, <- N.add_mod by lia. rewrite N.add_0_l. reflexivity. }
  specialize (A (N.to_nat n)). revert A. generalize (fold_left (fun e j => clifford_step (N.testbit (rx wi) j) (N.testbit (rz wi) j) (N.testbit (rx wk) j) (N.testbit (rz wk) j) e) (iota 0 (N.to_nat n)) 0).
  generalize (sumf (cliffj wi wk) (N.to_nat n)). intros; mlia.
Qed.
Lemma clifford_lt n wi wk : clifford n wi wk < 4.
Proof. unfold clifford. apply N.mod_lt. lia. Qed.

Lemma phi1_mul xi zi xk zk y : (phi1 xk zk y + phi1 xi zi (xorb y xk)) mod 4 = (cliff1 xi zi xk zk + phi1 (xorb xi xk) (xorb zi zk) y) mod 4.
Proof. destruct xi, zi, xk, zk, y; reflexivity. Qed.
Lemma phi_mul n wi wk y : (phi n (rx wk) (rz wk) y + phi n (rx wi) (rz wi) (N.lxor y (rx wk))) mod 4 =
  (sumf (cliffj wi wk) (N.to_nat n) + phi n (N.lxor (rx wi) (rx wk)) (N.lxor (rz wi) (rz wk)) y) mod 4.
Proof.
  unfold phi. rewrite <- !sumf_add. apply sumf_mod4. intros j _. unfold phij, cliffj. rewrite !tb_lxor. apply phi1_mul.
Qed.

(** Rows whose masks fit. *)
Definition fitrow (n : N) (w : row) : Prop := rx w < 2 ^ n /\ rz w < 2 ^ n.
Lemma fitrow_mul n a b : fitrow n a -> fitrow n b -> fitrow n (row_mul n a b).
Proof. intros [A1 A2] [B1 B2]. split; cbn; now apply lxor_lt_pow2. Qed.

Section K2.
  Context {K : StarRing}.
  Add Ring KrAE : (sr_ring K).
  Variable im : K.
  Hypothesis Him : (im * im = - (1))%amp.
  Local Notation vec := (N -> K).
  (** The operator of a row. *)
  Definition rop (n : N) (w : row) (psi : vec) : vec := pauli_op im n (rx w) (rz w) (rr w) psi.
  Definition stab (n : N) (w : row) (psi : vec) : Prop := stabilised im n (rx w) (rz w) (rr w) psi.
  Lemma rop_closed n w psi y : fitrow n w -> rop n w psi y = (ph im (rr w + phi n (rx w) (rz w) y) * psi (N.lxor y (rx w)))%amp.
  Proof. intros [H _]. now apply op_closed. Qed.
  Theorem rowmul_op n wi wk psi y : fitrow n wi -> fitrow n wk -> rop n (row_mul n wi wk) psi y = rop n wk (rop n wi psi) y.
  Proof.
    intros Hi Hk. rewrite (rop_closed n wk) by auto. rewrite (rop_closed n wi) by auto. rewrite rop_closed by now apply fitrow_mul. cbn [row_mul rx rz rr].
    rewrite (Rmul_assoc (sr_ring K)), <- ph_add. rewrite N.lxor_assoc, (N.lxor_comm (rx wk) (rx wi)). f_equal. apply ph_eq; auto.
    assert (A := clifford_mod n wi wk). assert (B := phi_mul n wi wk y). revert A B. generalize (clifford n wi wk), (sumf (cliffj wi wk) (N.to_nat n)), (phi n (N.lxor (rx wi) (rx wk)) (N.lxor (rz wi) (rz wk)) y),
      (phi n (rx wk) (rz wk) y), (phi n (rx wi) (rz wi) (N.lxor y (rx wk))). intros; mlia.
  Qed.
  Lemma rop_ext n w psi psi' : fitrow n w -> eqv n psi psi' -> eqv n (rop n w psi) (rop n w psi').
  Proof. intros [H _]. now apply op_ext. Qed.
  Lemma rowmul_stab n wi wk psi : fitrow n wi -> fitrow n wk -> stab n wi psi -> stab n wk psi -> stab n (row_mul n wi wk) psi.
  Proof.
    intros Hi Hk Si Sk y Hy. change (rop n (row_mul n wi wk) psi y = psi y). rewrite rowmul_op by auto. change (eqv n (rop n wi psi) psi) in Si. rewrite (rop_ext n wk _ psi Hk Si y Hy). now apply Sk.
  Qed.
End K2.
