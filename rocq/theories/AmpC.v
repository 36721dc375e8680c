(** The complex numbers over Coq's real numbers are a ring of amplitudes, with 1/sqrt 2, i and all roots of unity of order
    2^k: the hypotheses on amplitudes used by the circuit theorems are met in the intended ring.  Only examples use this file
    (it depends on the axioms of Coq's Reals). *)
From Coq Require Import Reals Lra NArith.
From Verif Require Import Amp.
Local Open Scope R_scope.

Definition c_eqb (x y : R * R) : bool :=
  if Req_EM_T (fst x) (fst y) then if Req_EM_T (snd x) (snd y) then true else false else false.
Definition c_add (x y : R * R) : R * R := (fst x + fst y, snd x + snd y).
Definition c_mul (x y : R * R) : R * R := (fst x * fst y - snd x * snd y, fst x * snd y + snd x * fst y).
Definition c_sub (x y : R * R) : R * R := (fst x - fst y, snd x - snd y).
Definition c_opp (x : R * R) : R * R := (- fst x, - snd x).
Definition c_conj (x : R * R) : R * R := (fst x, - snd x).

Lemma c_ring : ring_theory (0, 0) (1, 0) c_add c_mul c_sub c_opp eq.
Proof.
  split; intros; repeat match goal with x : (R * R)%type |- _ => destruct x end; unfold c_add, c_mul, c_sub, c_opp; cbn [fst snd]; f_equal; ring.
Qed.
Lemma c_eqb_ok x y : c_eqb x y = true <-> x = y.
Proof.
  destruct x as [a b], y as [a' b']. unfold c_eqb; cbn [fst snd]. destruct (Req_EM_T a a'), (Req_EM_T b b'); split; try discriminate; try congruence.
Qed.
Lemma c_conj_add x y : c_conj (c_add x y) = c_add (c_conj x) (c_conj y).
Proof. destruct x, y. unfold c_conj, c_add; cbn [fst snd]. f_equal. ring. Qed.
Lemma c_conj_mul x y : c_conj (c_mul x y) = c_mul (c_conj x) (c_conj y).
Proof. destruct x, y. unfold c_conj, c_mul; cbn [fst snd]. f_equal; ring. Qed.
Lemma c_conj_invol x : c_conj (c_conj x) = x.
Proof. destruct x. unfold c_conj; cbn [fst snd]. f_equal. ring. Qed.

Definition CC : StarRing := mkStar (R * R) (0, 0) (1, 0) c_add c_mul c_sub c_opp c_conj c_eqb c_ring c_conj_add c_conj_mul c_conj_invol c_eqb_ok.

(** 1/sqrt 2, i, and the root of unity e^(2 pi i / 2^k). *)
Definition cc_h : CC := (/ sqrt 2, 0).
Definition cc_i : CC := (0, 1).
Definition cc_root (k : N) : CC := (cos (2 * PI / 2 ^ N.to_nat k), sin (2 * PI / 2 ^ N.to_nat k)).
Definition cc_iroot (k : N) : CC := sr_conj (cc_root k).

Lemma cc_h_ok : ((1 + 1) * (cc_h * cc_h) = 1)%amp.
Proof.
  cbn. unfold c_mul, c_add, cc_h; cbn [fst snd]. assert (H : / sqrt 2 * / sqrt 2 = / 2). { rewrite <- Rinv_mult. rewrite sqrt_sqrt by lra. reflexivity. }
  f_equal; [|ring]. replace ((1 + 1) * (/ sqrt 2 * / sqrt 2 - 0 * 0) - (0 + 0) * (/ sqrt 2 * 0 + 0 * / sqrt 2)) with (2 * (/ sqrt 2 * / sqrt 2)) by ring.
  rewrite H. lra.
Qed.
Lemma cc_i_ok : (cc_i * cc_i = - (1))%amp.
Proof. cbn. unfold c_mul, c_opp, cc_i; cbn [fst snd]. f_equal; ring. Qed.
Lemma cc_root_inv k : (cc_root k * cc_iroot k = 1)%amp.
Proof.
  cbn. unfold c_mul, c_conj, cc_root; cbn [fst snd]. set (a := 2 * PI / 2 ^ N.to_nat k). f_equal; [|ring].
  pose proof (sin2_cos2 a) as H. unfold Rsqr in H. rewrite <- H. ring.
Qed.
Lemma cc_root_1 : cc_root 1 = (- (1))%amp.
Proof.
  cbn. unfold c_opp, cc_root; cbn [fst snd]. change (N.to_nat 1) with 1%nat. rewrite pow_1. replace (2 * PI / 2) with PI by field.
  rewrite cos_PI, sin_PI. f_equal. ring.
Qed.
Lemma cc_root_sq k : (cc_root (k + 1) * cc_root (k + 1) = cc_root k)%amp.
Proof.
  cbn. unfold c_mul, cc_root; cbn [fst snd]. replace (N.to_nat (k + 1)) with (S (N.to_nat k)) by Lia.lia.
  assert (E : 2 * PI / 2 ^ N.to_nat k = 2 * (2 * PI / 2 ^ S (N.to_nat k))). { cbn [pow]. field. apply pow_nonzero. lra. }
  rewrite E. set (a := 2 * PI / 2 ^ S (N.to_nat k)). rewrite cos_2a, sin_2a. f_equal. ring.
Qed.
