(** The computable amplitudes of AmpQ8.v have no zero divisors, and a sum of squared magnitudes is 0 only if each is. *)
From Coq Require Import ZArith QArith Qcanon Lia List Bool Lqa.
From Verif Require Import Amp PAmp SpecState MShard MUnit AmpQ8 PUnit3.
Import ListNotations.

Lemma z_sqrt2 : forall k m n : Z, (0 <= m < k -> 0 <= n -> m * m = 2 * (n * n) -> m = 0)%Z.
Proof.
  intros k m n Hm. assert (Hk : (0 <= k)%Z) by lia. revert m n Hm. pattern k. apply natlike_ind; [lia| |exact Hk].
  clear k Hk. intros k Hk IH m n Hm Hn E. destruct (Z.eq_dec m 0) as [|Hm0]; [assumption|exfalso].
  assert (Ev : Z.even m = true). { assert (X : Z.even (m * m) = true) by (rewrite E, Z.even_mul; reflexivity). rewrite Z.even_mul in X. destruct (Z.even m); [reflexivity|discriminate X]. }
  apply Z.even_spec in Ev. destruct Ev as [j ->]. assert (E2 : (n * n = 2 * (j * j))%Z) by nia.
  assert (Hlt : (0 <= n < k)%Z) by nia. assert (n = 0)%Z by (apply (IH n j); [exact Hlt|lia|exact E2]). nia.
Qed.
Local Open Scope Q_scope.
Lemma q_sqrt2 (a b : Q) : a * a == (2#1) * (b * b) -> a == 0 /\ b == 0.
Proof.
  destruct a as [p q], b as [r s]. unfold Qeq, Qmult. cbn [Qnum Qden]. intros E.
  assert (X : ((p * Zpos s) * (p * Zpos s) = 2 * ((r * Zpos q) * (r * Zpos q)))%Z) by (rewrite ?Pos2Z.inj_mul in E; rewrite ?Pos2Z.inj_mul; nia).
  assert (Y : (Z.abs (p * Zpos s) = 0)%Z).
  { apply (z_sqrt2 (Z.abs (p * Zpos s) + 1) _ (Z.abs (r * Zpos q))); [lia|lia|]. rewrite <- !Z.abs_mul, !Z.abs_eq; nia. }
  assert (Z1 : (p * Zpos s = 0)%Z) by lia. assert (Z2 : ((r * Zpos q) * (r * Zpos q) = 0)%Z) by (rewrite Z1 in X; lia).
  assert (P1 : p = 0%Z) by (apply Z.mul_eq_0 in Z1; destruct Z1; [assumption|lia]).
  assert (R1 : r = 0%Z) by (apply Z.mul_eq_0 in Z2; destruct Z2 as [Z2|Z2]; apply Z.mul_eq_0 in Z2; destruct Z2; (assumption || lia)).
  subst. split; reflexivity.
Qed.
Lemma qc_of (x y : Qc) : (this x == this y)%Q <-> x = y.
Proof. split; [apply Qc_is_canon|intros ->; reflexivity]. Qed.
Lemma qc_plus x y : (this (x + y)%Qc == this x + this y)%Q. Proof. apply Qred_correct. Qed.
Lemma qc_mult x y : (this (x * y)%Qc == this x * this y)%Q. Proof. apply Qred_correct. Qed.
Lemma qc_opp x : (this (- x)%Qc == - this x)%Q. Proof. apply Qred_correct. Qed.
Lemma qc_sqrt2 (a b : Qc) : (a * a = (1 + 1) * (b * b))%Qc -> a = 0%Qc /\ b = 0%Qc.
Proof.
  intros E. apply qc_of in E. rewrite !qc_mult, qc_plus in E. change (this 1%Qc) with 1%Q in E. destruct (q_sqrt2 (this a) (this b)) as [H1 H2].
  - rewrite E. ring.
  - split; apply qc_of; assumption.
Qed.
Lemma qc_sq_zero4 (a b c d : Qc) : (a * a + (1 + 1) * (b * b) + (c * c + (1 + 1) * (d * d)) = 0 -> a = 0 /\ b = 0 /\ c = 0 /\ d = 0)%Qc.
Proof.
  intros E. apply qc_of in E. rewrite !qc_plus, !qc_mult, !qc_plus in E. change (this 1%Qc) with 1%Q in E. change (this 0%Qc) with 0%Q in E.
  assert (S : forall q : Q, 0 <= q * q) by (intros q; destruct q as [n m]; unfold Qle, Qmult; cbn [Qnum Qden]; nia).
  assert (Z : forall q : Q, q * q <= 0 -> q == 0) by (intros [n m]; unfold Qle, Qmult, Qeq; cbn [Qnum Qden]; nia).
  pose proof (S (this a)). pose proof (S (this b)). pose proof (S (this c)). pose proof (S (this d)).
  repeat split; apply qc_of; apply Z; lra.
Qed.
Local Open Scope Qc_scope.
Lemma s_integral (x y : S2) : s_mul x y = s0 -> x = s0 \/ y = s0.
Proof.
  destruct x as [a b], y as [c d]. intros E. assert (E1 : a * c + (1 + 1) * (b * d) = 0) by exact (f_equal fst E). assert (E2 : a * d + b * c = 0) by exact (f_equal snd E). clear E.
  assert (N : (a * a - (1 + 1) * (b * b)) * (c * c - (1 + 1) * (d * d)) = 0).
  { transitivity ((a * c + (1 + 1) * (b * d)) * (a * c + (1 + 1) * (b * d)) - (1 + 1) * ((a * d + b * c) * (a * d + b * c))); [ring|]. rewrite E1, E2. ring. }
  apply Qcmult_integral in N. destruct N as [N|N]; [left|right].
  - destruct (qc_sqrt2 a b) as [-> ->]; [|reflexivity]. transitivity (a * a - (1 + 1) * (b * b) + (1 + 1) * (b * b)); [ring|rewrite N; ring].
  - destruct (qc_sqrt2 c d) as [-> ->]; [|reflexivity]. transitivity (c * c - (1 + 1) * (d * d) + (1 + 1) * (d * d)); [ring|rewrite N; ring].
Qed.
Definition z_sq (x : Q8t) : S2 := s_add (s_mul (fst x) (fst x)) (s_mul (snd x) (snd x)).
Lemma z_sq_mul x y : z_sq (z_mul x y) = s_mul (z_sq x) (z_sq y).
Proof. destruct x, y. unfold z_sq, z_mul. cbn [fst snd]. ring. Qed.
Lemma z_anorm (x : Q8) : anorm x = (z_sq x, s0) :> Q8.
Proof. destruct x as [x y]. unfold anorm, z_sq. cbn [sr_mul sr_conj Q8]. unfold z_mul, z_conj. cbn [fst snd]. f_equal; ring. Qed.
Lemma z_sq_0 x : z_sq x = s0 -> x = (s0, s0).
Proof.
  destruct x as [[a b] [c d]]. intros E. assert (E' : a * a + (1 + 1) * (b * b) + (c * c + (1 + 1) * (d * d)) = 0) by exact (f_equal fst E). clear E. rename E' into E.
  apply qc_sq_zero4 in E. destruct E as (-> & -> & -> & ->). reflexivity.
Qed.
(** The rational part of a squared magnitude. *)
Definition z_rat (x : Q8t) : Qc := fst (z_sq x).
Lemma qc_nonneg (x : Qc) : 0 <= x * x.
Proof. unfold Qcle. rewrite qc_mult. change (this 0) with 0%Q. destruct (this x) as [n m]. unfold Qle, Qmult. cbn [Qnum Qden]. nia. Qed.
Lemma z_rat_nonneg x : 0 <= z_rat x.
Proof.
  destruct x as [[a b] [c d]]. unfold z_rat, z_sq, s_add, s_mul. cbn [fst snd]. pose proof (qc_nonneg a) as A. pose proof (qc_nonneg b) as B. pose proof (qc_nonneg c) as C. pose proof (qc_nonneg d) as E.
  unfold Qcle in *. rewrite !qc_mult in *. rewrite !qc_plus, !qc_mult, !qc_plus. change (this 0) with 0%Q in *. change (this 1) with 1%Q. lra.
Qed.
Lemma z_rat_0 x : z_rat x = 0 -> x = (s0, s0).
Proof. destruct x as [[a b] [c d]]. unfold z_rat, z_sq, s_add, s_mul. cbn [fst snd]. intros E. apply qc_sq_zero4 in E. destruct E as (-> & -> & -> & ->). reflexivity. Qed.
Lemma asum_rat (l : list N) (f : N -> Q8) : fst (fst (asum (fun x => anorm (f x)) l)) = fold_right (fun x a => z_rat (f x) + a) 0 l.
Proof.
  induction l as [|x l IH]; [reflexivity|]. cbn [fold_right]. rewrite <- IH. cbn [asum]. rewrite z_anorm. reflexivity.
Qed.
Lemma rat_sum_nonneg (l : list N) (f : N -> Q8) : 0 <= fold_right (fun x a => z_rat (f x) + a) 0 l.
Proof.
  induction l as [|x l IH]; [apply Qcle_refl|]. cbn [fold_right]. pose proof (z_rat_nonneg (f x)) as H. unfold Qcle in *. rewrite qc_plus. change (this 0) with 0%Q in *. lra.
Qed.
Lemma rat_sum_zero (l : list N) (f : N -> Q8) : fold_right (fun x a => z_rat (f x) + a) 0 l = 0 -> forall x, In x l -> z_rat (f x) = 0.
Proof.
  induction l as [|y l IH]; intros E x H; [destruct H|]. cbn [fold_right] in E. pose proof (z_rat_nonneg (f y)) as A. pose proof (rat_sum_nonneg l f) as B.
  assert (Z : z_rat (f y) = 0 /\ fold_right (fun x a => z_rat (f x) + a) 0 l = 0).
  { apply qc_of in E. rewrite qc_plus in E. unfold Qcle in *. change (this 0) with 0%Q in *. split; apply qc_of; change (this 0) with 0%Q; lra. }
  destruct Z as [Z1 Z2]. destruct H as [->|H]; [exact Z1|apply IH; assumption].
Qed.
Lemma q8_definite : definite (K := Q8).
Proof.
  split; [intros E; apply z_eqb_ok in E; vm_compute in E; discriminate E|]. split.
  - intros x y E. assert (Z : s_mul (z_sq x) (z_sq y) = s0). { rewrite <- z_sq_mul. change (z_mul x y) with (x * y)%amp. rewrite E. change (z_sq (s0, s0) = s0). unfold z_sq. cbn [fst snd]. ring. }
    apply s_integral in Z. destruct Z as [Z|Z]; [left|right]; apply z_sq_0, Z.
  - intros l f E x Hx. apply z_rat_0. apply (rat_sum_zero l f); [|exact Hx]. rewrite <- asum_rat, E. reflexivity.
Qed.
