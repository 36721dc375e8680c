(** The complex numbers over Coq's real numbers have the operations and meet the conditions that the theorems about QUnit need.  Only
    examples use this file (it depends on the axioms of Coq's Reals). *)
From Coq Require Import Reals Lra NArith List.
From Verif Require Import Amp PAmp SpecState MShard MUnit AmpC PUnit3.
Import ListNotations.
Local Open Scope R_scope.

(** abs(c). *)
Definition c_abs (x : CC) : R := sqrt (fst x * fst x + snd x * snd x).
Lemma c_anorm (x : CC) : anorm x = (fst x * fst x + snd x * snd x, 0) :> CC.
Proof. destruct x as [a b]. unfold anorm. cbn. unfold c_mul, c_conj. cbn [fst snd]. f_equal; ring. Qed.
Lemma sq_nonneg (a : R) : 0 <= a * a. Proof. exact (Rle_0_sqr a). Qed.
Lemma norm_nonneg (x : CC) : 0 <= fst x * fst x + snd x * snd x.
Proof. pose proof (sq_nonneg (fst x)). pose proof (sq_nonneg (snd x)). lra. Qed.
Lemma sum_sq_0 a b : a * a + b * b = 0 -> a = 0 /\ b = 0.
Proof. apply Rplus_sqr_eq_0. Qed.
(** c / abs(c). *)
Definition c_unit (x : CC) : CC := if Req_EM_T (c_abs x) 0 then x else (fst x / c_abs x, snd x / c_abs x).
Lemma c_unit_r (x : CC) r : 0 < r -> fst x * fst x + snd x * snd x = r * r -> c_unit x = (fst x / r, snd x / r).
Proof.
  intros Hr E. unfold c_unit. assert (A : c_abs x = r) by (unfold c_abs; rewrite E; apply sqrt_square; lra). rewrite A. destruct (Req_EM_T r 0); [lra|reflexivity].
Qed.
Lemma c_unit_ok (x : CC) : anorm x = 1%amp -> c_unit x = x.
Proof.
  rewrite c_anorm. intros E. apply (f_equal fst) in E. cbn in E. rewrite (c_unit_r x 1); [|lra|lra]. destruct x as [a b]. cbn [fst snd]. f_equal; field.
Qed.
(** x / y. *)
Definition c_div (x y : CC) : CC := let d := fst y * fst y + snd y * snd y in
  ((fst x * fst y + snd x * snd y) / d, (snd x * fst y - fst x * snd y) / d).
Lemma c_div_ok (x y : CC) : anorm y = 1%amp -> c_div x y = (x * sr_conj y)%amp.
Proof.
  rewrite c_anorm. intros E. apply (f_equal fst) in E. cbn in E. unfold c_div. rewrite E. destruct x as [a b], y as [c d]. cbn. unfold c_mul, c_conj. cbn [fst snd]. f_equal; field.
Qed.
(** abs(c) < 1. *)
Definition c_lt1 (x : CC) : bool := if Rlt_dec (fst x * fst x + snd x * snd x) 1 then true else false.
Lemma c_lt1_0 : c_lt1 0%amp = true.
Proof. unfold c_lt1. destruct (Rlt_dec _ 1) as [|H]; [reflexivity|]. destruct H. cbn. lra. Qed.
Lemma c_lt1_2 (x : CC) : anorm x = 1%amp -> c_lt1 (x + x)%amp = false.
Proof.
  rewrite c_anorm. intros E. apply (f_equal fst) in E. cbn in E. unfold c_lt1. destruct (Rlt_dec _ 1) as [H|]; [|reflexivity]. exfalso. destruct x as [a b]. cbn in *. lra.
Qed.
Definition polarCC : Polar CC := mkPolar CC c_unit c_div c_lt1 c_unit_ok c_div_ok c_lt1_0 c_lt1_2.

(** sqrt on the probabilities (on other numbers the identity). *)
Definition c_sqrt (x : CC) : CC := if Rlt_dec 0 (fst x) then if Req_EM_T (snd x) 0 then (sqrt (fst x), 0) else x else x.
Lemma c_sqrt_0 p : c_sqrt p = 0%amp <-> p = 0%amp.
Proof.
  unfold c_sqrt. destruct (Rlt_dec 0 (fst p)) as [H|]; [|tauto]. destruct (Req_EM_T (snd p) 0) as [H'|]; [|tauto]. split; intros E.
  - exfalso. apply (f_equal fst) in E. cbn in E. pose proof (sqrt_lt_R0 _ H). lra.
  - exfalso. rewrite E in H. cbn in H. lra.
Qed.
Lemma inv_sqrt2 : / sqrt 2 * / sqrt 2 = / 2.
Proof. rewrite <- Rinv_mult. rewrite sqrt_sqrt by lra. reflexivity. Qed.
Lemma sqrt2_pos : 0 < / sqrt 2.
Proof. apply Rinv_0_lt_compat. apply sqrt_lt_R0. lra. Qed.
Lemma cc_i_conj : sr_conj cc_i = (- cc_i)%amp.
Proof. cbn. unfold c_conj, c_opp, cc_i. cbn [fst snd]. f_equal. ring. Qed.
Lemma cc_h_conj : sr_conj cc_h = cc_h.
Proof. cbn. unfold c_conj, cc_h. cbn [fst snd]. f_equal. ring. Qed.
Lemma cc_h_sq : (cc_h * cc_h + cc_h * cc_h = 1)%amp.
Proof. cbn. unfold c_mul, c_add, cc_h. cbn [fst snd]. f_equal; [|ring]. rewrite inv_sqrt2. lra. Qed.
Lemma cc_unit_h (x : CC) : anorm x = (cc_h * cc_h)%amp -> c_unit x = (x * (cc_h + cc_h))%amp.
Proof.
  rewrite c_anorm. intros E. apply (f_equal fst) in E. cbn in E. pose proof sqrt2_pos as P. pose proof inv_sqrt2 as Q.
  rewrite (c_unit_r x (/ sqrt 2) P); [|lra]. destruct x as [a b]. cbn. unfold c_mul, c_add, cc_h. cbn [fst snd].
  assert (D : / / sqrt 2 = / sqrt 2 + / sqrt 2). { apply (Rmult_eq_reg_l (/ sqrt 2)); [|lra]. rewrite Rinv_r by lra. lra. }
  unfold Rdiv. rewrite D. f_equal; ring.
Qed.
Lemma c_unit_0 (x : CC) : c_unit x = 0%amp -> x = 0%amp.
Proof.
  unfold c_unit. destruct (Req_EM_T (c_abs x) 0) as [|H]; [trivial|]. intros E. destruct x as [a b]. cbn [fst snd] in E.
  assert (A : a / c_abs (a, b) = 0) by exact (f_equal fst E). assert (B : b / c_abs (a, b) = 0) by exact (f_equal snd E).
  cbn. f_equal; [apply (Rmult_eq_reg_r (/ c_abs (a, b)))|apply (Rmult_eq_reg_r (/ c_abs (a, b)))]; try (apply Rinv_neq_0_compat; exact H); rewrite Rmult_0_l; assumption.
Qed.
Definition cxCC : Cplx CC := mkCplx CC cc_i cc_h c_sqrt polarCC cc_i_ok cc_i_conj cc_h_sq cc_h_conj c_sqrt_0 cc_unit_h c_unit_0.

Lemma sum_re (l : list N) (f : N -> CC) : fst (asum (fun x => anorm (f x)) l) = fold_right (fun x a => fst (f x) * fst (f x) + snd (f x) * snd (f x) + a) 0 l.
Proof. induction l as [|x l IH]; [reflexivity|]. cbn [fold_right]. rewrite <- IH. cbn [asum]. rewrite c_anorm. reflexivity. Qed.
Lemma sum_im (l : list N) (f : N -> CC) : snd (asum (fun x => anorm (f x)) l) = 0.
Proof. induction l as [|x l IH]; [reflexivity|]. cbn [asum]. rewrite c_anorm. change (0 + snd (asum (fun x => anorm (f x)) l) = 0). rewrite IH. ring. Qed.
Lemma sum_re_nonneg (l : list N) (f : N -> CC) : 0 <= fold_right (fun x a => fst (f x) * fst (f x) + snd (f x) * snd (f x) + a) 0 l.
Proof. induction l as [|x l IH]; [apply Rle_refl|]. cbn [fold_right]. pose proof (norm_nonneg (f x)). lra. Qed.
Lemma cc_definite : definite (K := CC).
Proof.
  split; [intros E; apply (f_equal fst) in E; cbn in E; lra|]. split.
  - intros [a b] [c d] E. assert (E1 : a * c - b * d = 0) by exact (f_equal fst E). assert (E2 : a * d + b * c = 0) by exact (f_equal snd E).
    assert (P : (a * a + b * b) * (c * c + d * d) = 0). { transitivity ((a * c - b * d) * (a * c - b * d) + (a * d + b * c) * (a * d + b * c)); [ring|rewrite E1, E2; ring]. }
    apply Rmult_integral in P. destruct P as [P|P]; apply sum_sq_0 in P; destruct P as [-> ->]; [left|right]; reflexivity.
  - intros l f E x Hx. assert (Z : fold_right (fun x a => fst (f x) * fst (f x) + snd (f x) * snd (f x) + a) 0 l = 0) by (rewrite <- sum_re, E; reflexivity).
    clear E. induction l as [|y l IH]; [destruct Hx|]. cbn [fold_right] in Z. pose proof (norm_nonneg (f y)). pose proof (sum_re_nonneg l f).
    destruct Hx as [->|Hx]; [|apply IH; [exact Hx|lra]]. assert (P : fst (f x) * fst (f x) + snd (f x) * snd (f x) = 0) by lra. apply sum_sq_0 in P. destruct (f x) as [a b]. cbn [fst snd] in P. destruct P as [-> ->]. reflexivity.
Qed.
(** sqrt of a sum of squared magnitudes is a real number with that square. *)
Lemma cc_roots (l : list N) (f : N -> CC) : anorm (cx_sqrt cxCC (asum (fun x => anorm (f x)) l)) = asum (fun x => anorm (f x)) l.
Proof.
  rewrite c_anorm. cbn [cx_sqrt cxCC]. unfold c_sqrt. pose proof (sum_im l f) as I. pose proof (sum_re_nonneg l f) as P. rewrite <- sum_re in P.
  destruct (asum (fun x => anorm (f x)) l) as [r i]. cbn [fst snd] in *. subst i. destruct (Rlt_dec 0 r) as [H|H].
  - destruct (Req_EM_T 0 0) as [_|N]; [|destruct N; reflexivity]. cbn [fst snd]. rewrite sqrt_sqrt by lra. f_equal. ring.
  - cbn [fst snd]. assert (r = 0) by lra. subst r. f_equal; ring.
Qed.
