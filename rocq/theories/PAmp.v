(** Elementary facts about amplitudes and finite sums. *)
From Coq Require Import ZArith NArith List Ring Ring_theory Bool Lia Permutation.
From Verif Require Import Amp.
Import ListNotations.

Section K.
  Variable K : StarRing.
  Add Ring Kring : (sr_ring K).
  Local Open Scope amp_scope.

  Lemma conj_0 : sr_conj (0 : K) = 0.
  Proof.
    assert (H : sr_conj (0 : K) = sr_conj 0 + sr_conj 0).
    { rewrite <- sr_conj_add. f_equal. ring. }
    replace (sr_conj (0:K)) with ((sr_conj (0:K) + sr_conj (0:K)) - sr_conj (0:K)) by ring.
    rewrite <- H. ring.
  Qed.
  Lemma conj_1 : sr_conj (1 : K) = 1.
  Proof.
    transitivity (sr_conj (1:K) * sr_conj (sr_conj (1:K))).
    - rewrite sr_conj_invol. ring.
    - rewrite <- sr_conj_mul. replace (1 * sr_conj (1:K)) with (sr_conj (1:K)) by ring. apply sr_conj_invol.
  Qed.
  Lemma conj_opp (x : K) : sr_conj (- x) = - sr_conj x.
  Proof.
    assert (H : sr_conj (- x) + sr_conj x = 0).
    { rewrite <- sr_conj_add. replace (- x + x) with (0:K) by ring. apply conj_0. }
    replace (sr_conj (- x)) with ((sr_conj (- x) + sr_conj x) - sr_conj x) by ring. rewrite H. ring.
  Qed.
  Lemma anorm_0 : anorm (0 : K) = 0.
  Proof. unfold anorm. ring. Qed.
  Lemma anorm_mul (x y : K) : anorm (x * y) = anorm x * anorm y.
  Proof. unfold anorm. rewrite sr_conj_mul. ring. Qed.

  Lemma eqb_refl (x : K) : sr_eqb x x = true.
  Proof. now apply sr_eqb_ok. Qed.
  Lemma eqb_spec (x y : K) : reflect (x = y) (sr_eqb x y).
  Proof. apply iff_reflect. symmetry. apply sr_eqb_ok. Qed.

  Lemma asum_app {T} (f : T -> K) a b : asum f (a ++ b) = asum f a + asum f b.
  Proof. induction a as [|x a IH]; simpl. ring. rewrite IH. ring. Qed.
  Lemma asum_perm {T} (f : T -> K) a b : Permutation a b -> asum f a = asum f b.
  Proof. induction 1; simpl; auto. now rewrite IHPermutation. ring. congruence. Qed.
  Lemma asum_ext {T} (f g : T -> K) l : (forall x, In x l -> f x = g x) -> asum f l = asum g l.
  Proof. induction l as [|x l IH]; simpl; intros H; auto. rewrite H, IH; auto. Qed.
  Lemma asum_map {T U} (f : U -> K) (g : T -> U) l : asum f (map g l) = asum (fun x => f (g x)) l.
  Proof. induction l; simpl; congruence. Qed.
  Lemma asum_add {T} (f g : T -> K) l : asum (fun x => f x + g x) l = asum f l + asum g l.
  Proof. induction l as [|x l IH]; simpl. ring. rewrite IH. ring. Qed.
  Lemma asum_scale {T} (c : K) (f : T -> K) l : asum (fun x => c * f x) l = c * asum f l.
  Proof. induction l as [|x l IH]; simpl. ring. rewrite IH. ring. Qed.
  Lemma asum_zero {T} (f : T -> K) l : (forall x, In x l -> f x = 0) -> asum f l = 0.
  Proof. induction l as [|x l IH]; simpl; intros H; auto. rewrite H, IH; auto. ring. Qed.
  Lemma asum_filter {T} (p : T -> bool) (f : T -> K) l : asum f (filter p l) = asum (fun x => if p x then f x else 0) l.
  Proof. induction l as [|x l IH]; simpl; auto. destruct (p x); simpl; rewrite IH; ring. Qed.
  Lemma asum_flat {T U} (f : U -> K) (g : T -> list U) l : asum f (flat_map g l) = asum (fun x => asum f (g x)) l.
  Proof. induction l as [|x l IH]; simpl; auto. now rewrite asum_app, IH. Qed.
  Lemma asum_swap {T U} (f : T -> U -> K) l m : asum (fun x => asum (f x) m) l = asum (fun y => asum (fun x => f x y) l) m.
  Proof.
    induction l as [|x l IH]; simpl. symmetry. apply asum_zero; auto. rewrite IH, <- asum_add. reflexivity.
  Qed.
  Lemma conj_asum {T} (f : T -> K) l : sr_conj (asum f l) = asum (fun x => sr_conj (f x)) l.
  Proof. induction l as [|x l IH]; simpl. apply conj_0. now rewrite sr_conj_add, IH. Qed.

  Lemma mat2_eq (a b : mat2 K) : m00 a = m00 b -> m01 a = m01 b -> m10 a = m10 b -> m11 a = m11 b -> a = b.
  Proof. destruct a, b. simpl. intros. congruence. Qed.
End K.
