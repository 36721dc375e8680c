(** A computable field of amplitudes with i and 1/sqrt 2: the complex numbers (a + b sqrt 2) + i (c + d sqrt 2) with rational
    a, b, c, d.  Used to evaluate the model in refutations and examples. *)
From Coq Require Import ZArith QArith Qcanon Ring_theory Bool.
From Verif Require Import Amp MShard MUnit.
Local Open Scope Qc_scope.

Definition qz (n : Z) (d : positive) : Qc := Q2Qc (n # d).
(** a + b sqrt 2. *)
Definition S2 : Type := Qc * Qc.
Definition s_add (x y : S2) : S2 := (fst x + fst y, snd x + snd y).
Definition s_sub (x y : S2) : S2 := (fst x - fst y, snd x - snd y).
Definition s_opp (x : S2) : S2 := (- fst x, - snd x).
Definition s_mul (x y : S2) : S2 := (fst x * fst y + (1 + 1) * (snd x * snd y), fst x * snd y + snd x * fst y).
Definition s_eqb (x y : S2) : bool := Qc_eq_bool (fst x) (fst y) && Qc_eq_bool (snd x) (snd y).
Definition s0 : S2 := (0, 0).
Definition s1 : S2 := (1, 0).
Lemma s_ring : ring_theory s0 s1 s_add s_mul s_sub s_opp eq.
Proof. split; intros; repeat match goal with x : S2 |- _ => destruct x end; unfold s_add, s_sub, s_opp, s_mul, s0, s1; cbn [fst snd]; f_equal; ring. Qed.
Lemma qc_eqb_ok x y : Qc_eq_bool x y = true <-> x = y.
Proof. split; [apply Qc_eq_bool_correct|]. intros ->. unfold Qc_eq_bool. destruct (Qc_eq_dec y y); [reflexivity|contradiction]. Qed.
Lemma s_eqb_ok x y : s_eqb x y = true <-> x = y.
Proof.
  destruct x as [a b], y as [c d]. unfold s_eqb. cbn [fst snd]. rewrite andb_true_iff, !qc_eqb_ok. split; [intros [-> ->]; reflexivity|].
  intros E. injection E as -> ->. auto.
Qed.
Add Ring S2r : s_ring.

Definition Q8t : Type := S2 * S2.
Definition z_add (x y : Q8t) : Q8t := (s_add (fst x) (fst y), s_add (snd x) (snd y)).
Definition z_sub (x y : Q8t) : Q8t := (s_sub (fst x) (fst y), s_sub (snd x) (snd y)).
Definition z_opp (x : Q8t) : Q8t := (s_opp (fst x), s_opp (snd x)).
Definition z_mul (x y : Q8t) : Q8t := (s_sub (s_mul (fst x) (fst y)) (s_mul (snd x) (snd y)), s_add (s_mul (fst x) (snd y)) (s_mul (snd x) (fst y))).
Definition z_conj (x : Q8t) : Q8t := (fst x, s_opp (snd x)).
Definition z_eqb (x y : Q8t) : bool := s_eqb (fst x) (fst y) && s_eqb (snd x) (snd y).
Lemma z_ring : ring_theory (s0, s0) (s1, s0) z_add z_mul z_sub z_opp eq.
Proof. split; intros; repeat match goal with x : (S2 * S2)%type |- _ => destruct x end; unfold z_add, z_sub, z_opp, z_mul; cbn [fst snd]; f_equal; ring. Qed.
Lemma z_conj_add x y : z_conj (z_add x y) = z_add (z_conj x) (z_conj y).
Proof. destruct x, y. unfold z_conj, z_add. cbn [fst snd]. f_equal. ring. Qed.
Lemma z_conj_mul x y : z_conj (z_mul x y) = z_mul (z_conj x) (z_conj y).
Proof. destruct x, y. unfold z_conj, z_mul. cbn [fst snd]. f_equal; ring. Qed.
Lemma z_conj_invol x : z_conj (z_conj x) = x.
Proof. destruct x. unfold z_conj. cbn [fst snd]. f_equal. ring. Qed.
Lemma z_eqb_ok x y : z_eqb x y = true <-> x = y.
Proof.
  destruct x as [a b], y as [c d]. unfold z_eqb. cbn [fst snd]. rewrite andb_true_iff, !s_eqb_ok. split; [intros [-> ->]; reflexivity|].
  intros E. injection E as -> ->. auto.
Qed.
Definition Q8 : StarRing := mkStar Q8t (s0, s0) (s1, s0) z_add z_mul z_sub z_opp z_conj z_eqb z_ring z_conj_add z_conj_mul z_conj_invol z_eqb_ok.

Definition z_i : Q8 := (s0, s1).
(** 1/sqrt 2 = sqrt 2 / 2. *)
Definition z_h : Q8 := ((0, qz 1 2), s0).
Lemma z_i_ok : (z_i * z_i = - (1))%amp. Proof. apply z_eqb_ok. vm_compute. reflexivity. Qed.
Lemma z_i_conj : sr_conj z_i = (- z_i)%amp. Proof. apply z_eqb_ok. vm_compute. reflexivity. Qed.
Lemma z_h_ok : (z_h * z_h + z_h * z_h = 1)%amp. Proof. apply z_eqb_ok. vm_compute. reflexivity. Qed.
Lemma z_h_conj : sr_conj z_h = z_h. Proof. apply z_eqb_ok. vm_compute. reflexivity. Qed.

(** 0 < a + b sqrt 2. *)
Definition qc_ltb (x y : Qc) : bool := match x ?= y with Lt => true | _ => false end.
Definition s_pos (x : S2) : bool :=
  let '(a, b) := x in
  if qc_ltb a 0 then qc_ltb 0 b && qc_ltb (a * a) ((1 + 1) * (b * b))
  else if qc_ltb b 0 then qc_ltb ((1 + 1) * (b * b)) (a * a)
  else qc_ltb 0 a || qc_ltb 0 b.
Definition z_lt1 (x : Q8) : bool := s_pos (s_sub s1 (fst (anorm x))).
Lemma z_lt1_0 : z_lt1 0%amp = true. Proof. vm_compute. reflexivity. Qed.
Section D.
  Context (K : StarRing).
  Add Ring KrBL : (sr_ring K).
  Lemma anorm_double (x : K) : anorm (x + x)%amp = ((1 + 1) * (1 + 1) * anorm x)%amp.
  Proof. unfold anorm. rewrite sr_conj_add. ring. Qed.
End D.
Lemma z_lt1_2 (x : Q8) : anorm x = 1%amp -> z_lt1 (x + x)%amp = false.
Proof. intros H. unfold z_lt1. rewrite anorm_double, H. vm_compute. reflexivity. Qed.
(** x / |x|, where |x| is 1 or 1/sqrt 2 (in all evaluations). *)
Definition z_unit (x : Q8) : Q8 := if sr_eqb (anorm x) (z_h * z_h)%amp then (x * (z_h + z_h))%amp else x.
Lemma z_unit_ok (x : Q8) : anorm x = 1%amp -> z_unit x = x.
Proof. intros H. unfold z_unit. rewrite H. reflexivity. Qed.
Definition polarQ8 : Polar Q8 := mkPolar Q8 z_unit (fun x y => (x * sr_conj y)%amp) z_lt1 z_unit_ok (fun x y _ => eq_refl) z_lt1_0 z_lt1_2.

(** sqrt for the probabilities that occur in evaluations. *)
Definition z_quarter : Q8 := (z_h * z_h * (z_h * z_h))%amp.
Definition z_sqrt (p : Q8) : Q8 :=
  if sr_eqb p (z_h * z_h)%amp then z_h else if sr_eqb p z_quarter then (z_h * z_h)%amp else p.
Lemma z_sqrt_0 p : z_sqrt p = 0%amp <-> p = 0%amp.
Proof.
  unfold z_sqrt. destruct (sr_eqb p (z_h * z_h)%amp) eqn:E1.
  - apply sr_eqb_ok in E1. subst p. split; intros E; apply sr_eqb_ok in E; vm_compute in E; discriminate E.
  - destruct (sr_eqb p z_quarter) eqn:E2; [|tauto]. apply sr_eqb_ok in E2. subst p. split; intros E; apply sr_eqb_ok in E; vm_compute in E; discriminate E.
Qed.
Lemma z_unit_h (x : Q8) : anorm x = (z_h * z_h)%amp -> z_unit x = (x * (z_h + z_h))%amp.
Proof. intros H. unfold z_unit. rewrite H. replace (sr_eqb (z_h * z_h)%amp (z_h * z_h)%amp) with true by (vm_compute; reflexivity). reflexivity. Qed.
Section D2.
  Context (K : StarRing).
  Add Ring KrBT : (sr_ring K).
  Lemma twice_zero (h x : K) : (h * h + h * h = 1 -> x * (h + h) = 0 -> x = 0)%amp.
  Proof. intros H E. transitivity (x * (h * h + h * h))%amp; [rewrite H; ring|]. transitivity (x * (h + h) * h)%amp; [ring|]. rewrite E. ring. Qed.
End D2.
Lemma z_unit_0 (x : Q8) : z_unit x = 0%amp -> x = 0%amp.
Proof. unfold z_unit. destruct (sr_eqb (anorm x) (z_h * z_h)%amp); [|trivial]. apply twice_zero, z_h_ok. Qed.
Definition cxQ8 : Cplx Q8 := mkCplx Q8 z_i z_h z_sqrt polarQ8 z_i_ok z_i_conj z_h_ok z_h_conj z_sqrt_0 z_unit_h z_unit_0.
