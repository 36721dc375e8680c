(** A finite ring of amplitudes with i and 1/sqrt 2: the field of 49 elements, as pairs over the integers modulo 7 with
    i^2 = -1 and conjugation i -> -i; 1/sqrt 2 is 2, as 2*2 + 2*2 = 8 = 1.  Used where an axiom-free ring with both
    constants is needed. *)
From Coq Require Import ZArith Ring_theory Bool.
From Verif Require Import Amp.

Inductive F7 := f0 | f1 | f2 | f3 | f4 | f5 | f6.
Definition f_z (a : F7) : Z := match a with f0 => 0 | f1 => 1 | f2 => 2 | f3 => 3 | f4 => 4 | f5 => 5 | f6 => 6 end.
Definition z_f (a : Z) : F7 := match (a mod 7)%Z with 0 => f0 | 1 => f1 | 2 => f2 | 3 => f3 | 4 => f4 | 5 => f5 | _ => f6 end%Z.
Definition f_add a b := z_f (f_z a + f_z b).
Definition f_mul a b := z_f (f_z a * f_z b).
Definition f_opp a := z_f (- f_z a).
Definition f_sub a b := z_f (f_z a - f_z b).
Lemma f_add_0 a : f_add f0 a = a. Proof. destruct a; reflexivity. Qed.
Lemma f_add_comm a b : f_add a b = f_add b a. Proof. destruct a, b; reflexivity. Qed.
Lemma f_add_assoc a b c : f_add a (f_add b c) = f_add (f_add a b) c. Proof. destruct a, b, c; reflexivity. Qed.
Lemma f_mul_1 a : f_mul f1 a = a. Proof. destruct a; reflexivity. Qed.
Lemma f_mul_comm a b : f_mul a b = f_mul b a. Proof. destruct a, b; reflexivity. Qed.
Lemma f_mul_assoc a b c : f_mul a (f_mul b c) = f_mul (f_mul a b) c. Proof. destruct a, b, c; reflexivity. Qed.
Lemma f_distr a b c : f_mul (f_add a b) c = f_add (f_mul a c) (f_mul b c). Proof. destruct a, b, c; reflexivity. Qed.
Lemma f_sub_def a b : f_sub a b = f_add a (f_opp b). Proof. destruct a, b; reflexivity. Qed.
Lemma f_opp_def a : f_add a (f_opp a) = f0. Proof. destruct a; reflexivity. Qed.
Lemma f7_ring : ring_theory f0 f1 f_add f_mul f_sub f_opp eq.
Proof. split; auto using f_add_0, f_add_comm, f_add_assoc, f_mul_1, f_mul_comm, f_mul_assoc, f_distr, f_sub_def, f_opp_def. Qed.
Add Ring F7r : f7_ring.

Definition F49t : Type := F7 * F7.
Definition q_add (x y : F49t) : F49t := (f_add (fst x) (fst y), f_add (snd x) (snd y)).
Definition q_sub (x y : F49t) : F49t := (f_sub (fst x) (fst y), f_sub (snd x) (snd y)).
Definition q_opp (x : F49t) : F49t := (f_opp (fst x), f_opp (snd x)).
Definition q_mul (x y : F49t) : F49t := (f_sub (f_mul (fst x) (fst y)) (f_mul (snd x) (snd y)), f_add (f_mul (fst x) (snd y)) (f_mul (snd x) (fst y))).
Definition q_conj (x : F49t) : F49t := (fst x, f_opp (snd x)).
Definition f_eqb (a b : F7) : bool := Z.eqb (f_z a) (f_z b).
Definition q_eqb (x y : F49t) : bool := f_eqb (fst x) (fst y) && f_eqb (snd x) (snd y).
Lemma q_ring : ring_theory (f0, f0) (f1, f0) q_add q_mul q_sub q_opp eq.
Proof.
  split; intros; repeat match goal with x : (F7 * F7)%type |- _ => destruct x end; unfold q_add, q_mul, q_sub, q_opp; cbn [fst snd]; f_equal; ring.
Qed.
Lemma q_conj_add x y : q_conj (q_add x y) = q_add (q_conj x) (q_conj y).
Proof. destruct x, y. unfold q_conj, q_add. cbn [fst snd]. f_equal. ring. Qed.
Lemma q_conj_mul x y : q_conj (q_mul x y) = q_mul (q_conj x) (q_conj y).
Proof. destruct x, y. unfold q_conj, q_mul. cbn [fst snd]. f_equal; ring. Qed.
Lemma q_conj_invol x : q_conj (q_conj x) = x.
Proof. destruct x. unfold q_conj. cbn [fst snd]. f_equal. ring. Qed.
Lemma q_eqb_ok x y : q_eqb x y = true <-> x = y.
Proof. destruct x as [a b], y as [c d]. unfold q_eqb. cbn [fst snd]. rewrite andb_true_iff. split; [intros [H1 H2]; f_equal; [destruct a, c|destruct b, d]; auto; discriminate|]. intros E. injection E as -> ->. destruct c, d; split; reflexivity. Qed.

Definition F49 : StarRing := mkStar F49t (f0, f0) (f1, f0) q_add q_mul q_sub q_opp q_conj q_eqb q_ring q_conj_add q_conj_mul q_conj_invol q_eqb_ok.
Definition q_i : F49 := (f0, f1).
Definition q_h : F49 := (f2, f0).
Lemma q_i_ok : (q_i * q_i = - (1))%amp. Proof. reflexivity. Qed.
Lemma q_i_conj : sr_conj q_i = (- q_i)%amp. Proof. reflexivity. Qed.
Lemma q_h_ok : (q_h * q_h + q_h * q_h = 1)%amp. Proof. reflexivity. Qed.
Lemma q_tors (a : F49) : (a + a = 0)%amp -> a = 0%amp.
Proof. destruct a as [a b]. destruct a, b; cbv; intros H; auto; discriminate H. Qed.
Lemma q_dom (a b : F49) : (a * b = 0)%amp -> a = 0%amp \/ b = 0%amp.
Proof. destruct a as [a b0], b as [c d]. destruct a, b0; try (left; reflexivity); destruct c, d; try (right; reflexivity); cbv; intros H; discriminate H. Qed.
