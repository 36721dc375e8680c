(** Proofs about the depolarizing channels. *)
From Coq Require Import NArith Arith List Bool Lia Ring.
From Verif Require Import Bits Amp PAmp SpecState PGates PGates2 PEngine PApi5 PUnit4 PLoop MRot SpecRot MNoise SpecNoise.
Import ListNotations.
Local Open Scope N_scope.

(** ** Bits *)
Lemma add_bit x n b m : x < 2 ^ n -> N.testbit (x + b * 2 ^ n) m = if m <? n then N.testbit x m else N.testbit b (m - n).
Proof. intros H. now apply tb_cat. Qed.
Lemma set_add x n q b : x < 2 ^ n -> q < n -> N.setbit (x + b * 2 ^ n) q = N.setbit x q + b * 2 ^ n.
Proof.
  intros Hx Hq. apply N.bits_inj. intros m. rewrite tb_setbit, !add_bit by (auto; now apply setbit_lt). rewrite tb_setbit. destruct (N.ltb_spec m n); auto. destruct (N.eqb_spec q m); [lia|auto].
Qed.
Lemma clear_add x n q b : x < 2 ^ n -> q < n -> N.clearbit (x + b * 2 ^ n) q = N.clearbit x q + b * 2 ^ n.
Proof.
  intros Hx Hq. apply N.bits_inj. intros m. rewrite tb_clearbit, !add_bit by (auto; now apply clearbit_lt). rewrite tb_clearbit. destruct (N.ltb_spec m n); auto. destruct (N.eqb_spec q m); [lia|]. now rewrite andb_true_r.
Qed.
Lemma set_top x n : x < 2 ^ n -> N.setbit x n = x + 1 * 2 ^ n.
Proof.
  intros Hx. apply N.bits_inj. intros m. rewrite tb_setbit, add_bit by auto. destruct (N.ltb_spec m n). destruct (N.eqb_spec n m); [lia|auto]. rewrite (tb_high x n) by auto. rewrite orb_false_r. change 1 with (2 ^ 0). rewrite tb_pow2. destruct (N.eqb_spec n m); destruct (N.eqb_spec 0 (m - n)); auto; lia.
Qed.
Lemma clear_top x n : x < 2 ^ n -> N.clearbit (x + 1 * 2 ^ n) n = x.
Proof.
  intros Hx. apply N.bits_inj. intros m. rewrite tb_clearbit, add_bit by auto. destruct (N.ltb_spec m n). destruct (N.eqb_spec n m); [lia|]. now rewrite andb_true_r. rewrite (tb_high x n m) by auto. change 1 with (2 ^ 0). rewrite tb_pow2. destruct (N.eqb_spec n m); destruct (N.eqb_spec 0 (m - n)); auto; lia.
Qed.

Section P.
  Context {K : StarRing}.
  Add Ring KrFA : (sr_ring K).
  Local Notation vec := (N -> K).
  Local Open Scope amp_scope.
  Variables (i h : K).

  Lemma top_one x n : (x < 2 ^ n)%N -> N.testbit (x + 1 * 2 ^ n) n = true.
  Proof. intros H. rewrite add_bit by auto. destruct (N.ltb_spec n n); [lia|]. now rewrite N.sub_diag. Qed.
  Lemma spread_0 a n q (psi : vec) x : (x < 2 ^ n)%N -> (q < n)%N -> spread h a n q psi (x + 0 * 2 ^ n)%N = (if N.testbit x q then a_c a else 1) * gate1 always q (m_had h) psi x.
  Proof.
    intros Hx Hq. rewrite N.mul_0_l, N.add_0_r. unfold spread. unfold gate1 at 1. cbn [all_set forallb]. rewrite andb_true_r, (tb_high x n n) by (auto; lia). unfold m_RY. cbn [m00 m01]. unfold alloc_one. destruct (N.ltb_spec x (2 ^ n)); [|lia].
    rewrite set_top by auto. destruct (N.ltb_spec (x + 1 * 2 ^ n) (2 ^ n)); [lia|]. destruct (N.testbit x q); ring.
  Qed.
  Lemma spread_1 a n q (psi : vec) x : (x < 2 ^ n)%N -> (q < n)%N -> spread h a n q psi (x + 1 * 2 ^ n)%N = (if N.testbit x q then a_s a else 0) * gate1 always q (m_had h) psi x.
  Proof.
    intros Hx Hq. unfold spread. unfold gate1 at 1. cbn [all_set forallb]. rewrite andb_true_r, top_one by auto. rewrite add_bit by auto. destruct (N.ltb_spec q n); [|lia]. rewrite clear_top by auto. unfold m_RY. cbn [m10 m11]. unfold alloc_one.
    destruct (N.ltb_spec x (2 ^ n)); [|lia]. destruct (N.ltb_spec (x + 1 * 2 ^ n) (2 ^ n)); [lia|]. destruct (N.testbit x q); ring.
  Qed.
  (** The end states by the value of the qubit; [pv] is the amplitude with the qubit turned. *)
  Definition pv (q : N) (psi : vec) (x : N) : K := psi (if N.testbit x q then N.clearbit x q else N.setbit x q).
  Definition sg (q x : N) : K := if N.testbit x q then - (1) else 1.
  Lemma clear_id x q : N.testbit x q = false -> N.clearbit x q = x.
  Proof. intros H. apply N.bits_inj. intros m. rewrite tb_clearbit. destruct (N.eqb_spec q m) as [<-|]. now rewrite H. now rewrite andb_true_r. Qed.
  Lemma set_id x q : N.testbit x q = true -> N.setbit x q = x.
  Proof. intros H. apply N.bits_inj. intros m. rewrite tb_setbit. destruct (N.eqb_spec q m) as [<-|]; auto. Qed.
  Lemma set_clear x q : N.setbit (N.clearbit x q) q = N.setbit x q.
  Proof. apply N.bits_inj. intros m. rewrite !tb_setbit, tb_clearbit. destruct (N.eqb_spec q m); auto. cbn [orb negb]. now rewrite andb_true_r. Qed.
  Lemma clear_set x q : N.clearbit (N.setbit x q) q = N.clearbit x q.
  Proof. apply N.bits_inj. intros m. rewrite !tb_clearbit, tb_setbit. destruct (N.eqb_spec q m); cbn [orb negb]; now rewrite ?andb_false_r. Qed.
  Lemma tset x q : N.testbit (N.setbit x q) q = true.
  Proof. rewrite tb_setbit, N.eqb_refl. reflexivity. Qed.
  Lemma tclear x q : N.testbit (N.clearbit x q) q = false.
  Proof. rewrite tb_clearbit, N.eqb_refl. apply andb_false_r. Qed.
  (** H, a diagonal matrix diag(u, v), H. *)
  Lemma had_diag u v q (f psi : vec) x : f (N.clearbit x q) = u * gate1 always q (m_had h) psi (N.clearbit x q) -> f (N.setbit x q) = v * gate1 always q (m_had h) psi (N.setbit x q) ->
    gate1 always q (m_had h) f x = h * h * ((u + v) * psi x + (u - v) * pv q psi x).
  Proof.
    intros E0 E1. unfold gate1, always, m_had, pv in *. cbn [m00 m01 m10 m11] in *. rewrite tclear, set_clear in E0. rewrite tset, clear_set in E1. destruct (N.testbit x q) eqn:T.
    - rewrite (set_id x q T) in *. rewrite E0, E1. ring.
    - rewrite (clear_id x q T) in *. rewrite E0, E1. ring.
  Qed.
  Lemma spread_v a n q (psi : vec) b x : (b = 0 \/ b = 1)%N -> (x < 2 ^ n)%N -> (q < n)%N ->
    spread h a n q psi (x + b * 2 ^ n)%N = (if N.testbit x q then (if (b =? 0)%N then a_c a else a_s a) else if (b =? 0)%N then 1 else 0) * gate1 always q (m_had h) psi x.
  Proof. intros [->| ->] Hx Hq; cbn [N.eqb]. now apply spread_0. now apply spread_1. Qed.
  Lemma branch a n q (psi : vec) b x : (b = 0 \/ b = 1)%N -> (x < 2 ^ n)%N -> (q < n)%N ->
    gate1 always q (m_had h) (fun x => spread h a n q psi (x + b * 2 ^ n)%N) x =
    h * h * (((if (b =? 0)%N then 1 else 0) + (if (b =? 0)%N then a_c a else a_s a)) * psi x + ((if (b =? 0)%N then 1 else 0) - (if (b =? 0)%N then a_c a else a_s a)) * pv q psi x).
  Proof.
    intros Hb Hx Hq. apply had_diag.
    - rewrite spread_v; auto. now rewrite tclear. now apply clearbit_lt.
    - rewrite spread_v; auto. now rewrite tset. now apply setbit_lt.
  Qed.
  Lemma x_gate q (psi : vec) x : gate1 always q (pauli i AxX) psi x = pv q psi x.
  Proof. unfold gate1, always, pauli, pv. cbn [m00 m01 m10 m11]. destruct (N.testbit x q); ring. Qed.
  Lemma y_gate q (psi : vec) x : gate1 always q (pauli i AxY) psi x = - i * sg q x * pv q psi x.
  Proof. unfold gate1, always, pauli, pv, sg. cbn [m00 m01 m10 m11]. destruct (N.testbit x q); ring. Qed.
  Lemma z_gate q (psi : vec) x : gate1 always q (pauli i AxZ) psi x = sg q x * psi x.
  Proof. unfold gate1, always, pauli, sg. cbn [m00 m01 m10 m11]. destruct (N.testbit x q); ring. Qed.
  Lemma conj_sg q x : sr_conj (sg q x) = sg q x.
  Proof. unfold sg. destruct (N.testbit x q). now rewrite conj_opp, conj_1. apply conj_1. Qed.
  Lemma sg_sg q x : sg q x * sg q x = 1.
  Proof. unfold sg. destruct (N.testbit x q); ring. Qed.
  Lemma conj_sub (x y : K) : sr_conj (x - y) = sr_conj x - sr_conj y.
  Proof. replace (x - y) with (x + - y) by ring. rewrite sr_conj_add, conj_opp. ring. Qed.

  (** ** QInterface *)
  Lemma weak_ok a n q (psi : vec) x y : root_half h -> is_angle a -> (x < 2 ^ n)%N -> (y < 2 ^ n)%N -> (q < n)%N ->
    mixture (depol_weak h true a n q psi) x y = h * h * ((1 + a_c a) * pure psi x y + (1 - a_c a) * pure (gate1 always q (pauli i AxX) psi) x y).
  Proof.
    intros [Hh H2] [Hc [Hs HA]] Hx Hy Hq. unfold mixture, depol_weak. cbn [map asum fst snd]. unfold pure. rewrite !x_gate. rewrite !branch by auto. cbn [N.eqb].
    rewrite !sr_conj_mul, !sr_conj_add, !sr_conj_mul, !conj_sub, !sr_conj_add, conj_0, conj_1, Hh, Hc, Hs. set (u := psi x). set (w := pv q psi x). set (u' := sr_conj (psi y)). set (w' := sr_conj (pv q psi y)).
    transitivity (h * h * (h * h) * ((u + w) * (u' + w') + a_c a * ((u + w) * (u' - w') + (u - w) * (u' + w')) + (a_c a * a_c a + a_s a * a_s a) * ((u - w) * (u' - w')))). ring.
    rewrite HA. transitivity (h * h * (h * h + h * h) * ((1 + a_c a) * (u * u') + (1 - a_c a) * (w * w'))). ring. rewrite H2. ring.
  Qed.
  Lemma strong_ok a n q (psi : vec) x y : (x < 2 ^ n)%N -> (y < 2 ^ n)%N -> (q < n)%N -> without_last n (snd (depol_strong h a n q psi)) x y = mixture (depol_weak h true a n q psi) x y.
  Proof.
    intros Hx Hy Hq. unfold mixture, depol_weak, without_last, depol_strong. cbn [map asum fst snd].
    assert (G : forall b z, (z < 2 ^ n)%N -> gate1 always q (m_had h) (spread h a n q psi) (z + b * 2 ^ n)%N = gate1 always q (m_had h) (fun x => spread h a n q psi (x + b * 2 ^ n)%N) z).
    { intros b z Hz. unfold gate1 at 1 2. unfold always at 1 2. rewrite add_bit by auto. destruct (N.ltb_spec q n); [|lia]. rewrite set_add, clear_add by auto. reflexivity. }
    unfold pure. rewrite <- !G by auto. rewrite !N.mul_0_l, !N.add_0_r, !N.mul_1_l. ring.
  Qed.
  Lemma strong_norm a n q (psi : vec) : root_half h -> is_angle a -> (q < n)%N -> norm2 (n + 1) (snd (depol_strong h a n q psi)) = norm2 n psi.
  Proof.
    intros Hh Ha Hq. unfold norm2 at 1. unfold basis. replace (N.to_nat (2 ^ (n + 1))) with (2 * N.to_nat (2 ^ n))%nat by (rewrite N.pow_add_r; change (2 ^ 1)%N with 2%N; lia). rewrite asum_grid. change (upto 2) with [0%N; 1%N]. cbn [asum].
    set (v := snd (depol_strong h a n q psi)). replace (asum (fun j => anorm (v (j + 0 * 2 ^ n)%N)) (upto (N.to_nat (2 ^ n))) + (asum (fun j => anorm (v (j + 1 * 2 ^ n)%N)) (upto (N.to_nat (2 ^ n))) + 0)) with (asum (fun j => without_last n v j j) (basis n)).
    2:{ unfold without_last. rewrite asum_add. unfold basis. replace (asum (fun j => anorm (v (j + 0 * 2 ^ n)%N)) (upto (N.to_nat (2 ^ n)))) with (asum (fun x => pure v x x) (upto (N.to_nat (2 ^ n)))). replace (asum (fun j => anorm (v (j + 1 * 2 ^ n)%N)) (upto (N.to_nat (2 ^ n)))) with (asum (fun x => pure v (x + 2 ^ n)%N (x + 2 ^ n)%N) (upto (N.to_nat (2 ^ n)))). ring.
        apply asum_ext. intros x _. now rewrite N.mul_1_l. apply asum_ext. intros x _. now rewrite N.mul_0_l, N.add_0_r. }
    transitivity (asum (fun j => h * h * ((1 + a_c a) * anorm (psi j)) + h * h * ((1 - a_c a) * anorm (pv q psi j))) (basis n)).
    { apply asum_ext. intros x Hx. apply basis_In in Hx. unfold v. rewrite strong_ok, weak_ok by auto. unfold pure. rewrite !x_gate. unfold anorm. ring. }
    rewrite asum_add, !asum_scale. fold (norm2 n psi). change (asum (fun x => anorm (pv q psi x)) (basis n)) with (norm2 n (pv q psi)). assert (NB : norm2 n (pv q psi) = norm2 n psi).
    { apply (norm_bij n (fun x => if N.testbit x q then N.clearbit x q else N.setbit x q) psi).
      - intros x Hx. destruct (N.testbit x q). now apply clearbit_lt. now apply setbit_lt.
      - assert (R : forall x, (if N.testbit x q then N.clearbit x q else N.setbit x q) = N.lxor x (2 ^ q)). { intros x. destruct (N.testbit x q) eqn:T. symmetry. now apply lxor_clear. symmetry. now apply lxor_set. }
        intros x y _ _. rewrite !R. intros E. apply (f_equal (fun z => N.lxor z (2 ^ q))) in E. now rewrite !N.lxor_assoc, N.lxor_nilpotent, !N.lxor_0_r in E. }
    rewrite NB. destruct Hh as [_ H2]. transitivity ((h * h + h * h) * norm2 n psi). ring. rewrite H2. ring.
  Qed.
  Definition plus : vec := fun _ => h.
  Lemma plus_norm : root_half h -> norm2 1 plus = 1.
  Proof. intros [Hh H2]. unfold norm2, plus. change (basis 1) with [0%N; 1%N]. cbn [asum]. unfold anorm. rewrite Hh. transitivity (h * h + h * h). ring. exact H2. Qed.
  Lemma weak_plus a : root_half h -> is_angle a -> mixture (depol_weak h true a 1 0 plus) 0 1 = h * h.
  Proof.
    intros Hh Ha. rewrite weak_ok by (auto; reflexivity). unfold pure. rewrite !x_gate. unfold pv, plus. destruct Hh as [Hh H2]. rewrite Hh. transitivity ((h * h + h * h) * (h * h)). ring. rewrite H2. ring.
  Qed.
  Lemma dep_plus a b : root_half h -> imag_unit i -> depolarized i a b 0 plus 0 1 = (a - b) * (h * h).
  Proof.
    intros [Hh H2] [I1 I2]. unfold depolarized. cbn [asum]. unfold pure. rewrite !x_gate, !y_gate, !z_gate. unfold pv, plus. rewrite !sr_conj_mul, !conj_sg, conj_opp, Hh, I2. change (sg 0 0) with (1 : K). change (sg 0 1) with (- (1) : K).
    transitivity (a * (h * h) + b * (h * h + (i * i) * (h * h) - h * h)). ring. rewrite I1. ring.
  Qed.

  (** ** QTensorNetwork *)
  Lemma tn_ok p q (psi : vec) x y : imag_unit i -> let r := p * (1 - p) in
    mixture (depol_tn i true p q psi) x y = depolarized i (1 - (r + r + r)) r q psi x y.
  Proof.
    intros [I1 I2] r. unfold r. unfold mixture, depol_tn, maybe. cbn [flat_map app asum fst snd]. unfold depolarized. cbn [asum]. unfold pure.
    change (mkMat 0 (- i) i 0) with (pauli i AxY). change (mkMat 0 1 1 0 : mat2 K) with (pauli i AxX). change (mkMat 1 0 0 (- (1)) : mat2 K) with (pauli i AxZ).
    assert (PX : forall f z, pv q (gate1 always q (pauli i AxX) f) z = f z).
    { intros f z. unfold pv. rewrite x_gate. unfold pv. f_equal. destruct (N.testbit z q) eqn:T. rewrite tclear, set_clear. now apply set_id. rewrite tset, clear_set. now apply clear_id. }
    assert (PZ : forall f z, pv q (gate1 always q (pauli i AxZ) f) z = - sg q z * pv q f z).
    { intros f z. unfold pv. rewrite z_gate. unfold sg. destruct (N.testbit z q) eqn:T. rewrite tclear. ring. rewrite tset. ring. }
    rewrite !y_gate, !PX, !x_gate, !PZ, !z_gate. rewrite !sr_conj_mul, !conj_opp, !conj_sg, I2, ?sr_conj_mul, ?conj_opp, ?conj_sg.
    set (u := psi x). set (w := pv q psi x). set (u' := sr_conj (psi y)). set (w' := sr_conj (pv q psi y)). set (s := sg q x). set (t := sg q y).
    assert (S1 : s * s = 1) by apply sg_sg. assert (T1 : t * t = 1) by apply sg_sg.
    ring [I1 S1 T1].
  Qed.
End P.
