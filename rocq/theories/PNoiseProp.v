(** Depolarizing channels; proofs of PropNoise.v. *)
From Coq Require Import NArith Arith List Bool Lia Ring.
From Verif Require Import Amp PAmp SpecState MRot SpecRot MNoise SpecNoise PNoise.
Import ListNotations.
Local Open Scope N_scope.

Section N0.
  Context {K : StarRing}.
  Add Ring KrFB : (sr_ring K).
  Local Open Scope amp_scope.
  Lemma twice (h u : K) : root_half h -> h * h * u + h * h * u = u.
  Proof. intros [_ H]. transitivity ((h * h + h * h) * u). ring. rewrite H. ring. Qed.
  Lemma plus_differs (h b : K) : root_half h -> h * h = ((1 - (b + b + b)) - b) * (h * h) -> b + b + b + b = 0.
  Proof.
    intros [_ H] E. assert (Z : (b + b + b + b) * (h * h) = 0). { transitivity (h * h - ((1 - (b + b + b)) - b) * (h * h)). ring. rewrite <- E. ring. }
    transitivity ((b + b + b + b) * (h * h + h * h)). rewrite H. ring. transitivity ((b + b + b + b) * (h * h) + (b + b + b + b) * (h * h)). ring. rewrite Z. ring.
  Qed.
  Lemma square_differs (p : K) : p * (1 - p) = p -> p * p = 0.
  Proof. intros E. transitivity (p - p * (1 - p)). ring. rewrite E. ring. Qed.
  Lemma mix_one (psi : N -> K) x y : mixture [(1, psi)] x y = pure psi x y.
  Proof. unfold mixture. cbn [asum fst snd]. ring. Qed.
  (** On |0>: the probability of 1 is twice the coefficient. *)
  Lemma dep_zero (i a b : K) : imag_unit i -> depolarized i a b 0 (ket 0) 1 1 = b + b.
  Proof.
    intros [I1 I2]. unfold depolarized. cbn [asum]. unfold pure. rewrite !x_gate, !y_gate, !z_gate. unfold pv, ket. change (sg 0 1) with (- (1) : K). cbn. rewrite !sr_conj_mul, !conj_opp, conj_1, conj_0, I2.
    ring [I1].
  Qed.
End N0.

Lemma l_c183_channel_partial : forall (K : StarRing) (i h : K) (a : ang K) n q (psi : N -> K) x y, root_half h -> is_angle a -> x < 2 ^ n -> y < 2 ^ n -> q < n ->
  let rho := mixture (depol_weak h true a n q psi) x y in
  (rho + rho = (1 + a_c a) * pure psi x y + (1 - a_c a) * pure (gate1 always q (pauli i AxX) psi) x y)%amp /\ mixture (depol_weak h false a n q psi) x y = pure psi x y.
Proof. intros K i h a n q psi x y Hh Ha Hx Hy Hq rho. split; [|apply mix_one]. unfold rho. rewrite (weak_ok i h) by auto. now apply twice. Qed.

Lemma l_c183_depolarizing_refuted : forall (K : StarRing) (i h : K) (a : ang K) (b : K), root_half h -> imag_unit i -> is_angle a -> (b + b + b + b)%amp <> 0%amp ->
  exists psi : N -> K, norm2 1 psi = 1%amp /\ mixture (depol_weak h true a 1 0 psi) 0 1 = pure psi 0 1 /\
    mixture (depol_weak h true a 1 0 psi) 0 1 <> depolarized i (1 - (b + b + b))%amp b 0 psi 0 1.
Proof. intros K i h a b Hh Hi Ha Hb. exists (plus h). split. now apply plus_norm. rewrite (weak_plus i h a Hh Ha). split. { unfold pure, plus. destruct Hh as [-> _]. reflexivity. } rewrite dep_plus by auto. intros E. apply Hb. now apply (plus_differs h). Qed.

Lemma l_c184_strong : forall (K : StarRing) (h : K) (a : ang K) n q (psi : N -> K), root_half h -> is_angle a -> q < n ->
  let r := depol_strong h a n q psi in fst r = n /\ norm2 (n + 1) (snd r) = norm2 n psi /\
  forall x y, x < 2 ^ n -> y < 2 ^ n -> without_last n (snd r) x y = mixture (depol_weak h true a n q psi) x y.
Proof. intros K h a n q psi Hh Ha Hq r. split. reflexivity. split. apply (strong_norm 0%amp); auto. intros x y Hx Hy. now apply strong_ok. Qed.

Lemma l_c185_channel_partial : forall (K : StarRing) (i p : K) q (psi : N -> K) x y, imag_unit i ->
  let r := (p * (1 - p))%amp in mixture (depol_tn i true p q psi) x y = depolarized i (1 - (r + r + r))%amp r q psi x y /\ mixture (depol_tn i false p q psi) x y = pure psi x y.
Proof. intros K i p q psi x y Hi r. split. now apply tn_ok. apply mix_one. Qed.

Lemma l_c185_strength_refuted : forall (K : StarRing) (i p : K), imag_unit i -> (forall u v : K, u + u = v + v -> u = v)%amp -> (p * p)%amp <> 0%amp ->
  mixture (depol_tn i true p 0 (ket 0)) 1 1 <> depolarized i (1 - (p + p + p))%amp p 0 (ket 0) 1 1.
Proof. intros K i p Hi H2 Hp E. apply Hp. apply square_differs. apply H2. rewrite tn_ok in E by auto. rewrite !dep_zero in E by auto. exact E. Qed.
