(** QNeuron: the angles and orders of SpecNeuron.v meet the laws. *)
From Coq Require Import NArith ZArith QArith Qcanon List Bool Lia Lra Reals.
From Verif Require Import Amp PAmp AmpC AmpC2 AmpQ8 SpecState MTensor MNeuron SpecNeuron.
Import ListNotations.

(** ** Multiples of pi / 2 *)
Lemma cosZ_mod k : cosZ k = cosZ (k mod 8). Proof. unfold cosZ. now rewrite Zmod_mod. Qed.
Definition eight : list Z := [0; 1; 2; 3; 4; 5; 6; 7]%Z.
Lemma mod_eight k : In (k mod 8)%Z eight.
Proof. pose proof (Z.mod_pos_bound k 8 ltac:(lia)) as H. unfold eight. cbn. lia. Qed.
Lemma sinZ_mod k : sinZ k = sinZ (k mod 8). Proof. unfold sinZ. rewrite cosZ_mod, (cosZ_mod (k mod 8 - 2)). f_equal. now rewrite Zminus_mod_idemp_l. Qed.
Lemma each1 (p : Z -> bool) k : forallb p eight = true -> p (k mod 8)%Z = true.
Proof. intros H. rewrite forallb_forall in H. apply H, mod_eight. Qed.
Lemma each2 (p : Z -> Z -> bool) a b : forallb (fun a => forallb (p a) eight) eight = true -> p (a mod 8)%Z (b mod 8)%Z = true.
Proof. intros H. apply (each1 (p (a mod 8)%Z)). exact (each1 (fun a => forallb (p a) eight) a H). Qed.
Lemma q8_eq (x y : Q8) : sr_eqb x y = true -> x = y. Proof. apply sr_eqb_ok. Qed.
Lemma clampZ_mod a : (clampZ a mod 8 = a mod 8)%Z.
Proof.
  unfold clampZ. pose proof (Z.quot_rem' a 8) as E. assert (X : (Z.rem a 8 mod 8 = a mod 8)%Z). { rewrite E at 2. rewrite Z.add_comm, Z.mul_comm. now rewrite Z_mod_plus_full. }
  destruct (Z.leb _ _); [rewrite <- X; rewrite <- (Z_mod_plus_full (Z.rem a 8) 1 8); f_equal; lia|]. destruct (Z.ltb _ _); [|exact X]. rewrite <- X. rewrite <- (Z_mod_plus_full (Z.rem a 8) (-1) 8). reflexivity.
Qed.
Lemma trigZ alpha : trig (angZ alpha).
Proof.
  constructor; cbn [angZ a_cos a_sin a_0 a_neg a_add a_half_pi a_clamp].
  - intros a. rewrite cosZ_mod. apply q8_eq. apply (each1 (fun a => sr_eqb (sr_conj (cosZ a)) (cosZ a))). vm_compute. reflexivity.
  - intros a. rewrite sinZ_mod. apply q8_eq. apply (each1 (fun a => sr_eqb (sr_conj (sinZ a)) (sinZ a))). vm_compute. reflexivity.
  - intros a. rewrite cosZ_mod, sinZ_mod. apply q8_eq. apply (each1 (fun a => sr_eqb (cosZ a * cosZ a + sinZ a * sinZ a)%amp (1 : Q8)%amp)). vm_compute. reflexivity.
  - reflexivity.
  - reflexivity.
  - intros a. rewrite cosZ_mod, (cosZ_mod a). assert (E : ((- a) mod 8 = (- (a mod 8)) mod 8)%Z) by (rewrite <- (Z.sub_0_l a), <- (Z.sub_0_l (a mod 8)); now rewrite Zminus_mod_idemp_r). rewrite E, <- cosZ_mod. apply q8_eq. apply (each1 (fun a => sr_eqb (cosZ (- a)) (cosZ a))). vm_compute. reflexivity.
  - intros a. rewrite sinZ_mod, (sinZ_mod a). assert (E : ((- a) mod 8 = (- (a mod 8)) mod 8)%Z) by (rewrite <- (Z.sub_0_l a), <- (Z.sub_0_l (a mod 8)); now rewrite Zminus_mod_idemp_r). rewrite E, <- sinZ_mod. apply q8_eq. apply (each1 (fun a => sr_eqb (sinZ (- a)) (- sinZ a)%amp)). vm_compute. reflexivity.
  - intros a b. rewrite cosZ_mod, (cosZ_mod a), (cosZ_mod b), (sinZ_mod a), (sinZ_mod b). rewrite Zplus_mod, <- cosZ_mod. apply q8_eq. apply (each2 (fun a b => sr_eqb (cosZ (a + b)) (cosZ a * cosZ b - sinZ a * sinZ b)%amp)). vm_compute. reflexivity.
  - intros a b. rewrite sinZ_mod, (cosZ_mod a), (cosZ_mod b), (sinZ_mod a), (sinZ_mod b). rewrite Zplus_mod, <- sinZ_mod. apply q8_eq. apply (each2 (fun a b => sr_eqb (sinZ (a + b)) (sinZ a * cosZ b + cosZ a * sinZ b)%amp)). vm_compute. reflexivity.
  - reflexivity.
  - intros a. now rewrite cosZ_mod, clampZ_mod, <- cosZ_mod.
  - intros a. now rewrite sinZ_mod, clampZ_mod, <- sinZ_mod.
Qed.
Lemma lebQ8_le x y : lebQ8 x y = true <-> (fst (fst x) <= fst (fst y))%Qc.
Proof. unfold lebQ8. rewrite Qcle_alt. destruct (Qccompare _ _); split; congruence. Qed.
Lemma orderQ8 tol nrm : order_ok (ncQ8 tol nrm).
Proof.
  constructor; cbn [ncQ8 nc_leb].
  - intros x. apply lebQ8_le, Qcle_refl.
  - intros x y z. rewrite !lebQ8_le. apply Qcle_trans.
  - intros x y H. apply lebQ8_le. destruct (Qclt_le_dec (fst (fst x)) (fst (fst y))) as [L|L]; [|exact L]. apply Qclt_le_weak in L. apply lebQ8_le in L. congruence.
  - intros x y. apply eq_true_iff_eq. rewrite !lebQ8_le. cbn. rewrite (Qcle_minus_iff (1 - _)), (Qcle_minus_iff (fst (fst y))). replace (1 - fst (fst y) + - (1 - fst (fst x)))%Qc with (fst (fst x) + - fst (fst y))%Qc by ring. reflexivity.
Qed.

(** ** Real angles *)
Local Open Scope R_scope.
Lemma cos_periodZ x k : cos (x + 2 * IZR k * PI) = cos x.
Proof.
  destruct (Z_le_gt_dec 0 k) as [H|H].
  - rewrite <- (Z2Nat.id k H), <- INR_IZR_INZ. apply cos_period.
  - rewrite <- (cos_period _ (Z.to_nat (- k))). f_equal. rewrite INR_IZR_INZ, Z2Nat.id by lia. rewrite opp_IZR. ring.
Qed.
Lemma sin_periodZ x k : sin (x + 2 * IZR k * PI) = sin x.
Proof.
  destruct (Z_le_gt_dec 0 k) as [H|H].
  - rewrite <- (Z2Nat.id k H), <- INR_IZR_INZ. apply sin_period.
  - rewrite <- (sin_period _ (Z.to_nat (- k))). f_equal. rewrite INR_IZR_INZ, Z2Nat.id by lia. rewrite opp_IZR. ring.
Qed.
Lemma clampR_is a : exists k : Z, clampR a / 2 = a / 2 + 2 * IZR k * PI.
Proof.
  unfold clampR. set (t := truncR _). destruct (Rle_dec _ _); [exists (- t + 1)%Z|destruct (Rlt_dec _ _); [exists (- t - 1)%Z|exists (- t)%Z]];
    rewrite ?minus_IZR, ?plus_IZR, opp_IZR; field.
Qed.
Lemma trigR gelu pow alpha : trig (angR gelu pow alpha).
Proof.
  assert (P0 : forall x y : R * R, fst x = fst y -> snd x = snd y -> x = y) by (intros [] []; cbn; intros; congruence).
  constructor; cbn [angR a_cos a_sin a_0 a_neg a_add a_half_pi a_clamp]; intros; apply P0; cbn; try ring.
  - pose proof (sin2_cos2 (a / 2)) as H. unfold Rsqr in H. lra.
  - replace (0 / 2) with 0 by field. apply cos_0.
  - replace (0 / 2) with 0 by field. apply sin_0.
  - replace (- a / 2) with (- (a / 2)) by field. apply cos_neg.
  - replace (- a / 2) with (- (a / 2)) by field. apply sin_neg.
  - replace ((a + b) / 2) with (a / 2 + b / 2) by field. rewrite cos_plus. ring.
  - replace ((a + b) / 2) with (a / 2 + b / 2) by field. rewrite sin_plus. ring.
  - replace (PI / 2 / 2) with (PI / 4) by field. now rewrite cos_PI4, sin_PI4.
  - destruct (clampR_is a) as [k ->]. apply cos_periodZ.
  - destruct (clampR_is a) as [k ->]. apply sin_periodZ.
Qed.
Lemma orderCC rnd nrm tol : order_ok (ncCC rnd nrm tol).
Proof.
  constructor; cbn [ncCC nc_leb]; intros; repeat destruct (Rle_dec _ _); cbn in *; try reflexivity; try discriminate; lra.
Qed.
