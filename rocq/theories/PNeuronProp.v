(** QNeuron; proofs of PropNeuron.v. *)
From Coq Require Import NArith ZArith List Bool Lia Ring Reals Lra.
From Verif Require Import Bits Amp PAmp AmpC AmpC2 AmpQ8 SpecState PLoop PGates2 PProb PQCirc1 PEngine2 PStab6 PUnitBug MTensor MNeuron SpecNeuron PNeuron1 PNeuron2 PNeuron3 PNeuron4 PNeuronI.
Import ListNotations.
Local Open Scope N_scope.

Section Pre.
  Context {K : StarRing} (G : angles K) (c : @ncfg K) (n : N).
  Add Ring KrDX : (sr_ring K).
  Lemma weights_all (g : N -> N) k (psi : N -> K) : (forall x, g x < 2 ^ k) -> asum (fun v => weight_of n (fun x => g x =? v) psi) (upto (N.to_nat (2 ^ k))) = norm2 n psi.
  Proof.
    intros Hg. unfold weight_of, norm2. rewrite asum_swap. apply asum_ext. intros x _. change (upto (N.to_nat (2 ^ k))) with (basis k).
    rewrite (asum_one _ (basis k) (g x) (basis_NoDup k) (proj2 (basis_In k (g x)) (Hg x))); [now rewrite N.eqb_refl|]. intros b _ NE. destruct (N.eqb_spec (g x) b); congruence.
  Qed.
  Lemma predicted_new ins out f psi : trig G -> act G f (a_0 G) = a_0 G -> predicted G n (new_neuron G ins out f) psi = (half G * norm2 n psi)%amp.
  Proof.
    intros TR Z. unfold predicted. cbn [nr_in new_neuron]. rewrite <- (weights_all (ctrl_value 0 ins) (N.of_nat (length ins))) by (intros; apply ctrl_lt). rewrite <- asum_scale. apply asum_ext. intros v _.
    unfold total_angle, angle_at, new_neuron. cbn [nr_ang nr_fn]. rewrite nth_repeat_any, Z, (start_angle G TR). ring.
  Qed.
  Lemma perm_ok e step r x d : trig G -> (1 <> 0 :> K)%amp -> nc_nrm c 1%amp = 1%amp -> order_ok c -> sound G n r -> clamp_ok G (nr_fn G r) -> x < 2 ^ n ->
    let '(p, _, _) := predict G c n e true r (ket x) d in let '(r', psi', d') := learn_permutation G c n step e true r (ket x) d in let '(p', _, _) := predict G c n e false r' psi' d' in nc_leb c p p' = true.
  Proof.
    intros TR NT HN OR S CK Hx. pose proof S as (S1 & S2 & S3 & S4). assert (Ht : nr_out G r < n) by (apply S2; now left). destruct (reset_ket G c n NT HN (nr_out G r) x d Ht Hx) as (psi & ER & F).
    pose proof (unpredict_back G n TR e r psi S) as U. destruct (unpredict G n e r (rotate G (act G (nr_fn G r)) r psi)) as [q phi0] eqn:EU. destruct U as [_ U].
    assert (F0 : form G n (nr_out G r) (N.clearbit x (nr_out G r)) phi0) by (apply (form_ext G n _ _ psi phi0 F); intros; apply U).
    assert (PP : predict G c n e true r (ket x) d = (pr G n e r psi, rotate G (act G (nr_fn G r)) r psi, d)) by (rewrite predict_reset, ER; reflexivity).
    unfold learn_permutation. rewrite PP, EU. destruct (close c (pr G n e r psi)) eqn:CL.
    - rewrite predict_is. rewrite (pr_ext G n e r phi0 psi U). apply (or_refl c OR).
    - destruct (measures G c n TR NT HN (nr_out G r) (N.clearbit x (nr_out G r)) Ht (nr_in G r) 0 0 phi0 d F0) as (phi1 & -> & F1); [now inversion S1|reflexivity|]. rewrite N.add_0_l.
      pose proof (ctrl_lt (nr_in G r) (N.clearbit x (nr_out G r))) as Lv.
      destruct (internal_ok G c n TR OR e step (ctrl_value 0 (nr_in G r) (N.clearbit x (nr_out G r))) r phi1 (pr G n e r psi) d S ltac:(lia) CK) as (o & r' & phi & -> & E1 & LK & B & _).
      + now rewrite (pr_form G n TR e r _ psi S F), (pr_form G n TR e r _ phi1 S F1).
      + exact CL.
      + rewrite predict_is. now rewrite (pr_ext G n e r' phi phi1 E1).
  Qed.
End Pre.
(** ** Concrete neurons *)
(** pi / 2 * 6 with alpha 3; 2 pi; no inputs, output 0. *)
Definition leaky6 : neuron (angZ 3) := mkNr (angZ 3) [] 0 Leaky_ReLU 1 [6%Z].
Definition relu (k : Z) : neuron (angZ 3) := mkNr (angZ 3) [] 0 ReLU 1 [k].
(** Inputs 0 and 1, output 2; the value 0 of the inputs gives 1, the others give 0. *)
Definition four : neuron (angZ 1) := mkNr (angZ 1) [0; 1] 2 Sigmoid 4 [1; -1; -1; -1]%Z.
Definition quarter_state : N -> Q8 := fun x => if x <? 4 then (z_h * z_h)%amp else 0%amp.
Definition nrmQ8 (p : Q8) : Q8 := if sr_eqb p (z_h * z_h)%amp then (z_h + z_h)%amp else p.
Definition sinR_half : R := (/ 2)%R.
Lemma leaky_sound : sound (angZ 3) 1 leaky6.
Proof. split; [repeat constructor; intros []|]. split; [intros q [<-|[]]; reflexivity|]. split; [reflexivity|discriminate]. Qed.
Lemma four_sound : sound (angZ 1) 3 four.
Proof. split; [repeat constructor; cbn; intuition discriminate|]. split; [intros q [<-|[<-|[<-|[]]]]; reflexivity|]. split; [reflexivity|discriminate]. Qed.

Lemma l_c149_unpredict : forall (K : StarRing) (G : angles K) (c : @ncfg K) n, trig G -> forall e e2 (b : bool) r psi d, sound G n r -> let psi0 := if b then fst (reset_out G c n (nr_out G r) d psi) else psi in let '(p, psi1, d1) := predict G c n e b r psi d in let '(p2, psi2) := unpredict G n e2 r psi1 in (forall x, psi2 x = psi0 x) /\ p2 = for_expected e2 (weight_of n (fun x => N.testbit x (nr_out G r)) psi0).
Proof. intros K G c n TR e e2 b r psi d S. destruct b; cbv zeta; [rewrite predict_reset|]; rewrite predict_is; [set (psi0 := fst _)|set (psi0 := psi)]; pose proof (unpredict_back G n TR e2 r psi0 S) as U; destruct (unpredict G n e2 r _) as [p phi]; destruct U as [U1 U2]; (split; [exact U2|exact U1]). Qed.

Lemma l_c149_cycle : forall (K : StarRing) (G : angles K) (c : @ncfg K) n, trig G -> forall e r psi d, sound G n r -> let '(p, psi1, d1) := learn_cycle G c n e r psi d in (forall x, psi1 x = psi x) /\ p = fst (fst (predict G c n e false r psi d)) /\ d1 = d.
Proof. intros K G c n TR e r psi d S. destruct (cycle_is G c n TR e r psi d S) as (phi & -> & E). split; [exact E|]. split; reflexivity. Qed.

Lemma l_c150_predict : forall (K : StarRing) (G : angles K) (c : @ncfg K) n, trig G -> (1 <> 0 :> K)%amp -> nc_nrm c 1%amp = 1%amp -> forall e r psi d, sound G n r -> (forall x, x < 2 ^ n -> N.testbit x (nr_out G r) = true -> psi x = 0%amp) -> let '(p, psi1, d1) := predict G c n e true r psi d in p = for_expected e (predicted G n r psi) /\ eqv n psi1 (predicted_state G r psi).
Proof. intros K G c n TR NT HN e r psi d S Z. destruct (predict_zero G c n TR e r d psi S HN NT Z) as (phi & -> & E). split; [reflexivity|exact E]. Qed.

Lemma l_c150_untrained : forall (K : StarRing) (G : angles K) (c : @ncfg K) n, trig G -> (1 <> 0 :> K)%amp -> nc_nrm c 1%amp = 1%amp -> forall e ins out f psi d, NoDup (out :: ins) -> (forall q, In q (out :: ins) -> q < n) -> act G f (a_0 G) = a_0 G -> norm2 n psi = 1%amp -> (forall x, x < 2 ^ n -> N.testbit x out = true -> psi x = 0%amp) -> let p := fst (fst (predict G c n e true (new_neuron G ins out f) psi d)) in (p + p = 1)%amp.
Proof. intros K G c n TR NT HN e ins o f psi d ND HL Z H1 HZ. destruct (predict_zero G c n TR e (new_neuron G ins o f) d psi (new_sound G n ins o f ND HL) HN NT HZ) as (phi & -> & E). cbn [fst]. rewrite (predicted_new G n ins o f psi TR Z), H1. replace (half G * 1)%amp with (half G). { rewrite (half_exp G TR). apply (hs2 G TR). } destruct (sr_ring K). rewrite Rmul_comm. symmetry. apply Rmul_1_l. Qed.

Lemma l_c151_learn_partial : forall (K : StarRing) (G : angles K) (c : @ncfg K) n, trig G -> order_ok c -> forall step e (b : bool) r psi d, sound G n r -> (forall a, let f := nr_fn G r in a_cos G (act G f (a_clamp G a)) = a_cos G (act G f a) /\ a_sin G (act G f (a_clamp G a)) = a_sin G (act G f a)) -> let '(p, _, _) := predict G c n e b r psi d in let '(r2, psi2, d2) := learn G c n step e b r psi d in let '(p2, _, _) := predict G c n e false r2 psi2 d2 in nc_leb c p p2 = true /\ (forall x, psi2 x = (if b then fst (reset_out G c n (nr_out G r) d psi) else psi) x).
Proof. intros K G c n TR OR step e b r psi d S CK. destruct b; [rewrite predict_reset, learn_reset; set (psi0 := fst _); set (d0 := snd _)|set (psi0 := psi); set (d0 := d)]; rewrite predict_is;
  destruct (learn_ok G c n TR OR e step r psi0 d0 S CK) as (r2 & phi & -> & E & LK & B); rewrite predict_is; (split; [|exact E]); now rewrite (pr_ext G n e r2 phi psi0 E). Qed.

Lemma l_c151_sigmoid_partial : forall (K : StarRing) (G : angles K) (c : @ncfg K) n, trig G -> order_ok c -> forall step e (b : bool) r psi d, sound G n r -> nr_fn G r = Sigmoid -> let '(p, _, _) := predict G c n e b r psi d in let '(r2, psi2, d2) := learn G c n step e b r psi d in let '(p2, _, _) := predict G c n e false r2 psi2 d2 in nc_leb c p p2 = true.
Proof. intros K G c n TR OR step e b r psi d S FN. assert (CK : forall a, let f := nr_fn G r in a_cos G (act G f (a_clamp G a)) = a_cos G (act G f a) /\ a_sin G (act G f (a_clamp G a)) = a_sin G (act G f a)) by (intros a; cbv zeta; rewrite FN; exact (clamp_sigmoid G TR a)).
  pose proof (l_c151_learn_partial K G c n TR OR step e b r psi d S CK) as H. destruct (predict G c n e b r psi d) as [[p x1] x2]. destruct (learn G c n step e b r psi d) as [[r2 psi2] d2]. destruct (predict G c n e false r2 psi2 d2) as [[p2 x3] x4]. apply H. Qed.

Lemma l_c151_clamp_refuted : let c := ncQ8 0%amp nrmQ8 in let value r := fst (fst (predict (angZ 3) c 1 true true r (ket 0) 0)) in let learned r := fst (fst (learn (angZ 3) c 1 1%Z true true r (ket 0) 0)) in trig (angZ 3) /\ order_ok c /\ sound (angZ 3) 1 leaky6 /\ value leaky6 = (z_h * z_h)%amp /\ value (learned leaky6) = 0%amp /\ value (relu 4) = (z_h * z_h)%amp /\ value (relu 5) = 1%amp /\ (nr_ang (angZ 3) (learned (relu 4)) : list Z) = [-3]%Z /\ value (relu (-3)) = (z_h * z_h)%amp /\ (nr_ang (angZ 3) (learned (relu (-3))) : list Z) = [-3]%Z.
Proof. cbv zeta. split; [exact (trigZ 3)|]. split; [apply orderQ8|]. split; [exact leaky_sound|]. split; [apply sr_eqb_ok; vm_compute; reflexivity|]. split; [apply sr_eqb_ok; vm_compute; reflexivity|]. split; [apply sr_eqb_ok; vm_compute; reflexivity|]. split; [apply sr_eqb_ok; vm_compute; reflexivity|]. split; [vm_compute; reflexivity|]. split; [apply sr_eqb_ok; vm_compute; reflexivity|vm_compute; reflexivity]. Qed.

Lemma l_c152_basis_partial : forall (K : StarRing) (G : angles K) (c : @ncfg K) n, trig G -> (1 <> 0 :> K)%amp -> nc_nrm c 1%amp = 1%amp -> order_ok c -> forall step e r x d, sound G n r -> nr_fn G r = Sigmoid -> x < 2 ^ n -> let '(p, _, _) := predict G c n e true r (ket x) d in let '(r2, psi2, d2) := learn_permutation G c n step e true r (ket x) d in let '(p2, _, _) := predict G c n e false r2 psi2 d2 in nc_leb c p p2 = true.
Proof. intros K G c n TR NT HN OR step e r x d S FN Hx. apply perm_ok; auto. rewrite FN. exact (clamp_sigmoid G TR). Qed.

Lemma l_c152_superposition_refuted : let G := angZ 1 in let c := ncQ8 0%amp nrmQ8 in let value r := fst (fst (predict G c 3 true true r (ket 0) 0)) in let r2 := fst (fst (learn_permutation G c 3 1%Z true true four quarter_state 0)) in trig G /\ order_ok c /\ sound G 3 four /\ norm2 3 quarter_state = 1%amp /\ value four = 1%amp /\ value r2 = (z_h * z_h)%amp.
Proof. cbv zeta. split; [exact (trigZ 1)|]. split; [apply orderQ8|]. split; [exact four_sound|]. split; [apply sr_eqb_ok; vm_compute; reflexivity|]. split; apply sr_eqb_ok; vm_compute; reflexivity. Qed.

Lemma l_c153_training : forall (K : StarRing) (G : angles K) (c : @ncfg K) n, trig G -> (1 <> 0 :> K)%amp -> nc_nrm c 1%amp = 1%amp -> (forall x, nc_leb c x x = true) -> let half := (a_sin G (a_half_pi G) * a_sin G (a_half_pi G))%amp in nc_leb c 0%amp (nc_tol c) = true -> nc_leb c half (nc_tol c) = false -> nc_leb c 1%amp (nc_tol c) = false -> forall ins out perm f xs d, NoDup (out :: ins) -> (forall q, In q (out :: ins) -> q < n) -> (forall x, In x xs -> x < 2 ^ n) -> let r := train G c n perm f xs (new_neuron G ins out Sigmoid) d in (half + half = 1)%amp /\ forall e x d2, x < 2 ^ n -> let v := ctrl_value 0 ins x in fst (fst (predict G c n e true r (ket x) d2)) = for_expected e (if existsb (N.eqb v) (map (ctrl_value 0 ins) xs) then if f v then 1 else 0 else half)%amp.
Proof. intros K G c n TR NT HN RF h T0 TH T1 ins o perm f xs d ND HL HX r. split; [exact (hs2 G TR)|]. intros e x d2 Hx v.
  assert (A1 : close c 1%amp = true). { unfold close. replace (1 - 1)%amp with (0 : K)%amp; [exact T0|]. destruct (sr_ring K). now rewrite Rsub_def, Ropp_def. }
  assert (A0 : close c 0%amp = false). { unfold close. replace (1 - 0)%amp with (1 : K)%amp; [exact T1|]. destruct (sr_ring K). rewrite Rsub_def. rewrite <- (Radd_0_l (- (0)))%amp, Ropp_def, Radd_comm, Radd_0_l. reflexivity. }
  assert (AH : close c (PNeuron3.half G) = false). { unfold close. pose proof (half_exp G TR false) as E. cbn [for_expected] in E. rewrite E. exact TH. }
  pose proof (new_sound G n ins o Sigmoid ND HL) as S. destruct (train_ok G c n TR NT HN RF A1 A0 AH perm f xs [] (new_neuron G ins o Sigmoid) d eq_refl S (new_knows G ins o Sigmoid f) HX) as [LK KN]. fold r in LK, KN.
  pose proof LK as (L1 & L2 & L3 & L4 & L5). rewrite (knows_predict G c n TR NT HN r f _ e x d2 L3 (like_sound G n _ _ LK S) KN Hx). rewrite L1. cbn [nr_in new_neuron]. cbv zeta. fold v. f_equal.
  replace (existsb (N.eqb v) (rev (map (ctrl_value 0 ins) xs) ++ [])) with (existsb (N.eqb v) (map (ctrl_value 0 ins) xs)); [reflexivity|].
  apply eq_true_iff_eq. rewrite !existsb_exists. split; intros (w & W1 & W2); exists w; (split; [|exact W2]); rewrite app_nil_r, <- in_rev in *; exact W1. Qed.

Lemma l_c154_copies_partial : forall (K : StarRing) (G : angles K) n r, sound G n r -> nr_pow G r = 2 ^ N.of_nat (length (nr_in G r)) -> copy_neuron G r = Ret r /\ forall r2, sound G n r2 -> nr_pow G r2 = nr_pow G r -> assign G r2 r = Ret r.
Proof. intros K G n r (S1 & S2 & S3 & S4) E. assert (Z : forall (l : list (ang G)), (length l <= N.to_nat (nr_pow G r))%nat -> firstn (N.to_nat (nr_pow G r)) (nr_ang G r) ++ skipn (N.to_nat (nr_pow G r)) l = nr_ang G r) by (intros l Hl; rewrite firstn_all2, skipn_all2, app_nil_r by lia; reflexivity).
  split.
  - unfold copy_neuron. cbn [nr_pow new_neuron nr_ang]. rewrite <- E. rewrite N.ltb_irrefl. f_equal. rewrite Z by (rewrite repeat_length; lia). unfold set_angles, new_neuron. cbn. rewrite <- E. now destruct r.
  - intros r2 (_ & _ & S3' & _) E2. unfold assign. destruct (N.ltb_spec (N.of_nat (length (nr_ang G r2))) (nr_pow G r)) as [L|L]; [lia|]. f_equal. rewrite Z by lia. rewrite E2. now destruct r. Qed.

Lemma l_c154_larger_refuted : forall (K : StarRing) (G : angles K) ins out f ins2 out2 f2, (length ins < length ins2)%nat -> assign G (new_neuron G ins out f) (new_neuron G ins2 out2 f2) = Undef.
Proof. intros K G ins o f ins2 o2 f2 L. unfold assign. cbn [nr_ang nr_pow new_neuron]. rewrite repeat_length. destruct (N.ltb_spec (N.of_nat (N.to_nat (2 ^ N.of_nat (length ins)))) (2 ^ N.of_nat (length ins2))) as [H|H]; [reflexivity|]. rewrite N2Nat.id in H. assert (2 ^ N.of_nat (length ins) < 2 ^ N.of_nat (length ins2)) by (apply N.pow_lt_mono_r; lia). lia. Qed.

Lemma l_c154_smaller_refuted : forall (K : StarRing) (G : angles K) ins out f ins2 out2 f2, (length ins2 < length ins)%nat -> exists r, assign G (new_neuron G ins out f) (new_neuron G ins2 out2 f2) = Ret r /\ nr_in G r = ins2 /\ nr_pow G r <> 2 ^ N.of_nat (length (nr_in G r)) /\ copy_neuron G r = Undef.
Proof. intros K G ins o f ins2 o2 f2 L. assert (H : 2 ^ N.of_nat (length ins2) < 2 ^ N.of_nat (length ins)) by (apply N.pow_lt_mono_r; lia). unfold assign. cbn [nr_ang nr_pow new_neuron nr_in nr_out nr_fn]. rewrite repeat_length, N2Nat.id. destruct (N.ltb_spec (2 ^ N.of_nat (length ins)) (2 ^ N.of_nat (length ins2))) as [B|B]; [lia|]. eexists. split; [reflexivity|]. split; [reflexivity|]. cbn [nr_pow nr_in]. split; [lia|]. unfold copy_neuron. cbn [nr_pow nr_in new_neuron]. destruct (N.ltb_spec (2 ^ N.of_nat (length ins2)) (2 ^ N.of_nat (length ins))) as [B2|B2]; [reflexivity|lia]. Qed.
