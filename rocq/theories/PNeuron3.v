(** QNeuron: training on basis states. *)
From Coq Require Import NArith List Bool Lia Ring.
From Verif Require Import Amp PAmp SpecState PLoop PGates2 PProb PQCirc1 PCircuit8 PEngine2 Bits MTensor PApi2 MNeuron SpecNeuron PNeuron1 PNeuron2.
Import ListNotations.
Local Open Scope N_scope.

Section P.
  Context {K : StarRing} (G : angles K) (c : @ncfg K) (n : N).
  Hypothesis TR : trig G.
  Hypothesis NT : (1 <> 0 :> K)%amp.
  Hypothesis HN : nc_nrm c 1%amp = 1%amp.
  Add Ring KrDV : (sr_ring K).
  Local Notation vec := (N -> K).
  Local Notation neuron := (neuron G).
  Local Notation pr := (pr G n).
  Local Notation hs := (a_sin G (a_half_pi G)).
  Local Notation hc := (a_cos G (a_half_pi G)).

  (** The state with output qubit (|0> + |1>) / sqrt 2 and the other qubits as in [x]. *)
  Definition form (t x : N) (psi : vec) : Prop := x < 2 ^ n /\ N.testbit x t = false /\ forall y, y < 2 ^ n -> psi y = ((if N.testbit y t then hs else hc) * ket x (N.clearbit y t))%amp.
  Lemma clear_lt y t : y < 2 ^ n -> N.clearbit y t < 2 ^ n.
  Proof. intros H. apply lt_pow2_bits. intros k Hk. rewrite N.clearbit_eqb, (tb_high y n k H Hk). reflexivity. Qed.
  Lemma set_lt y t : t < n -> y < 2 ^ n -> N.setbit y t < 2 ^ n.
  Proof. intros Ht H. apply lt_pow2_bits. intros k Hk. rewrite N.setbit_eqb, (tb_high y n k H Hk). destruct (N.eqb_spec t k); [lia|reflexivity]. Qed.
  Lemma prob_ket x q : x < 2 ^ n -> prob1 n q (ket x : vec) = if N.testbit x q then 1%amp else 0%amp.
  Proof. intros H. unfold prob1. now rewrite weight_ket. Qed.
  Lemma eqb_no (a b : K) : a <> b -> sr_eqb a b = false.
  Proof. intros H. destruct (sr_eqb a b) eqn:E; [|reflexivity]. apply sr_eqb_ok in E. contradiction. Qed.
  Lemma eqb_yes (a : K) : sr_eqb a a = true. Proof. now apply sr_eqb_ok. Qed.
  Lemma measure_sure q d (psi : vec) (b : bool) : prob1 n q psi = (if b then 1 else 0)%amp -> (forall y, y < 2 ^ n -> N.testbit y q <> b -> psi y = 0%amp) ->
    exists phi, measure c n q d psi = (b, phi, d) /\ forall y, y < 2 ^ n -> phi y = psi y.
  Proof.
    intros P Z. unfold measure. rewrite P. assert (N0 : (0 : K)%amp <> 1%amp) by (intros E; now elim NT).
    destruct b.
    - rewrite eqb_yes. eexists. split; [reflexivity|]. intros y Hy. rewrite HN. destruct (N.testbit y q) eqn:B; cbn [eqb]; [ring|]. rewrite Z; auto. congruence.
    - rewrite (eqb_no _ _ N0), eqb_yes. eexists. split; [reflexivity|]. intros y Hy. replace (1 - 0)%amp with (1 : K)%amp by ring. rewrite HN. destruct (N.testbit y q) eqn:B; cbn [eqb]; [|ring]. rewrite Z; auto. congruence.
  Qed.
  Lemma ket_bit (x y q : N) (b : bool) : N.testbit x q = b -> N.testbit y q <> b -> ket x y = (0 : K)%amp.
  Proof. intros H1 H2. unfold ket. destruct (N.eqb_spec y x) as [->|]; [congruence|reflexivity]. Qed.
  Lemma reset_ket t x d : t < n -> x < 2 ^ n -> exists phi, reset_out G c n t d (ket x) = (phi, d) /\ form t (N.clearbit x t) phi.
  Proof.
    intros Ht Hx. unfold reset_out. destruct (measure_sure t d (ket x) (N.testbit x t)) as (phi & -> & E).
    { now rewrite prob_ket. } { intros y Hy B. exact (ket_bit x y t _ eq_refl B). }
    eexists. split; [reflexivity|]. split; [now apply clear_lt|]. split; [apply N.clearbit_eq|].
    set (chi := if N.testbit x t then gate1 always t (mkMat 0 1 1 0)%amp phi else phi).
    assert (X : forall y, y < 2 ^ n -> chi y = ket (N.clearbit x t) y).
    { intros y Hy. unfold chi. destruct (N.testbit x t) eqn:B.
      - unfold gate1, always. cbn [m00 m01 m10 m11]. rewrite !E by (try apply clear_lt; try apply set_lt; assumption). destruct (N.testbit y t) eqn:By.
        + transitivity (ket x (N.clearbit y t) : K); [ring|]. rewrite (ket_bit x (N.clearbit y t) t true B) by (rewrite N.clearbit_eq; discriminate). symmetry. apply (ket_bit _ _ t false); [apply N.clearbit_eq|congruence].
        + transitivity (ket x (N.setbit y t) : K); [ring|]. unfold ket. destruct (N.eqb_spec (N.setbit y t) x) as [E3|NE], (N.eqb_spec y (N.clearbit x t)) as [E4|NE2]; try reflexivity.
          * elim NE2. rewrite <- E3. now rewrite clear_set.
          * elim NE. rewrite E4. now apply set_clear.
      - rewrite E by exact Hy. f_equal. apply N.bits_inj. intros k. rewrite N.clearbit_eqb. destruct (N.eqb_spec t k) as [<-|]; cbn [negb]; [now rewrite B|now rewrite andb_true_r]. }
    intros y Hy. unfold ry, gate1, always, ry_mat. cbn [m00 m01 m10 m11]. rewrite !X by (try apply clear_lt; try apply set_lt; assumption). destruct (N.testbit y t) eqn:By.
    - rewrite (ket_bit (N.clearbit x t) y t false) by (try apply N.clearbit_eq; congruence). ring.
    - rewrite (ket_bit (N.clearbit x t) (N.setbit y t) t false) by (try apply N.clearbit_eq; rewrite N.setbit_eq; discriminate).
      replace (N.clearbit y t) with y; [ring|]. apply N.bits_inj. intros k. rewrite N.clearbit_eqb. destruct (N.eqb_spec t k) as [<-|]; cbn [negb]; [now rewrite By|now rewrite andb_true_r].
  Qed.
  Lemma predicted_ket (r : neuron) x : sound G n r -> x < 2 ^ n -> predicted G n r (ket x) = anorm (a_sin G (total_angle G r (ctrl_value 0 (nr_in G r) x))).
  Proof.
    intros S Hx. unfold predicted. set (v := ctrl_value 0 (nr_in G r) x). rewrite (asum_ext K _ (fun k => anorm (a_sin G (total_angle G r k)) * anorm (ket v k : K))%amp).
    - rewrite (asum_ket (fun k => anorm (a_sin G (total_angle G r k)))); [reflexivity|apply (basis_NoDup (N.of_nat (length (nr_in G r))))|apply (proj2 (basis_In (N.of_nat (length (nr_in G r))) v)), ctrl_lt].
    - intros k _. rewrite weight_ket by exact Hx. fold v. unfold ket. rewrite (N.eqb_sym k). destruct (v =? k); [unfold anorm; rewrite conj_1; ring|rewrite anorm_0; ring].
  Qed.
  Lemma pr_form e (r : neuron) x psi : sound G n r -> form (nr_out G r) x psi -> pr e r psi = for_expected e (anorm (a_sin G (total_angle G r (ctrl_value 0 (nr_in G r) x)))).
  Proof.
    intros S (Hx & B & E). unfold PNeuron1.pr. rewrite <- predicted_ket by assumption. f_equal. apply predicted_is; [exact S| |].
    - intros y Hy By. apply (ket_bit x y (nr_out G r) false B). congruence.
    - now apply rotate_zero.
  Qed.
  Lemma form_ext t x psi phi : form t x psi -> (forall y, y < 2 ^ n -> phi y = psi y) -> form t x phi.
  Proof. intros (A & B & C) H. split; [exact A|]. split; [exact B|]. intros y Hy. rewrite H by exact Hy. now apply C. Qed.

  Lemma sin_real a : anorm (a_sin G a) = (a_sin G a * a_sin G a)%amp.
  Proof. unfold anorm. now rewrite (tr_sin_real G TR). Qed.
  Lemma hs2 : (hs * hs + hs * hs = 1)%amp.
  Proof. rewrite <- (tr_one G TR (a_half_pi G)). rewrite (tr_quarter G TR). reflexivity. Qed.
  Definition half : K := (hs * hs)%amp.
  Lemma half_exp e : for_expected e half = half.
  Proof. destruct e; [reflexivity|]. unfold for_expected, half. rewrite <- hs2. ring. Qed.
  Lemma start_angle : anorm (a_sin G (a_add G (a_half_pi G) (a_0 G))) = half.
  Proof. rewrite sin_real, (tr_sin_add G TR), (tr_cos_0 G TR), (tr_sin_0 G TR). unfold half. ring. Qed.
  Lemma plus_angle : anorm (a_sin G (a_add G (a_half_pi G) (a_add G (a_0 G) (a_half_pi G)))) = 1%amp.
  Proof.
    rewrite sin_real, (tr_sin_add G TR), (tr_sin_add G TR (a_0 G)), (tr_cos_add G TR (a_0 G)), (tr_cos_0 G TR), (tr_sin_0 G TR), (tr_quarter G TR).
    transitivity ((hs * hs + hs * hs) * (hs * hs + hs * hs))%amp; [ring|]. rewrite hs2. ring.
  Qed.
  Lemma minus_angle : anorm (a_sin G (a_add G (a_half_pi G) (a_add G (a_0 G) (a_neg G (a_half_pi G))))) = 0%amp.
  Proof.
    rewrite sin_real, (tr_sin_add G TR), (tr_sin_add G TR (a_0 G)), (tr_cos_add G TR (a_0 G)), (tr_cos_0 G TR), (tr_sin_0 G TR), (tr_cos_neg G TR), (tr_sin_neg G TR), (tr_quarter G TR). ring.
  Qed.

  Hypothesis OR : forall x, nc_leb c x x = true.
  Hypothesis C1 : close c 1%amp = true.
  Hypothesis C0 : close c 0%amp = false.
  Hypothesis CH : close c half = false.

  Lemma total_other i v a r : v <> i -> total_angle G (set_angle G i a r) v = total_angle G r v.
  Proof. intros H. unfold total_angle. now rewrite angle_other. Qed.
  (** An angle that the state does not use. *)
  Lemma internal_miss e step i r x psi start d : sound G n r -> form (nr_out G r) x psi -> i <> ctrl_value 0 (nr_in G r) x -> start = pr e r psi -> close c start = false ->
    exists phi, learn_internal G c n e step i start r psi d = (Some start, r, phi, d) /\ (forall y, phi y = psi y).
  Proof.
    intros S F NE -> NC. unfold learn_internal. set (o := angle_at G i r).
    assert (X : forall a phi, (forall y, phi y = psi y) -> pr e (set_angle G i a r) phi = pr e r psi).
    { intros a phi E. rewrite (pr_ext G n e _ phi psi E). rewrite (pr_form e r x psi S F), (pr_form e (set_angle G i a r) x psi (like_sound G n _ _ (set_angle_like G i a r) S)) by exact F.
      rewrite total_other; [reflexivity|]. cbn. congruence. }
    destruct (cycle_is G c n TR e _ psi d (like_sound G n _ _ (set_angle_like G i (a_add G o step) r) S)) as (phi & -> & E1). rewrite !(set_angle_twice G), X, NC by reflexivity.
    destruct (cycle_is G c n TR e _ phi d (like_sound G n _ _ (set_angle_like G i (a_add G o (a_neg G step)) r) S)) as (phi2 & -> & E2). rewrite X, NC, OR by exact E1. cbn [andb].
    exists phi2. unfold o. rewrite set_angle_id. split; [reflexivity|]. intros y. now rewrite E2.
  Qed.
  (** The angle that it uses, in the beginning. *)
  Lemma internal_hit e i r x psi start d : nr_fn G r = Sigmoid -> sound G n r -> i < nr_pow G r -> form (nr_out G r) x psi -> i = ctrl_value 0 (nr_in G r) x -> angle_at G i r = a_0 G ->
    exists o a phi, learn_internal G c n e (a_half_pi G) i start r psi d = (o, set_angle G i a r, phi, d) /\ o = None /\ anorm (a_sin G (a_add G (a_half_pi G) a)) = if e then 1%amp else 0%amp.
  Proof.
    intros FN S Hi F EI Z. pose proof S as (_ & _ & S3 & _). unfold learn_internal. rewrite Z.
    assert (X : forall a phi, (forall y, phi y = psi y) -> pr e (set_angle G i a r) phi = for_expected e (anorm (a_sin G (a_add G (a_half_pi G) a)))).
    { intros a phi E. rewrite (pr_ext G n e _ phi psi E). rewrite (pr_form e (set_angle G i a r) x psi (like_sound G n _ _ (set_angle_like G i a r) S)) by exact F. cbn [nr_in set_angle set_angles]. rewrite <- EI.
      unfold total_angle. rewrite angle_same by lia. cbn [nr_fn set_angle set_angles]. now rewrite FN. }
    assert (Y : forall a, a_sin G (a_add G (a_half_pi G) (a_clamp G a)) = a_sin G (a_add G (a_half_pi G) a)).
    { intros a. rewrite !(tr_sin_add G TR). now rewrite (tr_clamp_cos G TR), (tr_clamp_sin G TR). }
    destruct (cycle_is G c n TR e _ psi d (like_sound G n _ _ (set_angle_like G i (a_add G (a_0 G) (a_half_pi G)) r) S)) as (phi & -> & E1). rewrite !(set_angle_twice G), X, plus_angle by reflexivity. rewrite !angle_same by lia.
    destruct e; cbn [for_expected].
    - rewrite C1. eexists None, _, phi. split; [reflexivity|]. split; [reflexivity|]. rewrite Y. apply plus_angle.
    - replace (1 - 1)%amp with (0 : K)%amp by ring. rewrite C0.
      destruct (cycle_is G c n TR false _ phi d (like_sound G n _ _ (set_angle_like G i (a_add G (a_0 G) (a_neg G (a_half_pi G))) r) S)) as (phi2 & -> & E2). rewrite X, minus_angle by exact E1. cbn [for_expected]. replace (1 - 0)%amp with (1 : K)%amp by ring. rewrite C1.
      eexists None, _, phi2. split; [reflexivity|]. split; [reflexivity|]. rewrite Y. apply minus_angle.
  Qed.
End P.
