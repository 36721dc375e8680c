(** QNeuron: rotations, predictions, LearnCycle. *)
From Coq Require Import NArith List Bool Lia Ring.
From Verif Require Import Amp PAmp SpecState PLoop PGates2 PProb PQCirc1 PCircuit8 PEngine2 Bits Bits MTensor MNeuron SpecNeuron.
Import ListNotations.
Local Open Scope N_scope.

Section P.
  Context {K : StarRing} (G : angles K) (c : @ncfg K) (n : N).
  Hypothesis TR : trig G.
  Add Ring KrDT : (sr_ring K).
  Local Notation vec := (N -> K).
  Local Notation neuron := (neuron G).

  Lemma neg_act_is f a : neg_act G f a = a_neg G (act G f a). Proof. now destruct f. Qed.
  Lemma nth_map_in {T U} (f : T -> U) l i d d' : (i < length l)%nat -> nth i (map f l) d' = f (nth i l d).
  Proof. intros H. rewrite nth_indep with (d' := f d) by (now rewrite map_length). apply map_nth. Qed.
  Lemma nth_firstn_all {T} (l : list T) i k d : (length l <= k)%nat -> nth i (firstn k l) d = nth i l d.
  Proof. intros H. now rewrite firstn_all2. Qed.

  Lemma rotate_is f (r : neuron) (psi : vec) x : sound G n r ->
    rotate G f r psi x = gate1 always (nr_out G r) (ry_mat G (f (angle_at G (ctrl_value 0 (nr_in G r) x) r))) psi x.
  Proof.
    intros (S1 & S2 & S3 & S4). unfold rotate. destruct (nr_in G r) as [|q t] eqn:E; [reflexivity|]. rewrite <- E in *. unfold uc_ry.
    pose proof (ctrl_lt (nr_in G r) x) as L. rewrite firstn_all2 by lia. rewrite (nth_map_in f _ _ (a_0 G)); [reflexivity|]. lia.
  Qed.
  Lemma other_in (r : neuron) x (b : bool) : sound G n r -> ctrl_value 0 (nr_in G r) (if b then N.setbit x (nr_out G r) else N.clearbit x (nr_out G r)) = ctrl_value 0 (nr_in G r) x.
  Proof. intros (S1 & _). apply value_other. now inversion S1. Qed.
  Lemma set_set x t : N.setbit (N.setbit x t) t = N.setbit x t.
  Proof. apply N.bits_inj. intros k. rewrite !N.setbit_eqb. now destruct (t =? k). Qed.
  Lemma clear_clear x t : N.clearbit (N.clearbit x t) t = N.clearbit x t.
  Proof. apply N.bits_inj. intros k. rewrite !N.clearbit_eqb. destruct (t =? k); cbn [negb]; now rewrite ?andb_false_r, ?andb_true_r. Qed.
  Lemma set_clear x t : N.testbit x t = true -> N.setbit (N.clearbit x t) t = x.
  Proof. intros E. apply N.bits_inj. intros k. rewrite N.setbit_eqb, N.clearbit_eqb. destruct (N.eqb_spec t k) as [<-|]; cbn [orb negb]; [now rewrite E|now rewrite andb_true_r]. Qed.
  Lemma clear_set x t : N.testbit x t = false -> N.clearbit (N.setbit x t) t = x.
  Proof. intros E. apply N.bits_inj. intros k. rewrite N.clearbit_eqb, N.setbit_eqb. destruct (N.eqb_spec t k) as [<-|]; cbn [orb negb]; [now rewrite E|now rewrite andb_true_r]. Qed.

  (** Unpredict undoes the rotation. *)
  Lemma undo (r : neuron) f g (psi : vec) x : sound G n r -> (forall a, a_cos G (g a) = a_cos G (f a)) -> (forall a, a_sin G (g a) = (- a_sin G (f a))%amp) ->
    rotate G g r (rotate G f r psi) x = psi x.
  Proof.
    intros S HC HS. rewrite rotate_is by exact S. unfold gate1, always, ry_mat. cbn [m00 m01 m10 m11].
    pose proof (other_in r x true S) as E1. pose proof (other_in r x false S) as E0. cbn iota in E1, E0.
    rewrite !rotate_is, E1, E0 by exact S. unfold gate1, always, ry_mat. cbn [m00 m01 m10 m11]. rewrite !HC, !HS.
    set (a := f (angle_at G (ctrl_value 0 (nr_in G r) x) r)). pose proof (tr_one G TR a) as T. destruct (N.testbit x (nr_out G r)) eqn:B.
    - rewrite N.clearbit_eq, set_clear by exact B. transitivity ((a_cos G a * a_cos G a + a_sin G a * a_sin G a) * psi x)%amp; [ring|]. rewrite T. ring.
    - rewrite N.setbit_eq, clear_set by exact B. transitivity ((a_cos G a * a_cos G a + a_sin G a * a_sin G a) * psi x)%amp; [ring|]. rewrite T. ring.
  Qed.
  Lemma rotate_ext (r : neuron) f (psi phi : vec) : (forall x, psi x = phi x) -> forall x, rotate G f r psi x = rotate G f r phi x.
  Proof. intros H x. unfold rotate. destruct (nr_in G r); unfold uc_ry, ry, gate1; now rewrite !H. Qed.
  Lemma prob_ext q (psi phi : vec) : (forall x, x < 2 ^ n -> psi x = phi x) -> prob1 n q psi = prob1 n q phi.
  Proof. intros H. apply weight_ext. intros x Hx. split; [reflexivity|now apply H]. Qed.

  (** The value of Predict without reset. *)
  Definition pr (e : bool) (r : neuron) (psi : vec) : K := for_expected e (prob1 n (nr_out G r) (rotate G (act G (nr_fn G r)) r psi)).
  Lemma pr_ext e r psi phi : (forall x, psi x = phi x) -> pr e r psi = pr e r phi.
  Proof. intros H. unfold pr. f_equal. apply prob_ext. intros x _. now apply rotate_ext. Qed.
  Lemma predict_is e r psi d : predict G c n e false r psi d = (pr e r psi, rotate G (act G (nr_fn G r)) r psi, d).
  Proof. reflexivity. Qed.
  Lemma predict_reset e r psi d : predict G c n e true r psi d = predict G c n e false r (fst (reset_out G c n (nr_out G r) d psi)) (snd (reset_out G c n (nr_out G r) d psi)).
  Proof. unfold predict. destruct (reset_out G c n (nr_out G r) d psi). reflexivity. Qed.
  Lemma unpredict_back e (r : neuron) psi : sound G n r -> let '(p, phi) := unpredict G n e r (rotate G (act G (nr_fn G r)) r psi) in p = for_expected e (prob1 n (nr_out G r) psi) /\ forall x, phi x = psi x.
  Proof.
    intros S. unfold unpredict. assert (E : forall x, rotate G (neg_act G (nr_fn G r)) r (rotate G (act G (nr_fn G r)) r psi) x = psi x).
    { intros x. apply undo; [exact S| |]; intros a; rewrite neg_act_is; [apply (tr_cos_neg G TR)|apply (tr_sin_neg G TR)]. }
    split; [|exact E]. unfold answer_of. rewrite (prob_ext _ _ psi) by (intros; apply E). reflexivity.
  Qed.
  Lemma cycle_is e (r : neuron) psi d : sound G n r -> exists phi, learn_cycle G c n e r psi d = (pr e r psi, phi, d) /\ forall x, phi x = psi x.
  Proof.
    intros S. unfold learn_cycle. rewrite predict_is. pose proof (unpredict_back e r psi S) as U. destruct (unpredict G n e r _) as [p phi]. exists phi. split; [reflexivity|apply U].
  Qed.

  (** ** The prediction *)
  Lemma sum_set t (h : N -> K) : t < n -> asum (fun x => if N.testbit x t then h (N.clearbit x t) else 0%amp) (basis n) = asum (fun x => if N.testbit x t then 0%amp else h x) (basis n).
  Proof.
    intros Ht. rewrite <- (asum_reindex n (fun x => x < 2 ^ n /\ negb (N.testbit x t) = true) (fun x => N.testbit x t) (fun x => N.setbit x t) (fun x => h (N.clearbit x t)) (filter (fun x => negb (N.testbit x t)) (basis n))).
    - rewrite asum_filter. apply asum_ext. intros x _. destruct (N.testbit x t) eqn:B; cbn [negb]; [reflexivity|]. now rewrite clear_set.
    - apply enum_filter.
    - intros x y [_ Hx] [_ Hy] E. apply negb_true_iff in Hx, Hy. rewrite <- (clear_set x t Hx), <- (clear_set y t Hy). now rewrite E.
    - intros y. split.
      + intros [Hy By]. exists (N.clearbit y t). split; [|now apply set_clear]. split; [|now rewrite N.clearbit_eq]. apply lt_pow2_bits. intros k Hk. rewrite N.clearbit_eqb. rewrite (tb_high y n k Hy Hk). reflexivity.
      + intros [x [[Hx Bx] <-]]. split; [|apply N.setbit_eq]. apply lt_pow2_bits. intros k Hk. rewrite N.setbit_eqb, (tb_high x n k Hx Hk). destruct (N.eqb_spec t k); [lia|reflexivity].
  Qed.
  Lemma predicted_is (r : neuron) (psi phi : vec) : sound G n r -> (forall x, x < 2 ^ n -> N.testbit x (nr_out G r) = true -> psi x = 0%amp) -> (forall x, x < 2 ^ n -> phi x = predicted_state G r psi x) ->
    prob1 n (nr_out G r) phi = predicted G n r psi.
  Proof.
    intros S Z E. pose proof S as (S1 & S2 & S3 & S4). assert (Ht : nr_out G r < n) by (apply S2; now left). set (t := nr_out G r) in *. set (v := ctrl_value 0 (nr_in G r)).
    set (h := fun y => (anorm (a_sin G (total_angle G r (v y))) * anorm (psi y))%amp).
    unfold prob1, weight_of. transitivity (asum (fun x => if N.testbit x t then h (N.clearbit x t) else 0%amp) (basis n)).
    { apply asum_ext. intros x Hx. apply basis_In in Hx. destruct (N.testbit x t) eqn:B; [|reflexivity]. rewrite E by exact Hx. unfold predicted_state, h. fold t v. rewrite B, anorm_mul. unfold v, t. now rewrite (other_in r x false S). }
    rewrite sum_set by exact Ht. unfold predicted. fold v. transitivity (asum (fun x => asum (fun k => if v x =? k then (anorm (psi x) * anorm (a_sin G (total_angle G r k)))%amp else 0%amp) (upto (N.to_nat (2 ^ N.of_nat (length (nr_in G r)))))) (basis n)).
    - apply asum_ext. intros x Hx. apply basis_In in Hx. pose proof (ctrl_lt (nr_in G r) x) as L. change (upto (N.to_nat (2 ^ N.of_nat (length (nr_in G r))))) with (basis (N.of_nat (length (nr_in G r)))).
      assert (X : h x = asum (fun k => if v x =? k then (anorm (psi x) * anorm (a_sin G (total_angle G r k)))%amp else 0%amp) (basis (N.of_nat (length (nr_in G r))))).
      { rewrite (asum_ext K _ (fun k => (anorm (psi x) * anorm (a_sin G (total_angle G r k))) * anorm (ket (v x) k : K))%amp).
        - rewrite asum_ket; [unfold h; ring|apply basis_NoDup|now apply basis_In].
        - intros k _. unfold ket. rewrite (N.eqb_sym (v x)). destruct (k =? v x); [unfold anorm; rewrite conj_1; ring|rewrite anorm_0; ring]. }
      rewrite <- X. destruct (N.testbit x t) eqn:B; [|reflexivity]. unfold h. rewrite (Z x Hx B), anorm_0. ring.
    - rewrite asum_swap. apply asum_ext. intros k _. unfold weight_of. rewrite <- (asum_ext K (fun x => anorm (a_sin G (total_angle G r k)) * (if v x =? k then anorm (psi x) else 0))%amp).
      + rewrite asum_scale. fold v. ring.
      + intros x _. destruct (v x =? k); ring.
  Qed.

  (** The state after Predict with reset, for an output qubit in state 0. *)
  Lemma measure_zero q d (psi : vec) : nc_nrm c 1%amp = 1%amp -> (1 <> 0 :> K)%amp -> (forall x, x < 2 ^ n -> N.testbit x q = true -> psi x = 0%amp) ->
    exists phi, measure c n q d psi = (false, phi, d) /\ forall x, x < 2 ^ n -> phi x = psi x.
  Proof.
    intros HN NT Z. unfold measure. assert (P0 : prob1 n q psi = 0%amp).
    { unfold prob1, weight_of. apply asum_zero. intros x Hx. apply basis_In in Hx. destruct (N.testbit x q) eqn:B; [|reflexivity]. rewrite Z by auto. apply anorm_0. }
    rewrite P0. destruct (sr_eqb 0 1) eqn:E1. { apply sr_eqb_ok in E1. now elim NT. }
    replace (sr_eqb 0 0 : bool) with true by (symmetry; now apply sr_eqb_ok).
    eexists. split; [reflexivity|]. intros x Hx. replace (1 - 0)%amp with (1 : K)%amp by ring. rewrite HN. destruct (N.testbit x q) eqn:B; cbn [eqb]; [now rewrite Z|ring].
  Qed.
  Lemma reset_zero (r : neuron) d (psi : vec) : nr_out G r < n -> nc_nrm c 1%amp = 1%amp -> (1 <> 0 :> K)%amp -> (forall x, x < 2 ^ n -> N.testbit x (nr_out G r) = true -> psi x = 0%amp) ->
    exists phi, reset_out G c n (nr_out G r) d psi = (phi, d) /\ forall x, x < 2 ^ n -> phi x = ((if N.testbit x (nr_out G r) then a_sin G (a_half_pi G) else a_cos G (a_half_pi G)) * psi (N.clearbit x (nr_out G r)))%amp.
  Proof.
    intros Ht HN NT Z. unfold reset_out. destruct (measure_zero (nr_out G r) d psi HN NT Z) as (phi & -> & E). eexists. split; [reflexivity|]. intros x Hx. unfold ry, gate1, always, ry_mat. cbn [m00 m01 m10 m11].
    assert (HS : N.setbit x (nr_out G r) < 2 ^ n). { apply lt_pow2_bits. intros k Hk. rewrite N.setbit_eqb, (tb_high x n k Hx Hk). destruct (N.eqb_spec (nr_out G r) k); [lia|reflexivity]. }
    assert (HC : N.clearbit x (nr_out G r) < 2 ^ n). { apply lt_pow2_bits. intros k Hk. rewrite N.clearbit_eqb, (tb_high x n k Hx Hk). reflexivity. }
    rewrite !E by assumption. destruct (N.testbit x (nr_out G r)) eqn:B.
    - rewrite (Z x Hx B). ring.
    - rewrite (Z (N.setbit x (nr_out G r)) HS) by apply N.setbit_eq. replace (N.clearbit x (nr_out G r)) with x; [ring|]. apply N.bits_inj. intros k. rewrite N.clearbit_eqb. destruct (N.eqb_spec (nr_out G r) k) as [<-|]; cbn [negb]; [now rewrite B|now rewrite andb_true_r].
  Qed.
  Lemma rotate_zero (r : neuron) (psi phi : vec) : sound G n r -> (forall x, x < 2 ^ n -> phi x = ((if N.testbit x (nr_out G r) then a_sin G (a_half_pi G) else a_cos G (a_half_pi G)) * psi (N.clearbit x (nr_out G r)))%amp) ->
    forall x, x < 2 ^ n -> rotate G (act G (nr_fn G r)) r phi x = predicted_state G r psi x.
  Proof.
    intros S E. pose proof S as (S1 & S2 & S3 & S4). assert (Ht : nr_out G r < n) by (apply S2; now left).
    intros x Hx. rewrite rotate_is by exact S. unfold gate1, always, ry_mat, predicted_state, total_angle. cbn [m00 m01 m10 m11]. set (a := act G (nr_fn G r) _). rewrite (tr_sin_add G TR), (tr_cos_add G TR).
    assert (HS : N.setbit x (nr_out G r) < 2 ^ n). { apply lt_pow2_bits. intros k Hk. rewrite N.setbit_eqb, (tb_high x n k Hx Hk). destruct (N.eqb_spec (nr_out G r) k); [lia|reflexivity]. }
    assert (HC : N.clearbit x (nr_out G r) < 2 ^ n). { apply lt_pow2_bits. intros k Hk. rewrite N.clearbit_eqb, (tb_high x n k Hx Hk). reflexivity. }
    rewrite !E by assumption. rewrite N.setbit_eq, N.clearbit_eq, clear_clear. destruct (N.testbit x (nr_out G r)) eqn:B; [ring|]. rewrite clear_set by exact B.
    replace (N.clearbit x (nr_out G r)) with x; [ring|]. apply N.bits_inj. intros k. rewrite N.clearbit_eqb. destruct (N.eqb_spec (nr_out G r) k) as [<-|]; cbn [negb]; [now rewrite B|now rewrite andb_true_r].
  Qed.
  Lemma predict_zero e (r : neuron) d (psi : vec) : sound G n r -> nc_nrm c 1%amp = 1%amp -> (1 <> 0 :> K)%amp -> (forall x, x < 2 ^ n -> N.testbit x (nr_out G r) = true -> psi x = 0%amp) ->
    exists phi, predict G c n e true r psi d = (for_expected e (predicted G n r psi), phi, d) /\ forall x, x < 2 ^ n -> phi x = predicted_state G r psi x.
  Proof.
    intros S HN NT Z. pose proof S as (S1 & S2 & S3 & S4). assert (Ht : nr_out G r < n) by (apply S2; now left). rewrite predict_reset. destruct (reset_zero r d psi Ht HN NT Z) as (phi & -> & E). cbn [fst snd]. rewrite predict_is.
    pose proof (rotate_zero r psi phi S E) as X. eexists. split; [|exact X]. unfold pr. now rewrite (predicted_is r psi _ S Z X).
  Qed.
End P.
