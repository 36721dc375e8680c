(** QNeuron: training on basis states, continued. *)
From Coq Require Import NArith List Bool Lia Ring.
From Verif Require Import Amp PAmp SpecState PLoop PGates2 PProb PQCirc1 PCircuit8 PEngine2 Bits MTensor PApi2 MNeuron SpecNeuron PNeuron1 PNeuron2 PNeuron3.
Import ListNotations.
Local Open Scope N_scope.

Lemma upto_in k i : i < N.of_nat k -> In i (upto k).
Proof. induction k as [|k IH]; intros H; [lia|]. cbn [upto]. apply in_app_iff. destruct (N.eq_dec i (N.of_nat k)) as [->|]; [right; now left|left; apply IH; lia]. Qed.
Lemma upto_split k i : i < N.of_nat k -> exists l1 l2, upto k = l1 ++ i :: l2 /\ ~ In i l1.
Proof.
  induction k as [|k IH]; intros H; [lia|]. cbn [upto]. destruct (N.eq_dec i (N.of_nat k)) as [->|].
  - exists (upto k), []. split; [reflexivity|]. intros E. apply upto_lt in E. lia.
  - destruct IH as (l1 & l2 & -> & E); [lia|]. exists l1, (l2 ++ [N.of_nat k]). split; [now rewrite <- app_assoc|exact E].
Qed.
Lemma lor_top a i : a < 2 ^ i -> N.lor a (2 ^ i) = a + 2 ^ i.
Proof.
  intros H. rewrite <- N.lxor_lor; [symmetry; apply N.add_nocarry_lxor|]; apply N.bits_inj; intros k; rewrite N.land_spec, N.bits_0, N.pow2_bits_eqb; destruct (N.eqb_spec i k) as [<-|]; try apply andb_false_r; now rewrite (tb_high a i i H (N.le_refl i)).
Qed.

Section P.
  Context {K : StarRing} (G : angles K) (c : @ncfg K) (n : N).
  Hypothesis TR : trig G.
  Hypothesis NT : (1 <> 0 :> K)%amp.
  Hypothesis HN : nc_nrm c 1%amp = 1%amp.
  Add Ring KrDW : (sr_ring K).
  Local Notation vec := (N -> K).
  Local Notation neuron := (neuron G).
  Local Notation pr := (pr G n).
  Local Notation hs := (a_sin G (a_half_pi G)).
  Local Notation hc := (a_cos G (a_half_pi G)).
  Hypothesis OR : forall x, nc_leb c x x = true.
  Hypothesis C1 : close c 1%amp = true.
  Hypothesis C0 : close c 0%amp = false.
  Hypothesis CH : close c (half G) = false.

  Lemma form_zero t x (psi : vec) q y : form G n t x psi -> q <> t -> y < 2 ^ n -> N.testbit y q <> N.testbit x q -> psi y = 0%amp.
  Proof.
    intros (Hx & B & E) NE Hy H. rewrite E by exact Hy. rewrite (ket_bit x _ q _ eq_refl); [ring|]. rewrite N.clearbit_neq by congruence. exact H.
  Qed.
  Lemma form_prob t x (psi : vec) q : form G n t x psi -> t < n -> q <> t -> prob1 n q psi = if N.testbit x q then 1%amp else 0%amp.
  Proof.
    intros (Hx & B & E) Ht NE. unfold prob1. rewrite (weight_split2 n _ (fun y => N.testbit y t)). unfold weight_of.
    rewrite (asum_ext K (fun y => if N.testbit y q && N.testbit y t then anorm (psi y) else 0%amp) (fun y => if N.testbit y t then (fun z => (if N.testbit z q then anorm hs * anorm (ket x z) else 0)%amp) (N.clearbit y t) else 0%amp)).
    2:{ intros y Hy. apply basis_In in Hy. rewrite E by exact Hy. rewrite N.clearbit_neq by congruence. destruct (N.testbit y q), (N.testbit y t); cbn [andb]; try reflexivity. apply anorm_mul. }
    rewrite (sum_set n t (fun z => (if N.testbit z q then anorm hs * anorm (ket x z) else 0)%amp) Ht).
    rewrite (asum_ext K (fun y => if N.testbit y t then 0%amp else (if N.testbit y q then anorm hs * anorm (ket x y) else 0)%amp) (fun y => (if negb (N.testbit y t) && N.testbit y q then anorm hs else 0) * anorm (ket x y : K))%amp).
    2:{ intros y _. destruct (N.testbit y q), (N.testbit y t); cbn [andb negb]; ring. }
    rewrite (asum_ext K (fun y => if N.testbit y q && negb (N.testbit y t) then anorm (psi y) else 0%amp) (fun y => (if negb (N.testbit y t) && N.testbit y q then anorm hc else 0) * anorm (ket x y : K))%amp).
    2:{ intros y Hy. apply basis_In in Hy. rewrite E by exact Hy. destruct (N.testbit y q), (N.testbit y t) eqn:Bt; cbn [andb negb]; try ring. rewrite anorm_mul. do 2 f_equal.
        f_equal. apply N.bits_inj. intros k. rewrite N.clearbit_eqb. destruct (N.eqb_spec t k) as [<-|]; cbn [negb]; [now rewrite Bt|now rewrite andb_true_r]. }
    rewrite (asum_ket (fun y => if negb (N.testbit y t) && N.testbit y q then anorm hs else 0%amp) x _ (basis_NoDup n) (proj2 (basis_In n x) Hx)).
    rewrite (asum_ket (fun y => if negb (N.testbit y t) && N.testbit y q then anorm hc else 0%amp) x _ (basis_NoDup n) (proj2 (basis_In n x) Hx)).
    rewrite B. cbn [negb andb]. destruct (N.testbit x q); [|ring]. unfold anorm. rewrite (tr_cos_real G TR), (tr_sin_real G TR), <- (tr_one G TR (a_half_pi G)). ring.
  Qed.
  Lemma measures t x : t < n -> forall qs i acc (psi : vec) d, form G n t x psi -> ~ In t qs -> acc < 2 ^ i -> exists phi, measure_all c n qs i acc psi d = (acc + ctrl_value i qs x, phi, d) /\ form G n t x phi.
  Proof.
    intros Ht. induction qs as [|q qs IH]; intros i acc psi d F NI HA; cbn [measure_all ctrl_value].
    - exists psi. rewrite N.add_0_r. split; [reflexivity|exact F].
    - assert (NE : q <> t) by (intros ->; apply NI; now left). destruct (measure_sure c n NT HN q d psi (N.testbit x q)) as (phi & -> & E).
      + now apply (form_prob t).
      + intros y Hy H. exact (form_zero t x psi q y F NE Hy H).
      + destruct (IH (i + 1) (if N.testbit x q then N.lor acc (2 ^ i) else acc) phi d) as (phi2 & -> & F2).
        * exact (form_ext G n t x psi phi F E).
        * intros H. apply NI. now right.
        * rewrite N.pow_add_r. change (2 ^ 1) with 2. destruct (N.testbit x q); [rewrite lor_top by exact HA|]; lia.
        * exists phi2. split; [|exact F2]. f_equal. f_equal. destruct (N.testbit x q); [rewrite lor_top by exact HA|]; lia.
  Qed.

  (** ** What is learned *)
  Definition knows (r : neuron) (f : N -> bool) (D : list N) : Prop := forall v, v < 2 ^ N.of_nat (length (nr_in G r)) ->
    (In v D /\ anorm (a_sin G (total_angle G r v)) = if f v then 1%amp else 0%amp) \/ (~ In v D /\ angle_at G v r = a_0 G).
  Lemma loop_hit e r x start : nr_fn G r = Sigmoid -> sound G n r -> ctrl_value 0 (nr_in G r) x < nr_pow G r -> angle_at G (ctrl_value 0 (nr_in G r) x) r = a_0 G -> close c start = false ->
    forall l1 l2 psi d, ~ In (ctrl_value 0 (nr_in G r) x) l1 -> form G n (nr_out G r) x psi -> start = pr e r psi ->
    exists a phi, learn_loop G c n e (a_half_pi G) (l1 ++ ctrl_value 0 (nr_in G r) x :: l2) start r psi d = (set_angle G (ctrl_value 0 (nr_in G r) x) a r, phi, d) /\ anorm (a_sin G (a_add G (a_half_pi G) a)) = if e then 1%amp else 0%amp.
  Proof.
    intros FN S Hv Z NC. induction l1 as [|i l1 IH]; intros l2 psi d NI F ES; cbn [app learn_loop].
    - destruct (internal_hit G c n TR C1 C0 e _ r x psi start d FN S Hv F eq_refl Z) as (o & a & phi & -> & -> & H). exists a, phi. split; [reflexivity|exact H].
    - destruct (internal_miss G c n TR OR e (a_half_pi G) i r x psi start d S F) as (phi & -> & E); [intros ->; apply NI; now left|exact ES|exact NC|].
      apply IH; [intros H; apply NI; now right| |].
      + apply (form_ext G n _ _ psi phi F). intros; apply E.
      + rewrite ES. symmetry. now apply pr_ext.
  Qed.
  Lemma knows_more r f D v a : sound G n r -> nr_fn G r = Sigmoid -> knows r f D -> v < 2 ^ N.of_nat (length (nr_in G r)) -> anorm (a_sin G (a_add G (a_half_pi G) a)) = (if f v then 1%amp else 0%amp) -> knows (set_angle G v a r) f (v :: D).
  Proof.
    intros (S1 & S2 & S3 & S4) FN H Hv HA w Hw. cbn [nr_in set_angle set_angles] in Hw. destruct (N.eq_dec w v) as [->|NE].
    - left. split; [now left|]. unfold total_angle. rewrite angle_same by lia. cbn [nr_fn set_angle set_angles]. now rewrite FN.
    - destruct (H w Hw) as [[H1 H2]|[H1 H2]]; [left|right]; (split; [|try (unfold total_angle; rewrite angle_other by exact NE)]).
      + now right.
      + exact H2.
      + intros [E|E]; [congruence|contradiction].
      + exact H2.
  Qed.
  Lemma knows_again r f D v : knows r f D -> In v D -> knows r f (v :: D).
  Proof. intros H Hv w Hw. destruct (H w Hw) as [[H1 H2]|[H1 H2]]; [left|right]; (split; [|exact H2]); [now right|]. intros [<-|E]; contradiction. Qed.

  Lemma step_ok (perm : bool) f D r x d : nr_fn G r = Sigmoid -> sound G n r -> knows r f D -> x < 2 ^ n ->
    exists r' phi, (if perm then learn_permutation G else learn G) c n (a_half_pi G) (f (ctrl_value 0 (nr_in G r) x)) true r (ket x) d = (r', phi, d) /\ like G r r' /\ knows r' f (ctrl_value 0 (nr_in G r) x :: D).
  Proof.
    intros FN S KN Hx. pose proof S as (S1 & S2 & S3 & S4). assert (Ht : nr_out G r < n) by (apply S2; now left). destruct (reset_ket G c n NT HN (nr_out G r) x d Ht Hx) as (psi & ER & F).
    pose proof (ctrl_lt (nr_in G r) x) as Lv. set (v := ctrl_value 0 (nr_in G r) x) in *. set (e := f v).
    assert (Ev : ctrl_value 0 (nr_in G r) (N.clearbit x (nr_out G r)) = v) by exact (other_in G n r x false S).
    assert (SP : pr e r psi = for_expected e (anorm (a_sin G (total_angle G r v)))) by (rewrite (pr_form G n TR e r _ psi S F), Ev; reflexivity).
    pose proof (unpredict_back G n TR e r psi S) as U. destruct (unpredict G n e r (rotate G (act G (nr_fn G r)) r psi)) as [q phi0] eqn:EU. destruct U as [_ U].
    assert (F0 : form G n (nr_out G r) (N.clearbit x (nr_out G r)) phi0) by (apply (form_ext G n _ _ psi phi0 F); intros; apply U).
    assert (PP : predict G c n e true r (ket x) d = (pr e r psi, rotate G (act G (nr_fn G r)) r psi, d)) by (rewrite predict_reset, ER; reflexivity).
    destruct (KN v Lv) as [[HD HV]|[HD HV]].
    - assert (CL : close c (pr e r psi) = true). { rewrite SP, HV. fold e. destruct e; cbn [for_expected]; [exact C1|]. replace (1 - 0)%amp with (1 : K)%amp by ring. exact C1. }
      exists r, phi0. split; [|split; [apply like_refl|now apply knows_again]]. destruct perm; [unfold learn_permutation|unfold learn]; rewrite PP, EU, CL; reflexivity.
    - assert (CL : close c (pr e r psi) = false). { rewrite SP. unfold total_angle. rewrite HV, FN. cbn [act]. rewrite (start_angle G TR), (half_exp G TR). exact CH. }
      destruct perm.
      + unfold learn_permutation. rewrite PP, EU, CL. destruct (measures (nr_out G r) (N.clearbit x (nr_out G r)) Ht (nr_in G r) 0 0 phi0 d F0) as (phi1 & -> & F1); [now inversion S1|reflexivity|]. rewrite N.add_0_l, Ev.
        destruct (internal_hit G c n TR C1 C0 e v r _ phi1 (pr e r psi) d FN S ltac:(lia) F1 (eq_sym Ev) HV) as (o & a & phi2 & -> & -> & H). exists (set_angle G v a r), phi2. split; [reflexivity|]. split; [apply set_angle_like|]. now apply knows_more.
      + unfold learn. rewrite PP, EU, CL. destruct (upto_split (N.to_nat (nr_pow G r)) v) as (l1 & l2 & -> & NI); [lia|]. 
        assert (HV' : angle_at G (ctrl_value 0 (nr_in G r) (N.clearbit x (nr_out G r))) r = a_0 G) by (now rewrite Ev). assert (NI' : ~ In (ctrl_value 0 (nr_in G r) (N.clearbit x (nr_out G r))) l1) by (now rewrite Ev).
        destruct (loop_hit e r (N.clearbit x (nr_out G r)) (pr e r psi) FN S ltac:(rewrite Ev; lia) HV' CL l1 l2 phi0 d NI' F0) as (a & phi & EL & H); [symmetry; now apply pr_ext|].
        rewrite Ev in EL. exists (set_angle G v a r), phi. split; [exact EL|]. split; [apply set_angle_like|]. now apply knows_more.
  Qed.
  Lemma train_ok (perm : bool) f : forall xs D r d, nr_fn G r = Sigmoid -> sound G n r -> knows r f D -> (forall x, In x xs -> x < 2 ^ n) ->
    like G r (train G c n perm f xs r d) /\ knows (train G c n perm f xs r d) f (rev (map (ctrl_value 0 (nr_in G r)) xs) ++ D).
  Proof.
    induction xs as [|x xs IH]; intros D r d FN S KN HX; cbn [train].
    - split; [apply like_refl|exact KN].
    - destruct (step_ok perm f D r x d FN S KN (HX x (or_introl eq_refl))) as (r' & phi & E & LK & KN'). destruct perm; rewrite E; pose proof LK as (A1 & A2 & A3 & A4 & A5);
        (destruct (IH (ctrl_value 0 (nr_in G r) x :: D) r' d) as [LK2 K2]; [congruence|exact (like_sound G n _ _ LK S)|exact KN'|intros y Hy; apply HX; now right|]);
        (split; [exact (like_trans G _ _ _ LK LK2)|]); rewrite A1 in K2; cbn [map rev]; rewrite <- app_assoc; exact K2.
  Qed.
  Lemma new_sound ins out f : NoDup (out :: ins) -> (forall q, In q (out :: ins) -> q < n) -> sound G n (new_neuron G ins out f).
  Proof. intros H1 H2. split; [exact H1|]. split; [exact H2|]. cbn [new_neuron nr_ang nr_pow nr_in]. rewrite repeat_length. lia. Qed.
  Lemma nth_repeat_any {T} (a : T) k i : nth i (repeat a k) a = a.
  Proof. revert i. induction k as [|k IH]; intros [|i]; cbn; auto. Qed.
  Lemma new_knows ins out f g : knows (new_neuron G ins out f) g [].
  Proof. intros v _. right. split; [intros []|]. unfold angle_at, new_neuron. cbn [nr_ang]. apply nth_repeat_any. Qed.
  Lemma knows_predict r f D e x d : nr_fn G r = Sigmoid -> sound G n r -> knows r f D -> x < 2 ^ n ->
    fst (fst (predict G c n e true r (ket x) d)) = for_expected e (let v := ctrl_value 0 (nr_in G r) x in if existsb (N.eqb v) D then if f v then 1%amp else 0%amp else half G).
  Proof.
    intros FN S KN Hx. pose proof S as (S1 & S2 & S3 & S4). assert (Ht : nr_out G r < n) by (apply S2; now left). destruct (reset_ket G c n NT HN (nr_out G r) x d Ht Hx) as (psi & ER & F).
    rewrite predict_reset, ER. cbn [fst snd]. rewrite predict_is. cbn [fst]. rewrite (pr_form G n TR e r _ psi S F). rewrite (other_in G n r x false S). f_equal. cbv zeta.
    pose proof (ctrl_lt (nr_in G r) x) as Lv. set (v := ctrl_value 0 (nr_in G r) x) in *. destruct (KN v Lv) as [[HD HV]|[HD HV]].
    - rewrite HV. replace (existsb (N.eqb v) D) with true; [reflexivity|]. symmetry. apply existsb_exists. exists v. split; [exact HD|apply N.eqb_refl].
    - replace (existsb (N.eqb v) D) with false. { unfold total_angle. rewrite HV, FN. apply (start_angle G TR). }
      symmetry. destruct (existsb (N.eqb v) D) eqn:X; [|reflexivity]. apply existsb_exists in X. destruct X as (w & W1 & W2). apply N.eqb_eq in W2. subst w. contradiction.
  Qed.
End P.
