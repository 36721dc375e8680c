(** QNeuron: Learn and LearnPermutation. *)
From Coq Require Import NArith List Bool Lia Ring.
From Verif Require Import Amp PAmp SpecState PLoop PGates2 PProb PQCirc1 PCircuit8 PEngine2 Bits MTensor PApi2 MNeuron SpecNeuron PNeuron1.
Import ListNotations.
Local Open Scope N_scope.

Section L.
  Context {T : Type}.
  Lemma nth_err_ext (a b : list T) : (forall i, nth_error a i = nth_error b i) -> a = b.
  Proof.
    revert b. induction a as [|x a IH]; intros [|y b] H; [reflexivity|discriminate (H O)|discriminate (H O)|]. pose proof (H O) as E. injection E as ->. f_equal. apply IH. intros i. exact (H (S i)).
  Qed.
  Lemma set_nth_out i (x : T) l : (length l <= i)%nat -> set_nth i x l = l.
  Proof.
    intros H. apply nth_err_ext. intros j. destruct (PeanoNat.Nat.eq_dec j i) as [->|NE]; [|now apply set_nth_other]. rewrite (proj2 (nth_error_None l i) H). apply nth_error_None. now rewrite set_nth_len.
  Qed.
  Lemma set_nth_twice i (x y : T) l : set_nth i x (set_nth i y l) = set_nth i x l.
  Proof.
    apply nth_err_ext. intros j. destruct (PeanoNat.Nat.eq_dec j i) as [->|NE]; [|now rewrite !set_nth_other]. destruct (nth_error l i) as [z|] eqn:E.
    - now rewrite (set_nth_same i x y) by (now apply set_nth_same with z); rewrite (set_nth_same i x z).
    - apply nth_error_None in E. now rewrite !set_nth_out by (rewrite ?set_nth_len; exact E).
  Qed.
  Lemma set_nth_id i (d : T) l : set_nth i (nth i l d) l = l.
  Proof.
    apply nth_err_ext. intros j. destruct (PeanoNat.Nat.eq_dec j i) as [->|NE]; [|now rewrite set_nth_other]. destruct (nth_error l i) as [z|] eqn:E.
    - rewrite (set_nth_same i _ z) by exact E. now rewrite (nth_error_nth _ _ d E).
    - pose proof E as E'. apply nth_error_None in E. rewrite set_nth_out; auto.
  Qed.
  Lemma nth_set_same i (x d : T) l : (i < length l)%nat -> nth i (set_nth i x l) d = x.
  Proof. intros H. destruct (nth_error l i) as [z|] eqn:E; [|apply nth_error_None in E; lia]. apply nth_error_nth. now apply set_nth_same with z. Qed.
  Lemma nth_set_other i j (x d : T) l : j <> i -> nth j (set_nth i x l) d = nth j l d.
  Proof.
    intros H. pose proof (set_nth_other i j x l H) as E. destruct (nth_error l j) as [z|] eqn:E2; [rewrite (nth_error_nth _ _ d E2); now apply nth_error_nth|].
    apply nth_error_None in E, E2. now rewrite !nth_overflow.
  Qed.
End L.

Section P.
  Context {K : StarRing} (G : angles K) (c : @ncfg K) (n : N).
  Hypothesis TR : trig G.
  Add Ring KrDU : (sr_ring K).
  Local Notation vec := (N -> K).
  Local Notation neuron := (neuron G).
  Local Notation pr := (pr G n).

  Definition like (r r' : neuron) : Prop := nr_in G r' = nr_in G r /\ nr_out G r' = nr_out G r /\ nr_fn G r' = nr_fn G r /\ nr_pow G r' = nr_pow G r /\ length (nr_ang G r') = length (nr_ang G r).
  Lemma like_refl r : like r r. Proof. repeat split. Qed.
  Lemma like_trans a b d : like a b -> like b d -> like a d.
  Proof. intros (A1 & A2 & A3 & A4 & A5) (B1 & B2 & B3 & B4 & B5). repeat split; congruence. Qed.
  Lemma like_sound r r' : like r r' -> sound G n r -> sound G n r'.
  Proof. intros (A1 & A2 & A3 & A4 & A5) (B1 & B2 & B3 & B4). unfold sound. rewrite A1, A2, A4, A5. repeat split; assumption. Qed.
  Lemma set_angle_like i a r : like r (set_angle G i a r).
  Proof. repeat split. cbn. now rewrite set_nth_len. Qed.
  Lemma set_angle_twice i a b r : set_angle G i a (set_angle G i b r) = set_angle G i a r.
  Proof. unfold set_angle, set_angles. cbn. now rewrite set_nth_twice. Qed.
  Lemma set_angle_id i r : set_angle G i (angle_at G i r) r = r.
  Proof. unfold set_angle, set_angles, angle_at. rewrite set_nth_id. now destruct r. Qed.
  Lemma angle_same i a r : i < N.of_nat (length (nr_ang G r)) -> angle_at G i (set_angle G i a r) = a.
  Proof. intros H. unfold angle_at. cbn. apply nth_set_same. lia. Qed.
  Lemma angle_other i j a r : j <> i -> angle_at G j (set_angle G i a r) = angle_at G j r.
  Proof. intros H. unfold angle_at. cbn. apply nth_set_other. lia. Qed.

  Definition same_rot (f : actfn) (a b : ang G) : Prop := a_cos G (act G f a) = a_cos G (act G f b) /\ a_sin G (act G f a) = a_sin G (act G f b).
  Lemma pr_same e r r' psi : sound G n r -> like r r' -> (forall v, same_rot (nr_fn G r) (angle_at G v r) (angle_at G v r')) -> pr e r' psi = pr e r psi.
  Proof.
    intros S LK H. unfold PNeuron1.pr. pose proof (like_sound _ _ LK S) as S'. destruct LK as (A1 & A2 & A3 & A4 & A5). f_equal. rewrite A2. apply prob_ext. intros x _. rewrite !(rotate_is G n) by assumption. rewrite A1, A2, A3.
    destruct (H (ctrl_value 0 (nr_in G r) x)) as [H1 H2]. unfold ry_mat. now rewrite H1, H2.
  Qed.
  Definition clamp_ok (f : actfn) : Prop := forall a, same_rot f (a_clamp G a) a.
  Lemma clamp_sigmoid : clamp_ok Sigmoid.
  Proof. intros a. split; cbn [act]; [apply (tr_clamp_cos G TR)|apply (tr_clamp_sin G TR)]. Qed.
  Lemma pr_clamp e i a r psi : sound G n r -> i < nr_pow G r -> clamp_ok (nr_fn G r) -> pr e (set_angle G i (a_clamp G a) r) psi = pr e (set_angle G i a r) psi.
  Proof.
    intros S Hi CK. pose proof S as (_ & _ & S3 & _). rewrite <- (set_angle_twice i _ a). apply pr_same; [exact (like_sound _ _ (set_angle_like i a r) S)|apply set_angle_like|]. intros v. cbn [nr_fn set_angle set_angles]. destruct (N.eq_dec v i) as [->|NE].
    - rewrite set_angle_twice, !angle_same by lia. destruct (CK a) as [C1 C2]. split; now symmetry.
    - rewrite set_angle_twice, !angle_other by exact NE. split; reflexivity.
  Qed.

  Section Order.
  Hypothesis OR : order_ok c.
  Lemma close_better p s : close c p = true -> close c s = false -> nc_leb c s p = true.
  Proof. unfold close. intros H1 H2. rewrite <- (or_minus c OR). exact (or_trans c OR _ _ _ H1 (or_total c OR _ _ H2)). Qed.
  Lemma internal_ok e step i r psi start d : sound G n r -> i < nr_pow G r -> clamp_ok (nr_fn G r) -> start = pr e r psi -> close c start = false ->
    exists o r' phi, learn_internal G c n e step i start r psi d = (o, r', phi, d) /\ (forall x, phi x = psi x) /\ like r r' /\ nc_leb c start (pr e r' psi) = true /\
      match o with Some p => p = pr e r' psi /\ close c p = false | None => True end.
  Proof.
    intros S Hi CK -> NC. pose proof S as (_ & _ & S3 & _). unfold learn_internal. set (o := angle_at G i r).
    pose proof (set_angle_like i (a_add G o step) r) as L1. pose proof (like_sound _ _ L1 S) as Q1.
    destruct (cycle_is G c n TR e _ psi d Q1) as (phi & -> & E1). set (plus := pr e (set_angle G i (a_add G o step) r) psi).
    rewrite !set_angle_twice. pose proof (set_angle_like i (a_add G o (a_neg G step)) r) as L2. pose proof (like_sound _ _ L2 S) as Q2.
    destruct (cycle_is G c n TR e _ phi d Q2) as (phi2 & -> & E2). rewrite (pr_ext G n e _ phi psi E1). set (minus := pr e (set_angle G i (a_add G o (a_neg G step)) r) psi).
    assert (E3 : forall x, phi2 x = psi x) by (intros x; now rewrite E2). rewrite !angle_same by lia.
    destruct (close c plus) eqn:C1.
    { eexists None, _, phi. split; [reflexivity|]. split; [exact E1|]. split; [apply set_angle_like|]. split; [|exact I]. rewrite pr_clamp by assumption. fold plus. now apply close_better. }
    destruct (close c minus) eqn:C2.
    { eexists None, _, phi2. split; [reflexivity|]. split; [exact E3|]. split; [apply set_angle_like|]. split; [|exact I]. rewrite pr_clamp by assumption. fold minus. now apply close_better. }
    destruct (nc_leb c plus (pr e r psi)) eqn:P1, (nc_leb c minus (pr e r psi)) eqn:P2; cbn [andb].
    { eexists (Some _), _, phi2. split; [reflexivity|]. split; [exact E3|]. unfold o. rewrite set_angle_id. split; [apply like_refl|]. split; [apply (or_refl c OR)|]. split; [reflexivity|exact NC]. }
    all: destruct (nc_leb c plus minus) eqn:P3; cbn [negb];
      [eexists (Some _), _, phi2; split; [reflexivity|]; split; [exact E3|]; split; [exact L2|]; fold minus; split; [|split; [reflexivity|exact C2]]
      |eexists (Some _), _, phi2; split; [reflexivity|]; split; [exact E3|]; split; [exact L1|]; fold plus; split; [|split; [reflexivity|exact C1]]].
    - exact (or_total c OR _ _ P2).
    - exact (or_trans c OR _ _ _ (or_total c OR _ _ P2) (or_total c OR _ _ P3)).
    - exact (or_trans c OR _ _ _ (or_total c OR _ _ P1) P3).
    - exact (or_total c OR _ _ P1).
    - exact (or_total c OR _ _ P2).
    - exact (or_total c OR _ _ P1).
  Qed.
  Lemma loop_ok e step : forall l r psi start d, sound G n r -> (forall i, In i l -> i < nr_pow G r) -> clamp_ok (nr_fn G r) -> start = pr e r psi -> close c start = false ->
    exists r' phi, learn_loop G c n e step l start r psi d = (r', phi, d) /\ (forall x, phi x = psi x) /\ like r r' /\ nc_leb c start (pr e r' psi) = true.
  Proof.
    induction l as [|i l IH]; intros r psi start d S HL CK E NC.
    - exists r, psi. split; [reflexivity|]. split; [reflexivity|]. split; [apply like_refl|]. rewrite <- E. apply (or_refl c OR).
    - cbn [learn_loop]. destruct (internal_ok e step i r psi start d S (HL i (or_introl eq_refl)) CK E NC) as (o & r' & phi & -> & E1 & LK & B & O). destruct o as [p|].
      + destruct O as [-> NC']. pose proof LK as (A1 & A2 & A3 & A4 & A5). rewrite <- (pr_ext G n e r' phi psi E1).
        destruct (IH r' phi (pr e r' phi) d) as (r2 & phi2 & -> & E2 & LK2 & B2).
        * exact (like_sound _ _ LK S).
        * intros j Hj. rewrite A4. apply HL. now right.
        * now rewrite A3.
        * reflexivity.
        * now rewrite (pr_ext G n e r' phi psi E1).
        * exists r2, phi2. split; [reflexivity|]. split; [intros x; now rewrite E2|]. split; [exact (like_trans _ _ _ LK LK2)|]. rewrite (pr_ext G n e r2 phi psi E1) in B2. rewrite (pr_ext G n e r' phi psi E1) in B2. exact (or_trans c OR _ _ _ B B2).
      + exists r', phi. split; [reflexivity|]. split; [exact E1|]. split; [exact LK|exact B].
  Qed.
  Lemma upto_lt k i : In i (upto k) -> i < N.of_nat k.
  Proof. induction k as [|k IH]; cbn [upto]; [intros []|]. rewrite in_app_iff. intros [H|[<-|[]]]; [specialize (IH H); lia|lia]. Qed.
  Lemma learn_ok e step r psi d : sound G n r -> clamp_ok (nr_fn G r) ->
    exists r' phi, learn G c n step e false r psi d = (r', phi, d) /\ (forall x, phi x = psi x) /\ like r r' /\ nc_leb c (pr e r psi) (pr e r' psi) = true.
  Proof.
    intros S CK. unfold learn. rewrite predict_is. pose proof (unpredict_back G n TR e r psi S) as U. destruct (unpredict G n e r _) as [q phi]. destruct U as [_ U].
    destruct (close c (pr e r psi)) eqn:NC.
    - exists r, phi. split; [reflexivity|]. split; [exact U|]. split; [apply like_refl|apply (or_refl c OR)].
    - destruct (loop_ok e step (upto (N.to_nat (nr_pow G r))) r phi (pr e r psi) d S) as (r' & phi2 & -> & E2 & LK & B).
      + intros i Hi. apply upto_lt in Hi. lia.
      + exact CK.
      + symmetry. now apply pr_ext.
      + exact NC.
      + exists r', phi2. split; [reflexivity|]. split; [intros x; now rewrite E2|]. split; [exact LK|]. now rewrite <- (pr_ext G n e r' phi psi U).
  Qed.
  End Order.
  Lemma learn_reset e step r psi d : learn G c n step e true r psi d = learn G c n step e false r (fst (reset_out G c n (nr_out G r) d psi)) (snd (reset_out G c n (nr_out G r) d psi)).
  Proof. unfold learn. rewrite predict_reset. reflexivity. Qed.
End P.
