(** Proofs about the generic circuits (part 14: masks, and runs in which the engine may drop global phases). *)
From Coq Require Import NArith Arith List Bool Lia Ring Sorted.
From Verif Require Import Bits MFunctions PFunctions MParFor PParFor MKernel Amp PAmp MEngine SpecState SpecEngine
  PGates PGates2 PGates3 PEngine PCompose MAlu SpecAlu PAlu PAlu2 PAlu5 PAlu6 PAlu9 MCircuit SpecCircuit PCircuit PCircuit2 PCircuit3 PCircuit4 PCircuit5 PCircuit6 PCircuit7 PCircuit8 PCircuit12
  MCircuit2 SpecCircuit2 PMaskBits.
Import ListNotations.
Local Open Scope N_scope.

(** ** Qubits of a mask *)
Lemma sorted_same (l1 l2 : list N) : StronglySorted N.lt l1 -> StronglySorted N.lt l2 -> (forall q, In q l1 <-> In q l2) -> l1 = l2.
Proof.
  intros H1. revert l2. induction H1 as [|a l1 S1 IH F1]; intros l2 H2 E.
  - destruct l2 as [|b l2]; auto. destruct (proj2 (E b) (or_introl eq_refl)).
  - destruct H2 as [|b l2 S2 F2]. destruct (proj1 (E a) (or_introl eq_refl)).
    rewrite Forall_forall in F1, F2.
    assert (a = b). { destruct (proj1 (E a) (or_introl eq_refl)) as [->|HA]; auto. destruct (proj2 (E b) (or_introl eq_refl)) as [->|HB]; auto. specialize (F1 _ HB). specialize (F2 _ HA). lia. }
    subst b. f_equal. apply IH; auto. intros q. split; intros Hq.
    + destruct (proj1 (E q) (or_intror Hq)) as [<-|]; auto. specialize (F1 _ Hq). lia.
    + destruct (proj2 (E q) (or_intror Hq)) as [<-|]; auto. specialize (F2 _ Hq). lia.
Qed.
Lemma mask_bits_in f q : forall k, In q (mask_bits f k) -> N.testbit k q = true.
Proof.
  induction f as [|f IH]; intros k Hq; cbn [mask_bits] in Hq; [destruct Hq|]. destruct (N.eqb_spec k 0) as [E|Hz]; [destruct Hq|].
  destruct (mask_step k Hz) as [b [Tb [Lb [EL EC]]]]. cbv zeta in Hq. rewrite EL, EC in Hq. destruct Hq as [<-|Hq]; auto. apply IH in Hq. rewrite N.clearbit_eqb in Hq. now apply andb_true_iff in Hq.
Qed.
Lemma mask_bits_sorted f : forall m, m < 2 ^ 128 -> StronglySorted N.lt (mask_bits f m).
Proof.
  induction f as [|f IH]; intros m Hm; cbn [mask_bits]; [constructor|]. destruct (N.eqb_spec m 0) as [|Hz]; [constructor|].
  destruct (mask_step m Hz) as [b [Tb [Lb [EL EC]]]]. cbv zeta. rewrite EL, EC.
  assert (Hc : N.clearbit m b < 2 ^ 128). { apply lt_pow2_bits. intros j Hj. rewrite N.clearbit_eqb, (tb_high m 128); auto. }
  constructor; [now apply IH|]. apply Forall_forall. intros q Hq.
  assert (T : N.testbit (N.clearbit m b) q = true).
  { now apply mask_bits_in in Hq. }
  rewrite N.clearbit_eqb in T. apply andb_true_iff in T. destruct T as [T1 T2]. destruct (N.lt_total b q) as [|[->|L]]; auto. now rewrite N.eqb_refl in T2. rewrite (Lb q L) in T1. discriminate.
Qed.
Lemma in_upto k q : In q (upto k) <-> q < N.of_nat k.
Proof. induction k as [|k IH]; cbn [upto]; [cbn [In]; lia|]. rewrite in_app_iff, IH. cbn [In]. lia. Qed.
Lemma upto_sorted k : StronglySorted N.lt (upto k).
Proof.
  induction k as [|k IH]; cbn [upto]; [constructor|]. assert (B : forall q, In q (upto k) -> q < N.of_nat k) by (intros q; apply in_upto).
  revert B. induction IH as [|a l H1 IH2 F]; intros B; cbn [app]. repeat constructor. constructor. apply IH2. intros q Hq. apply B. now right.
  apply Forall_app. split; auto. constructor; [|constructor]. apply B. now left.
Qed.
Lemma filter_sorted (p : N -> bool) l : StronglySorted N.lt l -> StronglySorted N.lt (filter p l).
Proof. induction 1 as [|a l H IH F]; cbn [filter]; [constructor|]. destruct (p a); auto. constructor; auto. rewrite Forall_forall in *. intros q Hq. apply filter_In in Hq. now apply F. Qed.
Lemma bits_of_in m q : m < 2 ^ 64 -> (In q (bits_of m) <-> N.testbit m q = true).
Proof.
  intros Hm. unfold bits_of. rewrite filter_In, in_upto. change (N.of_nat 64) with 64. split; [tauto|]. intros T. split; auto. destruct (N.lt_ge_cases q 64); auto. rewrite (tb_high m 64) in T; auto. discriminate.
Qed.
Lemma bits_of_sorted m : StronglySorted N.lt (bits_of m).
Proof. apply filter_sorted, upto_sorted. Qed.
Lemma sorted_nodup l : StronglySorted N.lt l -> NoDup l.
Proof. induction 1 as [|a l H IH F]; constructor; auto. intros HI. rewrite Forall_forall in F. specialize (F _ HI). lia. Qed.
Lemma bits_of_nodup m : NoDup (bits_of m).
Proof. apply sorted_nodup, bits_of_sorted. Qed.
Lemma mask_bits_of m : m < 2 ^ 64 -> mask_bits 128 m = bits_of m.
Proof.
  intros Hm. assert (H128 : m < 2 ^ 128) by (eapply N.lt_le_trans; [exact Hm|]; apply N.pow_le_mono_r; lia).
  apply sorted_same. now apply mask_bits_sorted. apply bits_of_sorted. intros q. rewrite bits_of_in by auto. apply (mask_bits_ok 128 0); [exact H128|intros; lia].
Qed.
Lemma pow64 n m : m < 2 ^ n -> n < 64 -> m < 2 ^ 64.
Proof. intros. eapply N.lt_le_trans; [eassumption|]. apply N.pow_le_mono_r; lia. Qed.
Lemma bits_of_lt n m q : m < 2 ^ n -> n < 64 -> In q (bits_of m) -> q < n.
Proof. intros Hm Hn Hq. apply bits_of_in in Hq; [|now apply (pow64 n)]. destruct (N.lt_ge_cases q n); auto. rewrite (tb_high m n) in Hq; auto. discriminate. Qed.

Section P.
  Context {K : StarRing}.
  Add Ring KrEJ : (sr_ring K).
  Variable c : cfg.
  Local Notation V := (mem K).
  Local Notation circ := (circ K).

  (** ** Runs *)
  Definition wf0 (n : N) (g : gop K) : Prop :=
    match g with
    | GM cs m t => wfc n cs t
    | GXM mask => mask < 2 ^ n
    end.
  Lemma wfg_wf0 n l : Forall (wfg n) l -> Forall (wf0 n) (l : circ).
  Proof. apply Forall_impl. intros [cs m t|m]; cbn; tauto. Qed.
  Lemma gsem_scale (g : gop K) z (psi : V) x : gsem g (fun y => z * psi y)%amp x = (z * gsem g psi x)%amp.
  Proof. destruct g as [cs m t|m]; cbn [gsem]; auto. unfold gate1. destruct (all_set cs x), (N.testbit x t); ring. Qed.
  Lemma gsem_ext (g : gop K) (a b : V) x : (forall y, a y = b y) -> gsem g a x = gsem g b x.
  Proof. intros H. destruct g as [cs m t|m]; cbn [gsem]; auto. unfold gate1. now rewrite !H. Qed.
  Lemma csem_ext (l : circ) : forall (a b : V) x, (forall y, a y = b y) -> csem l a x = csem l b x.
  Proof. induction l as [|g l IH]; intros a b x H. apply H. rewrite !csem_cons. apply IH. intros y. now apply gsem_ext. Qed.
  Lemma csem_scale (l : circ) : forall z (psi : V) x, csem l (fun y => z * psi y)%amp x = (z * csem l psi x)%amp.
  Proof. induction l as [|g l IH]; intros z psi x. reflexivity. rewrite !csem_cons, <- IH. apply csem_ext. intros y. apply gsem_scale. Qed.
  Lemma gsem_eqv0 n g (a b : V) : wf0 n g -> eqv n a b -> eqv n (gsem g a) (gsem g b).
  Proof.
    destruct g as [cs m t|mask]; cbn [wf0 gsem].
    - intros W H. apply gate1_eqv; auto. now apply wfc_t in W.
    - intros Hm H x Hx. apply H. now apply lxor_lt_pow2.
  Qed.
  Lemma csem_eqv0 n l : Forall (wf0 n) l -> forall a b : V, eqv n a b -> eqv n (csem l a) (csem l b).
  Proof. induction 1 as [|g t Hg Ht IH]; intros a b H. exact H. rewrite !csem_cons. apply IH. now apply gsem_eqv0. Qed.

  (** The phases that may be dropped. *)
  Definition scalars (l : circ) (Q : K -> Prop) : Prop := forall m t ph, In (GM [] m t) l -> m = mkMat ph 0%amp 0%amp ph -> Q ph.
  Lemma crun_phase rgp n (l : circ) : fits c n -> Forall (wf0 n) l -> forall psi : V,
    every_run (crun c rgp n l (Some psi)) (fun r => exists psi' g, r = Ok (Some psi') /\ (forall x, x < 2 ^ n -> csem l psi x = (g * psi' x)%amp) /\
      (rgp = false -> g = 1%amp) /\ (scalars l (fun ph => anorm ph = 1%amp) -> anorm g = 1%amp)).
  Proof.
    intros Hf. induction 1 as [|g t Hg Ht IH]; intros psi; cbn [crun].
    - split; eauto. intros r ->. exists psi, 1%amp. split; auto. split; [intros x _; cbn [csem fold_left]; ring|]. split; auto. intros _. unfold anorm. rewrite conj_1. ring.
    - assert (S : every_run (gstep c rgp n g (Some psi)) (fun r => exists psi' ph, r = Ok (Some psi') /\ (forall x, x < 2 ^ n -> gsem g psi x = (ph * psi' x)%amp) /\
        (rgp = false -> ph = 1%amp) /\ (scalars (g :: t) (fun ph => anorm ph = 1%amp) -> anorm ph = 1%amp))).
      { destruct g as [cs m t0|mask]; cbn [gstep gsem wf0] in *.
        - destruct Hg as [ND Hq]. destruct (c19_either c rgp false n cs m t0 psi Hf ND Hq) as [He Ha]. split; auto. intros r HR. destruct (Ha r HR) as [psi' [ph [-> [HE Hph]]]].
          exists psi', ph. split; auto. split; auto. split.
          + intros ->. destruct Hph as [|[E _]]; auto. discriminate.
          + intros HS. destruct Hph as [->|[_ [-> E]]]. unfold anorm. rewrite conj_1. ring. apply (HS m t0 ph); auto. now left.
        - destruct (c21_xmask c rgp n mask psi Hf Hg) as [He Ha]. split; auto. intros r HR. destruct (Ha r HR) as [psi' [-> HE]]. exists psi', 1%amp. split; auto. split.
          intros x Hx. rewrite (HE x Hx). ring. split; auto. intros _. unfold anorm. rewrite conj_1. ring. }
      destruct S as [[r1 H1] Ha]. split.
      + destruct (Ha r1 H1) as [psi1 [ph [-> _]]]. destruct (IH psi1) as [[r Hr] _]. exists r, (Ok (Some psi1)). split; auto.
      + intros r [r1' [H1' HR]]. destruct (Ha r1' H1') as [psi1 [ph [-> [HE [HP HN]]]]]. destruct (IH psi1) as [_ Hb].
        destruct (Hb r HR) as [psi' [g2 [-> [HE' [HP' HN']]]]]. exists psi', (ph * g2)%amp. split; auto. split; [|split].
        * intros x Hx. rewrite csem_cons. rewrite (csem_eqv0 n t Ht (gsem g psi) (fun y => ph * psi1 y)%amp HE x Hx). rewrite csem_scale, (HE' x Hx). ring.
        * intros E. rewrite (HP E), (HP' E). ring.
        * intros HS. assert (A1 := HN HS). assert (A2 : anorm g2 = 1%amp). { apply HN'. intros m t0 p HI. apply (HS m t0 p). now right. }
          unfold anorm in *. rewrite sr_conj_mul. transitivity ((ph * sr_conj ph) * (g2 * sr_conj g2))%amp; [ring|]. rewrite A1, A2. ring.
  Qed.
  Lemma sem_run0 n (l : circ) S (psi : V) : fits c n -> Forall (wf0 n) l -> (forall x, x < 2 ^ n -> csem l psi x = S x) ->
    every_run (crun c false n l (Some psi)) (fun r => exists psi', r = Ok (Some psi') /\ eqv n psi' S).
  Proof.
    intros Hf W E. destruct (crun_phase false n l Hf W psi) as [He Ha]. split; auto. intros r HR. destruct (Ha r HR) as [psi' [g [-> [HB [HP _]]]]].
    exists psi'. split; auto. intros x Hx. rewrite <- E by auto. rewrite HB by auto. rewrite HP by auto. ring.
  Qed.
End P.
