(** Proofs about the generic circuits (part 1: execution of a gate list, permutation circuits). *)
From Coq Require Import NArith List Bool Lia Ring.
From Verif Require Import Bits MFunctions MParFor PParFor MKernel Amp PAmp MEngine SpecState SpecEngine
  PGates PGates2 PGates3 PEngine PCompose MAlu SpecAlu PAlu PAlu2 MCircuit.
Import ListNotations.
Local Open Scope N_scope.

(** Flip bit [t] when [b]. *)
Definition flip (b : bool) (t x : N) : N := if b then N.lxor x (2 ^ t) else x.
Lemma tb_flip b t x q : N.testbit (flip b t x) q = xorb (N.testbit x q) (b && (t =? q)).
Proof. unfold flip. destruct b; cbn [andb]. now rewrite N.lxor_spec, tb_pow2. now rewrite xorb_false_r. Qed.
Lemma flip_lt b t x n : t < n -> x < 2 ^ n -> flip b t x < 2 ^ n.
Proof. intros Ht Hx. unfold flip. destruct b; auto. apply lxor_lt_pow2; auto. now apply pow2_lt. Qed.
Lemma flip_flip b t x : flip b t (flip b t x) = x.
Proof. unfold flip. destruct b; auto. apply lxor_twice. Qed.
Lemma all_set_flip cs b t x : ~ In t cs -> all_set cs (flip b t x) = all_set cs x.
Proof.
  intros H. unfold all_set. induction cs as [|q r IH]; auto. cbn [forallb]. rewrite IH, tb_flip.
  2: { intro. apply H. now right. } destruct (N.eqb_spec t q) as [->|]. exfalso. apply H. now left.
  now rewrite andb_false_r, xorb_false_r.
Qed.
Lemma all_clear_flip cs b t x : ~ In t cs -> all_clear cs (flip b t x) = all_clear cs x.
Proof.
  intros H. unfold all_clear. induction cs as [|q r IH]; auto. cbn [forallb]. rewrite IH, tb_flip.
  2: { intro. apply H. now right. } destruct (N.eqb_spec t q) as [->|]. exfalso. apply H. now left.
  now rewrite andb_false_r, xorb_false_r.
Qed.
Lemma tb_pow_mask cs q : N.testbit (pow_mask cs) q = existsb (N.eqb q) cs.
Proof.
  unfold pow_mask. assert (G : forall a, N.testbit (fold_left (fun a q => N.lor a (2 ^ q)) cs a) q = N.testbit a q || existsb (N.eqb q) cs).
  { induction cs as [|p r IH]; intros a; cbn [fold_left existsb]. now rewrite orb_false_r.
    rewrite IH, N.lor_spec, tb_pow2. rewrite (N.eqb_sym p q). now rewrite orb_assoc. }
  rewrite G. now rewrite N.bits_0.
Qed.
Lemma pow_mask_lt cs n : (forall q, In q cs -> q < n) -> pow_mask cs < 2 ^ n.
Proof.
  intros H. apply lt_pow2_bits. intros m Hm. rewrite tb_pow_mask. apply not_true_is_false. intros E.
  apply existsb_exists in E. destruct E as [q [Hq E]]. apply N.eqb_eq in E. subst q. apply H in Hq. lia.
Qed.
Lemma all_set_mask cs x : all_set cs (N.lxor x (pow_mask cs)) = all_clear cs x.
Proof.
  unfold all_set, all_clear. assert (G : forall l, (forall q, In q l -> In q cs) -> forallb (fun q => N.testbit (N.lxor x (pow_mask cs)) q) l = forallb (fun q => negb (N.testbit x q)) l).
  { induction l as [|q r IH]; auto. intros H. cbn [forallb]. rewrite IH by (intros; apply H; now right). f_equal.
    rewrite N.lxor_spec, tb_pow_mask. assert (E : existsb (N.eqb q) cs = true).
    { apply existsb_exists. exists q. split. apply H. now left. apply N.eqb_refl. } now rewrite E, xorb_true_r. }
  apply G. auto.
Qed.

Section P.
  Context {K : StarRing}.
  Add Ring KrK : (sr_ring K).
  Variable c : cfg.
  Local Notation V := (mem K).
  Local Notation gop := (gop K).
  Local Notation circ := (circ K).

  (** ** Ideal semantics *)
  Definition gsem (g : gop) (psi : V) : V :=
    match g with
    | GM cs m t => gate1 (all_set cs) t m psi
    | GXM mask => fun x => psi (N.lxor x mask)
    end.
  Definition csem (l : circ) (psi : V) : V := fold_left (fun p g => gsem g p) l psi.
  (** A matrix that is never dropped as a global phase. *)
  Definition phase_free (m : mat2 K) : Prop := forall ph, m = mkMat ph 0%amp 0%amp ph -> ph = 1%amp.
  Definition wfc (n : N) (cs : list N) (t : N) : Prop := NoDup (cs ++ [t]) /\ forall q, In q (cs ++ [t]) -> q < n.
  Definition wfg (n : N) (g : gop) : Prop :=
    match g with
    | GM cs m t => wfc n cs t /\ (cs <> [] \/ phase_free m)
    | GXM mask => mask < 2 ^ n
    end.
  Lemma wfc_t n cs t : wfc n cs t -> t < n.
  Proof. intros [_ H]. apply H. apply in_or_app. right. now left. Qed.
  Lemma wfc_not n cs t : wfc n cs t -> ~ In t cs.
  Proof. intros [H _]. apply NoDup_remove_2 in H. now rewrite app_nil_r in H. Qed.
  Lemma wfc_nil n t : t < n -> wfc n [] t.
  Proof. intros H. split. repeat constructor. intros []. intros q [<-|[]]. auto. Qed.
  Lemma wfc_intro n cs t : NoDup cs -> ~ In t cs -> t < n -> (forall q, In q cs -> q < n) -> wfc n cs t.
  Proof.
    intros ND Hn Ht Hq. split.
    - induction cs as [|a r IH]; cbn [app]. repeat constructor. intros [].
      inversion ND; subst. constructor. intros HI. apply in_app_or in HI. destruct HI as [HI|[<-|[]]]; auto. apply Hn. now left.
      apply IH; auto. intro. apply Hn. now right. intros. apply Hq. now right.
    - intros q HI. apply in_app_or in HI. destruct HI as [HI|[<-|[]]]; auto.
  Qed.

  Lemma csem_app l1 l2 psi : csem (l1 ++ l2) psi = csem l2 (csem l1 psi).
  Proof. unfold csem. apply fold_left_app. Qed.
  Lemma csem_cons g l psi : csem (g :: l) psi = csem l (gsem g psi).
  Proof. reflexivity. Qed.
  Lemma gsem_eqv n g a b : wfg n g -> eqv n a b -> eqv n (gsem g a) (gsem g b).
  Proof.
    destruct g as [cs m t|mask]; cbn [wfg gsem].
    - intros [W _] H. apply gate1_eqv; auto. now apply wfc_t in W.
    - intros Hm H x Hx. apply H. now apply lxor_lt_pow2.
  Qed.
  Lemma csem_eqv n l : Forall (wfg n) l -> forall a b, eqv n a b -> eqv n (csem l a) (csem l b).
  Proof.
    induction 1 as [|g t Hg Ht IH]; intros a b H. exact H. rewrite !csem_cons. apply IH. now apply gsem_eqv.
  Qed.

  Lemma gstep_run rgp n g (psi : V) : fits c n -> wfg n g ->
    every_run (gstep c rgp n g (Some psi)) (fun r => exists psi', r = Ok (Some psi') /\ eqv n psi' (gsem g psi)).
  Proof.
    intros Hf. destruct g as [cs m t|mask]; cbn [wfg gstep gsem].
    - intros [[ND Hq] HP]. destruct (c19_either c rgp false n cs m t psi Hf ND Hq) as [He Ha]. split; auto.
      intros r HR. apply Ha in HR. destruct HR as [psi' [ph [-> [HE Hph]]]]. exists psi'. split; auto. intros x Hx.
      rewrite (HE x Hx). assert (E : ph = 1%amp) by (destruct Hph as [|[_ [En Em]]]; auto; destruct HP; [contradiction|auto]). rewrite E. ring.
    - intros Hm. now apply c21_xmask.
  Qed.
  Lemma crun_run rgp n l : fits c n -> Forall (wfg n) l -> forall psi : V,
    every_run (crun c rgp n l (Some psi)) (fun r => exists psi', r = Ok (Some psi') /\ eqv n psi' (csem l psi)).
  Proof.
    intros Hf. induction 1 as [|g t Hg Ht IH]; intros psi; cbn [crun].
    - split; eauto. intros r ->. exists psi. split; auto. intros x _. reflexivity.
    - destruct (gstep_run rgp n g psi Hf Hg) as [[r1 H1] Ha]. split.
      + destruct (Ha r1 H1) as [psi1 [-> _]]. destruct (IH psi1) as [[r Hr] _]. exists r, (Ok (Some psi1)). split; auto.
      + intros r [r1' [H1' HR]]. destruct (Ha r1' H1') as [psi1 [-> HE]]. destruct (IH psi1) as [_ Hb].
        destruct (Hb r HR) as [psi' [-> HE']]. exists psi'. split; auto. rewrite csem_cons. intros x Hx.
        rewrite (HE' x Hx). now apply (csem_eqv n t Ht).
  Qed.

  Lemma crun_app rgp n (l1 : circ) : forall (l2 : circ) v r, crun c rgp n (l1 ++ l2) v r <->
    exists r1, crun c rgp n l1 v r1 /\ match r1 with Throw => r = Throw | Ok v1 => crun c rgp n l2 v1 r end.
  Proof.
    induction l1 as [|g t IH]; intros l2 v r; cbn [app crun].
    - split. intros H. now exists (Ok v). intros [r1 [-> H]]. exact H.
    - split.
      + intros [r1 [H1 H2]]. destruct r1 as [|v1].
        * exists Throw. split; auto. now exists Throw.
        * apply IH in H2. destruct H2 as [r2 [H2 H3]]. exists r2. split; auto. now exists (Ok v1).
      + intros [r1 [[r2 [H2 H3]] H4]]. exists r2. split; auto. destruct r2 as [|v2].
        * subst r1. exact H4.
        * apply IH. eauto.
  Qed.

  (** ** Permutation circuits *)
  Definition gact (g : gop) (x : N) : N :=
    match g with
    | GM cs m t => flip (all_set cs x) t x
    | GXM mask => N.lxor x mask
    end.
  Definition cact (l : circ) (x : N) : N := fold_left (fun y g => gact g y) l x.
  Definition wfx (n : N) (g : gop) : Prop :=
    match g with
    | GM cs m t => wfc n cs t /\ m = matX
    | GXM mask => mask < 2 ^ n
    end.
  Lemma cact_app l1 l2 x : cact (l1 ++ l2) x = cact l2 (cact l1 x).
  Proof. unfold cact. apply fold_left_app. Qed.
  Lemma cact_cons g l x : cact (g :: l) x = cact l (gact g x).
  Proof. reflexivity. Qed.
  Lemma phase_free_X : phase_free matX.
  Proof. intros ph H. unfold matX in H. injection H as E1 E2 _ _. rewrite <- E1. now apply trivial_ring. Qed.
  Lemma wfx_wfg n g : wfx n g -> wfg n g.
  Proof. destruct g as [cs m t|mask]; cbn [wfx wfg]; auto. intros [W ->]. split; auto. right. apply phase_free_X. Qed.
  Lemma gact_lt n g x : wfx n g -> x < 2 ^ n -> gact g x < 2 ^ n.
  Proof.
    destruct g as [cs m t|mask]; cbn [wfx gact]. intros [W _] Hx. apply flip_lt; auto. now apply wfc_t in W.
    intros. now apply lxor_lt_pow2.
  Qed.
  Lemma gact_invol n g x : wfx n g -> gact g (gact g x) = x.
  Proof.
    destruct g as [cs m t|mask]; cbn [wfx gact]. intros [W _]. rewrite all_set_flip by (now apply wfc_not in W). apply flip_flip.
    intros _. apply lxor_twice.
  Qed.
  Lemma gsem_gact n g (psi : V) x : wfx n g -> gsem g psi x = psi (gact g x).
  Proof.
    destruct g as [cs m t|mask]; cbn [wfx gsem gact]; auto. intros [_ ->]. unfold gate1, matX, flip. cbn [m00 m01 m10 m11].
    destruct (all_set cs x); auto. destruct (N.testbit x t) eqn:E.
    - rewrite lxor_clear by auto. ring.
    - rewrite lxor_set by auto. ring.
  Qed.
  Lemma cact_lt n l : Forall (wfx n) l -> forall x, x < 2 ^ n -> cact l x < 2 ^ n.
  Proof. induction 1 as [|g t Hg Ht IH]; intros x Hx; auto. rewrite cact_cons. apply IH. now apply gact_lt. Qed.
  Lemma cact_rev n l : Forall (wfx n) l -> forall x, cact (rev l) (cact l x) = x.
  Proof.
    induction 1 as [|g t Hg Ht IH]; intros x; auto. cbn [rev]. rewrite cact_app, (cact_cons g t), IH. cbn [cact fold_left].
    now apply (gact_invol n).
  Qed.
  Lemma wfx_rev n l : Forall (wfx n) l -> Forall (wfx n) (rev l).
  Proof. apply Forall_rev. Qed.
  Lemma csem_cact n l : Forall (wfx n) l -> forall (psi : V) x, csem l psi x = psi (cact (rev l) x).
  Proof.
    induction 1 as [|g t Hg Ht IH]; intros psi x. reflexivity. rewrite csem_cons, IH. rewrite (gsem_gact n) by auto.
    cbn [rev]. now rewrite cact_app.
  Qed.
  Lemma cact_inj n l x y : Forall (wfx n) l -> cact l x = cact l y -> x = y.
  Proof. intros H E. rewrite <- (cact_rev n l H x), <- (cact_rev n l H y). now rewrite E. Qed.
  Lemma csem_map n l (psi : V) : Forall (wfx n) l -> basis_map n always (cact l) (fun _ => 1%amp) psi (csem l psi).
  Proof.
    intros H. split; [|split].
    - intros x y _ _ _ _. now apply (cact_inj n).
    - intros x Hx _. split. now apply cact_lt. rewrite (csem_cact n) by auto. rewrite (cact_rev n) by auto. ring.
    - intros y Hy HN. exfalso. apply (HN (cact (rev l) y)); auto. apply cact_lt; auto. now apply wfx_rev.
      rewrite <- (rev_involutive l) at 1. apply (cact_rev n). now apply wfx_rev.
  Qed.
  Lemma wfx_all n l : Forall (wfx n) l -> Forall (wfg n) l.
  Proof. apply Forall_impl. apply wfx_wfg. Qed.

  Theorem perm_run rgp n l f (psi : V) : fits c n -> Forall (wfx n) l -> (forall x, x < 2 ^ n -> cact l x = f x) ->
    every_run (crun c rgp n l (Some psi)) (fun r => exists psi', r = Ok (Some psi') /\ basis_map n always f (fun _ => 1%amp) psi psi').
  Proof.
    intros Hf W E. destruct (crun_run rgp n l Hf (wfx_all n l W) psi) as [He Ha]. split; auto. intros r HR.
    destruct (Ha r HR) as [psi' [-> HE]]. exists psi'. split; auto. eapply basis_map_eqv; [|exact HE].
    eapply basis_map_ext; [| |apply (csem_map n l psi W)]; auto.
  Qed.
  (** A circuit followed by one that undoes its action restores the state. *)
  Theorem undo_run rgp n l1 l2 (psi : V) : fits c n -> Forall (wfg n) l1 -> Forall (wfg n) l2 -> eqv n (csem l2 (csem l1 psi)) psi ->
    every_run (crun c rgp n l1 (Some psi)) (fun r => exists psi1, r = Ok (Some psi1) /\
      every_run (crun c rgp n l2 (Some psi1)) (fun r2 => exists psi2, r2 = Ok (Some psi2) /\ eqv n psi2 psi)).
  Proof.
    intros Hf W1 W2 HU. destruct (crun_run rgp n l1 Hf W1 psi) as [He Ha]. split; auto. intros r HR.
    destruct (Ha r HR) as [psi1 [-> HE]]. exists psi1. split; auto. destruct (crun_run rgp n l2 Hf W2 psi1) as [He2 Ha2].
    split; auto. intros r2 HR2. destruct (Ha2 r2 HR2) as [psi2 [-> HE2]]. exists psi2. split; auto. intros x Hx.
    rewrite (HE2 x Hx). rewrite <- (HU x Hx). now apply (csem_eqv n l2 W2).
  Qed.
  Lemma perm_undo n l1 l2 (psi : V) : Forall (wfx n) l1 -> Forall (wfx n) l2 -> (forall x, x < 2 ^ n -> cact l2 (cact l1 x) = x) ->
    eqv n (csem l2 (csem l1 psi)) psi.
  Proof.
    intros W1 W2 H x Hx. rewrite <- csem_app. assert (W : Forall (wfx n) (l1 ++ l2)) by (apply Forall_app; auto).
    rewrite (csem_cact n) by auto. f_equal. apply (cact_inj n (l1 ++ l2)); auto.
    rewrite <- (rev_involutive (l1 ++ l2)) at 1. rewrite (cact_rev n) by now apply wfx_rev. rewrite cact_app. symmetry. now apply H.
  Qed.

  (** ** Elementary gates *)
  Lemma act_X q x : cact (qi_X q) x = flip true q x.
  Proof. reflexivity. Qed.
  Lemma wf_X n q : q < n -> Forall (wfx n) (qi_X q).
  Proof. intros H. repeat constructor; cbn [app]. intros []. intros p [<-|[]]; auto. Qed.
  Lemma act_MC cs t x : cact (qi_MCInvert cs 1%amp 1%amp t) x = flip (all_set cs x) t x.
  Proof. reflexivity. Qed.
  Lemma wf_MC n cs t : wfc n cs t -> Forall (wfx n) (qi_MCInvert cs 1%amp 1%amp t).
  Proof. intros H. constructor; [|constructor]. split; auto. Qed.
  Lemma flip_lxor b t m x : flip b t (N.lxor x m) = N.lxor (flip b t x) m.
  Proof. unfold flip. destruct b; auto. rewrite !N.lxor_assoc. f_equal. apply N.lxor_comm. Qed.
  Lemma act_MAC cs t x : cact (qi_MACInvert cs 1%amp 1%amp t) x = flip (all_clear cs x) t x.
  Proof.
    unfold qi_MACInvert, qi_MACWrapper. cbn [app qi_MCInvert cact fold_left gact]. rewrite all_set_mask, flip_lxor. apply lxor_twice.
  Qed.
  Lemma wf_MAC n cs t : wfc n cs t -> Forall (wfx n) (qi_MACInvert cs 1%amp 1%amp t).
  Proof.
    intros H. assert (Hm : pow_mask cs < 2 ^ n). { apply pow_mask_lt. intros q Hq. apply H. apply in_or_app. now left. }
    unfold qi_MACInvert, qi_MACWrapper. cbn [app qi_MCInvert]. repeat (constructor; [try exact Hm; try (split; auto; fail)|]).
    constructor.
  Qed.
  Lemma cact_flat {A} (f : A -> circ) l x : cact (flat_map f l) x = fold_left (fun y a => cact (f a) y) l x.
  Proof. revert x. induction l as [|a r IH]; intros x; auto. cbn [flat_map fold_left]. now rewrite cact_app, IH. Qed.
  Lemma wf_flat {A} n (f : A -> circ) l : (forall a, In a l -> Forall (wfx n) (f a)) -> Forall (wfx n) (flat_map f l).
  Proof.
    induction l as [|a r IH]; intros H; cbn [flat_map]. constructor. apply Forall_app. split. apply H. now left.
    apply IH. intros. apply H. now right.
  Qed.
End P.
