(** Proofs about measurements of a list of qubits. *)
From Coq Require Import NArith Arith List Bool Lia Ring.
From Verif Require Import Bits Amp PAmp SpecState SpecEngine SpecAlu PLoop MTensor MShots SpecShots PShots MForce SpecForce.
Import ListNotations.
Local Open Scope N_scope.

Section P.
  Context {K : StarRing}.
  Add Ring KrFC : (sr_ring K).
  Local Notation vec := (N -> K).
  Variable nrm : vec -> N -> bool -> K.
  Hypothesis NR : forall psi q b (a : K), a <> 0%amp -> (nrm psi q b * a)%amp <> 0%amp.

  Definition fo_ok (l : list (N * option bool)) (x : N) : Prop := forall q v, In (q, Some v) l -> N.testbit x q = v.
  Definition good n (l : list (N * option bool)) (psi : vec) (r : out (N * vec)) : Prop :=
    (exists m psi' x, r = Ret (m, psi') /\ x < 2 ^ n /\ psi x <> 0%amp /\ mask_of (map fst l) x m /\ fo_ok l x /\ measured_as n (map fst l) x psi psi') \/
    (r = Throws /\ (exists q v, In (q, Some v) l) /\ forall x, x < 2 ^ n -> psi x <> 0%amp -> ~ fo_ok l x).
  Definition mode (l : list (N * option bool)) : Prop := (forall e, In e l -> snd e = None) \/ (forall e, In e l -> snd e <> None).
  Lemma mode_tl e l : mode (e :: l) -> mode l.
  Proof. intros [H|H]; [left|right]; intros f Hf; apply H; now right. Qed.
  Lemma has_dec n q b (psi : vec) : has_outcome n q b psi \/ ~ has_outcome n q b psi.
  Proof.
    destruct (existsb (fun x => Bool.eqb (N.testbit x q) b && negb (sr_eqb (psi x) 0%amp)) (basis n)) eqn:E.
    - left. apply existsb_exists in E. destruct E as [x [Hx E]]. apply andb_true_iff in E. destruct E as [E1 E2]. exists x. split. now apply basis_In. split. now apply eqb_prop. intros Z. apply sr_eqb_ok in Z. now rewrite Z in E2.
    - right. intros [x [Hx [Hb Hp]]]. assert (T : existsb (fun x => Bool.eqb (N.testbit x q) b && negb (sr_eqb (psi x) 0%amp)) (basis n) = true). { apply existsb_exists. exists x. split. now apply basis_In. rewrite Hb, eqb_reflx. cbn [andb]. destruct (sr_eqb (psi x) 0%amp) eqn:Z; auto. apply sr_eqb_ok in Z. contradiction. } congruence.
  Qed.
  Lemma collapse_nz q b (psi : vec) x : collapse nrm q b psi x <> 0%amp <-> N.testbit x q = b /\ psi x <> 0%amp.
  Proof.
    unfold collapse. destruct (Bool.eqb (N.testbit x q) b) eqn:E.
    - apply eqb_prop in E. split; [intros H; split; auto|intros [_ H]; now apply NR]. intros Z. apply H. rewrite Z. ring.
    - split; [intros H; now elim H|]. intros [H _]. rewrite H, eqb_reflx in E. discriminate.
  Qed.
  Lemma collapse_nonzero n q b (psi : vec) : has_outcome n q b psi -> nonzero n (collapse nrm q b psi).
  Proof. intros [x [Hx [Hb Hp]]]. exists x. split; auto. now apply collapse_nz. Qed.
  Lemma loop_runs n l : forall psi, nonzero n psi -> exists r, force_loop nrm n true l psi r.
  Proof.
    induction l as [|[q fo] t IH]; intros psi NZ; cbn [force_loop]. now exists (Ret (0, psi)).
    assert (H : exists r1, force_one nrm n q fo true psi r1). { destruct fo as [b|]. destruct (has_dec n q b psi). exists (Ret (b, collapse nrm q b psi)). left. exists b. auto. exists Throws. right. exists b. auto.
      destruct NZ as [x [Hx Px]]. exists (Ret (N.testbit x q, collapse nrm q (N.testbit x q) psi)). left. exists (N.testbit x q). split; auto. exists x. auto. }
    destruct H as [r1 H]. pose proof H as [(b & Hb & _ & E)|(b & _ & _ & E)]; subst r1.
    - destruct (IH _ (collapse_nonzero n q b psi Hb)) as [r2 H2]. eexists. exists (Ret (b, collapse nrm q b psi)). split; [exact H|]. exists r2. split; [exact H2|reflexivity].
    - exists Throws, Throws. split; auto.
  Qed.
  Lemma loop_good n l : forall psi r, mode l -> nonzero n psi -> force_loop nrm n true l psi r -> good n l psi r.
  Proof.
    induction l as [|[q fo] t IH]; intros psi r M NZ H; cbn [force_loop] in H.
    - subst r. left. destruct NZ as [x [Hx Px]]. exists 0, psi, x. split; auto. split; auto. split; auto. split. { intros q. now rewrite N.bits_0. } split. { intros q v []. } exists 1%amp. intros y. cbn. ring.
    - destruct H as [r1 [H1 H]]. destruct H1 as [(b & Hb & HF & E)|(b & HF & Hn & E)]; subst r1.
      + destruct H as [r2 [H2 E]]. destruct (IH _ _ (mode_tl _ _ M) (collapse_nonzero n q b psi Hb) H2) as [(m & psi' & x & E2 & Hx & Px & HM & HO & [g HG])|(E2 & [q1 [v1 I1]] & HT)]; subst r2; cbn [bind fst snd] in E; subst r.
        * left. apply collapse_nz in Px. destruct Px as [Bx Px]. exists (N.lor (if b then 2 ^ q else 0) m), psi', x. split; auto. split; auto. split; auto. split; [|split].
          -- intros q'. rewrite N.lor_spec, HM. cbn [map fst existsb]. rewrite (N.eqb_sym q' q). destruct b.
             ++ rewrite tb_pow2. destruct (N.eqb_spec q q') as [<-|]; [now rewrite Bx|reflexivity].
             ++ rewrite N.bits_0. destruct (N.eqb_spec q q') as [<-|]; [|reflexivity]. cbn [orb andb]. rewrite Bx. apply andb_false_r.
          -- intros q' v [I|I]; [|now apply HO]. injection I as -> ->. destruct HF as [HF|HF]; [discriminate|]. injection HF as ->. exact Bx.
          -- exists (g * nrm psi q b)%amp. intros y. rewrite HG. unfold collapse, same_on. cbn [map fst forallb]. rewrite Bx. destruct (Bool.eqb (N.testbit y q) b); cbn [andb]. destruct (forallb _ _); auto. ring. destruct (forallb _ _); auto. ring.
        * right. split; auto. split. { exists q1, v1. now right. } intros x Hx Px HO. assert (SB : fo = Some b). { destruct HF as [HF|HF]; auto. exfalso. destruct M as [M|M]. specialize (M _ (or_intror I1)). discriminate. apply (M (q, fo) (or_introl eq_refl)). exact HF. }
          apply (HT x Hx). apply collapse_nz. split; auto. apply HO. left. now rewrite SB. intros q' v I. apply HO. now right.
      + subst r. right. split; auto. split. { exists q, b. left. now rewrite HF. } intros x Hx Px HO. apply Hn. exists x. split; auto. split; auto. apply HO. left. now rewrite HF.
  Qed.
  (** Without applying. *)
  Lemma peek_loop n : forall bits values psi r, force_loop nrm n false (combine bits (map Some values)) psi r ->
    r = Throws \/ exists m, r = Ret (m, psi) /\ forall q, N.testbit m q = existsb (fun e => (fst e =? q) && snd e) (combine bits values).
  Proof.
    induction bits as [|q bt IH]; intros values psi r H.
    - cbn [combine force_loop] in H. right. exists 0. split; [exact H|]. intros q. apply N.bits_0.
    - destruct values as [|v vt]; cbn [map combine force_loop] in H. right. exists 0. split; [exact H|]. intros q0. apply N.bits_0.
      destruct H as [r1 [[(b & _ & HF & E)|(b & _ & _ & E)] H]]; subst r1; auto. destruct H as [r2 [H2 E]]. destruct HF as [HF|HF]; [discriminate|]. injection HF as <-. destruct (IH _ _ _ H2) as [E2|(m & E2 & HM)]; subst r2; cbn [bind fst snd] in E; subst r; auto.
      right. exists (N.lor (if v then 2 ^ q else 0) m). split; auto. intros q'. rewrite N.lor_spec, HM. cbn [combine existsb fst snd]. f_equal. destruct v. rewrite tb_pow2. now rewrite andb_true_r. now rewrite N.bits_0, andb_false_r.
  Qed.
  Lemma map_fst_none (bits : list N) : map fst (map (fun q => (q, @None bool)) bits) = bits.
  Proof. induction bits; cbn; congruence. Qed.
  Lemma map_fst_some (bits : list N) : forall values : list bool, length bits = length values -> map fst (combine bits (map Some values)) = bits.
  Proof. induction bits; intros [|v vt] H; cbn in *; auto; try lia. f_equal. apply IHbits. lia. Qed.
  Lemma in_some (bits : list N) : forall (values : list bool) q v, In (q, Some v) (combine bits (map Some values)) <-> In (q, v) (combine bits values).
  Proof. induction bits; intros [|w vt] q v; cbn; try tauto. rewrite IHbits. split; intros [H|H]; auto; left; congruence. Qed.
  Lemma snd_some (bits : list N) : forall (values : list bool) e, In e (combine bits (map Some values)) -> snd e <> None.
  Proof. induction bits; intros [|w vt] e; cbn; try tauto. intros [<-|H]; [discriminate|eauto]. Qed.
End P.
