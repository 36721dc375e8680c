(** Race freedom: tasks that write only cells they own and read only their own or never-written cells give the same
    memory under every interleaving. *)
From Coq Require Import NArith List Bool Lia.
From Verif Require Import MKernel.
Import ListNotations.
Local Open Scope N_scope.

(** All writes of a program stay inside [F], all reads inside [F] or [S]. *)
Fixpoint within2 {V} (F S : N -> Prop) (p : prog V) : Prop :=
  match p with
  | Ret => True
  | Rd a k => (F a \/ S a) /\ forall v, within2 F S (k v)
  | Wr a v k => F a /\ within2 F S k
  end.

Definition within {V} (F : N -> Prop) (p : prog V) : Prop := within2 F (fun _ => False) p.

Lemma mset_eq {V} (m : mem V) a v : mset m a v a = v.
Proof. unfold mset. now rewrite N.eqb_refl. Qed.
Lemma mset_neq {V} (m : mem V) a v b : b <> a -> mset m a v b = m b.
Proof. intros H. unfold mset. destruct (N.eqb_spec b a); congruence. Qed.

Lemma exec_ext {V} (F S : N -> Prop) (p : prog V) : forall m1 m2, within2 F S p ->
  (forall a, F a -> m1 a = m2 a) -> (forall a, S a -> m1 a = m2 a) ->
  forall a, F a -> exec p m1 a = exec p m2 a.
Proof.
  induction p as [|b k IH|b v k IH]; intros m1 m2 W E E' a Ha; simpl in *; auto.
  - destruct W as [Fb W]. replace (m1 b) with (m2 b) by (symmetry; destruct Fb; auto). now apply IH.
  - destruct W as [Fb W]. apply IH; auto; intros c Hc; unfold mset; destruct (c =? b); auto.
Qed.

Section Race.
  Context {V : Type}.
  (** Cells owned by each task; cells that nobody writes. *)
  Variable F : nat -> N -> Prop.
  Variable S : N -> Prop.
  Hypothesis disj : forall i j a, F i a -> F j a -> i = j.
  Hypothesis sep : forall i a, F i a -> ~ S a.

  Definition fin (ts : list (prog V)) (m0 m : mem V) (ts' : list (prog V)) : Prop :=
    length ts' = length ts /\
    (forall i p, nth_error ts' i = Some p -> within2 (F i) S p) /\
    (forall i p p', nth_error ts i = Some p -> nth_error ts' i = Some p' ->
        forall a, F i a -> exec p' m a = exec p m0 a) /\
    (forall a, (forall i, (i < length ts)%nat -> ~ F i a) -> m a = m0 a).

  Lemma put_same {A} (x : A) : forall l t, (t < length l)%nat -> nth_error (put t x l) t = Some x.
  Proof. induction l; intros [|t] H; simpl in *; auto; try lia. apply IHl. lia. Qed.
  Lemma put_other {A} (x : A) : forall l t i, i <> t -> nth_error (put t x l) i = nth_error l i.
  Proof. induction l; intros [|t] [|i] H; simpl in *; auto; try lia. Qed.
  Lemma put_length {A} (x : A) : forall l t, length (put t x l) = length l.
  Proof. induction l; intros [|t]; simpl; auto. Qed.

  Lemma fin_step ts m0 m ts' t : fin ts m0 m ts' ->
    fin ts m0 (snd (kstep (ts', m) t)) (fst (kstep (ts', m) t)).
  Proof.
    intros [HL [HW [HE HO]]]. unfold kstep. cbn [fst snd].
    destruct (nth_error ts' t) as [[|a k|a v k]|] eqn:E; [repeat split; auto| | |repeat split; auto].
    - assert (Ht : (t < length ts')%nat) by (apply nth_error_Some; congruence).
      pose proof (HW _ _ E) as [Fa Wk]. cbn [fst snd]. split; [now rewrite put_length|]. split; [|split; auto].
      + intros i p Hi. destruct (PeanoNat.Nat.eq_dec i t) as [->|Hne].
        * rewrite put_same in Hi by auto. injection Hi as <-. apply Wk.
        * rewrite put_other in Hi by auto. now apply HW.
      + intros i p p' Hi Hi'. destruct (PeanoNat.Nat.eq_dec i t) as [->|Hne].
        * rewrite put_same in Hi' by auto. injection Hi' as <-. intros b Hb. apply (HE _ _ _ Hi E b Hb).
        * rewrite put_other in Hi' by auto. now apply HE.
    - assert (Ht : (t < length ts')%nat) by (apply nth_error_Some; congruence).
      pose proof (HW _ _ E) as [Fa Wk]. cbn [fst snd]. split; [now rewrite put_length|]. split; [|split].
      + intros i p Hi. destruct (PeanoNat.Nat.eq_dec i t) as [->|Hne].
        * rewrite put_same in Hi by auto. injection Hi as <-. apply Wk.
        * rewrite put_other in Hi by auto. now apply HW.
      + intros i p p' Hi Hi'. destruct (PeanoNat.Nat.eq_dec i t) as [->|Hne].
        * rewrite put_same in Hi' by auto. injection Hi' as <-. intros b Hb. apply (HE _ _ _ Hi E b Hb).
        * rewrite put_other in Hi' by auto. intros b Hb. rewrite <- (HE _ _ _ Hi Hi' b Hb).
          apply (exec_ext (F i) S); auto.
          -- intros c Hc. apply mset_neq. intros ->. apply Hne. eapply disj; eauto.
          -- intros c Hc. apply mset_neq. intros ->. exact (sep _ _ Fa Hc).
      + intros b Hb. rewrite <- HO by auto. apply mset_neq. intros ->. apply (Hb t); auto. lia.
  Qed.

  Lemma fin_run ts m0 sched : forall m ts', fin ts m0 m ts' ->
    fin ts m0 (snd (fold_left kstep sched (ts', m))) (fst (fold_left kstep sched (ts', m))).
  Proof.
    induction sched as [|t s IH]; intros m ts' Hf; simpl; auto.
    pose proof (fin_step _ _ _ _ t Hf) as H1. destruct (kstep (ts', m) t) as [ts1 m1]. now apply IH.
  Qed.

  Lemma kernel_char (ts : list (prog V)) (m m' : mem V) : (forall i p, nth_error ts i = Some p -> within2 (F i) S p) -> kernel ts m m' ->
    (forall i p a, nth_error ts i = Some p -> F i a -> m' a = exec p m a) /\
    (forall a, (forall i, (i < length ts)%nat -> ~ F i a) -> m' a = m a).
  Proof.
    intros HW [sched Hs].
    assert (Hf : fin ts m m ts).
    { repeat split; auto. intros i p p' H1 H2. rewrite H1 in H2. injection H2 as <-. auto. }
    pose proof (fin_run ts m sched m ts Hf) as [HL [HW' [HE HO]]]. rewrite Hs in *. cbn [fst snd] in *.
    split; auto. intros i p a Hi Ha. rewrite <- (HE i p Ret); auto.
    rewrite nth_error_map, Hi. reflexivity.
  Qed.
End Race.

(** A sequential run is one of the possible interleavings. *)
Lemma put_app {A} (x y : A) a b : put (length a) x (a ++ y :: b) = a ++ x :: b.
Proof. induction a; simpl; auto. now rewrite IHa. Qed.

Lemma kernel_one {V} (p : prog V) : forall a b m, exists sched,
  fold_left kstep sched (a ++ p :: b, m) = (a ++ Ret :: b, exec p m).
Proof.
  induction p as [|c k IH|c v k IH]; intros a b m.
  - exists []. reflexivity.
  - destruct (IH (m c) a b m) as [s Hs]. exists (length a :: s). cbn [fold_left]. unfold kstep at 2. cbn [fst snd].
    rewrite nth_error_app2 by lia. rewrite PeanoNat.Nat.sub_diag. simpl. rewrite put_app. exact Hs.
  - destruct (IH a b (mset m c v)) as [s Hs]. exists (length a :: s). cbn [fold_left]. unfold kstep at 2. cbn [fst snd].
    rewrite nth_error_app2 by lia. rewrite PeanoNat.Nat.sub_diag. simpl. rewrite put_app. exact Hs.
Qed.

Lemma kernel_seq_aux {V} (ts : list (prog V)) : forall d m, exists sched,
  fold_left kstep sched (map (fun _ => Ret) d ++ ts, m) =
  (map (fun _ => Ret) (d ++ ts), fold_left (fun mm p => exec p mm) ts m).
Proof.
  induction ts as [|p ts IH]; intros d m.
  - exists []. rewrite !app_nil_r. reflexivity.
  - destruct (kernel_one p (map (fun _ => Ret) d) ts m) as [s1 H1].
    destruct (IH (d ++ [p]) (exec p m)) as [s2 H2]. exists (s1 ++ s2). rewrite fold_left_app, H1.
    rewrite map_app in H2. simpl in H2. rewrite <- app_assoc in H2. simpl in H2. rewrite H2.
    rewrite <- app_assoc. reflexivity.
Qed.

Lemma kernel_seq {V} (ts : list (prog V)) m : kernel ts m (fold_left (fun mm p => exec p mm) ts m).
Proof. destruct (kernel_seq_aux ts [] m) as [s Hs]. exists s. exact Hs. Qed.

(** ** Kernels indexed by loop index: body [b i] with footprint [F i], for the indices of a duplicate-free list. *)
Lemma kernel_indexed {V} (F : N -> N -> Prop) (b : N -> prog V) idx (m m' : mem V) :
  NoDup idx -> (forall i j a, In i idx -> In j idx -> F i a -> F j a -> i = j) ->
  (forall i, In i idx -> within (F i) (b i)) -> kernel (map b idx) m m' ->
  (forall i a, In i idx -> F i a -> m' a = exec (b i) m a) /\
  (forall a, (forall i, In i idx -> ~ F i a) -> m' a = m a).
Proof.
  intros ND Hd HW HK.
  pose (G := fun (k : nat) (a : N) => match nth_error idx k with Some i => F i a | None => False end).
  destruct (@kernel_char V G (fun _ => False)) with (ts := map b idx) (m := m) (m' := m') as [H1 H2]; auto.
  - intros k l a. unfold G. destruct (nth_error idx k) as [i|] eqn:Ek; [|tauto]. destruct (nth_error idx l) as [j|] eqn:El; [|tauto].
    intros Fi Fj. assert (i = j) by (eapply Hd; eauto; eapply nth_error_In; eauto). subst j.
    eapply NoDup_nth_error; eauto. apply nth_error_Some. congruence. congruence.
  - intros k p Hk. rewrite nth_error_map in Hk. destruct (nth_error idx k) as [i|] eqn:Ek; [|discriminate].
    injection Hk as <-. replace (G k) with (F i) by (unfold G; now rewrite Ek). apply HW. eapply nth_error_In; eauto.
  - split.
    + intros i a Hi Ha. apply In_nth_error in Hi. destruct Hi as [k Hk]. apply (H1 k).
      rewrite nth_error_map, Hk. reflexivity. unfold G. now rewrite Hk.
    + intros a Ha. apply H2. intros k Hk. unfold G. destruct (nth_error idx k) as [i|] eqn:Ek; auto.
      apply Ha. eapply nth_error_In; eauto.
Qed.

(** [owner a]: the task allowed to write cell [a] (None: nobody writes it, everybody may read it). *)
Definition respects {V} (owner : N -> option nat) (ts : list (prog V)) : Prop :=
  forall i p, nth_error ts i = Some p -> within2 (fun a => owner a = Some i) (fun a => owner a = None) p.

Lemma kernel_owner {V} (owner : N -> option nat) (ts : list (prog V)) m m' : respects owner ts -> kernel ts m m' ->
  forall a, m' a = match owner a with
                   | None => m a
                   | Some i => match nth_error ts i with Some p => exec p m a | None => m a end
                   end.
Proof.
  intros HW HK a.
  destruct (@kernel_char V (fun i a => owner a = Some i) (fun a => owner a = None)) with (ts := ts) (m := m) (m' := m') as [H1 H2]; auto.
  - congruence.
  - congruence.
  - destruct (owner a) as [i|] eqn:E.
    + destruct (nth_error ts i) as [p|] eqn:Ep. apply (H1 i p a Ep E).
      apply H2. intros j Hj. rewrite E. intros [= ->]. apply nth_error_None in Ep. lia.
    + apply H2. intros j _. congruence.
Qed.

Lemma kernel_deterministic {V} (owner : N -> option nat) (ts : list (prog V)) m m1 m2 : respects owner ts ->
  kernel ts m m1 -> kernel ts m m2 -> forall a, m1 a = m2 a.
Proof.
  intros HW K1 K2 a. now rewrite (kernel_owner owner ts m m1 HW K1 a), (kernel_owner owner ts m m2 HW K2 a).
Qed.

Lemma kernel_as_sequential {V} (owner : N -> option nat) (ts : list (prog V)) m m' : respects owner ts ->
  kernel ts m m' -> forall a, m' a = fold_left (fun mm p => exec p mm) ts m a.
Proof. intros HW K. apply (kernel_deterministic owner ts m); auto. apply kernel_seq. Qed.
