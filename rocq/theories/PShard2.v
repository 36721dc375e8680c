(** Products of buffered gates. *)
From Coq Require Import NArith List Bool Lia Arith Permutation.
From Verif Require Import Amp PAmp SpecState PGates PGates2 PQCirc2 PQCirc3 MShard SpecShard PShard1.
Import ListNotations.
Local Open Scope N_scope.

Section P.
  Context {K : StarRing} (po : Polar K).
  Add Ring KrBD : (sr_ring K).
  Local Notation sh := (shards K).
  Local Notation vec := (N -> K).
  Local Notation key := (bool * N * N)%type.
  Local Notation unit1 x := (anorm x = 1%amp).
  Implicit Types (psi : vec) (s : sh) (k : key).

  Lemma ss_refl psi : same_state psi psi.
  Proof. intros x. reflexivity. Qed.
  Lemma ss_sym (f g : vec) : same_state f g -> same_state g f.
  Proof. intros H x. symmetry. apply H. Qed.
  Lemma ss_trans (f g h : vec) : same_state f g -> same_state g h -> same_state f h.
  Proof. intros H1 H2 x. rewrite H1. apply H2. Qed.

  Definition proper (f : vec -> vec) : Prop := forall g h, same_state g h -> same_state (f g) (f h).
  Lemma gate1_proper P t (m : mat2 K) : proper (gate1 P t m).
  Proof. intros g h H x. unfold gate1. rewrite !H. reflexivity. Qed.
  Lemma gate_at_proper s k : proper (gate_at s k).
  Proof. destruct k as [[a c] t]. intros g h H. unfold gate_at. destruct buffer_of; [apply gate1_proper, H|exact H]. Qed.

  Lemma fold_proper (F : key -> vec -> vec) l : (forall k, proper (F k)) -> proper (fun psi => fold_right F psi l).
  Proof. intros HF g h H. induction l as [|k l IH]; cbn [fold_right]; [exact H|]. apply HF, IH. Qed.
  Lemma fold_ext (F G : key -> vec -> vec) l psi : (forall k, proper (F k)) -> (forall k psi, In k l -> same_state (F k psi) (G k psi)) ->
    same_state (fold_right F psi l) (fold_right G psi l).
  Proof.
    intros PF H. induction l as [|k l IH]; cbn [fold_right]; [apply ss_refl|]. eapply ss_trans; [apply PF, IH|].
    - intros k' p Hk. apply H. right. exact Hk.
    - apply H. left. reflexivity.
  Qed.
  (** One gate of a product gains a factor that commutes with the other gates. *)
  Lemma fold_update (F G : key -> vec -> vec) (g : vec -> vec) k l psi : NoDup l -> In k l -> (forall k, proper (F k)) -> (forall k, proper (G k)) -> proper g ->
    (forall j psi, j <> k -> same_state (G j psi) (F j psi)) -> (forall psi, same_state (G k psi) (g (F k psi))) ->
    (forall j psi, j <> k -> same_state (g (F j psi)) (F j (g psi))) ->
    same_state (fold_right G psi l) (g (fold_right F psi l)).
  Proof.
    intros ND Hin PF PG Pg Hj Hk Hc. induction l as [|j l IH]; [destruct Hin|]. cbn [fold_right].
    apply NoDup_cons_iff in ND. destruct ND as [Hn ND].
    destruct Hin as [->|Hin].
    - eapply ss_trans; [apply Hk|]. apply Pg. apply PF. apply fold_ext; [exact PG|]. intros i p Hi. apply Hj. intros ->. contradiction.
    - assert (Hjk : j <> k) by (intros ->; contradiction).
      eapply ss_trans; [apply Hj, Hjk|]. eapply ss_trans; [apply PF, IH; assumption|]. apply ss_sym, Hc, Hjk.
  Qed.
  (** Moving a map through a product. *)
  Lemma fold_conj (F G : key -> vec -> vec) (w : vec -> vec) l psi : (forall k, proper (F k)) -> (forall k, proper (G k)) -> proper w ->
    (forall k psi, In k l -> same_state (G k (w psi)) (w (F k psi))) -> same_state (fold_right G (w psi) l) (w (fold_right F psi l)).
  Proof.
    intros PF PG Pw H. induction l as [|k l IH]; cbn [fold_right]; [apply ss_refl|]. eapply ss_trans; [apply PG, IH|].
    - intros k' p Hk. apply H. right. exact Hk.
    - apply H. left. reflexivity.
  Qed.
  Lemma fold_conj_on (S : vec -> Prop) (F G : key -> vec -> vec) (w : vec -> vec) l psi : (forall k, proper (F k)) -> (forall k, proper (G k)) -> proper w ->
    (forall k psi, In k l -> S psi -> S (F k psi)) -> S psi ->
    (forall k psi, In k l -> S psi -> same_state (G k (w psi)) (w (F k psi))) ->
    S (fold_right F psi l) /\ same_state (fold_right G (w psi) l) (w (fold_right F psi l)).
  Proof.
    intros PF PG Pw HS H0 H. induction l as [|k l IH]; cbn [fold_right]; [split; [exact H0|apply ss_refl]|].
    destruct IH as [IH1 IH2]; [intros j p Hj; apply HS; right; exact Hj|intros j p Hj; apply H; right; exact Hj|].
    split; [apply HS; [left; reflexivity|exact IH1]|]. eapply ss_trans; [apply PG, IH2|]. apply H; [left; reflexivity|exact IH1].
  Qed.
  Lemma fold_perm (F : key -> vec -> vec) l l' psi : (forall k, proper (F k)) -> (forall k k' psi, same_state (F k (F k' psi)) (F k' (F k psi))) ->
    Permutation l l' -> same_state (fold_right F psi l) (fold_right F psi l').
  Proof.
    intros PF HC HP. induction HP; cbn [fold_right].
    - apply ss_refl.
    - apply PF, IHHP.
    - apply HC.
    - eapply ss_trans; eassumption.
  Qed.

  (** The pairs. *)
  Lemma upto_in n x : In x (upto n) <-> x < N.of_nat n.
  Proof.
    induction n as [|n IH]; cbn [upto]; [cbn; lia|]. rewrite in_app_iff, IH. cbn [In]. lia.
  Qed.
  Lemma upto_nodup n : NoDup (upto n).
  Proof.
    induction n as [|n IH]; cbn [upto]; [constructor|]. apply NoDup_rev in IH. rewrite <- (rev_involutive (upto n ++ _)). apply NoDup_rev. rewrite rev_app_distr. cbn [rev app].
    constructor; [|exact IH]. rewrite <- in_rev, upto_in. lia.
  Qed.
  Lemma pairs_in n a c t : In (a, c, t) (all_pairs n) <-> c < n /\ t < n.
  Proof.
    unfold all_pairs. rewrite in_flat_map. split.
    - intros (a' & _ & H). apply in_flat_map in H. destruct H as (c' & Hc & H). apply in_map_iff in H. destruct H as (t' & E & Ht).
      injection E as -> -> ->. apply upto_in in Hc, Ht. lia.
    - intros [Hc Ht]. exists a. split; [destruct a; cbn; auto|]. apply in_flat_map. exists c. split; [apply upto_in; lia|]. apply in_map_iff. exists t. split; [reflexivity|apply upto_in; lia].
  Qed.
  Lemma nodup_flat {A B} (f : A -> list B) (l : list A) : NoDup l -> (forall a, NoDup (f a)) -> (forall a b x, In x (f a) -> In x (f b) -> a = b) -> NoDup (flat_map f l).
  Proof.
    intros Hl Hf Hd. induction l as [|a l IH]; cbn [flat_map]; [constructor|]. apply NoDup_cons_iff in Hl. destruct Hl as [Hn Hl].
    specialize (IH Hl). assert (Hx : forall x, In x (f a) -> ~ In x (flat_map f l)).
    { intros x H1 H2. apply in_flat_map in H2. destruct H2 as (b & Hb & H2). rewrite (Hd _ _ _ H1 H2) in Hn. contradiction. }
    revert Hx. generalize (Hf a). induction (f a) as [|y m IHm]; cbn [app]; intros N1 Hx; [exact IH|].
    apply NoDup_cons_iff in N1. destruct N1 as [N1 N2]. constructor.
    - intros Hin. apply in_app_or in Hin. destruct Hin as [Hin|Hin]; [contradiction|]. apply (Hx y); [left; reflexivity|exact Hin].
    - apply IHm; [exact N2|]. intros x Hin. apply Hx. right. exact Hin.
  Qed.
  Lemma pairs_nodup n : NoDup (all_pairs n).
  Proof.
    unfold all_pairs. apply nodup_flat.
    - repeat constructor; cbn; intuition congruence.
    - intros a. apply nodup_flat; [apply upto_nodup| |].
      + intros c. apply FinFun.Injective_map_NoDup; [|apply upto_nodup]. intros x y [=]. assumption.
      + intros c c' x H1 H2. apply in_map_iff in H1, H2. destruct H1 as (t & <- & _), H2 as (t' & E & _). congruence.
    - intros a b x H1 H2. apply in_flat_map in H1, H2. destruct H1 as (c & _ & H1), H2 as (c' & _ & H2).
      apply in_map_iff in H1, H2. destruct H1 as (t & <- & _), H2 as (t' & E & _). congruence.
  Qed.

  (** Gates of buffers. *)
  Definition gate_buf (a : bool) (c t : N) (b : option (PhaseShard K)) (psi : vec) : vec :=
    match b with Some b => gate1 (fires a c) t (matrix_of a b) psi | None => psi end.
  Lemma gate_at_eq s a c t psi : gate_at s (a, c, t) psi = gate_buf a c t (buffer_of s a c t) psi.
  Proof. reflexivity. Qed.
  Lemma fires_indep a c t : c <> t -> indep (fires a c) t.
  Proof.
    intros H x. unfold fires. rewrite tb_setbit, tb_clearbit. destruct (N.eqb_spec t c); [congruence|]. cbn [negb orb]. rewrite andb_true_r. auto.
  Qed.

  Lemma matrix_mk a (d m : K) i : matrix_of a (mkPS d m i) =
    (let (p, q) := if a then (m, d) else (d, m) in if i then mkMat 0 p q 0 else mkMat p 0 0 q)%amp.
  Proof. destruct a, i; reflexivity. Qed.
  Lemma matrix_plus a (d m : K) (b : PhaseShard K) : matrix_of a (plus_angles d m b) = mmul (matrix_of a (mkPS d m false)) (matrix_of a b).
  Proof.
    unfold plus_angles. destruct b as [bd bs bi]. cbn [cmplxDiff cmplxSame isInvert]. rewrite !matrix_mk.
    destruct a, bi; unfold mmul; cbn [m00 m01 m10 m11]; f_equal; ring.
  Qed.
  Lemma matrix_flip a (d m : K) (b : PhaseShard K) : matrix_of a (plus_angles d m (flipped b)) = mmul (matrix_of a (mkPS d m true)) (matrix_of a b).
  Proof.
    unfold plus_angles, flipped. destruct b as [bd bs bi]. cbn [cmplxDiff cmplxSame isInvert]. rewrite !matrix_mk.
    destruct a, bi; unfold mmul; cbn [m00 m01 m10 m11 negb]; f_equal; ring.
  Qed.
  Lemma matrix_new a : matrix_of a (newPhaseShard (K := K)) = midn.
  Proof. destruct a; reflexivity. Qed.
  Lemma trivial_id a (b : PhaseShard K) : trivial b = true -> matrix_of a b = midn.
  Proof.
    unfold trivial. destruct b as [d m i]. cbn [cmplxDiff cmplxSame isInvert]. intros H. apply andb_true_iff in H. destruct H as [H H2].
    apply andb_true_iff in H. destruct H as [H1 H]. apply negb_true_iff in H1. subst i.
    destruct (eqb_spec K d 1%amp); [|discriminate]. destruct (eqb_spec K m 1%amp); [|discriminate]. subst. apply matrix_new.
  Qed.
  Lemma gate_midn P t psi : same_state (gate1 P t midn psi) psi.
  Proof. intros x. apply gate1_one. Qed.
  Lemma gate_keep a c t (b : PhaseShard K) psi : same_state (gate_buf a c t (keep b) psi) (gate1 (fires a c) t (matrix_of a b) psi).
  Proof.
    unfold keep. destruct (trivial b) eqn:E; [|apply ss_refl]. cbn [gate_buf]. rewrite (trivial_id a b E). apply ss_sym, gate_midn.
  Qed.
  Lemma gate_new s a c t psi : same_state (gate1 (fires a c) t (matrix_of a (buf_or_new s a c t)) psi) (gate_at s (a, c, t) psi).
  Proof.
    rewrite gate_at_eq. unfold buf_or_new. destruct (buffer_of s a c t) as [b|]; [apply ss_refl|]. rewrite matrix_new. apply gate_midn.
  Qed.
  Lemma gate_mul a c t (m1 m2 : mat2 K) psi : c <> t -> same_state (gate1 (fires a c) t (mmul m1 m2) psi) (gate1 (fires a c) t m1 (gate1 (fires a c) t m2 psi)).
  Proof. intros H x. symmetry. apply gate1_compose, fires_indep, H. Qed.

  (** A pair gains the factor [g]. *)
  Definition gains (g : vec -> vec) k s s' : Prop :=
    sh_size s' = sh_size s /\ (forall j psi, j <> k -> same_state (gate_at s' j psi) (gate_at s j psi)) /\
    (forall psi, same_state (gate_at s' k psi) (g (gate_at s k psi))).
  Lemma gains_changed a c t (m : mat2 K) s s' b : changed a c t (keep b) s s' -> c <> t -> matrix_of a b = mmul m (matrix_of a (buf_or_new s a c t)) ->
    gains (gate1 (fires a c) t m) (a, c, t) s s'.
  Proof.
    intros (C & E & _ & V) Hct Hm. split; [exact E|]. split.
    - intros [[a' c'] t'] psi Hk. rewrite !gate_at_eq, V, keq_false by exact Hk. apply ss_refl.
    - intros psi. rewrite gate_at_eq, V, keq_refl. eapply ss_trans; [apply gate_keep|]. rewrite Hm.
      eapply ss_trans; [apply gate_mul, Hct|]. apply gate1_proper, gate_new.
  Qed.
  Lemma pending_gain g a c t s s' psi : proper g -> c < sh_size s -> t < sh_size s -> gains g (a, c, t) s s' -> commutes_but s (a, c, t) g ->
    same_state (pending s' psi) (g (pending s psi)).
  Proof.
    intros Pg Hc Ht (E & H1 & H2) HC. unfold pending. rewrite E.
    apply (fold_update (gate_at s) (gate_at s') g (a, c, t)); auto using gate_at_proper, pairs_nodup.
    - apply pairs_in. auto.
  Qed.
  Lemma commuting_gain g k s s' : proper g -> commuting s -> gains g k s s' -> commutes_but s k g -> commuting s'.
  Proof.
    intros Pg HC (E & H1 & H2) Hg.
    assert (Hk : forall j psi, j <> k -> same_state (gate_at s' k (gate_at s' j psi)) (gate_at s' j (gate_at s' k psi))).
    { intros j psi Hj. eapply ss_trans; [apply H2|]. eapply ss_trans; [apply Pg, gate_at_proper, H1, Hj|].
      eapply ss_trans; [apply Pg, HC|]. eapply ss_trans; [apply Hg, Hj|]. apply ss_sym. eapply ss_trans; [apply H1, Hj|]. apply gate_at_proper, H2. }
    intros i j psi. assert (D : forall x y : key, {x = y} + {x <> y}) by (repeat decide equality).
    destruct (D i k) as [->|Hi], (D j k) as [->|Hj].
    - apply ss_refl.
    - apply Hk, Hj.
    - apply ss_sym, Hk, Hi.
    - eapply ss_trans; [apply H1, Hi|]. eapply ss_trans; [apply gate_at_proper, H1, Hj|]. eapply ss_trans; [apply HC|].
      apply ss_sym. eapply ss_trans; [apply H1, Hj|]. apply gate_at_proper, H1, Hi.
  Qed.

  (** Losing a pair. *)
  Lemma gains_back a c t s s' : changed a c t None s s' -> gains (gate_at s (a, c, t)) (a, c, t) s' s.
  Proof.
    intros (C & E & _ & V). split; [symmetry; exact E|]. split.
    - intros [[a' c'] t'] psi Hk. rewrite !gate_at_eq, V, keq_false by exact Hk. apply ss_refl.
    - intros psi. rewrite (gate_at_eq s'), V, keq_refl. apply ss_refl.
  Qed.
  Lemma lost_gate a c t s s' : changed a c t None s s' -> forall j psi, same_state (gate_at s' j psi) (if keq a c t (fst (fst j)) (snd (fst j)) (snd j) then psi else gate_at s j psi).
  Proof.
    intros (C & E & _ & V) [[a' c'] t'] psi. cbn [fst snd]. rewrite !gate_at_eq, V. destruct keq; apply ss_refl.
  Qed.
  Lemma lost_commuting a c t s s' : commuting s -> changed a c t None s s' -> commuting s' /\ (forall j psi, same_state (gate_at s (a, c, t) (gate_at s' j psi)) (gate_at s' j (gate_at s (a, c, t) psi))).
  Proof.
    intros HC Ch. pose proof (lost_gate a c t s s' Ch) as L.
    assert (H : forall j k psi, same_state (gate_at s k (gate_at s' j psi)) (gate_at s' j (gate_at s k psi))).
    { intros j k psi. eapply ss_trans; [apply gate_at_proper, L|]. apply ss_sym. eapply ss_trans; [apply L|]. destruct keq; [apply ss_refl|apply HC]. }
    split; [|intros j psi; apply H].
    intros i j psi. eapply ss_trans; [apply L|]. apply ss_sym. eapply ss_trans; [apply gate_at_proper, L|].
    destruct keq; [apply ss_refl|]. apply ss_sym, H.
  Qed.
  (** Moving the gate of a pair to another pair. *)
  Lemma move_gate a c t a' c' t' s s1 s2 : commuting s -> c < sh_size s -> t < sh_size s -> c' < sh_size s -> t' < sh_size s ->
    changed a c t None s s1 -> gains (gate_at s (a, c, t)) (a', c', t') s1 s2 ->
    commuting s2 /\ forall psi, same_state (pending s2 psi) (pending s psi).
  Proof.
    intros HC Hc Ht Hc' Ht' Ch G. destruct (lost_commuting a c t s s1 HC Ch) as [C1 Hg]. assert (E : sh_size s1 = sh_size s) by apply Ch.
    set (g := gate_at s (a, c, t)) in *. assert (Pg : proper g) by apply gate_at_proper. split.
    - apply (commuting_gain g (a', c', t') s1 s2 Pg C1 G). intros j psi _. apply Hg.
    - intros psi. apply ss_trans with (g (pending s1 psi)).
      + apply (pending_gain g a' c' t'); rewrite ?E; auto. intros j p _. apply Hg.
      + apply ss_sym. apply (pending_gain g a c t); rewrite ?E; auto; [apply gains_back, Ch|]. intros j p _. apply Hg.
  Qed.
End P.
