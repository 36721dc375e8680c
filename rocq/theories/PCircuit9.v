(** Proofs about the generic circuits (part 9: Fourier transforms). *)
From Coq Require Import NArith List Bool Lia Ring.
From Verif Require Import Bits MFunctions PFunctions MParFor PParFor MKernel Amp PAmp MEngine SpecState SpecEngine
  PGates PGates2 PGates3 PEngine PCompose MAlu SpecAlu PAlu PAlu2 PAlu5 PAlu6 PAlu9 MCircuit SpecCircuit PCircuit PCircuit2 PCircuit3 PCircuit4 PCircuit5 PCircuit6 PCircuit7.
Import ListNotations.
Local Open Scope N_scope.

Section P.
  Context {K : StarRing}.
  Add Ring KrS : (sr_ring K).
  Local Notation V := (mem K).
  Local Notation circ := (circ K).

  Definition ceq (a b : circ) : Prop := forall psi x, csem a psi x = csem b psi x.
  Lemma ceq_refl a : ceq a a. Proof. now intros psi x. Qed.
  Lemma ceq_sym a b : ceq a b -> ceq b a. Proof. intros H psi x. now rewrite H. Qed.
  Lemma ceq_trans a b d : ceq a b -> ceq b d -> ceq a d. Proof. intros H1 H2 psi x. now rewrite H1. Qed.
  Lemma ceq_app a a' b b' : ceq a a' -> ceq b b' -> ceq (a ++ b) (a' ++ b').
  Proof. intros H1 H2 psi x. rewrite !csem_app, H2. apply csem_ext. apply H1. Qed.
  Definition comm (a b : circ) : Prop := ceq (a ++ b) (b ++ a).
  Lemma comm_nil a : comm a []. Proof. unfold comm. rewrite app_nil_r. apply ceq_refl. Qed.
  Lemma comm_sym a b : comm a b -> comm b a. Proof. unfold comm. apply ceq_sym. Qed.
  Lemma comm_app a b d : comm a b -> comm a d -> comm a (b ++ d).
  Proof.
    unfold comm. intros H1 H2. rewrite app_assoc. eapply ceq_trans. apply ceq_app; [exact H1|apply ceq_refl].
    rewrite <- app_assoc. eapply ceq_trans. apply ceq_app; [apply ceq_refl|exact H2]. rewrite app_assoc. apply ceq_refl.
  Qed.
  Lemma comm_flat {A} a (f : A -> circ) l : (forall k, In k l -> comm a (f k)) -> comm a (flat_map f l).
  Proof.
    induction l as [|k r IH]; intros H; cbn [flat_map]. apply comm_nil. apply comm_app. apply H. now left. apply IH. intros. apply H. now right.
  Qed.
  Lemma sem_CP root k a b psi x : k <> 0 -> csem (qi_CPhaseRootN root k a b : circ) psi x = if N.testbit x a && N.testbit x b then (root k * psi x)%amp else psi x.
  Proof. intros H. unfold qi_CPhaseRootN. rewrite (neqb_f k 0) by auto. rewrite sem_MCPhase1. unfold all_set. cbn [forallb]. now rewrite andb_true_r. Qed.
  Lemma icp_cp root k a b : (qi_CIPhaseRootN root k a b : circ) = qi_CPhaseRootN root k a b.
  Proof. reflexivity. Qed.
  Lemma comm_PP root k a b root' k' a' b' : k <> 0 -> k' <> 0 -> comm (qi_CPhaseRootN root k a b) (qi_CPhaseRootN root' k' a' b').
  Proof.
    intros H H' psi x. rewrite !csem_app, !sem_CP by auto. destruct (N.testbit x a && N.testbit x b), (N.testbit x a' && N.testbit x b'); ring.
  Qed.
  Lemma comm_PH root k a b h q : k <> 0 -> q <> a -> q <> b -> comm (qi_CPhaseRootN root k a b) (qi_H h q).
  Proof.
    intros H Ha Hb psi x. rewrite !csem_app, sem_H, !sem_CP, sem_H by auto. rewrite !N.setbit_neq, !N.clearbit_neq by auto.
    destruct (N.testbit x a && N.testbit x b), (N.testbit x q); ring.
  Qed.
  Lemma inv_PP root iroot k a b psi x : k <> 0 -> (root k * iroot k = 1)%amp ->
    csem (qi_CIPhaseRootN iroot k a b) (csem (qi_CPhaseRootN root k a b : circ) psi) x = psi x.
  Proof. intros H E. rewrite icp_cp, !sem_CP by auto. destruct (N.testbit x a && N.testbit x b); auto. transitivity (root k * iroot k * psi x)%amp. ring. rewrite E. ring. Qed.
  Lemma inv_HH h q psi x : ((1 + 1) * (h * h) = 1)%amp -> csem (qi_H h q) (csem (qi_H h q : circ) psi) x = psi x.
  Proof.
    intros E. rewrite !sem_H. destruct (N.testbit x q) eqn:B.
    - rewrite N.clearbit_eq. replace (N.setbit (N.clearbit x q) q) with x.
      transitivity ((1 + 1) * (h * h) * psi x)%amp. ring. rewrite E. ring.
      apply N.bits_inj. intros p. rewrite N.setbit_eqb, N.clearbit_eqb. destruct (N.eqb_spec q p) as [<-|]; cbn [orb negb]; [auto|]. now rewrite andb_true_r.
    - rewrite N.setbit_eq. replace (N.clearbit (N.setbit x q) q) with x.
      transitivity ((1 + 1) * (h * h) * psi x)%amp. ring. rewrite E. ring.
      apply N.bits_inj. intros p. rewrite N.clearbit_eqb, N.setbit_eqb. destruct (N.eqb_spec q p) as [<-|]; cbn [orb negb]. now rewrite andb_false_r. now rewrite andb_true_r.
  Qed.
  (** Diagonal phases in any order: the two loops of phases cancel. *)
  Definition phs (root : N -> K) (at_ : N -> N) (L : nat) : circ :=
    flat_map (fun j => qi_CPhaseRootN root (j + 2) (at_ (N.of_nat L - (j + 1))) (at_ (N.of_nat L))) (iota 0 L).
  Definition phase_of (root : N -> K) (at_ : N -> N) (L : N) (l : list N) (x : N) : K :=
    fold_right (fun j p => ((if N.testbit x (at_ (L - (j + 1))%N) && N.testbit x (at_ L) then root (j + 2)%N else 1%amp) * p)%amp) 1%amp l.
  Lemma sem_phs_gen root at_ L l : forall psi x,
    csem (flat_map (fun j => qi_CPhaseRootN root (j + 2) (at_ (L - (j + 1))) (at_ L)) l : circ) psi x = (phase_of root at_ L l x * psi x)%amp.
  Proof.
    induction l as [|j r IH]; intros psi x; cbn [flat_map phase_of fold_right]. cbn [csem fold_left]. ring.
    rewrite csem_app, IH, sem_CP by lia. fold (phase_of root at_ L r x). destruct (_ && _); ring.
  Qed.
  Lemma sem_phs root at_ L psi x : csem (phs root at_ L) psi x = (phase_of root at_ (N.of_nat L) (iota 0 L) x * psi x)%amp.
  Proof. apply sem_phs_gen. Qed.
  Lemma phase_inv root iroot at_ L l x : (forall k, (root k * iroot k = 1)%amp) -> (phase_of root at_ L l x * phase_of iroot at_ L l x = 1)%amp.
  Proof.
    intros H. induction l as [|j r IH]; cbn [phase_of fold_right]. ring. fold (phase_of root at_ L r x) (phase_of iroot at_ L r x).
    set (p := phase_of root at_ L r x) in *. set (q := phase_of iroot at_ L r x) in *.
    destruct (_ && _). transitivity (root (j + 2)%N * iroot (j + 2)%N * (p * q))%amp. ring. rewrite H, IH. ring.
    transitivity (p * q)%amp. ring. exact IH.
  Qed.

  Fixpoint qr (root : N -> K) (h : K) (at_ : N -> N) (L : nat) : circ :=
    match L with
    | O => []
    | S k => qi_H h (at_ (N.of_nat k)) ++ phs root at_ k ++ qr root h at_ k
    end.
  Fixpoint iqr (iroot : N -> K) (h : K) (at_ : N -> N) (L : nat) : circ :=
    match L with
    | O => []
    | S k => iqr iroot h at_ k ++ phs iroot at_ k ++ qi_H h (at_ (N.of_nat k))
    end.
  Lemma qr_inv root iroot h at_ : (forall k, (root k * iroot k = 1)%amp) -> ((1 + 1) * (h * h) = 1)%amp ->
    forall L psi x, csem (iqr iroot h at_ L) (csem (qr root h at_ L) psi) x = psi x.
  Proof.
    intros Hr Hh. induction L as [|L IH]; intros psi x. reflexivity. cbn [qr iqr]. rewrite !csem_app.
    transitivity (csem (qi_H h (at_ (N.of_nat L))) (csem (qi_H h (at_ (N.of_nat L))) psi) x).
    - apply csem_ext. intros y. rewrite sem_phs, IH, sem_phs.
      transitivity (phase_of root at_ (N.of_nat L) (iota 0 L) y * phase_of iroot at_ (N.of_nat L) (iota 0 L) y * csem (qi_H h (at_ (N.of_nat L))) psi y)%amp. ring.
      rewrite phase_inv by auto. ring.
    - now apply inv_HH.
  Qed.
  Lemma qr_inv' root iroot h at_ : (forall k, (root k * iroot k = 1)%amp) -> ((1 + 1) * (h * h) = 1)%amp ->
    forall L psi x, csem (qr root h at_ L) (csem (iqr iroot h at_ L) psi) x = psi x.
  Proof.
    intros Hr Hh. induction L as [|L IH]; intros psi x. reflexivity. cbn [qr iqr]. rewrite !csem_app.
    rewrite <- (IH psi x). apply csem_ext. intros y. rewrite sem_phs, inv_HH, sem_phs by auto.
    set (z := csem (iqr iroot h at_ L) psi y).
    transitivity (phase_of root at_ (N.of_nat L) (iota 0 L) y * phase_of iroot at_ (N.of_nat L) (iota 0 L) y * z)%amp. ring.
    rewrite phase_inv by auto. ring.
  Qed.

  (** The index-list forms. *)
  Lemma iota_shift (L : nat) : forall s, map (fun k => k + 1) (iota s L) = iota (s + 1) L.
  Proof. induction L as [|L IH]; intros s; cbn [iota map]; auto. now rewrite IH. Qed.
  Lemma flat_map_shift {A} (f : N -> list A) s L : flat_map f (iota (s + 1) L) = flat_map (fun k => f (k + 1)) (iota s L).
  Proof. rewrite <- iota_shift. rewrite flat_map_concat_map, map_map, <- flat_map_concat_map. reflexivity. Qed.
  Lemma qftr_qr_gen root h (at_ : N -> N) L : flat_map (fun k => qi_H h (at_ (N.of_nat L - 1 - k)) ++
      flat_map (fun j => qi_CPhaseRootN root (j + 2) (at_ ((N.of_nat L - 1 - k) - (j + 1))) (at_ (N.of_nat L - 1 - k))) (iota 0 (N.to_nat (N.of_nat L - 1 - k)))) (iota 0 L) = qr root h at_ L.
  Proof.
    induction L as [|L IH]; auto.
    cbn [iota flat_map qr]. replace (N.of_nat (S L) - 1 - 0) with (N.of_nat L) by lia. rewrite <- app_assoc. f_equal. f_equal.
    - unfold phs. rewrite Nat2N.id. reflexivity.
    - rewrite (flat_map_shift _ 0). rewrite <- IH. apply flat_map_ext. intros k. replace (N.of_nat (S L) - 1 - (k + 1)) with (N.of_nat L - 1 - k) by lia. reflexivity.
  Qed.
  Lemma qftr_qr root h qs : (qi_QFTR root h qs : circ) = qr root h (fun k => nth (N.to_nat k) qs 0) (length qs).
  Proof. exact (qftr_qr_gen root h (fun k => nth (N.to_nat k) qs 0) (length qs)). Qed.
  Lemma iqftr_iqr_gen iroot h (at_ : N -> N) L : flat_map (fun k =>
      flat_map (fun j => qi_CIPhaseRootN iroot (j + 2) (at_ (k - (j + 1))) (at_ k)) (iota 0 (N.to_nat k)) ++ qi_H h (at_ k)) (iota 0 L) = iqr iroot h at_ L.
  Proof.
    induction L as [|L IH]; auto.
    rewrite iota_snoc, flat_map_app, IH. cbn [flat_map iqr]. rewrite N.add_0_l, app_nil_r. f_equal. unfold phs. rewrite Nat2N.id. reflexivity.
  Qed.
  Lemma iqftr_iqr iroot h qs : (qi_IQFTR iroot h qs : circ) = iqr iroot h (fun k => nth (N.to_nat k) qs 0) (length qs).
  Proof. exact (iqftr_iqr_gen iroot h (fun k => nth (N.to_nat k) qs 0) (length qs)). Qed.
  Lemma iqft_iqr iroot h s len : (qi_IQFT iroot h s len : circ) = iqr iroot h (fun k => s + k) (N.to_nat len).
  Proof.
    unfold qi_IQFT. destruct (N.eqb_spec len 0) as [->|E]; auto. clear E. induction (N.to_nat len) as [|L IH]; auto.
    rewrite iota_snoc, flat_map_app, IH. cbn [flat_map iqr]. rewrite N.add_0_l, app_nil_r. f_equal. unfold phs. rewrite Nat2N.id.
    f_equal. apply flat_map_ext_in. intros j Hj. rewrite iota_In in Hj. unfold qi_CIPhaseRootN, qi_CPhaseRootN.
    replace (s + N.of_nat L - (j + 1)) with (s + (N.of_nat L - (j + 1))) by lia. reflexivity.
  Qed.

  (** The register form: the phases of each new top qubit move to the front. *)
  Definition qblk (root : N -> K) (h : K) (e : N) (k : N) : circ :=
    flat_map (fun j => qi_CPhaseRootN root (j + 2) (e - k) (e - k + 1 + j)) (iota 0 (N.to_nat k)) ++ qi_H h (e - k).
  Lemma qft_blk root h s len : 0 < len -> (qi_QFT root h s len : circ) = flat_map (qblk root h (s + (len - 1))) (iota 0 (N.to_nat len)).
  Proof. intros H. unfold qi_QFT. rewrite (neqb_f len 0) by lia. reflexivity. Qed.
  (** Blocks 1 .. of the longer register are those of the shorter one with one more phase each. *)
  Lemma blocks_front root h s (L : N) : forall M, N.of_nat M <= L ->
    ceq (flat_map (fun k => qblk root h (s + L) (k + 1)) (iota 0 M))
        (flat_map (fun j => qi_CPhaseRootN root (j + 2) (s + (L - (j + 1))) (s + L)) (iota 0 M) ++ flat_map (qblk root h (s + (L - 1))) (iota 0 M)).
  Proof.
    induction M as [|M IH]; intros HM. apply ceq_refl. rewrite !iota_snoc, !flat_map_app. cbn [flat_map]. rewrite !app_nil_r, !N.add_0_l.
    set (A1 := flat_map (fun j => qi_CPhaseRootN root (j + 2) (s + (L - (j + 1))) (s + L)) (iota 0 M)) in *.
    set (B := flat_map (qblk root h (s + (L - 1))) (iota 0 M)) in *.
    set (p := qi_CPhaseRootN root (N.of_nat M + 2) (s + (L - (N.of_nat M + 1))) (s + L) : circ).
    assert (EB : qblk root h (s + L) (N.of_nat M + 1) = flat_map (fun j => qi_CPhaseRootN root (j + 2) (s + (L - 1) - N.of_nat M) (s + (L - 1) - N.of_nat M + 1 + j)) (iota 0 M) ++ p ++ qi_H h (s + (L - 1) - N.of_nat M)).
    { unfold qblk. replace (N.to_nat (N.of_nat M + 1)) with (S M) by lia. rewrite iota_snoc, flat_map_app. cbn [flat_map]. rewrite app_nil_r, N.add_0_l, <- app_assoc.
      replace (s + L - (N.of_nat M + 1)) with (s + (L - 1) - N.of_nat M) by lia. f_equal. f_equal. unfold p. f_equal; lia. }
    rewrite EB. unfold qblk at 2. rewrite Nat2N.id.
    set (F := flat_map (fun j => qi_CPhaseRootN root (j + 2) (s + (L - 1) - N.of_nat M) (s + (L - 1) - N.of_nat M + 1 + j)) (iota 0 M)).
    set (hh := qi_H h (s + (L - 1) - N.of_nat M) : circ).
    eapply ceq_trans. apply ceq_app; [apply IH; lia|apply ceq_refl].
    rewrite <- !app_assoc. apply ceq_app; [apply ceq_refl|]. rewrite !app_assoc. apply ceq_app; [|apply ceq_refl].
    rewrite <- (app_assoc p). apply ceq_sym.
    assert (C : comm p (B ++ F)).
    { apply comm_app.
      - apply comm_flat. intros k Hk. rewrite iota_In in Hk. unfold qblk. apply comm_app.
        + apply comm_flat. intros j Hj. apply comm_PP; lia.
        + apply comm_PH; lia.
      - apply comm_flat. intros j Hj. apply comm_PP; lia. }
    exact C.
  Qed.
  Lemma qft_qr root h s : forall L, ceq (qi_QFT root h s (N.of_nat L)) (qr root h (fun k => s + k) L).
  Proof.
    induction L as [|L IH]. apply ceq_refl. rewrite qft_blk by lia. rewrite Nat2N.id. cbn [iota flat_map qr].
    replace (N.of_nat (S L) - 1) with (N.of_nat L) by lia. unfold qblk at 1. cbn [iota flat_map app N.to_nat]. rewrite N.sub_0_r.
    apply ceq_app; [apply ceq_refl|]. rewrite (flat_map_shift _ 0). eapply ceq_trans. apply blocks_front. lia.
    apply ceq_app. unfold phs. apply ceq_refl. eapply ceq_trans; [|exact IH]. destruct L as [|L']. apply ceq_refl.
    rewrite qft_blk by lia. rewrite Nat2N.id. apply ceq_refl.
  Qed.

  (** Well-formedness. *)
  Lemma wf_CP n root k a b : a <> b -> a < n -> b < n -> Forall (wfg n) (qi_CPhaseRootN root k a b : circ).
  Proof. intros. unfold qi_CPhaseRootN. destruct (k =? 0). constructor. apply wf_MCPhase1. now apply wfc_1. Qed.
  Lemma wfg_flat {A} n (f : A -> circ) l : (forall a, In a l -> Forall (wfg n) (f a)) -> Forall (wfg n) (flat_map f l).
  Proof.
    induction l as [|a r IH]; intros H; cbn [flat_map]. constructor. apply Forall_app. split. apply H. now left. apply IH. intros. apply H. now right.
  Qed.
  Lemma wf_phs n root at_ L : (forall k, k <= N.of_nat L -> at_ k < n) -> (forall j k, j < k -> k <= N.of_nat L -> at_ j <> at_ k) -> Forall (wfg n) (phs root at_ L).
  Proof. intros H1 H2. apply wfg_flat. intros j Hj. rewrite iota_In in Hj. apply wf_CP. apply H2; lia. apply H1; lia. apply H1; lia. Qed.
  Lemma wf_qr n root h at_ L : ((1 + 1) * (h * h) = 1)%amp -> (forall k, k < N.of_nat L -> at_ k < n) -> (forall j k, j < k -> k < N.of_nat L -> at_ j <> at_ k) ->
    Forall (wfg n) (qr root h at_ L) /\ Forall (wfg n) (iqr root h at_ L).
  Proof.
    intros Hh. induction L as [|L IH]; intros H1 H2; cbn [qr iqr]. split; constructor. destruct IH as [I1 I2]. intros; apply H1; lia. intros; apply H2; lia.
    split; repeat (apply Forall_app; split); auto; try (apply wf_H; auto; apply H1; lia); apply wf_phs; intros; try apply H1; try apply H2; lia.
  Qed.
  Lemma wf_QFT n root h s len : ((1 + 1) * (h * h) = 1)%amp -> s + len <= n -> Forall (wfg n) (qi_QFT root h s len : circ).
  Proof.
    intros Hh Hn. destruct (N.eq_dec len 0) as [->|E]. constructor. rewrite qft_blk by lia. apply wfg_flat. intros k Hk. rewrite iota_In in Hk.
    unfold qblk. apply Forall_app. split. apply wfg_flat. intros j Hj. rewrite iota_In in Hj. apply wf_CP; lia. apply wf_H; auto. lia.
  Qed.
End P.
