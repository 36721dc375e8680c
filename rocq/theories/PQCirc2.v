(** Gate operations of the circuit model: meaning and invariants. *)
From Coq Require Import NArith List Bool Lia Ring Sorted.
From Verif Require Import Bits MFunctions MParFor MKernel Amp PAmp MEngine MAlu SpecFunctions SpecState MQCircuit SpecQCircuit PQCirc1.
Import ListNotations.
Local Open Scope N_scope.

Section P.
  Context {K : StarRing}.
  Add Ring KrW : (sr_ring K).
  Local Notation V := (N -> K).
  Local Notation M2 := (mat2 K).
  Implicit Types (g h o : @qgate K) (l : list (N * M2)).

  Lemma z0_iff (x : K) : z0 x = true <-> x = 0%amp.
  Proof. unfold z0. apply sr_eqb_ok. Qed.
  Lemma z0_sub (x y : K) : z0 (x - y)%amp = true <-> x = y.
  Proof. rewrite z0_iff. split; intros H; [|subst; ring]. replace x with (x - y + y)%amp by ring. rewrite H. ring. Qed.
  Lemma mmul_1_l (m : M2) : mmul midn m = m.
  Proof. unfold mmul, midn. apply mat2_eq; cbn [m00 m01 m10 m11]; ring. Qed.
  Lemma mmul_1_r (m : M2) : mmul m midn = m.
  Proof. unfold mmul, midn. apply mat2_eq; cbn [m00 m01 m10 m11]; ring. Qed.
  Lemma mmul_assoc (a b c : M2) : mmul (mmul a b) c = mmul a (mmul b c).
  Proof. unfold mmul. apply mat2_eq; cbn [m00 m01 m10 m11]; ring. Qed.
  Lemma mdag_mmul (a b : M2) : mdag (mmul a b) = mmul (mdag b) (mdag a).
  Proof. unfold mmul, mdag. apply mat2_eq; cbn [m00 m01 m10 m11]; rewrite sr_conj_add, !sr_conj_mul; ring. Qed.
  Lemma unitary_mmul (a b : M2) : unitary2 a -> unitary2 b -> unitary2 (mmul a b).
  Proof. unfold unitary2. intros Ha Hb. rewrite mdag_mmul, mmul_assoc, <- (mmul_assoc (mdag a)), Ha, mmul_1_l. exact Hb. Qed.
  Lemma mdag_1 : mdag (midn : M2) = midn.
  Proof. unfold mdag, midn. cbn [m00 m01 m10 m11]. now rewrite (conj_0 K), (conj_1 K). Qed.
  Lemma unitary_1 : unitary2 (midn : M2).
  Proof. unfold unitary2. rewrite mdag_1. apply mmul_1_l. Qed.

  (** ** Invariant *)
  Definition wq (n : N) (g : @qgate K) : Prop :=
    qg_t g < n /\ srt (qg_ctl g) /\ (forall q, In q (qg_ctl g) -> q < n) /\ ~ In (qg_t g) (qg_ctl g) /\
    srt (map fst (qg_pl g)) /\ (forall k, In k (map fst (qg_pl g)) -> k < 2 ^ N.of_nat (length (qg_ctl g))) /\
    (forall e, In e (qg_pl g) -> unitary2 (snd e)).
  Definition ne (g : @qgate K) : Prop := qg_pl g <> [].
  (** Matrix applied at basis state [x]. *)
  Definition gm (g : @qgate K) (x : N) : M2 := payload_at g (ctrl_value 0 (qg_ctl g) x).
  Definition eff (g : @qgate K) (psi : V) : V := fun x => gate1 always (qg_t g) (gm g x) psi x.

  Lemma good_wq n g : good_gate n g <-> wq n g /\ ne g.
  Proof.
    unfold good_gate, wq, ne. split.
    - intros (A & B & C & D & E & F). apply inc_srt in B. apply inc_srt in E. destruct B as [B1 B2], E as [E1 E2].
      split; [|exact D]. split; [exact A|]. split; [exact B1|]. split; [intros q Hq; now apply B2|]. split; [exact C|]. split; [exact E1|].
      split; [|exact F]. intros k Hk. now apply E2.
    - intros ((A & B & C & D & E & F & G) & H). split; [exact A|]. split. { apply srt_inc; auto. intros x Hx. split; [lia|auto]. }
      split; [exact D|]. split; [exact H|]. split; [|exact G]. apply srt_inc; auto. intros x Hx. split; [lia|auto].
  Qed.
  Lemma payload_matrix g k : payload_at g k = matrix_for g k.
  Proof. unfold payload_at, matrix_for. rewrite mfind_find. now destruct (find _ (qg_pl g)). Qed.
  Lemma eff_effect g psi x : ne g -> effect g psi x = eff g psi x.
  Proof.
    unfold ne, effect, eff, gm. rewrite payload_matrix. destruct (qg_pl g); [congruence|]. intros _. now destruct (qg_ctl g).
  Qed.
  Lemma srt_len (l : list N) : forall lo n, srt l -> (forall x, In x l -> lo <= x < n) -> N.of_nat (length l) <= n - lo.
  Proof.
    induction l as [|a t IH]; intros lo n S1 H; cbn [length]; [lia|]. inversion S1 as [|? ? St Sa]; subst. rewrite Forall_forall in Sa.
    assert (X : lo <= a < n) by (apply H; now left).
    assert (Y : N.of_nat (length t) <= n - (a + 1)).
    { apply IH; auto. intros x Hx. specialize (Sa x Hx). specialize (H x (or_intror Hx)). lia. }
    lia.
  Qed.
  Lemma wq_len n g : wq n g -> N.of_nat (length (qg_ctl g)) <= n.
  Proof. intros (A & B & C & _). rewrite <- (N.sub_0_r n). apply srt_len; auto. intros x Hx. split; [lia|auto]. Qed.
  Lemma wq_key n g k : n <= 126 -> wq n g -> In k (map fst (qg_pl g)) -> k < 2 ^ 126.
  Proof.
    intros Hn W Hk. assert (L := wq_len n g W). destruct W as (_ & _ & _ & _ & _ & F & _).
    eapply N.lt_le_trans; [apply F, Hk|]. apply pow2_le_mono. lia.
  Qed.
  Lemma wq_unitary n g k : wq n g -> unitary2 (payload_at g k).
  Proof.
    intros (_ & _ & _ & _ & _ & _ & G). unfold payload_at. destruct (mfind k (qg_pl g)) as [m|] eqn:E; [|apply unitary_1].
    apply mfind_In in E. apply (G _ E).
  Qed.
  Lemma gm_indep n g x y : wq n g -> (forall q, q <> qg_t g -> N.testbit x q = N.testbit y q) -> gm g x = gm g y.
  Proof.
    intros (_ & _ & _ & D & _) H. unfold gm. f_equal. apply ctrl_ext. intros q Hq. apply H. intros ->. contradiction.
  Qed.

  Lemma fold_inv {A B} (P : A -> Prop) (f : A -> B -> A) (l : list B) : forall a, P a -> (forall a b, In b l -> P a -> P (f a b)) -> P (fold_left f l a).
  Proof. induction l as [|b t IH]; intros a Ha H; cbn [fold_left]; auto. apply IH; [apply H; auto; now left|]. intros; apply H; auto; now right. Qed.

  (** ** AddControl *)
  Definition add_step (p : N) (acc : list (N * M2)) (e : N * M2) : list (N * M2) :=
    mins (insbit p true (fst e)) (snd e) (mins (insbit p false (fst e)) (snd e) acc).
  Lemma add_fold p l : forall acc k', mfind k' (fold_left (add_step p) l acc) =
    match mfind k' acc with Some v => Some v | None => mfind (rembit p k') l end.
  Proof.
    induction l as [|[k m] t IH]; intros acc k'; cbn [fold_left mfind]. { now destruct (mfind k' acc). }
    rewrite IH. unfold add_step. cbn [fst snd]. rewrite !mfind_mins. destruct (mfind k' acc); auto.
    assert (X := insbit_eq p k k'). destruct (N.eqb_spec k' (insbit p false k)) as [E|E].
    - destruct (N.eqb_spec (rembit p k') k) as [F|F]; auto. tauto.
    - destruct (N.eqb_spec k' (insbit p true k)) as [E'|E'], (N.eqb_spec (rembit p k') k) as [F|F]; auto; tauto.
  Qed.
  Lemma add_fold_ne p l : l <> [] -> fold_left (add_step p) l [] <> [].
  Proof.
    intros H. destruct l as [|e t]; [congruence|]. intros X. destruct e as [k m]. assert (Y := add_fold p ((k, m) :: t) [] (insbit p false k)).
    rewrite X in Y. cbn [mfind] in Y. rewrite rembit_insbit, N.eqb_refl in Y. discriminate.
  Qed.
  Lemma add_eq n g c : n <= 126 -> wq n g -> ~ In c (qg_ctl g) ->
    AddControl g c = mkGate (qg_t g) (fold_left (add_step (spos c (sins c (qg_ctl g)))) (qg_pl g) []) (sins c (qg_ctl g)).
  Proof.
    intros Hn W Hc. unfold AddControl. rewrite (proj2 (smem_not c (qg_ctl g)) Hc). f_equal.
    assert (Hp : spos c (sins c (qg_ctl g)) < 127).
    { destruct (sins_split c (qg_ctl g) Hc) as (l1 & l2 & E1 & E2 & E3). rewrite E2, spos_app by auto.
      assert (L := wq_len n g W). rewrite E1, app_length in L. lia. }
    set (p := spos c (sins c (qg_ctl g))) in *. clearbody p.
    assert (Hk : forall e, In e (qg_pl g) -> fst e < 2 ^ 127).
    { intros e He. eapply N.lt_trans; [apply (wq_key n g (fst e) Hn W); apply in_map; auto|]. apply pow2_lt. lia. }
    revert Hk. generalize ([] : list (N * M2)). generalize (qg_pl g). clear - Hp. intros l. induction l as [|e t IH]; intros acc Hk; cbn [fold_left]; auto.
    rewrite add_key, add_key1 by (auto; apply Hk; now left). apply IH. intros; apply Hk; now right.
  Qed.
  Lemma add_srt p l : srt (map fst (fold_left (add_step p) l [])).
  Proof. apply (fold_inv (fun a => srt (map fst a))); [constructor|]. intros a b _ H. unfold add_step. now apply mins_srt, mins_srt. Qed.
  Lemma add_ok n g c : n <= 126 -> wq n g -> c < n -> c <> qg_t g ->
    wq n (AddControl g c) /\ qg_t (AddControl g c) = qg_t g /\ qg_ctl (AddControl g c) = sins c (qg_ctl g) /\
    (forall x, gm (AddControl g c) x = gm g x) /\ (ne g -> ne (AddControl g c)).
  Proof.
    intros Hn W Hc Ht. destruct (in_dec N.eq_dec c (qg_ctl g)) as [I|I].
    - unfold AddControl. rewrite (proj2 (smem_In c (qg_ctl g)) I). rewrite sins_old; auto. apply W.
    - rewrite (add_eq n g c Hn W I). destruct (sins_split c (qg_ctl g) I) as (l1 & l2 & E1 & E2 & E3).
      assert (Ep : spos c (sins c (qg_ctl g)) = N.of_nat (length l1)) by (rewrite E2; now apply spos_app).
      destruct W as (A & B & C & D & E & F & G). cbn [qg_t qg_ctl]. split; [|split; [reflexivity|split; [reflexivity|split]]].
      + unfold wq. cbn [qg_t qg_ctl qg_pl]. split; [exact A|]. split; [now apply sins_srt|].
        split. { intros q Hq. apply sins_In in Hq. destruct Hq as [->|Hq]; auto. }
        split. { intros Hq. apply sins_In in Hq. destruct Hq as [Hq|Hq]; [congruence|contradiction]. }
        split; [apply add_srt|].
        rewrite Ep. split.
        * apply (fold_inv (fun a => forall k, In k (map fst a) -> k < 2 ^ N.of_nat (length (sins c (qg_ctl g))))); [intros k []|].
          intros a b Hb H k Hk. unfold add_step in Hk. apply keys_mins in Hk.
          assert (L : N.of_nat (length (sins c (qg_ctl g))) = N.of_nat (length (qg_ctl g)) + 1).
          { rewrite E2, E1, !app_length. cbn [length]. lia. }
          rewrite L. assert (F' : fst b < 2 ^ N.of_nat (length (qg_ctl g))) by (apply F, in_map, Hb).
          assert (P : N.of_nat (length l1) <= N.of_nat (length (qg_ctl g))) by (rewrite E1, app_length; lia).
          destruct Hk as [->|Hk]; [now apply insbit_lt|]. apply keys_mins in Hk. destruct Hk as [->|Hk]; [now apply insbit_lt|].
          rewrite <- L. now apply H.
        * apply (fold_inv (fun a => forall e, In e a -> unitary2 (snd e))); [intros k []|].
          intros a b Hb H e He. unfold add_step in He. apply mins_vals in He. destruct He as [->|He]; [exact (G b Hb)|].
          apply mins_vals in He. destruct He as [->|He]; [exact (G b Hb)|auto].
      + intros x. unfold gm, payload_at. cbn [qg_t qg_ctl qg_pl]. rewrite add_fold. cbn [mfind]. rewrite Ep, E2, <- ctrl_remove, <- E1. reflexivity.
      + unfold ne. cbn [qg_pl]. apply add_fold_ne.
  Qed.
  (** Adding all the controls of a larger set. *)
  Lemma adds_ok n cs : forall g, n <= 126 -> wq n g -> (forall q, In q cs -> q < n /\ q <> qg_t g) ->
    let g' := fold_left AddControl cs g in
    wq n g' /\ qg_t g' = qg_t g /\ (forall q, In q (qg_ctl g') <-> In q cs \/ In q (qg_ctl g)) /\
    (forall x, gm g' x = gm g x) /\ (ne g -> ne g').
  Proof.
    induction cs as [|c t IH]; intros g Hn W H; cbn [fold_left].
    - split; [exact W|]. split; [reflexivity|]. split; [cbn [In]; tauto|]. split; auto.
    - destruct (H c (or_introl eq_refl)) as [H1 H2]. destruct (add_ok n g c Hn W H1 H2) as (A1 & A2 & A3 & A4 & A5).
      destruct (IH (AddControl g c) Hn A1) as (B1 & B2 & B3 & B4 & B5). { rewrite A2. intros q Hq. apply H. now right. }
      split; [exact B1|]. split; [congruence|]. split.
      { intros q. rewrite B3, A3, sins_In. cbn [In]. intuition. }
      split; [|auto]. intros x. now rewrite B4, A4.
  Qed.

  (** ** RemoveControl *)
  Definition rem_step (p : N) (acc : list (N * M2)) (e : N * M2) : list (N * M2) := mins (rembit p (fst e)) (snd e) acc.
  Lemma rem_fold p l : forall acc k, mfind k (fold_left (rem_step p) l acc) =
    match mfind k acc with Some v => Some v | None => match find (fun e => rembit p (fst e) =? k) l with Some e => Some (snd e) | None => None end end.
  Proof.
    induction l as [|[k0 m] t IH]; intros acc k; cbn [fold_left find fst]. { now destruct (mfind k acc). }
    rewrite IH. unfold rem_step. cbn [fst snd]. rewrite mfind_mins. destruct (mfind k acc); auto. rewrite (N.eqb_sym k).
    now destruct (rembit p k0 =? k).
  Qed.
  Lemma mat_same_ok (a b : M2) : mat_same a b = true -> a = b.
  Proof.
    unfold mat_same. rewrite !andb_true_iff, !z0_sub. intros [[[A B] C] D]. now apply mat2_eq.
  Qed.
  Lemma rem_ok n g c : n <= 126 -> wq n g -> In c (qg_ctl g) -> ne g -> CanRemoveControl g c = true ->
    wq n (RemoveControl g c) /\ qg_t (RemoveControl g c) = qg_t g /\ (forall q, In q (qg_ctl (RemoveControl g c)) <-> q <> c /\ In q (qg_ctl g)) /\
    (forall x, gm (RemoveControl g c) x = gm g x) /\ ne (RemoveControl g c).
  Proof.
    intros Hn W I NE CR. assert (Wk := fun k => wq_key n g k Hn W). assert (L := wq_len n g W).
    destruct (spos_split c (qg_ctl g) I) as (l1 & l2 & E1 & E2 & Ep).
    set (p := N.of_nat (length l1)) in *.
    assert (Hp : p < N.of_nat (length (qg_ctl g))). { rewrite E1, app_length. cbn [length]. subst p. lia. }
    assert (Hp' : p < 127) by lia.
    assert (K128 : forall e, In e (qg_pl g) -> fst e < 2 ^ 128).
    { intros e He. eapply N.lt_trans; [apply Wk, in_map, He|]. apply pow2_lt. lia. }
    assert (RE : RemoveControl g c = mkGate (qg_t g) (fold_left (rem_step p) (qg_pl g) []) (l1 ++ l2)).
    { unfold RemoveControl. rewrite Ep. f_equal.
      - revert K128. generalize ([] : list (N * M2)). generalize (qg_pl g). clear - Hp'. intros l. induction l as [|e t IH]; intros acc Hk; cbn [fold_left]; auto.
        rewrite rem_key by (auto; apply Hk; now left). apply IH. intros; apply Hk; now right.
      - rewrite E1 at 1. apply sdel_split. rewrite <- E1. apply srt_nodup, W. }
    rewrite RE. destruct W as (A & B & C & D & E & F & G). cbn [qg_t qg_ctl].
    assert (ND : NoDup (l1 ++ c :: l2)) by (rewrite <- E1; now apply srt_nodup).
    assert (Ctl : forall q, In q (l1 ++ l2) <-> q <> c /\ In q (qg_ctl g)).
    { intros q. rewrite <- (sdel_split c l1 l2 ND), <- E1. apply sdel_In. }
    split; [|split; [reflexivity|split; [exact Ctl|split]]].
    - unfold wq. cbn [qg_t qg_ctl qg_pl]. split; [exact A|]. split. { rewrite <- (sdel_split c l1 l2 ND), <- E1. now apply filter_srt. }
      split. { intros q Hq. apply C. now apply Ctl in Hq. } split. { intros Hq. apply D. now apply Ctl in Hq. }
      split. { apply (fold_inv (fun a => srt (map fst a))); [constructor|]. intros a b _ H. now apply mins_srt. }
      split.
      + apply (fold_inv (fun a => forall k, In k (map fst a) -> k < 2 ^ N.of_nat (length (l1 ++ l2)))); [intros k []|].
        intros a b Hb H k Hk. unfold rem_step in Hk. apply keys_mins in Hk. destruct Hk as [->|Hk]; [|now apply H].
        apply rembit_lt. { subst p. rewrite app_length. lia. }
        replace (N.of_nat (length (l1 ++ l2)) + 1) with (N.of_nat (length (qg_ctl g))); [apply F, in_map, Hb|].
        rewrite E1, !app_length. cbn [length]. lia.
      + apply (fold_inv (fun a => forall e, In e a -> unitary2 (snd e))); [intros k []|].
        intros a b Hb H e He. apply mins_vals in He. destruct He as [->|He]; [exact (G b Hb)|auto].
    - intros x. unfold gm, payload_at. cbn [qg_t qg_ctl qg_pl]. rewrite rem_fold. cbn [mfind]. rewrite (ctrl_remove l1 l2 c), <- E1. fold p.
      set (k' := ctrl_value 0 (qg_ctl g) x). destruct (find (fun e => rembit p (fst e) =? rembit p k') (qg_pl g)) as [[k0 m]|] eqn:Fd.
      + apply find_some in Fd. destruct Fd as [Fi Fe]. apply N.eqb_eq in Fe. cbn [fst snd] in *.
        unfold CanRemoveControl in CR. rewrite forallb_forall in CR. specialize (CR _ Fi). cbn [fst] in CR. rewrite Ep in CR.
        rewrite (clr_key p k0 Hp' (K128 _ Fi)) in CR.
        rewrite add_key1 in CR; [|exact Hp'|].
        2: { apply (N.lt_le_trans _ (2 ^ N.of_nat (length (qg_ctl g)))).
             - destruct (N.of_nat (length (qg_ctl g))) eqn:Q; [lia|]. rewrite <- Q in *. replace (N.of_nat (length (qg_ctl g))) with (N.of_nat (length (qg_ctl g)) - 1 + 1) in F |- * by lia.
               eapply N.lt_le_trans; [apply rembit_lt; [|apply F; apply in_map with (f := fst) in Fi; exact Fi]; lia|]. apply pow2_le_mono. lia.
             - apply pow2_le_mono. lia. }
        destruct (mfind (insbit p false (rembit p k0)) (qg_pl g)) as [lo|] eqn:Q1; [|discriminate].
        destruct (mfind (insbit p true (rembit p k0)) (qg_pl g)) as [hi|] eqn:Q2; [|discriminate]. apply mat_same_ok in CR. subst hi.
        assert (M0 : mfind k0 (qg_pl g) = Some m). { apply In_mfind; auto. now apply srt_nodup. }
        assert (Em : m = lo).
        { assert (Y := insbit_rembit p k0). destruct (N.testbit k0 p); rewrite Y in *; congruence. }
        assert (Y := insbit_rembit p k'). rewrite <- Fe in Y. destruct (N.testbit k' p); rewrite Y in *; [rewrite Q2 | rewrite Q1]; exact Em.
      + destruct (mfind k' (qg_pl g)) as [m|] eqn:Q; auto. apply mfind_In in Q. apply (find_none _ _ Fd) in Q. cbn [fst] in Q.
        now rewrite N.eqb_refl in Q.
    - unfold ne in *. cbn [qg_pl]. destruct (qg_pl g) as [|[k0 m0] t]; [congruence|]. intros X.
      assert (Y := rem_fold p ((k0, m0) :: t) [] (rembit p k0)). rewrite X in Y. cbn [mfind find fst] in Y. rewrite N.eqb_refl in Y. discriminate.
  Qed.
  Lemma try_rem_ok n g c : n <= 126 -> wq n g -> In c (qg_ctl g) -> ne g ->
    wq n (TryRemoveControl g c) /\ qg_t (TryRemoveControl g c) = qg_t g /\
    (forall q, q <> c -> (In q (qg_ctl (TryRemoveControl g c)) <-> In q (qg_ctl g))) /\
    (forall q, In q (qg_ctl (TryRemoveControl g c)) -> In q (qg_ctl g)) /\
    (forall x, gm (TryRemoveControl g c) x = gm g x) /\ ne (TryRemoveControl g c).
  Proof.
    intros Hn W I NE. unfold TryRemoveControl. destruct (CanRemoveControl g c) eqn:CR.
    - destruct (rem_ok n g c Hn W I NE CR) as (A & B & C & D & E). split; [exact A|]. split; [exact B|]. split. { intros q Hq. rewrite C. tauto. }
      split; [|auto]. intros q Hq. now apply C in Hq.
    - split; [exact W|]. split; [reflexivity|]. split; [tauto|]. auto.
  Qed.
  Lemma tries_ok n cs : forall g, n <= 126 -> wq n g -> (forall q, In q cs -> In q (qg_ctl g)) -> NoDup cs -> ne g ->
    let g' := fold_left TryRemoveControl cs g in
    wq n g' /\ qg_t g' = qg_t g /\ (forall q, In q (qg_ctl g') -> In q (qg_ctl g)) /\ (forall x, gm g' x = gm g x) /\ ne g'.
  Proof.
    induction cs as [|c t IH]; intros g Hn W H ND NE; cbn [fold_left].
    - split; [exact W|]. auto.
    - inversion ND as [|? ? N1 N2]; subst. destruct (try_rem_ok n g c Hn W (H c (or_introl eq_refl)) NE) as (A & B & C & C' & D & E).
      destruct (IH (TryRemoveControl g c) Hn A) as (A1 & B1 & C1 & D1 & E1); auto.
      { intros q Hq. apply C; [|apply H; now right]. intros ->. contradiction. }
      split; [exact A1|]. split; [congruence|]. split; [auto|]. split; [|exact E1]. intros x. now rewrite D1, D.
  Qed.

  (** ** Combine *)
  Definition pay l (k : N) : M2 := match mfind k l with Some m => m | None => midn end.
  Lemma pay_combine pl e k : pay (combine_pl pl e) k = if k =? fst e then mmul (snd e) (pay pl k) else pay pl k.
  Proof.
    unfold pay, combine_pl. destruct (mfind (fst e) pl) as [p|] eqn:E.
    - destruct (z0 (m01 (mmul (snd e) p)) && z0 (m10 (mmul (snd e) p)) && z0 (1 - m00 (mmul (snd e) p))%amp && z0 (1 - m11 (mmul (snd e) p))%amp) eqn:Z.
      + rewrite mfind_mdel. destruct (N.eqb_spec k (fst e)); auto. subst. rewrite E. rewrite !andb_true_iff, !z0_iff in Z.
        destruct Z as [[[Z1 Z2] Z3] Z4]. apply z0_iff in Z3, Z4. apply z0_sub in Z3, Z4. symmetry. now apply mat2_eq.
      + rewrite mfind_mset. destruct (N.eqb_spec k (fst e)); auto. subst. now rewrite E.
    - rewrite mfind_mset. destruct (N.eqb_spec k (fst e)); auto. subst. rewrite E. symmetry. apply mmul_1_r.
  Qed.
  Lemma pay_fold (o : list (N * M2)) : forall pl k, NoDup (map fst o) -> pay (fold_left combine_pl o pl) k = mmul (pay o k) (pay pl k).
  Proof.
    induction o as [|[a m] t IH]; intros pl k ND; cbn [fold_left]. { unfold pay at 2. cbn [mfind]. now rewrite mmul_1_l. }
    cbn [map fst] in ND. inversion ND as [|? ? N1 N2]; subst. rewrite IH by auto. rewrite pay_combine. cbn [fst snd].
    replace (pay ((a, m) :: t) k) with (if k =? a then m else pay t k) by (unfold pay; cbn [mfind]; now destruct (k =? a)).
    destruct (N.eqb_spec k a); auto. subst. unfold pay at 1. rewrite (proj2 (mfind_none a t) N1). apply mmul_1_l.
  Qed.
  Lemma comb_keys (o : list (N * M2)) : forall pl k, In k (map fst (fold_left combine_pl o pl)) -> In k (map fst o) \/ In k (map fst pl).
  Proof.
    induction o as [|[a m] t IH]; intros pl k H; cbn [fold_left] in H; auto. apply IH in H. cbn [map fst In]. destruct H as [H|H]; [tauto|].
    unfold combine_pl in H. cbn [fst snd] in H. destruct (mfind a pl).
    - destruct (_ && _) in H; [apply keys_mdel in H | apply keys_mset in H]; intuition.
    - apply keys_mset in H. intuition.
  Qed.
  Lemma comb_srt (o : list (N * M2)) pl : srt (map fst pl) -> srt (map fst (fold_left combine_pl o pl)).
  Proof.
    intros S1. apply (fold_inv (fun a => srt (map fst a))); auto. intros a b _ H. unfold combine_pl. destruct (mfind (fst b) a); [|now apply mset_srt].
    destruct (_ && _); [now apply mdel_srt | now apply mset_srt].
  Qed.
  Lemma comb_unitary (o : list (N * M2)) pl : (forall e, In e o -> unitary2 (snd e)) -> (forall e, In e pl -> unitary2 (snd e)) ->
    forall e, In e (fold_left combine_pl o pl) -> unitary2 (snd e).
  Proof.
    intros Ho Hp. apply (fold_inv (fun a => forall e, In e a -> unitary2 (snd e))); auto. intros a b Hb H e He. unfold combine_pl in He.
    destruct (mfind (fst b) a) as [p|] eqn:E.
    - destruct (_ && _) in He.
      + apply filter_In in He. now apply H.
      + apply mset_vals in He. destruct He as [->|He]; auto. cbn [snd]. apply unitary_mmul; auto. apply mfind_In in E. apply (H _ E).
    - apply mset_vals in He. destruct He as [->|He]; [exact (Ho b Hb)|auto].
  Qed.

  Definition nested (g o : @qgate K) : Prop := (forall q, In q (qg_ctl g) -> In q (qg_ctl o)) \/ (forall q, In q (qg_ctl o) -> In q (qg_ctl g)).
  Lemma nil_In {A} (l : list A) : is_nil l = true -> forall x, ~ In x l.
  Proof. destruct l; [intros _ x []|discriminate]. Qed.
  Lemma can_combine_ok n i cl g o : wq n g -> wq n o -> ne g -> ne o -> CanCombine i cl g o = true -> qg_t g = qg_t o /\ nested g o.
  Proof.
    intros Wg Wo Ng No. unfold CanCombine. destruct (N.eqb_spec (qg_t g) (qg_t o)) as [E|E]; cbn [negb]; [|discriminate]. intros H. split; [exact E|].
    set (gen := if is_nil (qg_ctl g) || is_nil (qg_ctl o) then true else sincl (qg_ctl o) (qg_ctl g) || sincl (qg_ctl g) (qg_ctl o)) in H.
    assert (G : gen = true -> nested g o).
    { unfold gen, nested. destruct (is_nil (qg_ctl g)) eqn:E1. { intros _. left. intros q Hq. exfalso. exact (nil_In _ E1 q Hq). }
      destruct (is_nil (qg_ctl o)) eqn:E2. { intros _. right. intros q Hq. exfalso. exact (nil_In _ E2 q Hq). }
      cbn [orb]. rewrite orb_true_iff, !sincl_In. tauto. }
    destruct cl; [|now apply G].
    destruct (is_nil (qg_ctl g)) eqn:E1. { left. intros q Hq. exfalso. exact (nil_In _ E1 q Hq). }
    destruct (is_nil (qg_ctl o)) eqn:E2. { right. intros q Hq. exfalso. exact (nil_In _ E2 q Hq). }
    cbn [andb orb] in H. destruct (negb (Bool.eqb (IsClifford i g) (IsClifford i o))) eqn:Q; [discriminate|].
    destruct (IsClifford i g) eqn:Q1; [|now apply G]. destruct (IsClifford i o) eqn:Q2; [|discriminate].
    apply N.eqb_eq in H. destruct (qg_ctl g) as [|a t] eqn:Cg; [discriminate|]. destruct (qg_ctl o) as [|b u] eqn:Co; [discriminate|].
    cbn [hd] in H. subst b. unfold nested. rewrite Cg, Co.
    destruct t as [|a' t']. { left. intros q [<-|[]]. now left. }
    destruct u as [|b' u']. { right. intros q [<-|[]]. now left. }
    exfalso.
    assert (X : forall g : @qgate K, IsClifford i g = true -> qg_pl g = [] \/ (length (qg_ctl g) <= 1)%nat).
    { intros g0. unfold IsClifford. destruct (qg_pl g0); auto. destruct (qg_ctl g0) as [|? [|? ?]]; cbn [length]; auto; discriminate. }
    destruct (X g Q1) as [X1|X1]; [|rewrite Cg in X1; cbn [length] in X1; lia].
    now apply Ng.
  Qed.
  (** [other] acts after [g]. *)
  Lemma combine_ok n g o : n <= 126 -> wq n g -> wq n o -> ne g -> qg_t g = qg_t o -> nested g o ->
    wq n (CombineG g o) /\ qg_t (CombineG g o) = qg_t g /\ (forall x, gm (CombineG g o) x = mmul (gm o x) (gm g x)) /\ ne (CombineG g o).
  Proof.
    intros Hn Wg Wo Ng Et Nst. unfold CombineG.
    set (g1 := if Nat.ltb _ _ then fold_left AddControl (qg_ctl o) g else g).
    set (o1 := if Nat.ltb (length (qg_ctl o)) _ then fold_left AddControl (qg_ctl g) o else o).
    assert (Sg : srt (qg_ctl g)) by apply Wg. assert (So : srt (qg_ctl o)) by apply Wo.
    assert (Q : wq n g1 /\ wq n o1 /\ qg_t g1 = qg_t g /\ (forall x, gm g1 x = gm g x) /\ (forall x, gm o1 x = gm o x) /\ qg_ctl g1 = qg_ctl o1 /\
                (forall q, In q (qg_ctl g1) <-> In q (qg_ctl g) \/ In q (qg_ctl o))).
    { assert (Hg : forall q, In q (qg_ctl o) -> q < n /\ q <> qg_t g).
      { intros q Hq. destruct Wo as (_ & _ & C & D & _). split; auto. rewrite Et. intros ->. contradiction. }
      assert (Ho : forall q, In q (qg_ctl g) -> q < n /\ q <> qg_t o).
      { intros q Hq. destruct Wg as (_ & _ & C & D & _). split; auto. rewrite <- Et. intros ->. contradiction. }
      destruct (adds_ok n (qg_ctl o) g Hn Wg Hg) as (A1 & A2 & A3 & A4 & A5).
      destruct (adds_ok n (qg_ctl g) o Hn Wo Ho) as (B1 & B2 & B3 & B4 & B5).
      destruct (PeanoNat.Nat.ltb_spec (length (qg_ctl g)) (length (qg_ctl o))) as [L|L];
      destruct (PeanoNat.Nat.ltb_spec (length (qg_ctl o)) (length (qg_ctl g))) as [L'|L']; try lia; subst g1 o1.
      - assert (I : forall q, In q (qg_ctl g) -> In q (qg_ctl o)).
        { destruct Nst as [I|I]; auto. assert (X := NoDup_incl_length (srt_nodup _ So) I). lia. }
        split; [exact A1|]. split; [exact Wo|]. split; [exact A2|]. split; [exact A4|]. split; [reflexivity|]. split.
        + apply srt_ext; auto. { apply A1. } intros q. rewrite A3. intuition.
        + intros q. rewrite A3. tauto.
      - assert (I : forall q, In q (qg_ctl o) -> In q (qg_ctl g)).
        { destruct Nst as [I|I]; auto. assert (X := NoDup_incl_length (srt_nodup _ Sg) I). lia. }
        split; [exact Wg|]. split; [exact B1|]. split; [reflexivity|]. split; [reflexivity|]. split; [exact B4|]. split.
        + apply srt_ext; auto. { apply B1. } intros q. rewrite B3. intuition.
        + intros q. intuition.
      - assert (I : forall q, In q (qg_ctl g) <-> In q (qg_ctl o)).
        { destruct Nst as [I|I]; intros q; split; intros Hq; auto.
          - apply (NoDup_length_incl (srt_nodup _ Sg) L I q Hq).
          - apply (NoDup_length_incl (srt_nodup _ So) L' I q Hq). }
        split; [exact Wg|]. split; [exact Wo|]. split; [reflexivity|]. split; [reflexivity|]. split; [reflexivity|]. split.
        + apply srt_ext; auto.
        + intros q. rewrite <- I. tauto. }
    clearbody g1 o1. destruct Q as (W1 & Wo1 & T1 & M1 & Mo1 & Ec & Ic).
    set (pl := fold_left combine_pl (qg_pl o1) (qg_pl g1)).
    assert (PM : forall x, pay pl (ctrl_value 0 (qg_ctl g1) x) = mmul (gm o x) (gm g x)).
    { intros x. unfold pl. rewrite pay_fold by (apply srt_nodup, Wo1). rewrite <- M1, <- Mo1. unfold gm, payload_at, pay. now rewrite Ec. }
    assert (W2 : wq n (mkGate (qg_t g1) pl (qg_ctl g1))).
    { destruct W1 as (A & B & C & D & E & F & G). unfold wq. cbn [qg_t qg_ctl qg_pl]. split; [exact A|]. split; [exact B|]. split; [exact C|].
      split; [exact D|]. split; [now apply comb_srt|]. split.
      - intros k Hk. apply comb_keys in Hk. destruct Hk as [Hk|Hk]; [|now apply F]. rewrite Ec. now apply Wo1.
      - apply comb_unitary; auto. apply Wo1. }
    destruct pl as [|e pl'] eqn:Epl.
    - split; [|split; [|split]].
      + destruct W2 as (A & _). unfold wq, qg_clear. cbn [qg_t qg_ctl qg_pl map fst length] in *. split; [exact A|].
        split; [constructor|]. split; [intros q []|]. split; [intros []|]. split; [repeat constructor|]. split.
        * intros k [<-|[]]. reflexivity.
        * intros e [<-|[]]. apply unitary_1.
      + unfold qg_clear. cbn [qg_t]. exact T1.
      + intros x. rewrite <- PM. reflexivity.
      + unfold ne, qg_clear. cbn [qg_pl]. discriminate.
    - destruct (tries_ok n (sinter (qg_ctl g) (qg_ctl o)) (mkGate (qg_t g1) (e :: pl') (qg_ctl g1)) Hn W2) as (A & B & C & D & E).
      + cbn [qg_ctl]. intros q Hq. unfold sinter in Hq. apply filter_In in Hq. apply Ic. tauto.
      + apply srt_nodup. unfold sinter. now apply filter_srt.
      + unfold ne. cbn [qg_pl]. discriminate.
      + cbn [qg_t] in B. split; [exact A|]. split; [now rewrite B|]. split; [|exact E]. intros x. rewrite D, <- PM. reflexivity.
  Qed.
End P.
