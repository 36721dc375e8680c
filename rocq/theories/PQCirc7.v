(** DeletePhaseTarget; text form. *)
From Coq Require Import NArith List Bool Lia Ring Sorted.
From Verif Require Import Bits MFunctions MParFor MKernel Amp PAmp MEngine MAlu SpecFunctions PFunctions SpecState SpecEngine PLoop
  MQCircuit SpecQCircuit PQCirc1 PQCirc2 PQCirc3 PQCirc4 PQCirc5 PQCirc6.
Import ListNotations.
Local Open Scope N_scope.

(** ** Decimal numbers *)
Lemma decimal_snoc ds d : forall a, decimal_value_acc a (ds ++ [d]) = 10 * decimal_value_acc a ds + d.
Proof. induction ds as [|e t IH]; intros a; cbn [app decimal_value_acc]; auto. Qed.
Lemma dec_loop_ok fuel : forall x acc, x < 10 ^ N.of_nat (S fuel) -> exists ds, Forall (fun d => d < 10) ds /\ decimal_value ds = x /\
  dec_loop (S fuel) x acc = ascii_digits ds ++ acc.
Proof.
  induction fuel as [|f IH]; intros x acc Hx.
  - change (10 ^ N.of_nat 1) with 10 in Hx. exists [x]. split; [repeat constructor; auto|]. split; [unfold decimal_value; cbn [decimal_value_acc]; lia|].
    cbn [dec_loop]. destruct (N.ltb_spec x 10); [reflexivity|lia].
  - remember (S f) as f1. cbn [dec_loop]. destruct (N.ltb_spec x 10).
    + exists [x]. split; [repeat constructor; auto|]. split; [unfold decimal_value; cbn [decimal_value_acc]; lia|reflexivity].
    + assert (D := N.div_mod x 10 ltac:(lia)). assert (M := N.mod_lt x 10 ltac:(lia)).
      destruct (IH (x / 10) ((48 + x mod 10) :: acc)) as (ds & A & B & C).
      { rewrite Nnat.Nat2N.inj_succ, N.pow_succ_r in Hx by lia. apply N.div_lt_upper_bound; lia. }
      exists (ds ++ [x mod 10]). split. { apply Forall_app. split; auto. } split. { unfold decimal_value in *. rewrite decimal_snoc, B. lia. }
      rewrite C. unfold ascii_digits. rewrite map_app, <- app_assoc. reflexivity.
Qed.
Lemma size_value ds : Forall (fun d => d < 10) ds -> forall a, fold_left (fun b d => b * 10 + (d - 48)) (ascii_digits ds) a = decimal_value_acc a ds.
Proof.
  induction 1 as [|d t Hd Ht IH]; intros a; cbn [ascii_digits map fold_left decimal_value_acc]; auto. fold (ascii_digits t). rewrite IH. f_equal. lia.
Qed.

Section P.
  Context {K : StarRing}.
  Add Ring KrAB : (sr_ring K).
  Local Notation V := (N -> K).
  Local Notation M2 := (mat2 K).
  Implicit Types (g h : @qgate K) (psi : V) (gs : list (@qgate K)).

  (** ** Text *)
  Lemma put_size_ok x : x < 10 ^ 20 -> exists ds, Forall (fun d => d < 10) ds /\ decimal_value ds = x /\ (put_size x : @tok K) = TNum (ascii_digits ds).
  Proof.
    intros H. destruct (dec_loop_ok 19 x [] H) as (ds & A & B & C). exists ds. split; auto. split; auto. unfold put_size. rewrite C, app_nil_r. reflexivity.
  Qed.
  Lemma get_put_size x (l : list (@tok K)) : x < 10 ^ 20 -> get_size (put_size x :: l) = Some (x, l).
  Proof.
    intros H. destruct (put_size_ok x H) as (ds & A & B & ->). unfold get_size, get_num. rewrite size_value by auto. fold (decimal_value ds). now rewrite B.
  Qed.
  Lemma sins_last (a : N) s : (forall q, In q s -> q < a) -> sins a s = s ++ [a].
  Proof.
    induction s as [|b t IH]; intros H; cbn [sins app]; auto. assert (b < a) by (apply H; now left). destruct (N.ltb_spec a b); [lia|]. destruct (N.eqb_spec a b); [lia|].
    f_equal. apply IH. intros; apply H; now right.
  Qed.
  Lemma mset_last (a : N) (v : M2) s : (forall q, In q (map fst s) -> q < a) -> mset a v s = s ++ [(a, v)].
  Proof.
    induction s as [|[b w] t IH]; intros H; cbn [mset app]; auto. assert (b < a) by (apply H; now left). destruct (N.ltb_spec a b); [lia|]. destruct (N.eqb_spec a b); [lia|].
    f_equal. apply IH. intros; apply H; now right.
  Qed.
  Lemma srt_app (a : list N) b : srt (a ++ b) -> forall x y, In x a -> In y b -> x < y.
  Proof.
    induction a as [|c t IH]; intros H x y Hx Hy; [destruct Hx|]. cbn [app] in H. inversion H as [|? ? H1 H2]; subst. rewrite Forall_forall in H2.
    destruct Hx as [<-|Hx]; [apply H2, in_or_app; auto|]. now apply IH.
  Qed.
  Lemma get_ctl_ok cs : forall s (l : list (@tok K)), srt (s ++ cs) -> (forall q, In q cs -> q < 256) -> get_ctl (length cs) s (map put_size cs ++ l) = Some (s ++ cs, l).
  Proof.
    induction cs as [|a t IH]; intros s l H Hq; cbn [length get_ctl map app]. { now rewrite app_nil_r. }
    assert (Ha : a < 256) by (apply Hq; now left). assert (B : a < 10 ^ 20) by (eapply N.lt_trans; [exact Ha|reflexivity]).
    rewrite get_put_size by exact B. unfold w8. rewrite N.mod_small by auto. rewrite sins_last.
    2:{ intros q Hin. apply (srt_app _ _ H); auto. now left. }
    replace (s ++ a :: t) with ((s ++ [a]) ++ t) in * by (rewrite <- app_assoc; reflexivity). apply IH; auto. intros; apply Hq; now right.
  Qed.
  Variable fmt : K -> K.
  Definition kept (m : M2) : Prop := fmt (m00 m) = m00 m /\ fmt (m01 m) = m01 m /\ fmt (m10 m) = m10 m /\ fmt (m11 m) = m11 m.
  Lemma get_mat_ok (m : M2) l : kept m -> get_mat (map (fun a => TAmp (fmt a)) [m00 m; m01 m; m10 m; m11 m] ++ l) = Some (m, l).
  Proof.
    intros (A & B & C & D). cbn [map app]. unfold get_mat, get_amp. rewrite A, B, C, D. f_equal. f_equal. now apply mat2_eq.
  Qed.
  Lemma get_pl_ok es : forall pl l, srt (map fst (pl ++ es)) -> (forall e, In e es -> fst e < 2 ^ 64 /\ kept (snd e)) ->
    get_pl (length es) pl (flat_map (put_entry fmt) es ++ l) = Some (pl ++ es, l).
  Proof.
    induction es as [|[k m] t IH]; intros pl l H Hq; cbn [length get_pl flat_map app]. { now rewrite app_nil_r. }
    destruct (Hq (k, m)) as [Hk Hm]; [now left|]. cbn [fst snd] in Hk, Hm. unfold put_entry. cbn [fst snd]. unfold w64. rewrite N.mod_small by exact Hk.
    rewrite <- app_assoc. rewrite <- app_comm_cons.
    assert (B : k < 10 ^ 20) by (eapply N.lt_trans; [exact Hk|reflexivity]). destruct (put_size_ok k B) as (ds & D1 & D2 & ->).
    unfold get_num. rewrite get_mat_ok by auto.
    rewrite parse_bci_ok; [|exact D1|rewrite D2; eapply N.lt_trans; [exact Hk|reflexivity]]. rewrite D2.
    rewrite map_app in H. cbn [map fst] in H. rewrite mset_last. 2:{ intros q Hin. apply (srt_app _ _ H); auto. now left. }
    replace (pl ++ (k, m) :: t) with ((pl ++ [(k, m)]) ++ t) by (rewrite <- app_assoc; reflexivity). apply IH.
    - rewrite <- app_assoc, map_app. exact H.
    - intros; apply Hq; now right.
  Qed.
  Definition writable g : Prop := qg_t g < 256 /\ srt (qg_ctl g) /\ (forall q, In q (qg_ctl g) -> q < 256) /\ srt (map fst (qg_pl g)) /\
    forall e, In e (qg_pl g) -> fst e < 2 ^ 64 /\ kept (snd e).
  Lemma get_gate_ok g l : writable g -> get_gate (put_gate fmt g ++ l) = Some (g, l).
  Proof.
    intros (A & B & C & D & E). unfold put_gate, get_gate. rewrite <- !app_comm_cons.
    rewrite get_put_size by (eapply N.lt_trans; [exact A|reflexivity]). rewrite get_put_size.
    2:{ assert (L := srt_len (qg_ctl g) 0 256 B). eapply N.le_lt_trans; [apply L; intros q Hq; specialize (C q Hq); lia|reflexivity]. }
    rewrite Nnat.Nat2N.id. rewrite <- app_assoc. rewrite get_ctl_ok by auto. cbn [app]. rewrite get_put_size.
    2:{ assert (L := srt_len (map fst (qg_pl g)) 0 (2 ^ 64) D). rewrite map_length in L. eapply N.le_lt_trans; [apply L|reflexivity].
        intros q Hq. apply in_map_iff in Hq. destruct Hq as (e & <- & He). split; [lia|now apply E]. }
    rewrite Nnat.Nat2N.id. rewrite get_pl_ok by auto. cbn [app]. unfold w8. rewrite N.mod_small by auto. now destruct g.
  Qed.
  Lemma get_gates_ok gs : forall l, Forall writable gs -> get_gates (length gs) (flat_map (put_gate fmt) gs ++ l) = Some (gs, l).
  Proof.
    induction gs as [|g t IH]; intros l H; cbn [length get_gates flat_map app]; auto. inversion H; subst. rewrite <- app_assoc, get_gate_ok by auto. rewrite IH by auto. reflexivity.
  Qed.
  Lemma get_circ_ok (c0 c : @qcirc K) l : qc_count c < 256 -> N.of_nat (length (qc_gates c)) < 2 ^ 64 -> Forall writable (qc_gates c) ->
    get_circ c0 (put_circ fmt c ++ l) = Some (mkQC (qc_collapsed c0) (qc_clifford c0) (qc_count c) (qc_gates c), l).
  Proof.
    intros A B C. unfold put_circ, get_circ. rewrite <- !app_comm_cons. rewrite get_put_size by (eapply N.lt_trans; [exact A|reflexivity]).
    rewrite get_put_size by (eapply N.lt_trans; [exact B|reflexivity]). rewrite Nnat.Nat2N.id, get_gates_ok by auto. unfold w8. now rewrite N.mod_small by auto.
  Qed.

  (** ** PostSelectControl *)
  Definition ps_step (p : N) (b : bool) (acc : list (N * M2)) (e : N * M2) : list (N * M2) :=
    if Bool.eqb (N.testbit (fst e) p) b then mins (rembit p (fst e)) (snd e) acc else acc.
  Lemma ps_fold p b l : forall acc k, mfind k (fold_left (ps_step p b) l acc) =
    match mfind k acc with Some v => Some v | None =>
      match find (fun e => Bool.eqb (N.testbit (fst e) p) b && (rembit p (fst e) =? k)) l with Some e => Some (snd e) | None => None end end.
  Proof.
    induction l as [|[k0 m] t IH]; intros acc k; cbn [fold_left find fst]. { now destruct (mfind k acc). }
    rewrite IH. unfold ps_step. cbn [fst snd]. destruct (Bool.eqb (N.testbit k0 p) b); cbn [andb]; [|reflexivity].
    rewrite mfind_mins. destruct (mfind k acc); auto. rewrite (N.eqb_sym k). now destruct (rembit p k0 =? k).
  Qed.
  Definition alive (q : N) (b : bool) g : Prop := In q (qg_ctl g) -> exists e, In e (qg_pl g) /\ N.testbit (fst e) (spos q (qg_ctl g)) = b.
  Lemma ps_ok n g q b : n <= 126 -> okg n g -> alive q b g ->
    okg n (PostSelectControl g q b) /\ qg_t (PostSelectControl g q b) = qg_t g /\ ~ In q (qg_ctl (PostSelectControl g q b)) /\
    forall x, N.testbit x q = b -> gm (PostSelectControl g q b) x = gm g x.
  Proof.
    intros Hn [W NE] AL. unfold PostSelectControl. destruct (smem q (qg_ctl g)) eqn:SM; cbn [negb].
    2:{ split; [split; auto|]. split; auto. split; auto. now apply smem_not. }
    apply smem_In in SM. rename SM into I. assert (Wk := fun k => wq_key n g k Hn W). assert (L := wq_len n g W).
    destruct (AL I) as (e0 & He0 & Hb0).
    destruct (spos_split q (qg_ctl g) I) as (l1 & l2 & E1 & E2 & Ep). rewrite Ep in *.
    set (p := N.of_nat (length l1)) in *.
    assert (Hp : p < N.of_nat (length (qg_ctl g))). { rewrite E1, app_length. cbn [length]. subst p. lia. }
    assert (Hp' : p < 127) by lia.
    assert (K128 : forall e, In e (qg_pl g) -> fst e < 2 ^ 128).
    { intros e He. eapply N.lt_trans; [apply Wk, in_map, He|]. apply pow2_lt. lia. }
    match goal with |- context [mkGate _ ?pl _] => assert (RE : pl = fold_left (ps_step p b) (qg_pl g) []) end.
    { revert K128. generalize ([] : list (N * M2)). generalize (qg_pl g). clear - Hp'. intros l. induction l as [|e t IH]; intros acc Hk; cbn [fold_left]; auto.
      rewrite rem_key by (auto; apply Hk; now left). rewrite IH by (intros; apply Hk; now right). f_equal. unfold ps_step. rewrite pow2_128_ok by lia.
      replace (N.land (fst e) (2 ^ p) =? (if b then 2 ^ p else 0)) with (Bool.eqb (N.testbit (fst e) p) b); auto.
      rewrite land_pow2_testbit. assert (P := pow2_nz p). destruct (N.testbit (fst e) p), b; cbn [Bool.eqb]; symmetry; try (apply N.eqb_eq; reflexivity); apply N.eqb_neq; lia. }
    rewrite RE. assert (RD : sdel q (qg_ctl g) = l1 ++ l2). { rewrite E1. apply sdel_split. rewrite <- E1. apply srt_nodup, W. }
    rewrite RD. destruct W as (A & B & C & D & E & F & G). cbn [qg_t qg_ctl].
    assert (ND : NoDup (l1 ++ q :: l2)) by (rewrite <- E1; now apply srt_nodup).
    assert (Ctl : forall r, In r (l1 ++ l2) <-> r <> q /\ In r (qg_ctl g)).
    { intros r. rewrite <- (sdel_split q l1 l2 ND), <- E1. apply sdel_In. }
    split; [|split; [reflexivity|split; [intros X; apply Ctl in X; tauto|]]].
    - split.
      + unfold wq. cbn [qg_t qg_ctl qg_pl]. split; [exact A|]. split. { rewrite <- (sdel_split q l1 l2 ND), <- E1. now apply filter_srt. }
        split. { intros r Hr. apply C. now apply Ctl in Hr. } split. { intros Hr. apply D. now apply Ctl in Hr. }
        split. { apply (fold_inv (fun a => srt (map fst a))); [constructor|]. intros a e _ H. unfold ps_step. destruct (Bool.eqb _ _); auto. now apply mins_srt. }
        split.
        * apply (fold_inv (fun a => forall k, In k (map fst a) -> k < 2 ^ N.of_nat (length (l1 ++ l2)))); [intros k []|].
          intros a e He H k Hk. unfold ps_step in Hk. destruct (Bool.eqb _ _); [|auto]. apply keys_mins in Hk. destruct Hk as [->|Hk]; [|now apply H].
          apply rembit_lt. { subst p. rewrite app_length. lia. }
          replace (N.of_nat (length (l1 ++ l2)) + 1) with (N.of_nat (length (qg_ctl g))); [apply F, in_map, He|].
          rewrite E1, !app_length. cbn [length]. lia.
        * apply (fold_inv (fun a => forall e, In e a -> unitary2 (snd e))); [intros k []|].
          intros a e He H e' He'. unfold ps_step in He'. destruct (Bool.eqb _ _); [|auto]. apply mins_vals in He'. destruct He' as [->|He']; [exact (G e He)|auto].
      + unfold ne. cbn [qg_pl]. intros X. assert (Y := ps_fold p b (qg_pl g) [] (rembit p (fst e0))). rewrite X in Y. cbn [mfind] in Y.
        destruct (find _ (qg_pl g)) eqn:Fd; [discriminate|]. apply (find_none _ _ Fd) in He0. rewrite Hb0, N.eqb_refl in He0. now destruct b.
    - intros x Hx. unfold gm, payload_at. cbn [qg_t qg_ctl qg_pl]. rewrite ps_fold. cbn [mfind]. rewrite (ctrl_remove l1 l2 q), <- E1. fold p.
      set (k' := ctrl_value 0 (qg_ctl g) x).
      assert (Hk' : N.testbit k' p = b). { subst k'. rewrite <- Hx, <- Ep. now apply tb_ctrl_spos. }
      destruct (find (fun e => Bool.eqb (N.testbit (fst e) p) b && (rembit p (fst e) =? rembit p k')) (qg_pl g)) as [[k0 m]|] eqn:Fd.
      + apply find_some in Fd. destruct Fd as [Fi Fe]. apply andb_true_iff in Fe. destruct Fe as [Fb Fe]. apply N.eqb_eq in Fe. apply Bool.eqb_prop in Fb. cbn [fst snd] in *.
        assert (EK : k0 = k'). { rewrite <- (insbit_rembit p k0), <- (insbit_rembit p k'). now rewrite Fb, Hk', Fe. }
        subst k0. assert (M0 : mfind k' (qg_pl g) = Some m). { apply In_mfind; auto. now apply srt_nodup. } now rewrite M0.
      + destruct (mfind k' (qg_pl g)) as [m|] eqn:Q; auto. apply mfind_In in Q. apply (find_none _ _ Fd) in Q. cbn [fst] in Q.
        rewrite Hk', N.eqb_refl, Bool.eqb_reflx in Q. discriminate.
  Qed.
  Definition in_eigen (q : N) (b : bool) psi : Prop := forall x, N.testbit x q <> b -> psi x = 0%amp.
  Lemma eigen_eff q b g psi : qg_t g <> q -> in_eigen q b psi -> in_eigen q b (eff g psi).
  Proof.
    intros Ht H x Hx. rewrite eff_fx. rewrite (H x Hx). rewrite (H (fx (qg_t g) x)) by now rewrite tb_fx_neq. ring.
  Qed.
  Lemma delete_ok n gs q b : n <= 126 -> Forall (fun g => okg n g /\ qg_t g <> q /\ alive q b g) gs -> forall psi, in_eigen q b psi ->
    Forall (okg n) (map (fun g => PostSelectControl g q b) gs) /\ forall x, effs (map (fun g => PostSelectControl g q b) gs) psi x = effs gs psi x.
  Proof.
    intros Hn. induction 1 as [|g t (Og & Ht & Al) Ht' IH]; intros psi HE; cbn [map]; [split; auto|].
    destruct (ps_ok n g q b Hn Og Al) as (A & B & C & D). destruct (IH (eff g psi) (eigen_eff q b g psi Ht HE)) as [I1 I2]. split; [now constructor|].
    intros x. rewrite !effs_cons. rewrite <- I2. apply effs_ext. intros y. rewrite !eff_fx, B. unfold dg, og. rewrite B.
    destruct (Bool.bool_dec (N.testbit y q) b) as [E|E].
    - rewrite D by auto. reflexivity.
    - rewrite (HE y E). rewrite (HE (fx (qg_t g) y)) by now rewrite tb_fx_neq. ring.
  Qed.
End P.
