(** QTensorNetwork: gates; what a network with one layer of measurements means. *)
From Coq Require Import NArith List Bool Lia Ring Sorted.
From Verif Require Import Bits MFunctions MParFor MKernel Amp PAmp MEngine MAlu SpecFunctions SpecState SpecUnit3 PLoop PGates2 PEngine2 MQCircuit SpecQCircuit PQCirc1 PQCirc2 PQCirc3 PQCirc4 PQCirc5 PQCirc6 PQCirc8 MBdt SpecBdt PBdt1 MTensor SpecTensor PTensor1.
Import ListNotations.
Local Open Scope N_scope.

Lemma set_value cs x : (ctrl_value 0 cs x =? 2 ^ N.of_nat (length cs) - 1) = all_set cs x.
Proof.
  assert (G : forall i, ctrl_value i cs x + 2 ^ i <= 2 ^ (i + N.of_nat (length cs)) /\ (ctrl_value i cs x + 2 ^ i =? 2 ^ (i + N.of_nat (length cs))) = all_set cs x).
  { induction cs as [|q t IH]; intros i; cbn [ctrl_value length all_set forallb].
    - change (N.of_nat 0) with 0. rewrite N.add_0_r. split; [lia|]. apply N.eqb_eq. lia.
    - specialize (IH (i + 1)). destruct IH as [I1 I2]. unfold all_set in I2. replace (i + N.of_nat (S (length t))) with (i + 1 + N.of_nat (length t)) by lia.
      assert (P := pow2_nz i). assert (E : 2 ^ (i + 1) = 2 * 2 ^ i) by (rewrite N.pow_add_r; lia). rewrite E in *. destruct (N.testbit x q); cbn [andb].
      + rewrite <- I2. split; [lia|]. f_equal. lia.
      + split; [lia|]. apply N.eqb_neq. lia. }
  specialize (G 0). rewrite N.add_0_l in G. destruct G as [G1 G2]. rewrite <- G2. change (2 ^ 0) with 1 in *. apply eq_true_iff_eq. rewrite !N.eqb_eq. lia.
Qed.
Lemma set_of_In l q : In q (set_of l) <-> In q l.
Proof. unfold set_of. rewrite fold_sins_In. cbn [In]. tauto. Qed.
Lemma set_of_srt l : srt (set_of l).
Proof.
  unfold set_of. assert (G : forall s, srt s -> srt (fold_left (fun s q => sins q s) l s)) by (induction l as [|a t IH]; intros s H; cbn [fold_left]; [exact H|]; apply IH, sins_srt, H).
  apply G. constructor.
Qed.
Lemma set_of_len l : NoDup l -> length (set_of l) = length l.
Proof.
  intros H. apply PeanoNat.Nat.le_antisymm; apply NoDup_incl_length; try assumption; try (apply srt_nodup, set_of_srt); intros q Hq; apply set_of_In; exact Hq.
Qed.
Lemma all_set_of l x : all_set (set_of l) x = all_set l x.
Proof. unfold all_set. apply eq_true_iff_eq. rewrite !forallb_forall. split; intros H q Hq; apply H; apply set_of_In; exact Hq. Qed.
Lemma all_clear_of l x : all_clear (set_of l) x = all_clear l x.
Proof. unfold all_clear. apply eq_true_iff_eq. rewrite !forallb_forall. split; intros H q Hq; apply H; apply set_of_In; exact Hq. Qed.

Section T.
  Context {K : StarRing} (A : Arith K) (ci : K) (c : @tcfg K).
  Hypothesis EA : exact_arith A.
  Hypothesis PS : positive_sums (K := K).
  Hypothesis UP : tc_rgp c = true -> forall d, anorm (tc_ph c d) = 1%amp.
  Variable n : N.
  Hypothesis Hn : (n <= 126)%N.
  Add Ring KrDD : (sr_ring K).
  Local Notation vec := (N -> K).
  Local Notation qgate := (@qgate K).
  Local Notation qcirc := (@qcirc K).
  Local Notation tn := (@tn K).
  Local Notation tcall := (@tcall K).
  Implicit Types (psi phi v w : N -> K) (q : N) (g : qgate) (T : tn).
  Local Open Scope amp_scope.

  (** ** Calls as gates *)
  Definition call_gates (a : tcall) : list qgate :=
    match a with
    | TGate m t => [gate_1 t m]
    | TMC cs m t => [gate_c t m (set_of cs) (sub128 (pow2_128 (N.of_nat (length cs))) 1)]
    | TMAC cs m t => [gate_c t m (set_of cs) 0]
    | TSwap a b => if (a =? b)%N then [] else [gate_c b mat_X [a] 1; gate_c a mat_X [b] 1; gate_c b mat_X [a] 1]
    | _ => []
    end.
  Lemma step_gates (a : tcall) T : is_gate a = true -> tstep A ci c a T = Ret ([], fold_left (fun T g => tn_append ci g T) (call_gates a) T).
  Proof.
    destruct a; cbn [is_gate]; try discriminate; intros _; cbn [tstep call_gates fold_left]; try reflexivity.
    unfold tn_swap. destruct (a =? b)%N; reflexivity.
  Qed.
  Lemma ctl_gate_ok (cs : list N) (m : mat2 K) t p : NoDup (t :: cs) -> (forall q, In q (t :: cs) -> (q < n)%N) -> unitary2 m -> (p < 2 ^ N.of_nat (length cs))%N -> okg n (gate_c t m (set_of cs) p).
  Proof.
    intros ND R U Hp. apply NoDup_cons_iff in ND. destruct ND as [N1 N2]. split; [|unfold ne; discriminate]. unfold wq, gate_c. cbn [qg_t qg_ctl qg_pl map fst].
    split; [apply R; now left|]. split; [apply set_of_srt|]. split; [intros q Hq; apply R; right; now apply set_of_In|]. split; [intros H; now apply N1, set_of_In|].
    split; [repeat constructor|]. rewrite set_of_len by exact N2. split; [intros k [<-|[]]; exact Hp|]. intros e [<-|[]]. exact U.
  Qed.
  Lemma gate1_midn t psi x : gate1 always t midn psi x = psi x.
  Proof. unfold gate1, always, midn. cbn [m00 m01 m10 m11]. destruct (N.testbit x t); ring. Qed.
  Lemma gates_ok (a : tcall) : in_range_t n a -> is_gate a = true ->
    Forall (okg n) (call_gates a) /\ (forall psi x, effects (call_gates a) psi x = ideal_t a psi x) /\ forall g, In g (call_gates a) -> forall q, In q (qset g) <-> In q (touches a).
  Proof.
    intros R G. destruct a as [m t|cs m t|cs m t|a b| | |]; try discriminate G; cbn [call_gates in_range_t ideal_t touches] in *.
    - destruct R as [Ht U]. split; [constructor; [now apply one_gate_ok|constructor]|]. split; [reflexivity|]. intros g [<-|[]] q. unfold qset, gate_1. cbn [qg_t qg_ctl]. reflexivity.
    - destruct R as (ND & R & U). assert (L : (N.of_nat (length cs) <= n)%N).
      { pose proof ND as ND'. apply NoDup_cons_iff in ND'. rewrite <- (set_of_len cs) by apply ND'. assert (SL : (N.of_nat (length (set_of cs)) <= n - 0)%N); [|lia]. apply srt_len; [apply set_of_srt|]. intros x Hx. apply (proj1 (set_of_In cs x)) in Hx. split; [lia|]. apply R. right. exact Hx. }
      rewrite low_ok by lia. assert (P := pow2_nz (N.of_nat (length cs))). split; [constructor; [apply ctl_gate_ok; auto; lia|constructor]|]. split.
      + intros psi x. unfold effects. cbn [fold_left]. rewrite eff_effect by (unfold ne; discriminate). unfold eff, gm, gate_c, payload_at. cbn [qg_t qg_ctl qg_pl mfind].
        apply NoDup_cons_iff in ND. rewrite <- (set_of_len cs) at 1 by apply ND. rewrite set_value, all_set_of. unfold gate1 at 2. destruct (all_set cs x) eqn:E; [unfold gate1, always; reflexivity|apply gate1_midn].
      + intros g [<-|[]] q. unfold qset, gate_c. cbn [qg_t qg_ctl In]. rewrite set_of_In. reflexivity.
    - destruct R as (ND & R & U). assert (P := pow2_nz (N.of_nat (length cs))). split; [constructor; [apply ctl_gate_ok; auto; lia|constructor]|]. split.
      + intros psi x. unfold effects. cbn [fold_left]. rewrite eff_effect by (unfold ne; discriminate). unfold eff, gm, gate_c, payload_at. cbn [qg_t qg_ctl qg_pl mfind].
        rewrite clear_value, all_clear_of. unfold gate1 at 2. destruct (all_clear cs x) eqn:E; [unfold gate1, always; reflexivity|apply gate1_midn].
      + intros g [<-|[]] q. unfold qset, gate_c. cbn [qg_t qg_ctl In]. rewrite set_of_In. reflexivity.
    - destruct R as [Ha Hb]. destruct (N.eqb_spec a b) as [->|NE].
      + split; [constructor|]. split; [|intros g []]. intros psi x. unfold effects. cbn [fold_left]. f_equal. apply N.bits_inj. intros q. rewrite tb_swap.
        destruct (N.eqb_spec b q), (N.eqb_spec q b); subst; congruence.
      + destruct (swap_gates_ok (K := K) n b a Hb Ha) as [S1 S2]; [congruence|]. split; [exact S1|]. split.
        * intros psi x. rewrite S2. f_equal. apply N.bits_inj. intros q. rewrite !tb_swap. destruct (N.eqb_spec a q), (N.eqb_spec b q), (N.eqb_spec q a), (N.eqb_spec q b); subst; auto; congruence.
        * intros g [<-|[<-|[<-|[]]]] q; unfold qset, gate_c; cbn [qg_t qg_ctl In]; tauto.
  Qed.

  (** ** Gates and conditions on basis states *)
  Lemma cut_eff (P : N -> bool) g v x : (forall x, P (fx (qg_t g) x) = P x) -> cut P (eff g v) x = eff g (cut P v) x.
  Proof. intros H. unfold cut. rewrite !eff_fx. rewrite H. destruct (P x); ring. Qed.
  Lemma cut_scale (P : N -> bool) (k : K) v x : cut P (fun y => k * v y) x = k * cut P v x.
  Proof. unfold cut. destruct (P x); ring. Qed.
  Lemma cut_ext (P : N -> bool) v w x : v x = w x -> cut P v x = cut P w x.
  Proof. unfold cut. now intros ->. Qed.
  Lemma effs_eqv gs v w : Forall (okg n) gs -> (forall x, (x < 2 ^ n)%N -> v x = w x) -> forall x, (x < 2 ^ n)%N -> effs gs v x = effs gs w x.
  Proof.
    intros G H x Hx. rewrite <- !effects_effs by now apply (okg_ne n). apply (effects_eqv n); [now apply okg_all| |exact Hx]. exact H.
  Qed.
  Lemma effs_norm gs v : Forall (okg n) gs -> norm2 n (effs gs v) = norm2 n v.
  Proof.
    intros G. revert v. induction G as [|g t Hg Ht IH]; intros v; [reflexivity|]. rewrite effs_cons, IH, !norm_weight. apply weight_eff; [apply Hg|]. reflexivity.
  Qed.
  Lemma effs_far g gs : okg n g -> Forall (okg n) gs -> (forall h, In h gs -> far g h) -> forall v x, effs gs (eff g v) x = eff g (effs gs v) x.
  Proof.
    intros G F H v x. pose proof (comm_effects n g gs (okg_gd n g G) (okg_all n gs F) H v x) as E. rewrite !effects_effs in E by now apply (okg_ne n).
    rewrite (eff_effect g (effects gs v)) in E by apply G. rewrite <- (effs_ext gs (effect g v) (eff g v)) by (intros y; apply eff_effect, G). rewrite E. apply eff_ext. intros y. apply effects_effs. now apply (okg_ne n).
  Qed.
  Lemma ket_norm : norm2 n (ket 0 : vec) = 1.
  Proof.
    rewrite norm_weight, weight_ket; [reflexivity|]. pose proof (pow2_nz n). lia.
  Qed.

  (** ** The invariant *)
  Definition meas_of (m : list (N * bool)) : list (list (N * bool)) := match m with [] => [] | _ => [m] end.
  Definition zero_state : vec := ket 0.
  Definition inv (M S : list N) T psi : Prop :=
    tn_n T = n /\ norm2 n psi = 1 /\ exists (qc : qcirc) (m : list (N * bool)) (gs2 : list qgate) (k : K),
      qc_ok n qc /\ srt (map fst m) /\ (forall q, In q (map fst m) <-> In q M) /\ (forall e, In e m -> (fst e < n)%N) /\
      Forall (okg n) gs2 /\ (forall g q, In g gs2 -> In q (qset g) -> In q S) /\
      ((tn_circ T = [qc] /\ gs2 = []) \/ (exists qc2, tn_circ T = [qc; qc2] /\ qc_ok n qc2 /\ pe gs2 (qc_gates qc2) /\ gs2 <> [] /\ m <> [])) /\
      tn_meas T = meas_of m /\
      (forall x, (x < 2 ^ n)%N -> psi x = k * effs gs2 (cut (reads m) (effs (qc_gates qc) zero_state)) x) /\
      ((tn_ls T = None /\ (tc_engine c = true -> length m <> 1%nat)) \/ exists v, tn_ls T = Some (mkLS n v) /\ same n v psi).

  Lemma layers_1 (qc : qcirc) m : layers [qc] (meas_of m) = [(qc, m)].
  Proof. destruct m; reflexivity. Qed.
  Lemma layers_2 (qc qc2 : qcirc) m : layers [qc; qc2] (meas_of m) = [(qc, m); (qc2, [])].
  Proof. destruct m; reflexivity. Qed.
  Lemma possible m phi gs2 psi (k : K) : Forall (okg n) gs2 -> norm2 n psi = 1 -> (forall x, (x < 2 ^ n)%N -> psi x = k * effs gs2 (cut (reads m) phi) x) ->
    exists x, (x < 2 ^ n)%N /\ reads m x = true /\ phi x <> 0.
  Proof.
    intros G N1 H. destruct (existsb (fun x => reads m x && negb (sr_eqb (phi x) 0)) (basis n)) eqn:E.
    - apply existsb_exists in E. destruct E as (x & Hx & E). apply basis_In in Hx. apply andb_prop in E. destruct E as [E1 E2]. exists x. split; [exact Hx|]. split; [exact E1|].
      intros Z. apply eqb_1 in Z. rewrite Z in E2. discriminate E2.
    - exfalso. apply (proj1 PS). rewrite <- N1, (scale_norm n k psi _ H), effs_norm, cut_norm by exact G. rewrite (weight_zero n (reads m) phi); [ring|]. intros x Hx Rx.
      destruct (sr_eqb (phi x) 0) eqn:Z; [now apply eqb_1|]. exfalso. assert (T1 : existsb (fun x => reads m x && negb (sr_eqb (phi x) 0)) (basis n) = true); [|congruence].
      apply existsb_exists. exists x. split; [now apply basis_In|]. rewrite Rx, Z. reflexivity.
  Qed.
  (** Running the layers gives the state. *)
  Lemma replay M S T psi d : inv M S T psi -> (tc_engine c = true -> length (hd [] (tn_meas T)) <> 1%nat) ->
    exists v d', run_layers A c (layers (tn_circ T) (tn_meas T)) (mkLS (tn_n T) (fun x => if (x =? 0)%N then 1 else 0)) d = Ret (mkLS n v, d') /\ same n v psi.
  Proof.
    intros (EN & N1 & qc & m & gs2 & k & OK & SM & KM & RM & G2 & Q2 & CI & ME & PSI & _) HE. rewrite EN.
    change (fun x => if (x =? 0)%N then 1 else 0) with zero_state.
    destruct (possible m _ gs2 psi k G2 N1 PSI) as (x0 & Hx0 & Rx0 & Vx0).
    destruct (ls_run_ok n qc zero_state (okg_all n _ (proj1 OK)) (proj2 OK)) as (v0 & R0 & V0).
    assert (V0' : forall x, v0 x = effs (qc_gates qc) zero_state x) by (intros x; rewrite V0; apply effects_effs; exact (okg_ne n _ (proj1 OK))). clear V0.
    assert (NV0 : norm2 n v0 = 1). { rewrite <- ket_norm, <- (effs_norm (qc_gates qc) (ket 0) (proj1 OK)). unfold norm2. apply asum_ext. intros x _. rewrite V0'. reflexivity. }
    assert (FL : exists v1 d1, (match m with [] => Ret (mkLS n v0, d) | _ => ls_force_list A c m (mkLS n v0) d end) = Ret (mkLS n v1, d1) /\ norm2 n v1 = 1 /\ exists k1, forall x, (x < 2 ^ n)%N -> v1 x = k1 * cut (reads m) v0 x).
    { destruct m as [|e t] eqn:EM.
      - exists v0, d. split; [reflexivity|]. split; [exact NV0|]. exists 1. intros x _. unfold cut. cbn. ring.
      - rewrite <- EM in *. assert (ML : meas_of m = [m]) by (rewrite EM; reflexivity). rewrite ME, ML in HE. cbn [hd] in HE.
        apply (force_list_ok A c EA PS UP); [exact HE|exact RM|exact NV0|]. exists x0. rewrite V0'. auto. }
    destruct FL as (v1 & d1 & R1 & NV1 & k1 & V1). rewrite ME. destruct CI as [[CI ->]|(qc2 & CI & OK2 & PE2 & _ & _)]; rewrite CI.
    - rewrite layers_1. cbn [run_layers]. rewrite R0. cbn [bind]. rewrite R1. cbn [bind]. exists v1, d1. split; [reflexivity|].
      apply (unique_multiple A EA n v1 psi (cut (reads m) (effs (qc_gates qc) zero_state)) k1 k); [exact NV1|exact N1| |exact PSI].
      intros x Hx. rewrite V1 by exact Hx. f_equal. apply cut_ext. apply V0'.
    - rewrite layers_2. cbn [run_layers]. rewrite R0. cbn [bind]. rewrite R1. cbn [bind].
      destruct (ls_run_ok n qc2 v1 (okg_all n _ (proj1 OK2)) (proj2 OK2)) as (v2 & R2 & V2). rewrite R2. cbn [bind]. exists v2, d1. split; [reflexivity|].
      destruct PE2 as (p & P1 & P2).
      assert (E2 : forall x, (x < 2 ^ n)%N -> p * v2 x = k1 * effs gs2 (cut (reads m) (effs (qc_gates qc) zero_state)) x).
      { intros x Hx. rewrite V2, effects_effs by exact (okg_ne n _ (proj1 OK2)). rewrite <- P2. rewrite (effs_eqv gs2 v1 (fun y => k1 * cut (reads m) (effs (qc_gates qc) zero_state) y) G2); [apply effs_scale| |exact Hx].
        intros y Hy. rewrite V1 by exact Hy. f_equal. apply cut_ext. apply V0'. }
      apply (unique_multiple A EA n v2 psi (effs gs2 (cut (reads m) (effs (qc_gates qc) zero_state))) (sr_conj p * k1) k); [|exact N1| |exact PSI].
      + rewrite <- NV1, <- (effs_norm (qc_gates qc2) v1 (proj1 OK2)). unfold norm2. apply asum_ext. intros x _. rewrite V2, effects_effs by exact (okg_ne n _ (proj1 OK2)). reflexivity.
      + intros x Hx. transitivity (sr_conj p * (p * v2 x)); [transitivity (p * sr_conj p * v2 x); [fold (anorm p); rewrite P1; ring|ring]|]. rewrite E2 by exact Hx. ring.
  Qed.

  (** Reading through the layer stack. *)
  Lemma stack_ok M S T psi qs : inv M S T psi -> is_nil qs = true \/ (n <= tc_thr c)%N ->
    exists v T', amplitudes A ci c qs T = Ret (mkLS n v, T') /\ same n v psi /\ tn_circ T' = tn_circ T /\ tn_meas T' = tn_meas T /\ tn_ls T' = Some (mkLS n v) /\ inv M S T' psi.
  Proof.
    intros I HQ. pose proof I as (EN & N1 & qc & m & gs2 & k & OK & SM & KM & RM & G2 & Q2 & CI & ME & PSI & LS). unfold amplitudes. rewrite EN.
    assert (B : is_nil qs || (n <=? tc_thr c)%N = true) by (destruct HQ as [->|HQ]; [reflexivity|]; apply N.leb_le in HQ; rewrite HQ; apply orb_true_r). rewrite B. unfold make_stack. destruct LS as [[LS HE]|(v & LS & SV)]; rewrite LS.
    - destruct (replay M S T psi (tn_draw T) I) as (v & d' & R & SV). { rewrite ME. destruct m; [intros _; discriminate|exact HE]. }
      rewrite R. cbn [bind]. exists v, (set_ls (Some (mkLS n v)) (set_draw d' T)). split; [reflexivity|]. split; [exact SV|]. split; [reflexivity|]. split; [reflexivity|]. split; [reflexivity|].
      unfold set_ls, set_draw. cbn [tn_n tn_circ tn_meas tn_ls]. split; [exact EN|]. split; [exact N1|]. exists qc, m, gs2, k. cbn [tn_circ tn_meas tn_ls]. repeat (split; [assumption|]). right. exists v. split; [reflexivity|exact SV].
    - cbn [bind]. exists v, T. split; [reflexivity|]. split; [exact SV|]. split; [reflexivity|]. split; [reflexivity|]. split; [exact LS|exact I].
  Qed.
  Lemma amp_ok M S T psi : inv M S T psi -> exists ph, anorm ph = 1 /\ forall x, (x < 2 ^ n)%N -> exists T', tn_amp A ci c x T = Ret (ph * psi x, T') /\ inv M S T' psi.
  Proof.
    intros I. destruct (stack_ok M S T psi [] I (or_introl eq_refl)) as (v & T' & E & (ph & P1 & P2) & _ & _ & _ & I'). exists ph. split; [exact P1|]. intros x Hx. exists T'. split; [|exact I'].
    unfold tn_amp. rewrite E. cbn [bind]. unfold ls_amp. cbn [ls_n ls_v]. apply N.ltb_lt in Hx. rewrite Hx. apply N.ltb_lt in Hx. cbn [bind]. rewrite P2 by exact Hx. reflexivity.
  Qed.
  Lemma prob_weight q v : weight_of n (fun x => N.testbit x q) v = chance n q true v.
  Proof. rewrite chance_weight. unfold weight_of. apply asum_ext. intros x _. destruct (N.testbit x q); reflexivity. Qed.
  Lemma prob_ok M S T psi q : inv M S T psi -> (n <= tc_thr c)%N -> (q < n)%N -> exists T', tn_prob A ci c q T = Ret (chance n q true psi, T') /\ inv M S T' psi.
  Proof.
    intros I HT Hq. destruct (stack_ok M S T psi [q] I (or_intror HT)) as (v & T' & E & SV & _ & _ & _ & I'). exists T'. split; [|exact I'].
    unfold tn_prob. rewrite E. cbn [bind]. unfold ls_prob. cbn [ls_n ls_v]. apply N.ltb_lt in Hq. rewrite Hq. cbn [bind]. rewrite prob_weight, (same_chance n q true v psi SV). reflexivity.
  Qed.
  Lemma reads_ok M S T psi : inv M S T psi -> (n <= tc_thr c)%N -> reads_as A ci c T psi.
  Proof.
    intros I HT. pose proof I as (EN & _). unfold reads_as. rewrite EN. split.
    - destruct (amp_ok M S T psi I) as (ph & P1 & P2). exists ph. split; [exact P1|]. intros x Hx. destruct (P2 x Hx) as (T' & E & _). exists T'. exact E.
    - intros q Hq. destruct (prob_ok M S T psi q I HT Hq) as (T' & E & _). exists T'. exact E.
  Qed.

  (** ** Appending gates *)
  Lemma measured_In m q : measured m q = true <-> In q (map fst m).
  Proof.
    unfold measured. rewrite existsb_exists, in_map_iff. split.
    - intros (e & He & E). apply N.eqb_eq in E. exists e. auto.
    - intros (e & E & He). exists e. split; [exact He|]. now apply N.eqb_eq.
  Qed.
  Lemma layer_meas m qs : layer_of (meas_of m) qs 0 0 = if existsb (measured m) qs then 1%nat else 0%nat.
  Proof.
    destruct m as [|e t]; [|reflexivity]. cbn [meas_of layer_of]. assert (E : existsb (measured []) qs = false) by (induction qs as [|a l IH]; [reflexivity|exact IH]). rewrite E. reflexivity.
  Qed.
  Lemma nodup_len (m : list (N * bool)) M : srt (map fst m) -> (forall q, In q (map fst m) <-> In q M) -> length m = length (nodup N.eq_dec M).
  Proof.
    intros SM KM. rewrite <- (map_length fst m). apply PeanoNat.Nat.le_antisymm; apply NoDup_incl_length.
    - now apply srt_nodup.
    - intros q Hq. apply nodup_In, KM, Hq.
    - apply NoDup_nodup.
    - intros q Hq. apply KM. now apply nodup_In in Hq.
  Qed.
  Lemma reads_fx m t x : ~ In t (map fst m) -> reads m (fx t x) = reads m x.
  Proof.
    intros H. unfold reads. induction m as [|[a b] l IH]; [reflexivity|]. cbn [forallb fst snd]. cbn [map fst In] in H. rewrite IH by tauto. f_equal. f_equal. apply tb_fx_neq. intros ->. tauto.
  Qed.
  Lemma append_inv M S T psi g : inv M S T psi -> okg n g -> (tc_engine c = true -> length (nodup N.eq_dec M) <> 1%nat) ->
    (existsb (fun q => existsb (N.eqb q) M) (qset g) = true \/ forall q, In q (qset g) -> ~ In q S) ->
    inv M (if existsb (fun q => existsb (N.eqb q) M) (qset g) then qset g ++ S else S) (tn_append ci g T) (effect g psi).
  Proof.
    intros (EN & N1 & qc & m & gs2 & k & OK & SM & KM & RM & G2 & Q2 & CI & ME & PSI & LS) OG HE HO.
    assert (BM : existsb (fun q => existsb (N.eqb q) M) (qset g) = existsb (measured m) (qset g)).
    { apply eq_true_iff_eq. rewrite !existsb_exists. split; intros (q & Hq & E); exists q; split; try exact Hq.
      - apply existsb_exists in E. destruct E as (q' & Hq' & E). apply N.eqb_eq in E. subst q'. apply measured_In, KM, Hq'.
      - apply measured_In, KM in E. apply existsb_exists. exists q. split; [exact E|apply N.eqb_refl]. }
    rewrite BM in *. assert (EF : forall x, effect g psi x = eff g psi x) by (intros x; apply eff_effect, OG).
    assert (NE : norm2 n (effect g psi) = 1). { rewrite <- N1, <- (effs_norm [g] psi (Forall_cons _ OG (Forall_nil _))). unfold norm2. apply asum_ext. intros x _. rewrite EF. reflexivity. }
    assert (PG : forall x, (x < 2 ^ n)%N -> effect g psi x = k * eff g (effs gs2 (cut (reads m) (effs (qc_gates qc) zero_state))) x).
    { intros x Hx. rewrite EF. change (eff g psi x) with (effs [g] psi x). rewrite (effs_eqv [g] psi _ (Forall_cons _ OG (Forall_nil _)) PSI x Hx). rewrite effs_scale. reflexivity. }
    assert (HL : tc_engine c = true -> length m <> 1%nat) by (rewrite (nodup_len m M SM KM); exact HE).
    unfold tn_append. change (qg_t g :: qg_ctl g) with (qset g). rewrite ME, layer_meas. destruct (existsb (measured m) (qset g)) eqn:EM.
    - assert (MN : m <> []). { intros ->. clear - EM. induction (qset g) as [|a l IH]; [discriminate|apply IH; exact EM]. }
      assert (C2 : exists qc2, set_nth 1 (AppendGate ci (nth 1 (if Nat.eqb (length (tn_circ T)) 1 then tn_circ T ++ [qc_new true false] else tn_circ T) (qc_new true false)) g) (if Nat.eqb (length (tn_circ T)) 1 then tn_circ T ++ [qc_new true false] else tn_circ T) = [qc; AppendGate ci qc2 g] /\ qc_ok n qc2 /\ pe gs2 (qc_gates qc2)).
      { destruct CI as [[-> ->]|(qc2 & -> & OK2 & PE2 & _)].
        - exists (qc_new true false). split; [reflexivity|]. split; [split; [constructor|cbn; lia]|apply pe_refl].
        - exists qc2. split; [reflexivity|]. auto. }
      destruct C2 as (qc2 & EC & OK2 & PE2). rewrite EC. destruct (AppendGate_ok n ci qc2 g Hn OK2 OG) as (A1 & _ & A3 & _).
      unfold set_ls, set_layers. cbn [tn_n tn_circ tn_meas tn_ls]. split; [exact EN|]. split; [exact NE|]. exists qc, m, (gs2 ++ [g]), k. cbn [tn_circ tn_meas tn_ls].
      split; [exact OK|]. split; [exact SM|]. split; [exact KM|]. split; [exact RM|]. split; [apply Forall_app; split; [exact G2|exact (Forall_cons _ OG (Forall_nil _))]|]. split.
      { intros h q Hh Hq. apply in_app_or in Hh. apply in_or_app. destruct Hh as [Hh|[<-|[]]]; [right; eapply Q2; eassumption|left; exact Hq]. }
      split. { right. exists (AppendGate ci qc2 g). split; [reflexivity|]. split; [exact A1|]. split; [|split; [|exact MN]]. - eapply pe_trans; [|exact A3]. apply pe_app_r, PE2. - intros Z. apply app_eq_nil in Z. destruct Z as [_ Z]. discriminate Z. }
      split; [reflexivity|]. split; [|left; split; [reflexivity|exact HL]]. intros x Hx. rewrite PG by exact Hx. rewrite effs_app. reflexivity.
    - destruct HO as [HO|HO]; [discriminate HO|]. assert (L0 : Nat.eqb (length (tn_circ T)) 0 = false) by (destruct CI as [[-> _]|(? & -> & _)]; reflexivity). rewrite L0.
      assert (N0 : nth 0 (tn_circ T) (qc_new true false) = qc) by (destruct CI as [[-> _]|(? & -> & _)]; reflexivity). rewrite N0.
      destruct (AppendGate_ok n ci qc g Hn OK OG) as (A1 & _ & (p & P1 & P2) & _).
      assert (NT : ~ In (qg_t g) (map fst m)). { intros Z. apply measured_In in Z. assert (Y : existsb (measured m) (qset g) = true); [|congruence]. apply existsb_exists. exists (qg_t g). split; [now left|exact Z]. }
      unfold set_ls, set_layers. cbn [tn_n tn_circ tn_meas tn_ls]. split; [exact EN|]. split; [exact NE|]. exists (AppendGate ci qc g), m, gs2, (k * p). cbn [tn_circ tn_meas tn_ls].
      split; [exact A1|]. split; [exact SM|]. split; [exact KM|]. split; [exact RM|]. split; [exact G2|]. split; [exact Q2|]. split.
      { destruct CI as [[-> ->]|(qc2 & -> & X)]; [left; split; reflexivity|right]. exists qc2. split; [reflexivity|exact X]. }
      split; [reflexivity|]. split; [|left; split; [reflexivity|exact HL]]. intros x Hx. rewrite PG by exact Hx.
      rewrite <- effs_far; [|exact OG|exact G2|intros h Hh q Hq Hq'; exact (HO q Hq (Q2 h q Hh Hq'))].
      rewrite (effs_ext gs2 (eff g (cut (reads m) (effs (qc_gates qc) zero_state))) (fun y => p * cut (reads m) (effs (qc_gates (AppendGate ci qc g)) zero_state) y)); [rewrite effs_scale; ring|].
      intros y. rewrite <- cut_eff by (intros z; now apply reads_fx). rewrite <- cut_scale. apply cut_ext. rewrite <- P2, effs_app. reflexivity.
  Qed.
End T.
