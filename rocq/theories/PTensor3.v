(** QTensorNetwork: basis states, measurements, programs. *)
From Coq Require Import NArith List Bool Lia Ring Sorted.
From Verif Require Import Bits MFunctions MParFor MKernel Amp PAmp MEngine MAlu SpecFunctions SpecState SpecUnit3 PLoop PGates2 PEngine2 MQCircuit SpecQCircuit PQCirc1 PQCirc2 PQCirc3 PQCirc4 PQCirc5 PQCirc6 PQCirc8 MBdt SpecBdt PBdt1 MTensor SpecTensor PTensor1 PTensor2.
Import ListNotations.
Local Open Scope N_scope.

(** The basis state reached by flipping the qubits with value 1. *)
Definition zfold (m : list (N * bool)) (z : N) : N := fold_left (fun (z : N) (e : N * bool) => if snd e then fx (fst e) z else z) m z.
Lemma zfold_lt n m : (forall e, In e m -> fst e < n) -> forall z, z < 2 ^ n -> zfold m z < 2 ^ n.
Proof.
  unfold zfold. induction m as [|[q b] t IH]; intros H z Hz; [exact Hz|]. cbn [fold_left fst snd]. apply IH; [intros e He; apply H; now right|].
  destruct b; [|exact Hz]. apply fx_lt; [apply (H (q, true)); now left|exact Hz].
Qed.
Lemma zfold_bit m : NoDup (map fst m) -> forall z q, N.testbit (zfold m z) q = match mfind q m with Some true => negb (N.testbit z q) | _ => N.testbit z q end.
Proof.
  unfold zfold. induction m as [|[a b] t IH]; intros ND z q; [reflexivity|]. cbn [map fst] in ND. apply NoDup_cons_iff in ND. destruct ND as [N1 N2]. cbn [fold_left fst snd mfind].
  rewrite IH by exact N2. destruct (N.eqb_spec q a) as [->|NE].
  - apply mfind_none in N1. rewrite N1. destruct b; [apply tb_fx_eq|reflexivity].
  - destruct b; [|reflexivity]. rewrite tb_fx_neq by congruence. reflexivity.
Qed.
Lemma reads_find m x : NoDup (map fst m) -> (reads m x = true <-> forall q b, mfind q m = Some b -> N.testbit x q = b).
Proof.
  intros ND. unfold reads. rewrite forallb_forall. split.
  - intros H q b E. apply mfind_In in E. specialize (H _ E). cbn [fst snd] in H. now apply eqb_prop.
  - intros H [q b] He. cbn [fst snd]. rewrite (H q b); [apply eqb_reflx|]. clear H. induction m as [|[a w] t IH]; [destruct He|]. cbn [mfind map fst] in *. apply NoDup_cons_iff in ND. destruct ND as [N1 N2].
    destruct He as [He|He]; [injection He as -> ->; rewrite N.eqb_refl; reflexivity|]. destruct (N.eqb_spec q a) as [->|]; [|now apply IH]. exfalso. apply N1. change a with (fst (a, b)). now apply in_map.
Qed.
Lemma reads_mset m q b x : srt (map fst m) -> (forall b', mfind q m = Some b' -> b' = b) -> reads (mset q b m) x = eqb (N.testbit x q) b && reads m x.
Proof.
  intros SM C. apply eq_true_iff_eq. rewrite andb_true_iff, eqb_true_iff. rewrite !reads_find by (apply srt_nodup; auto using mset_srt). split.
  - intros H. split; [apply H; rewrite mfind_mset, N.eqb_refl; reflexivity|]. intros a w E. apply H. rewrite mfind_mset. destruct (N.eqb_spec a q) as [->|]; [|exact E]. f_equal. symmetry. now apply C.
  - intros [H1 H2] a w E. rewrite mfind_mset in E. destruct (N.eqb_spec a q) as [->|]; [congruence|]. now apply H2.
Qed.
Lemma mset_keys (m : list (N * bool)) q b a : In a (map fst (mset q b m)) <-> a = q \/ In a (map fst m).
Proof.
  assert (G : forall m' : list (N * bool), In a (map fst m') <-> mfind a m' <> None).
  { intros m'. destruct (mfind a m') eqn:E; split; intros H; try congruence.
    - apply mfind_In in E. change a with (fst (a, b0)). now apply in_map.
    - apply mfind_none in E. contradiction. }
  rewrite !G, mfind_mset. destruct (N.eqb_spec a q) as [->|]; split; intros H; auto; try congruence; try (left; reflexivity). destruct H as [H|H]; [contradiction|exact H].
Qed.

Section T.
  Context {K : StarRing} (A : Arith K) (ci : K) (c : @tcfg K).
  Hypothesis EA : exact_arith A.
  Hypothesis PS : positive_sums (K := K).
  Hypothesis UP : tc_rgp c = true -> forall d, anorm (tc_ph c d) = 1%amp.
  Variable n : N.
  Hypothesis Hn : (n <= 126)%N.
  Add Ring KrDE : (sr_ring K).
  Local Notation vec := (N -> K).
  Local Notation qgate := (@qgate K).
  Local Notation qcirc := (@qcirc K).
  Local Notation tn := (@tn K).
  Local Notation tcall := (@tcall K).
  Local Notation inv := (inv c n).
  Implicit Types (psi phi v w : N -> K) (q : N) (g : qgate) (T : tn).
  Local Open Scope amp_scope.

  Lemma inv_ext M S T psi psi' : inv M S T psi -> (forall x, (x < 2 ^ n)%N -> psi x = psi' x) -> inv M S T psi'.
  Proof.
    intros (EN & N1 & qc & m & gs2 & k & OK & SM & KM & RM & G2 & Q2 & CI & ME & PSI & LS) E. split; [exact EN|]. split.
    { rewrite <- N1. unfold norm2. apply asum_ext. intros x Hx. apply basis_In in Hx. rewrite E by exact Hx. reflexivity. }
    exists qc, m, gs2, k. repeat (split; [assumption|]). split; [intros x Hx; rewrite <- E by exact Hx; now apply PSI|]. destruct LS as [LS|(v & LS & SV)]; [now left|right]. exists v. split; [exact LS|].
    eapply same_trans; [exact SV|]. now apply same_eq.
  Qed.
  Lemma inv_mono M S S' T psi : inv M S T psi -> (forall q, In q S -> In q S') -> inv M S' T psi.
  Proof.
    intros (EN & N1 & qc & m & gs2 & k & OK & SM & KM & RM & G2 & Q2 & CI & ME & PSI & LS) E. split; [exact EN|]. split; [exact N1|].
    exists qc, m, gs2, k. repeat (split; [assumption|]). split; [intros g q Hg Hq; apply E; eapply Q2; eassumption|]. repeat (split; [assumption|]). exact LS.
  Qed.

  (** ** Basis states *)
  Lemma x_ket t z x : eff (gate_1 t mat_X) (ket z : vec) x = ket (fx t z) x.
  Proof.
    rewrite eff_fx. unfold dg, og, gm, payload_at, gate_1. cbn [qg_t qg_ctl qg_pl ctrl_value mfind N.eqb]. unfold dia, off, mat_X. cbn [m00 m01 m10 m11]. unfold ket.
    assert (E : (fx t x =? z)%N = (x =? fx t z)%N). { apply eq_true_iff_eq. rewrite !N.eqb_eq. split; [intros <-|intros ->]; rewrite fx_fx; reflexivity. }
    rewrite E. destruct (N.testbit x t), (x =? fx t z)%N; ring.
  Qed.
  Definition preps (qc : qcirc) (z : N) : Prop := qc_ok n qc /\ exists ph, anorm ph = 1 /\ forall x, effs (qc_gates qc) (ket 0) x = ph * ket z x.
  Lemma preps_new cl : preps (qc_new true cl) 0.
  Proof. split; [split; [constructor|cbn; lia]|]. exists 1. split; [apply (anorm_1 (K := K))|]. intros x. cbn. ring. Qed.
  Lemma preps_x qc z t : preps qc z -> (t < n)%N -> preps (AppendGate ci qc (gate_1 t mat_X)) (fx t z).
  Proof.
    intros (OK & p & P1 & P2) Ht. destruct (AppendGate_ok n ci qc (gate_1 t mat_X) Hn OK) as (A1 & _ & (r & R1 & R2) & _); [apply one_gate_ok; [exact Ht|apply x_unitary]|].
    split; [exact A1|]. exists (sr_conj r * p). split; [rewrite (anorm_mul K), (anorm_conj_u r R1), P1; ring|]. intros x. specialize (R2 (ket 0) x). rewrite effs_app in R2. cbn [effs fold_left] in R2.
    rewrite (eff_ext (gate_1 t mat_X) _ (fun y => p * ket z y)) in R2 by exact P2. rewrite eff_scale, x_ket in R2.
    transitivity (sr_conj r * (r * effs (qc_gates (AppendGate ci qc (gate_1 t mat_X))) (ket 0) x)); [transitivity (r * sr_conj r * effs (qc_gates (AppendGate ci qc (gate_1 t mat_X))) (ket 0) x); [fold (anorm r); rewrite R1; ring|ring]|].
    rewrite <- R2. ring.
  Qed.
  Lemma x_circuit_ok m : (forall e, In e m -> (fst e < n)%N) -> forall qc z, preps qc z -> preps (x_circuit ci qc m) (zfold m z).
  Proof.
    unfold x_circuit, zfold. induction m as [|[q b] t IH]; intros H qc z P; [exact P|]. cbn [fold_left fst snd]. apply IH; [intros e He; apply H; now right|].
    destruct b; [|exact P]. apply preps_x; [exact P|]. apply (H (q, true)). now left.
  Qed.
  (** A qubit that is never the target of anything but phase gates stays 0. *)
  Lemma support gs q : (forall g, In g gs -> qg_t g = q -> IsPhase g = true) -> forall v, (forall x, N.testbit x q = true -> v x = 0) -> forall x, N.testbit x q = true -> effs gs v x = 0.
  Proof.
    induction gs as [|g t IH]; intros H v Hv x Hx; [now apply Hv|]. rewrite effs_cons. apply IH; [intros h Hh; apply H; now right| |exact Hx]. intros y Hy. rewrite eff_fx.
    destruct (N.eq_dec (qg_t g) q) as [E|NE].
    - rewrite (phase_og g (H g (or_introl eq_refl) E)), (Hv y Hy). ring.
    - rewrite (Hv y Hy), (Hv (fx (qg_t g) y)); [ring|]. rewrite tb_fx_neq by exact NE. exact Hy.
  Qed.
  Lemma never_target (qc : qcirc) q : IsNonPhaseTarget qc q = false -> forall g, In g (qc_gates qc) -> qg_t g = q -> IsPhase g = true.
  Proof.
    intros H g Hg E. destruct (IsPhase g) eqn:P; [reflexivity|]. exfalso. assert (X : IsNonPhaseTarget qc q = true); [|congruence]. unfold IsNonPhaseTarget. apply existsb_exists. exists g. split; [exact Hg|].
    rewrite E, N.eqb_refl, P. reflexivity.
  Qed.

  (** ** Measurement with one layer *)
  Lemma collapse_inv (q : N) (m : list (N * bool)) (qc : qcirc) T psi (k : K) : tn_n T = n -> norm2 n psi = 1 -> qc_ok n qc -> srt (map fst m) -> (forall e, In e m -> (fst e < n)%N) -> m <> [] -> In q (map fst m) ->
    tn_circ T = [qc] -> tn_meas T = [m] -> (forall x, (x < 2 ^ n)%N -> psi x = k * cut (reads m) (effs (qc_gates qc) (ket 0)) x) ->
    ((tn_ls T = None /\ (tc_engine c = true -> length m <> 1%nat)) \/ exists v, tn_ls T = Some (mkLS n v) /\ same n v psi) -> forall M, (forall q, In q (map fst m) <-> In q M) ->
    inv M [] (set_layers (fst (collapse_layers ci n 0 [qc] [m])) (snd (collapse_layers ci n 0 [qc] [m])) T) psi.
  Proof.
    intros EN N1 OK SM RM MN _ _ _ PSI LS M KM. unfold collapse_layers. cbn [nth]. destruct (existsb (fun q => negb (measured m q) && IsNonPhaseTarget qc q) (iota 0 (N.to_nat n))) eqn:E; cbn [fst snd].
    - split; [exact EN|]. split; [exact N1|]. exists qc, m, [], k. cbn [set_layers tn_circ tn_meas tn_ls]. split; [exact OK|]. split; [exact SM|]. split; [exact KM|]. split; [exact RM|]. split; [constructor|]. split; [intros g a []|]. split; [left; split; reflexivity|].
      split; [destruct m; [congruence|reflexivity]|]. split; [exact PSI|]. exact LS.
    - cbn [set_nth firstn skipn app]. destruct (x_circuit_ok m RM (qc_new true false) 0 (preps_new false)) as (OK' & p & P1 & P2). set (z := zfold m 0) in *. set (qc' := x_circuit ci (qc_new true false) m) in *.
      assert (BZ : forall a, N.testbit z a = match mfind a m with Some true => true | _ => false end). { intros a. unfold z. rewrite zfold_bit by now apply srt_nodup. rewrite N.bits_0. destruct (mfind a m) as [[|]|]; reflexivity. }
      assert (RZ : reads m z = true). { apply reads_find; [now apply srt_nodup|]. intros a w Ea. rewrite BZ, Ea. now destruct w. }
      assert (ON : forall x, (x < 2 ^ n)%N -> x <> z -> psi x = 0).
      { intros x Hx NE. rewrite PSI by exact Hx. unfold cut. destruct (reads m x) eqn:Rx; [|ring].
        assert (exists a, N.testbit x a <> N.testbit z a) as (a & Ha).
        { destruct (N.eq_dec (N.lxor x z) 0) as [Z|Z]; [apply N.lxor_eq in Z; contradiction|]. exists (N.log2 (N.lxor x z)). intros Y. pose proof (N.bit_log2 _ Z) as L. rewrite N.lxor_spec, Y, xorb_nilpotent in L. discriminate L. }
        rewrite BZ in Ha. destruct (mfind a m) as [w|] eqn:Ea.
        { exfalso. apply Ha. rewrite (proj1 (reads_find m x (srt_nodup _ SM)) Rx a w Ea). now destruct w. }
        assert (Xa : N.testbit x a = true) by (destruct (N.testbit x a); [reflexivity|congruence]).
        assert (Ta : IsNonPhaseTarget qc a = false).
        { destruct (IsNonPhaseTarget qc a) eqn:Y; [|reflexivity]. exfalso. assert (X : existsb (fun q => negb (measured m q) && IsNonPhaseTarget qc q) (iota 0 (N.to_nat n)) = true); [|congruence]. apply existsb_exists. exists a. split.
          - apply iota_mem. split; [lia|]. destruct (N.lt_ge_cases a n) as [|G]; [lia|]. exfalso. rewrite (tb_high x n a Hx G) in Xa. discriminate Xa.
          - rewrite Y. destruct (measured m a) eqn:Z; [|reflexivity]. apply measured_In in Z. apply mfind_none in Ea. contradiction. }
        rewrite (support (qc_gates qc) a (never_target qc a Ta) (ket 0)); [ring| |exact Xa]. intros y Hy. unfold ket. destruct (N.eqb_spec y 0) as [->|]; [rewrite N.bits_0 in Hy; discriminate Hy|reflexivity]. }
      split; [exact EN|]. split; [exact N1|]. exists qc', m, [], (psi z * sr_conj p). cbn [set_layers tn_circ tn_meas tn_ls]. split; [exact OK'|]. split; [exact SM|]. split; [exact KM|]. split; [exact RM|]. split; [constructor|]. split; [intros g a []|]. split; [left; split; reflexivity|].
      split; [destruct m; [congruence|reflexivity]|]. split; [|exact LS]. intros x Hx. cbn [effs fold_left]. change (fold_left (fun s g => eff g s) (qc_gates qc') zero_state) with (effs (qc_gates qc') (ket 0)). unfold cut. rewrite P2. unfold ket.
      destruct (N.eqb_spec x z) as [->|NE].
      + rewrite RZ. transitivity (psi z * (p * sr_conj p)); [fold (anorm p); rewrite P1; ring|ring].
      + rewrite (ON x Hx NE). destruct (reads m x); ring.
  Qed.
  Lemma force_inv M T psi q r f ap : inv M [] T psi -> (n <= tc_thr c)%N -> (q < n)%N ->
    match tn_force_m A ci c q r f ap T with
    | Ret (b, T') => exists phi, (if f then b = r else chosen (tc_rnd c) (chance n q true psi) b) /\ chance n q b psi <> 0 /\ (if ap then normalized n phi (collapse q b psi) else phi = psi) /\
        inv (if ap then q :: M else M) [] T' phi
    | Throws => f = true /\ chance n q r psi = 0
    | Undef => False
    end.
  Proof.
    intros I HT Hq. unfold tn_force_m. assert (EN := proj1 I). rewrite EN. destruct (N.leb_spec n q) as [|_]; [lia|].
    destruct (stack_ok A ci c EA PS UP n Hn M [] T psi [q] I (or_intror HT)) as (v & T1 & E1 & SV & EC & EM & EL & I1). rewrite E1. cbn [bind].
    assert (NV : norm2 n v = 1) by (rewrite (same_norm n v psi SV); apply I). pose proof (ls_force_ok A c EA PS UP n q r f ap v (tn_draw T1) Hq NV) as F.
    assert (CH : forall b, chance n q b v = chance n q b psi) by (intros b; now apply same_chance).
    destruct (ls_force A c q r f ap (mkLS n v) (tn_draw T1)) as [[[b L] d]| |]; cbn [forced_ok bind] in *; [|rewrite CH in F; exact F|exact F].
    destruct F as (F1 & F2 & LN & F3). rewrite CH in F1, F2. destruct L as [n' v1]. cbn [ls_n ls_v] in *. subst n'. rewrite EL.
    destruct I1 as (EN1 & N1 & qc & m & gs2 & k & OK & SM & KM & RM & G2 & Q2 & CI & ME & PSI & _).
    assert (CI' : tn_circ T1 = [qc] /\ gs2 = []).
    { destruct CI as [CI|(qc2 & _ & _ & _ & GN & _)]; [exact CI|]. exfalso. destruct gs2 as [|g t]; [now apply GN|]. exact (Q2 g (qg_t g) (or_introl eq_refl) (or_introl eq_refl)). }
    destruct CI' as [CI' ->]. cbn [effs fold_left] in PSI. change (fold_left (fun s g => eff g s) (qc_gates qc) zero_state) with (effs (qc_gates qc) (ket 0 : vec)) in PSI.
    destruct ap; cbn [negb].
    - assert (SC : forall w : bool, mfind q m = Some w -> w = b).
      { intros w Ew. destruct (Bool.bool_dec w b) as [|NE]; [assumption|]. exfalso. apply F2. rewrite chance_weight. apply weight_zero. intros x Hx Bx. rewrite PSI by exact Hx. unfold cut.
        destruct (reads m x) eqn:Rx; [|ring]. exfalso. apply eqb_prop in Bx. pose proof (proj1 (reads_find m x (srt_nodup _ SM)) Rx q w Ew). congruence. }
      set (T2 := set_draw d (set_ls (Some (mkLS n v1)) T1)). change (tn_circ T2) with (tn_circ T1). change (tn_meas T2) with (tn_meas T1). change (tn_n T2) with (tn_n T1). rewrite CI', ME, EN1. cbn [length Nat.sub move_back].
      assert (MS : set_nth 0 (mset q b (nth 0 (if Nat.leb (length (meas_of m)) 0 then meas_of m ++ [[]] else meas_of m) [])) (if Nat.leb (length (meas_of m)) 0 then meas_of m ++ [[]] else meas_of m) = [mset q b m]) by (destruct m; reflexivity).
      rewrite MS. set (m' := mset q b m). destruct (collapse_layers ci n 0 [qc] [m']) as [cs ms] eqn:ECL. exists v1. split; [exact F1|]. split; [exact F2|].
      destruct SV as (p & P1 & P2). destruct F3 as (NV1 & k1 & K1).
      assert (V1 : forall x, (x < 2 ^ n)%N -> v1 x = k1 * p * collapse q b psi x). { intros x Hx. rewrite K1 by exact Hx. unfold collapse. destruct (eqb (N.testbit x q) b); [rewrite P2 by exact Hx; ring|ring]. }
      split; [split; [exact NV1|]; exists (k1 * p); exact V1|].
      replace cs with (fst (collapse_layers ci n 0 [qc] [m'])) by (rewrite ECL; reflexivity). replace ms with (snd (collapse_layers ci n 0 [qc] [m'])) by (rewrite ECL; reflexivity).
      change (set_layers (fst (collapse_layers ci n 0 [qc] [m'])) (snd (collapse_layers ci n 0 [qc] [m'])) T2) with (set_layers (fst (collapse_layers ci n 0 [qc] [m'])) (snd (collapse_layers ci n 0 [qc] [m'])) (set_layers [qc] [m'] T2)).
      apply (collapse_inv q m' qc (set_layers [qc] [m'] T2) v1 (k1 * p * k)); try reflexivity.
      + exact EN1.
      + exact NV1.
      + exact OK.
      + unfold m'. now apply mset_srt.
      + intros e He. unfold m' in He. apply mset_vals in He. destruct He as [->|He]; [exact Hq|now apply RM].
      + unfold m'. apply mset_nil.
      + unfold m'. apply mset_keys. now left.
      + intros x Hx. rewrite V1 by exact Hx. unfold collapse, cut. unfold m'. rewrite reads_mset by assumption. destruct (eqb (N.testbit x q) b); cbn [andb]; [|ring]. rewrite PSI by exact Hx. unfold cut. unfold zero_state. destruct (reads m x); ring.
      + right. exists v1. split; [reflexivity|apply same_refl].
      + intros a. unfold m'. rewrite mset_keys, KM. cbn [In]. split; intros [H|H]; auto.
    - exists psi. split; [exact F1|]. split; [exact F2|]. split; [reflexivity|]. split; [exact EN1|]. split; [exact N1|]. exists qc, m, [], k. cbn [set_draw set_ls tn_circ tn_meas tn_ls]. split; [exact OK|]. split; [exact SM|]. split; [exact KM|]. split; [exact RM|]. split; [constructor|]. split; [intros g a []|]. split; [left; split; [exact CI'|reflexivity]|].
      split; [exact ME|]. split; [exact PSI|]. right. exists v1. split; [reflexivity|]. rewrite F3. exact SV.
  Qed.

  (** ** Once the layer stack is cached, reading and measuring use it *)
  Definition cached T psi : Prop := tn_n T = n /\ norm2 n psi = 1 /\ exists v, tn_ls T = Some (mkLS n v) /\ same n v psi.
  Lemma cached_stack T psi qs : cached T psi -> is_nil qs = true \/ (n <= tc_thr c)%N -> exists v, amplitudes A ci c qs T = Ret (mkLS n v, T) /\ tn_ls T = Some (mkLS n v) /\ same n v psi.
  Proof.
    intros (EN & N1 & v & LS & SV) HQ. exists v. unfold amplitudes. rewrite EN.
    assert (B : is_nil qs || (n <=? tc_thr c)%N = true) by (destruct HQ as [->|HQ]; [reflexivity|]; apply N.leb_le in HQ; rewrite HQ; apply orb_true_r). rewrite B. unfold make_stack. rewrite LS. auto.
  Qed.
  Lemma cached_reads T psi : cached T psi -> (n <= tc_thr c)%N -> reads_as A ci c T psi.
  Proof.
    intros I HT. unfold reads_as. rewrite (proj1 I). split.
    - destruct (cached_stack T psi [] I (or_introl eq_refl)) as (v & E & _ & ph & P1 & P2). exists ph. split; [exact P1|]. intros x Hx. exists T. unfold tn_amp. rewrite E. cbn [bind]. unfold ls_amp. cbn [ls_n ls_v].
      apply N.ltb_lt in Hx. rewrite Hx. apply N.ltb_lt in Hx. cbn [bind]. rewrite P2 by exact Hx. reflexivity.
    - intros q Hq. destruct (cached_stack T psi [q] I (or_intror HT)) as (v & E & _ & SV). exists T. unfold tn_prob. rewrite E. cbn [bind]. unfold ls_prob. cbn [ls_n ls_v]. apply N.ltb_lt in Hq. rewrite Hq. cbn [bind].
      rewrite prob_weight, (same_chance n q true v psi SV). reflexivity.
  Qed.
  Lemma cached_force T psi q r f ap : cached T psi -> (n <= tc_thr c)%N -> (q < n)%N ->
    match tn_force_m A ci c q r f ap T with
    | Ret (b, T') => exists phi, (if f then b = r else chosen (tc_rnd c) (chance n q true psi) b) /\ chance n q b psi <> 0 /\ (if ap then normalized n phi (collapse q b psi) else phi = psi) /\ cached T' phi
    | Throws => f = true /\ chance n q r psi = 0
    | Undef => False
    end.
  Proof.
    intros I HT Hq. unfold tn_force_m. assert (EN := proj1 I). rewrite EN. destruct (N.leb_spec n q) as [|_]; [lia|].
    destruct (cached_stack T psi [q] I (or_intror HT)) as (v & E1 & EL & SV). rewrite E1. cbn [bind].
    assert (NV : norm2 n v = 1) by (rewrite (same_norm n v psi SV); apply I). pose proof (ls_force_ok A c EA PS UP n q r f ap v (tn_draw T) Hq NV) as F.
    assert (CH : forall b, chance n q b v = chance n q b psi) by (intros b; now apply same_chance).
    destruct (ls_force A c q r f ap (mkLS n v) (tn_draw T)) as [[[b L] d]| |]; cbn [forced_ok bind] in *; [|rewrite CH in F; exact F|exact F].
    destruct F as (F1 & F2 & LN & F3). rewrite CH in F1, F2. destruct L as [n' v1]. cbn [ls_n ls_v] in *. subst n'. rewrite EL. destruct ap; cbn [negb].
    - set (T2 := set_draw d (set_ls (Some (mkLS n v1)) T)). destruct (move_back _ _ _ _ _ _) as [[l cs] ms]. destruct (collapse_layers _ _ _ _ _) as [cs' ms']. exists v1. split; [exact F1|]. split; [exact F2|].
      destruct SV as (p & P1 & P2). destruct F3 as (NV1 & k1 & K1). split.
      + split; [exact NV1|]. exists (k1 * p). intros x Hx. rewrite K1 by exact Hx. unfold collapse. destruct (eqb (N.testbit x q) b); [rewrite P2 by exact Hx; ring|ring].
      + split; [exact EN|]. split; [exact NV1|]. exists v1. split; [reflexivity|apply same_refl].
    - exists psi. split; [exact F1|]. split; [exact F2|]. split; [reflexivity|]. split; [exact EN|]. split; [apply I|]. exists v1. split; [reflexivity|]. rewrite F3. exact SV.
  Qed.

  (** ** Programs *)
  Definition final T psi : Prop := (exists M S, inv M S T psi) \/ cached T psi.
  Definition agrees2 (r : out (list bool * tn)) (o : out (list bool * vec)) : Prop :=
    match r, o with
    | Ret (bs, T), Ret (bs', psi) => bs = bs' /\ final T psi
    | Throws, Throws => True
    | _, _ => False
    end.
  Lemma final_reads T psi : final T psi -> (n <= tc_thr c)%N -> reads_as A ci c T psi.
  Proof. intros [(M & S & I)|I] HT; [exact (reads_ok A ci c EA PS UP n Hn M S T psi I HT)|now apply cached_reads]. Qed.
  Lemma agrees2_agrees r o : (n <= tc_thr c)%N -> agrees2 r o -> agrees A ci c r o.
  Proof. intros HT. unfold agrees2, agrees. destruct r as [[bs T]| |], o as [[bs' psi]| |]; auto. intros [H I]. split; [exact H|now apply final_reads]. Qed.
  Lemma no_gates_ok : (n <= tc_thr c)%N -> forall l T psi, cached T psi -> Forall (in_range_t n) l -> forallb (fun a => negb (is_gate a)) l = true ->
    exists o, runs_to n (tc_rnd c) l psi o /\ agrees2 (tsteps A ci c l T) o.
  Proof.
    intros HT. induction l as [|a t IH]; intros T psi I R G.
    - exists (Ret ([], psi)). split; [constructor|]. cbn [tsteps agrees2]. split; [reflexivity|now right].
    - apply Forall_cons_iff in R. destruct R as [R1 R2]. cbn [forallb] in G. apply andb_prop in G. destruct G as [G1 G2].
      destruct a as [m q|cs m q|cs m q|a b|q r f ap|q|x]; try discriminate G1; cbn [in_range_t] in R1; cbn [tsteps tstep].
      + pose proof (cached_force T psi q r f ap I HT R1) as F. destruct (tn_force_m A ci c q r f ap T) as [[b T']| |]; cbn [bind].
        * destruct F as (phi & F1 & F2 & F3 & I'). destruct (IH T' phi I' R2 G2) as (o & O1 & O2). exists (do (bs, v) <- o; Ret (b :: bs, v)). split; [eapply r_meas; eassumption|].
          destruct (tsteps A ci c t T') as [[bs T'']| |], o as [[bs' v]| |]; cbn [bind agrees2] in *; try contradiction; try exact I'; auto. destruct O2 as [-> O2]. split; [reflexivity|exact O2].
        * destruct F as [-> F]. exists Throws. split; [now apply r_stop|exact Logic.I].
        * destruct F.
      + destruct (cached_stack T psi [q] I (or_intror HT)) as (v & E1 & _ & _). unfold tn_prob. rewrite E1. cbn [bind]. unfold ls_prob. cbn [ls_n ls_v]. apply N.ltb_lt in R1. rewrite R1. cbn [bind].
        destruct (IH T psi I R2 G2) as (o & O1 & O2). exists o. split; [now apply r_read|]. destruct (tsteps A ci c t T) as [[bs T'']| |]; cbn [bind app]; exact O2.
      + destruct (cached_stack T psi [] I (or_introl eq_refl)) as (v & E1 & _ & _). unfold tn_amp. rewrite E1. cbn [bind]. unfold ls_amp. cbn [ls_n ls_v]. apply N.ltb_lt in R1. rewrite R1. cbn [bind].
        destruct (IH T psi I R2 G2) as (o & O1 & O2). exists o. split; [now apply r_read|]. destruct (tsteps A ci c t T) as [[bs T'']| |]; cbn [bind app]; exact O2.
  Qed.
  Lemma fold_touch M S gs : (tc_engine c = true -> length (nodup N.eq_dec M) <> 1%nat) -> Forall (okg n) gs -> (forall g, In g gs -> existsb (fun q => existsb (N.eqb q) M) (qset g) = true) -> (forall g q, In g gs -> In q (qset g) -> In q S) ->
    forall T psi, inv M S T psi -> inv M S (fold_left (fun T g => tn_append ci g T) gs T) (effects gs psi).
  Proof.
    intros HE G. induction G as [|g t Hg Ht IH]; intros B Q T psi I; [exact I|]. cbn [fold_left]. rewrite effects_cons. apply IH; [intros h Hh; apply B; now right|intros h q Hh; apply Q; now right|].
    pose proof (append_inv ci c n Hn M S T psi g I Hg HE (or_introl (B g (or_introl eq_refl)))) as X. rewrite (B g (or_introl eq_refl)) in X. eapply inv_mono; [exact X|]. intros q Hq. apply in_app_or in Hq. destruct Hq as [Hq|Hq]; [|exact Hq]. exact (Q g q (or_introl eq_refl) Hq).
  Qed.
  Lemma fold_apart M S gs : (tc_engine c = true -> length (nodup N.eq_dec M) <> 1%nat) -> Forall (okg n) gs -> (forall g, In g gs -> existsb (fun q => existsb (N.eqb q) M) (qset g) = false) -> (forall g q, In g gs -> In q (qset g) -> ~ In q S) ->
    forall T psi, inv M S T psi -> inv M S (fold_left (fun T g => tn_append ci g T) gs T) (effects gs psi).
  Proof.
    intros HE G. induction G as [|g t Hg Ht IH]; intros B Q T psi I; [exact I|]. cbn [fold_left]. rewrite effects_cons. apply IH; [intros h Hh; apply B; now right|intros h q Hh; apply Q; now right|].
    pose proof (append_inv ci c n Hn M S T psi g I Hg HE (or_intror (fun q => Q g q (or_introl eq_refl)))) as X. rewrite (B g (or_introl eq_refl)) in X. exact X.
  Qed.
  Lemma meets_ext l l' M : (forall q : N, In q l <-> In q l') -> existsb (fun q => existsb (N.eqb q) M) l = meets l' M.
  Proof. intros H. unfold meets. apply eq_true_iff_eq. rewrite !existsb_exists. split; intros (q & Hq & E); exists q; split; try exact E; now apply H. Qed.
  Lemma meets_false l M q : meets l M = false -> In q l -> ~ In q M.
  Proof. intros H Hq HM. assert (X : meets l M = true); [|congruence]. unfold meets. apply existsb_exists. exists q. split; [exact Hq|]. apply existsb_exists. exists q. split; [exact HM|apply N.eqb_refl]. Qed.
  Lemma gate_step M S T psi (a : tcall) : inv M S T psi -> in_range_t n a -> is_gate a = true -> (tc_engine c = true -> length (nodup N.eq_dec M) <> 1%nat) -> (meets (touches a) M = true \/ meets (touches a) S = false) ->
    exists T', tstep A ci c a T = Ret ([], T') /\ inv M (if meets (touches a) M then touches a ++ S else S) T' (ideal_t a psi).
  Proof.
    intros I R G HE HO. destruct (gates_ok n Hn a R G) as (OG & EG & QG). exists (fold_left (fun T g => tn_append ci g T) (call_gates a) T). split; [now apply step_gates|].
    apply (inv_ext _ _ _ (effects (call_gates a) psi)); [|intros x _; apply EG]. destruct (meets (touches a) M) eqn:EM.
    - apply fold_touch; auto.
      + intros g Hg. rewrite (meets_ext (qset g) (touches a) M (QG g Hg)). exact EM.
      + intros g q Hg Hq. apply in_or_app. left. now apply (QG g Hg).
      + eapply inv_mono; [exact I|]. intros q Hq. apply in_or_app. now right.
    - destruct HO as [HO|HO]; [discriminate HO|]. apply fold_apart; auto.
      + intros g Hg. rewrite (meets_ext (qset g) (touches a) M (QG g Hg)). exact EM.
      + intros g q Hg Hq. apply (meets_false (touches a) S q HO). now apply (QG g Hg).
  Qed.
  Lemma inv_cached M S T psi v : inv M S T psi -> tn_ls T = Some (mkLS n v) -> cached T psi.
  Proof.
    intros (EN & N1 & qc & m & gs2 & k & OK & SM & KM & RM & G2 & Q2 & CI & ME & PSI & LS) E. split; [exact EN|]. split; [exact N1|]. destruct LS as [[LS _]|LS]; [congruence|exact LS].
  Qed.
  Lemma program_ok : (n <= tc_thr c)%N -> forall l M S T psi, inv M S T psi -> Forall (in_range_t n) l -> ordered (tc_engine c) M S l ->
    exists o, runs_to n (tc_rnd c) l psi o /\ agrees2 (tsteps A ci c l T) o.
  Proof.
    intros HT. induction l as [|a t IH]; intros M S T psi I R O.
    - exists (Ret ([], psi)). split; [constructor|]. cbn [tsteps agrees2]. split; [reflexivity|]. left. exists M, S. exact I.
    - apply Forall_cons_iff in R. destruct R as [R1 R2].
      assert (GATE : is_gate a = true -> ((tc_engine c = true -> length (nodup N.eq_dec M) <> 1%nat) /\ (if meets (touches a) M then ordered (tc_engine c) M (touches a ++ S) t else meets (touches a) S = false /\ ordered (tc_engine c) M S t)) ->
        exists o, runs_to n (tc_rnd c) (a :: t) psi o /\ agrees2 (tsteps A ci c (a :: t) T) o).
      { intros G [HE HO]. destruct (gate_step M S T psi a I R1 G HE) as (T' & E & I'); [destruct (meets (touches a) M); [now left|right; apply HO]|].
        assert (O' : ordered (tc_engine c) M (if meets (touches a) M then touches a ++ S else S) t) by (destruct (meets (touches a) M); [exact HO|apply HO]).
        destruct (IH _ _ T' _ I' R2 O') as (o & O1 & O2). exists o. split; [now apply r_gate|]. cbn [tsteps]. rewrite E. cbn [bind]. destruct (tsteps A ci c t T') as [[bs T'']| |]; cbn [bind app]; exact O2. }
      destruct a as [m q|cs m q|cs m q|a b|q r f ap|q|x]; try (apply GATE; [reflexivity|exact O]); clear GATE; cbn [in_range_t ordered] in *.
      + destruct ap.
        * destruct S as [|s0 S'].
          -- pose proof (force_inv M T psi q r f true I HT R1) as F. cbn [tsteps tstep]. destruct (tn_force_m A ci c q r f true T) as [[b T']| |]; cbn [bind].
             ++ destruct F as (phi & F1 & F2 & F3 & I'). destruct (IH _ _ T' phi I' R2 O) as (o & O1 & O2). exists (do (bs, v) <- o; Ret (b :: bs, v)). split; [eapply r_meas; eassumption|].
                destruct (tsteps A ci c t T') as [[bs T'']| |], o as [[bs' v]| |]; cbn [bind agrees2] in *; try contradiction; auto. destruct O2 as [-> O2]. split; [reflexivity|exact O2].
             ++ destruct F as [-> F]. exists Throws. split; [now apply r_stop|exact Logic.I].
             ++ destruct F.
          -- set (S := s0 :: S') in *. destruct (stack_ok A ci c EA PS UP n Hn M S T psi [q] I (or_intror HT)) as (v & T1 & E1 & SV & EC & EM & EL & I1).
             assert (FE : tn_force_m A ci c q r f true T = tn_force_m A ci c q r f true T1).
             { unfold tn_force_m. rewrite (proj1 I), (proj1 I1). destruct (n <=? q)%N; [reflexivity|]. rewrite E1.
               destruct (cached_stack T1 psi [q] (inv_cached _ _ _ _ _ I1 EL) (or_intror HT)) as (v' & E1' & EL' & _). rewrite E1'. assert (v' = v) by congruence. subst v'. reflexivity. }
             assert (G0 : forallb (fun a => negb (is_gate a)) (TMeas q r f true :: t) = true) by exact O.
             destruct (no_gates_ok HT (TMeas q r f true :: t) T1 psi (inv_cached _ _ _ _ _ I1 EL) (Forall_cons (P := in_range_t n) (TMeas q r f true) R1 R2) G0) as (o & O1 & O2). exists o. split; [exact O1|]. cbn [tsteps tstep] in *. rewrite FE. exact O2.
        * destruct (stack_ok A ci c EA PS UP n Hn M S T psi [q] I (or_intror HT)) as (v & T1 & E1 & SV & EC & EM & EL & I1). cbn [tsteps tstep]. unfold tn_force_m. rewrite (proj1 I). destruct (N.leb_spec n q) as [|_]; [lia|]. rewrite E1. cbn [bind].
          assert (NV : norm2 n v = 1) by (rewrite (same_norm n v psi SV); apply I). pose proof (ls_force_ok A c EA PS UP n q r f false v (tn_draw T1) R1 NV) as F. assert (CH : forall b, chance n q b v = chance n q b psi) by (intros b; now apply same_chance).
          destruct (ls_force A c q r f false (mkLS n v) (tn_draw T1)) as [[[b L] d]| |]; cbn [forced_ok bind] in *.
          -- destruct F as (F1 & F2 & LN & F3). rewrite CH in F1, F2. destruct L as [n' v1]. cbn [ls_n ls_v] in *. subst n' v1. rewrite EL. cbn [negb].
             assert (I2 : inv M S (set_draw d (set_ls (Some (mkLS n v)) T1)) psi).
             { destruct I1 as (EN1 & N1 & qc & m & gs2 & k & OK & SM & KM & RM & G2 & Q2 & CI & ME & PSI & _). split; [exact EN1|]. split; [exact N1|]. exists qc, m, gs2, k. cbn [set_draw set_ls tn_circ tn_meas tn_ls]. repeat (split; [assumption|]). right. exists v. split; [reflexivity|exact SV]. }
             cbn [bind]. destruct (IH _ _ _ psi I2 R2 O) as (o & O1 & O2). exists (do (bs, v) <- o; Ret (b :: bs, v)). split; [eapply (r_meas n (tc_rnd c) q r f false t psi b psi o); [exact F1|exact F2|reflexivity|exact O1]|].
             destruct (tsteps A ci c t (set_draw d (set_ls (Some (mkLS n v)) T1))) as [[bs T'']| |], o as [[bs' v']| |]; cbn [bind agrees2] in *; try contradiction; auto. destruct O2 as [-> O2]. split; [reflexivity|exact O2].
          -- rewrite CH in F. destruct F as [-> F]. exists Throws. split; [now apply r_stop|exact Logic.I].
          -- destruct F.
      + destruct (prob_ok A ci c EA PS UP n Hn M S T psi q I HT R1) as (T' & E & I'). cbn [tsteps tstep]. rewrite E. cbn [bind]. destruct (IH _ _ T' psi I' R2 O) as (o & O1 & O2). exists o. split; [now apply r_read|]. destruct (tsteps A ci c t T') as [[bs T'']| |]; cbn [bind app]; exact O2.
      + destruct (amp_ok A ci c EA PS UP n Hn M S T psi I) as (ph & P1 & P2). destruct (P2 x R1) as (T' & E & I'). cbn [tsteps tstep]. rewrite E. cbn [bind]. destruct (IH _ _ T' psi I' R2 O) as (o & O1 & O2). exists o. split; [now apply r_read|]. destruct (tsteps A ci c t T') as [[bs T'']| |]; cbn [bind app]; exact O2.
  Qed.

  (** ** SetPermutation *)
  Lemma start_inv T : tn_n T = n -> inv [] [] (set_ls None (set_layers [qc_new true false] [] T)) (ket 0).
  Proof.
    intros EN. split; [exact EN|]. split; [exact (ket_norm n Hn)|]. exists (qc_new true false), [], [], 1. cbn [set_ls set_layers tn_circ tn_meas tn_ls]. split; [split; [constructor|cbn; lia]|]. split; [constructor|]. split; [reflexivity|]. split; [intros e []|]. split; [constructor|]. split; [intros g q []|].
    split; [left; split; reflexivity|]. split; [reflexivity|]. split; [intros x _; cbn; unfold cut, zero_state; cbn; ring|]. left. split; [reflexivity|]. intros _. discriminate.
  Qed.
  Lemma flips_inv perm l : (forall q, In q l -> (q < n)%N) -> forall T z, inv [] [] T (ket z) ->
    inv [] [] (fold_left (fun T q => if N.testbit perm q then tn_x ci q T else T) l T) (ket (zfold (map (fun q => (q, N.testbit perm q)) l) z)).
  Proof.
    unfold zfold. induction l as [|q t IH]; intros H T z I; [exact I|]. cbn [fold_left map fst snd]. apply IH; [intros a Ha; apply H; now right|]. destruct (N.testbit perm q); [|exact I].
    assert (Hq : (q < n)%N) by (apply H; now left). assert (OG : okg n (gate_1 q (mat_X (K := K)))) by (apply one_gate_ok; [exact Hq|apply x_unitary]).
    pose proof (append_inv ci c n Hn [] [] T (ket z) (gate_1 q mat_X) I OG (fun _ => ltac:(discriminate)) (or_intror (fun a _ => @in_nil N a))) as X. unfold tn_x, tn_mtrx. eapply inv_ext; [exact X|].
    intros x _. rewrite eff_effect by apply OG. apply x_ket.
  Qed.
  Lemma set_perm_inv perm phf T : tn_n T = n -> inv [] [] (tn_set_permutation ci c perm phf T) (ket (perm mod 2 ^ n)).
  Proof.
    intros EN. unfold tn_set_permutation. pose proof (flips_inv perm (iota 0 (N.to_nat n)) (fun q Hq => ltac:(apply iota_mem in Hq; lia)) _ 0%N (start_inv T EN)) as X.
    assert (EZ : zfold (map (fun q => (q, N.testbit perm q)) (iota 0 (N.to_nat n))) 0 = (perm mod 2 ^ n)%N).
    { set (m := map (fun q => (q, N.testbit perm q)) (iota 0 (N.to_nat n))). assert (MK : map fst m = iota 0 (N.to_nat n)) by (unfold m; rewrite map_map; cbn [fst]; apply map_id).
      apply N.bits_inj. intros q. rewrite zfold_bit by (rewrite MK; apply srt_nodup, srt_iota). rewrite N.bits_0. destruct (N.lt_ge_cases q n) as [H|H].
      - rewrite N.mod_pow2_bits_low by exact H. assert (F : mfind q m = Some (N.testbit perm q)).
        { assert (Hq : In q (iota 0 (N.to_nat n))) by (apply iota_mem; lia). unfold m. clear - Hq. induction (iota 0 (N.to_nat n)) as [|a t IH]; [destruct Hq|]. cbn [map mfind]. destruct (N.eqb_spec q a) as [->|]; [reflexivity|]. apply IH. destruct Hq; [congruence|assumption]. }
        rewrite F. destruct (N.testbit perm q); reflexivity.
      - rewrite N.mod_pow2_bits_high by exact H. assert (F : mfind q m = None) by (apply mfind_none; rewrite MK; intros Y; apply iota_mem in Y; lia). rewrite F. reflexivity. }
    rewrite EZ in X. change (tn_n (set_ls None (set_layers [qc_new true false] [] T))) with (tn_n T). rewrite EN in *.
    set (T' := fold_left _ _ _) in *. destruct phf as [p|]; [exact X|]. destruct (ls_phase c (tn_draw T')) as [p d]. exact X.
  Qed.
  Lemma new_inv perm phf : (perm < 2 ^ n)%N -> inv [] [] (new_tn ci c n perm phf) (ket perm).
  Proof. intros H. unfold new_tn. rewrite <- (N.mod_small perm (2 ^ n)) at 2 by exact H. apply set_perm_inv. reflexivity. Qed.
End T.
