(** QTensorNetwork: measuring behind gates on measured qubits, and repeated measurement above the threshold. *)
From Coq Require Import NArith List Bool Lia Ring Sorted.
From Verif Require PParFor.
From Verif Require Import Bits MFunctions MParFor MKernel Amp PAmp MEngine MAlu SpecFunctions SpecState SpecUnit3 PLoop PGates2 PEngine2 MQCircuit SpecQCircuit PQCirc1 PQCirc2 PQCirc3 PQCirc4 PQCirc5 PQCirc6 PQCirc8 MBdt SpecBdt PBdt1 MTensor SpecTensor PTensor1 PTensor2 PTensor3 PTensor4.
Import ListNotations.
Local Open Scope N_scope.

Section T.
  Context {K : StarRing} (A : Arith K) (ci : K) (c : @tcfg K).
  Hypothesis EA : exact_arith A.
  Hypothesis PS : positive_sums (K := K).
  Hypothesis UP : tc_rgp c = true -> forall d, anorm (tc_ph c d) = 1%amp.
  Variable n : N.
  Hypothesis Hn : (n <= 126)%N.
  Hypothesis NT : (1 <> 0 :> K)%amp.
  Add Ring KrDS : (sr_ring K).
  Local Notation vec := (N -> K).
  Local Notation qgate := (@qgate K).
  Local Notation qcirc := (@qcirc K).
  Local Notation tn := (@tn K).
  Local Notation inv := (inv c n).
  Implicit Types (psi phi v w : N -> K) (q : N) (g : qgate) (T : tn).
  Local Open Scope amp_scope.

  Definition after_force (q : N) (b : bool) (cs : list qcirc) (ms : list (list (N * bool))) : list qcirc * list (list (N * bool)) :=
    let '(l, cs, ms) := move_back ci q b (length cs - 1) cs ms in
    let ms := if Nat.leb (length ms) l then ms ++ [[]] else ms in
    let ms := set_nth l (mset q b (nth l ms [])) ms in
    collapse_layers ci n l cs ms.
  Lemma force_shape M S T psi q r f : inv M S T psi -> (n <= tc_thr c)%N -> (q < n)%N ->
    match tn_force_m A ci c q r f true T with
    | Ret (b, T') => exists v1 T1, (if f then b = r else chosen (tc_rnd c) (chance n q true psi) b) /\ chance n q b psi <> 0 /\ normalized n v1 (collapse q b psi) /\
        tn_n T1 = n /\ tn_ls T1 = Some (mkLS n v1) /\ T' = set_layers (fst (after_force q b (tn_circ T) (tn_meas T))) (snd (after_force q b (tn_circ T) (tn_meas T))) T1
    | Throws => f = true /\ chance n q r psi = 0
    | Undef => False
    end.
  Proof.
    intros I HT Hq. unfold tn_force_m. assert (EN := proj1 I). rewrite EN. destruct (N.leb_spec n q) as [|_]; [lia|].
    destruct (stack_ok A ci c EA PS UP n Hn M S T psi [q] I (or_intror HT)) as (v & T1 & E1 & SV & EC & EM & EL & I1). rewrite E1. cbn [bind].
    assert (NV : norm2 n v = 1) by (rewrite (same_norm n v psi SV); apply I). pose proof (ls_force_ok A c EA PS UP n q r f true v (tn_draw T1) Hq NV) as F.
    assert (CH : forall b, chance n q b v = chance n q b psi) by (intros b; now apply same_chance).
    destruct (ls_force A c q r f true (mkLS n v) (tn_draw T1)) as [[[b L] d]| |]; cbn [forced_ok bind] in *; [|rewrite CH in F; exact F|exact F].
    destruct F as (F1 & F2 & LN & F3). rewrite CH in F1, F2. destruct L as [n' v1]. cbn [ls_n ls_v] in *. subst n'. rewrite EL. cbn [negb].
    set (T2 := set_draw d (set_ls (Some (mkLS n v1)) T1)). change (tn_circ T2) with (tn_circ T1). change (tn_meas T2) with (tn_meas T1). change (tn_n T2) with (tn_n T1).
    rewrite EC, EM, (proj1 I1). unfold after_force. destruct (move_back ci q b (length (tn_circ T) - 1) (tn_circ T) (tn_meas T)) as [[l cs] ms] eqn:MB. destruct (collapse_layers _ _ _ _ _) as [cs' ms'] eqn:ECL. exists v1, T2. split; [exact F1|]. split; [exact F2|].
    split. { destruct SV as (p & P1 & P2). destruct F3 as (NV1 & k1 & K1). split; [exact NV1|]. exists (k1 * p). intros x Hx. rewrite K1 by exact Hx. unfold collapse. destruct (eqb (N.testbit x q) b); [rewrite P2 by exact Hx; ring|ring]. }
    split; [exact (proj1 I1)|]. split; [reflexivity|]. rewrite MB, ECL. reflexivity.
  Qed.

  (** One gate in a new circuit. *)
  Lemma z0_1 : z0 (1 : K) = false.
  Proof. unfold z0. destruct (sr_eqb 1 0) eqn:E; [|reflexivity]. apply sr_eqb_ok in E. contradiction. Qed.
  Lemma first_x q : qc_gates (AppendGate ci (qc_new true false) (gate_1 q mat_X)) = [gate_1 q (mat_X (K := K))].
  Proof.
    unfold AppendGate, qc_new. cbn [qc_collapsed qc_clifford qc_count qc_gates negb length append rev fst snd].
    assert (E : IsIdentityG (gate_1 q (mat_X (K := K))) = false).
    { unfold IsIdentityG, gate_1, mat_X. cbn [qg_pl qg_ctl length]. assert (P : (N.of_nat 1 =? pow2_128 (N.of_nat 0))%N = true) by reflexivity. rewrite P. cbn [m00 m11 forallb snd]. unfold mat_is. cbn [m00 m01 m10 m11]. rewrite z0_1. cbn [negb orb andb]. apply andb_false_r. }
    rewrite E. cbn [scan fst snd]. reflexivity.
  Qed.
  Lemma first_cx q t : qc_gates (AppendGate ci (qc_new true false) (gate_c t mat_X [q] 1%N)) = [gate_c t (mat_X (K := K)) [q] 1%N].
  Proof.
    unfold AppendGate, qc_new. cbn [qc_collapsed qc_clifford qc_count qc_gates negb length append rev fst snd].
    assert (E : IsIdentityG (gate_c t (mat_X (K := K)) [q] 1%N) = false).
    { unfold IsIdentityG, gate_c, mat_X. cbn [qg_pl qg_ctl length]. assert (P : (N.of_nat 1 =? pow2_128 (N.of_nat 1))%N = false) by reflexivity. rewrite P. cbn [m00 m11 forallb snd]. unfold mat_is. cbn [m00 m01 m10 m11]. rewrite z0_1. reflexivity. }
    rewrite E. cbn [scan fst snd]. reflexivity.
  Qed.

  Lemma x_eff q v x : eff (gate_1 q mat_X) v x = v (fx q x).
  Proof. rewrite eff_fx. unfold dg, og, gm, payload_at, gate_1. cbn [qg_t qg_ctl qg_pl ctrl_value mfind N.eqb]. unfold dia, off, mat_X. cbn [m00 m01 m10 m11]. destruct (N.testbit x q); ring. Qed.
  Lemma one_key (m : list (N * bool)) q : srt (map fst m) -> (forall a, In a (map fst m) <-> In a [q]) -> exists b, m = [(q, b)].
  Proof.
    intros SM KM. destruct m as [|[a b] t]; [destruct (proj2 (KM q) (or_introl eq_refl))|]. destruct (proj1 (KM a) (or_introl eq_refl)) as [<-|[]]. exists b. f_equal. destruct t as [|[a' b'] t']; [reflexivity|]. exfalso.
    destruct (proj1 (KM a') (or_intror (or_introl eq_refl))) as [E|[]]. cbn [map fst] in SM. inversion SM as [|? ? _ F]; subst. inversion F; subst. lia.
  Qed.
  Lemma x_nonphase q : IsPhase (gate_1 q (mat_X (K := K))) = false.
  Proof. unfold IsPhase, gate_1, mat_phase. cbn [qg_pl forallb snd mat_X m01 m10]. rewrite z0_1. reflexivity. Qed.

  (** X on a measured qubit, then measuring it again. *)
  Lemma flip_inv T phi q r f : tc_engine c = false -> inv [q] [] T phi -> (n <= tc_thr c)%N -> (q < n)%N ->
    match tn_force_m A ci c q r f true (tn_x ci q T) with
    | Ret (b, T') => exists v1, (if f then b = r else chosen (tc_rnd c) (chance n q true (gate1 always q mat_X phi)) b) /\ chance n q b (gate1 always q mat_X phi) <> 0 /\ normalized n v1 (collapse q b (gate1 always q mat_X phi)) /\ inv [q] [] T' v1
    | Throws => f = true /\ chance n q r (gate1 always q mat_X phi) = 0
    | Undef => False
    end.
  Proof.
    intros EG I HT Hq. assert (OG : okg n (gate_1 q (mat_X (K := K)))) by (apply one_gate_ok; [exact Hq|apply x_unitary]).
    assert (I2 : inv [q] [q] (tn_x ci q T) (gate1 always q mat_X phi)).
    { pose proof (append_inv ci c n Hn [q] [] T phi (gate_1 q mat_X) I OG (fun X => ltac:(congruence))) as X. cbn [qset gate_1 qg_t qg_ctl existsb] in X. rewrite N.eqb_refl in X. cbn [orb app] in X. exact (X (or_introl eq_refl)). }
    pose proof (force_shape [q] [q] _ _ q r f I2 HT Hq) as F. destruct (tn_force_m A ci c q r f true (tn_x ci q T)) as [[b' T']| |]; [|exact F|exact F].
    destruct F as (v1 & T1 & F1 & F2 & F3 & EN1 & EL & ->). exists v1. split; [exact F1|]. split; [exact F2|]. split; [exact F3|].
    destruct I as (EN & N1 & qc & m & gs2 & k & OK & SM & KM & RM & G2 & Q2 & CI & ME & PSI & _). destruct (one_key m q SM KM) as (b & ->).
    assert (CI' : tn_circ T = [qc] /\ gs2 = []).
    { destruct CI as [CI|(qc2 & _ & _ & _ & GN & _)]; [exact CI|]. exfalso. destruct gs2 as [|g t]; [now apply GN|]. exact (Q2 g (qg_t g) (or_introl eq_refl) (or_introl eq_refl)). }
    destruct CI' as [CI' ->]. cbn [effs fold_left] in PSI. change (fold_left (fun s g => eff g s) (qc_gates qc) zero_state) with (effs (qc_gates qc) (ket 0 : vec)) in PSI. cbn [meas_of] in ME.
    assert (XP : forall x, gate1 always q mat_X phi x = phi (fx q x)). { intros x. change (gate1 always q mat_X phi x) with (effect (gate_1 q mat_X) phi x). rewrite eff_effect by apply OG. apply x_eff. }
    assert (EB : b' = negb b).
    { destruct (Bool.bool_dec b' (negb b)) as [|NE]; [assumption|]. exfalso. apply F2. rewrite chance_weight. apply weight_zero. intros x Hx Bx. rewrite XP, PSI by now apply fx_lt. unfold cut, reads. cbn [forallb fst snd]. rewrite tb_fx_eq.
      apply eqb_prop in Bx. rewrite Bx. assert (eqb (negb b') b = false) as -> by (destruct b, b'; try reflexivity; now elim NE). cbn [andb]. ring. }
    subst b'. assert (CT : tn_circ (tn_x ci q T) = [qc; AppendGate ci (qc_new true false) (gate_1 q mat_X)] /\ tn_meas (tn_x ci q T) = [[(q, b)]]).
    { unfold tn_x, tn_mtrx, tn_append. rewrite ME, CI'. cbn [gate_1 qg_t qg_ctl layer_of measured existsb fst]. rewrite N.eqb_refl. cbn [orb]. split; reflexivity. }
    destruct CT as [-> ->]. pose proof (first_x q) as FX. set (qc2 := AppendGate ci (qc_new true false) (gate_1 q mat_X)) in *.
    assert (AF : after_force q (negb b) [qc; qc2] [[(q, b)]] = collapse_layers ci n 0 [AppendGate ci qc (gate_1 q mat_X)] [[(q, negb b)]]).
    { unfold after_force. cbn [length Nat.sub]. unfold move_back. cbn [nth]. assert (NP : IsNonPhaseTarget qc2 q = true) by (unfold IsNonPhaseTarget; rewrite FX; cbn [existsb gate_1 qg_t]; rewrite N.eqb_refl, x_nonphase; reflexivity).
      rewrite NP. cbn [length Nat.leb app nth mset set_nth firstn skipn]. cbn [collapse_layers nth].
      assert (EX : existsb (fun q0 => negb (measured [(q, negb b)] q0) && IsNonPhaseTarget qc2 q0) (iota 0 (N.to_nat n)) = false).
      { apply not_true_is_false. intros X. apply existsb_exists in X. destruct X as (a & _ & X). unfold IsNonPhaseTarget in X. rewrite FX in X. cbn [measured existsb fst gate_1 qg_t] in X. destruct (q =? a)%N; discriminate X. }
      rewrite EX. cbn [del_nth firstn skipn app nth fold_left mfind fst snd set_nth]. rewrite N.eqb_refl.
      assert (MI : mins q b [(q, negb b)] = [(q, negb b)]) by (unfold mins; cbn [mfind]; rewrite N.eqb_refl; reflexivity). rewrite !MI. assert (eqb (negb b) b = false) as -> by (destruct b; reflexivity). reflexivity. }
    rewrite AF. destruct (AppendGate_ok n ci qc (gate_1 q mat_X) Hn OK OG) as (A1 & _ & (p & P1 & P2) & _). destruct F3 as (NV1 & k1 & K1).
    change (set_layers ?aa ?bb T1) with (set_layers aa bb (set_layers [AppendGate ci qc (gate_1 q mat_X)] [[(q, negb b)]] T1)).
    apply (collapse_inv ci c n Hn q [(q, negb b)] (AppendGate ci qc (gate_1 q mat_X)) (set_layers [AppendGate ci qc (gate_1 q mat_X)] [[(q, negb b)]] T1) v1 (k1 * k * p)); try reflexivity.
    - exact EN1.
    - exact NV1.
    - exact A1.
    - repeat constructor.
    - intros e [<-|[]]. exact Hq.
    - discriminate.
    - now left.
    - intros x Hx. rewrite K1 by exact Hx. unfold collapse, cut, reads. cbn [forallb fst snd]. rewrite andb_true_r. destruct (eqb (N.testbit x q) (negb b)) eqn:Bx; [|ring]. rewrite XP, PSI by now apply fx_lt. unfold cut, reads. cbn [forallb fst snd]. rewrite tb_fx_eq.
      apply eqb_prop in Bx. rewrite Bx, negb_involutive, eqb_reflx. cbn [andb]. specialize (P2 (ket 0) x). rewrite effs_app in P2. cbn [effs fold_left] in P2. rewrite x_eff in P2. unfold zero_state, effs in *. rewrite P2. ring.
    - right. exists v1. split; [exact EL|apply same_refl].
  Qed.

  (** CNOT from an unmeasured to a measured qubit, then the result 1 at the control. *)
  Lemma cx_gate q t : gate_c t (mat_X (K := K)) (set_of [q]) (sub128 (pow2_128 (N.of_nat (length [q]))) 1) = gate_c t mat_X [q] 1%N.
  Proof. reflexivity. Qed.
  Lemma cx_post q t : q <> t -> qc_gates (DeletePhaseTarget (AppendGate ci (qc_new true false) (gate_c t mat_X [q] 1%N)) q true) = [gate_1 t (mat_X (K := K))].
  Proof.
    intros NE. unfold DeletePhaseTarget. cbn [qc_gates]. rewrite first_cx. cbn [filter gate_c qg_t]. destruct (N.eqb_spec t q) as [|_]; [congruence|]. cbn [negb map]. unfold PostSelectControl, gate_c. cbn [qg_ctl]. assert (SM : smem q [q] = true) by (unfold smem; cbn; rewrite N.eqb_refl; reflexivity). rewrite SM. cbn [negb].
    assert (SP : spos q [q] = 0%N) by (cbn [spos]; rewrite N.eqb_refl; reflexivity). rewrite SP. assert (SD : sdel q [q] = []) by (unfold sdel; cbn [filter]; rewrite N.eqb_refl; reflexivity). rewrite SD. reflexivity.
  Qed.
  Lemma cnot_inv T phi q t f : tc_engine c = false -> inv [t] [] T phi -> (n <= tc_thr c)%N -> (q < n)%N -> (t < n)%N -> q <> t ->
    match tn_force_m A ci c q true f true (tn_cnot ci q t T) with
    | Ret (true, T') => exists v1, (if f then True else chosen (tc_rnd c) (chance n q true (gate1 (all_set [q]) t mat_X phi)) true) /\ chance n q true (gate1 (all_set [q]) t mat_X phi) <> 0 /\ normalized n v1 (collapse q true (gate1 (all_set [q]) t mat_X phi)) /\ inv [q; t] [t] T' v1
    | Ret (false, T') => f = false
    | Throws => f = true /\ chance n q true (gate1 (all_set [q]) t mat_X phi) = 0
    | Undef => False
    end.
  Proof.
    intros EG I HT Hq Ht NE.
    destruct (gate_step A ci c n Hn [t] [] T phi (TMC [q] mat_X t) I) as (T2 & E2 & I2).
    { cbn [in_range_t]. split; [repeat constructor; cbn; intuition congruence|]. split; [intros a [<-|[<-|[]]]; assumption|apply x_unitary]. }
    { reflexivity. } { congruence. } { left. unfold meets. cbn [touches existsb]. rewrite N.eqb_refl. reflexivity. }
    cbn [tstep] in E2. injection E2 as E2. change (tn_cnot ci q t T) with (tn_mcmtrx ci [q] mat_X t T). rewrite E2. cbn [ideal_t] in I2.
    match type of I2 with PTensor2.inv _ _ _ ?s _ _ => pose proof (force_shape [t] s _ _ q true f I2 HT Hq) as F end. destruct (tn_force_m A ci c q true f true T2) as [[b' T']| |]; [|exact F|exact F].
    destruct F as (v1 & T1 & F1 & F2 & F3 & EN1 & EL & ->). destruct b'; [|destruct f; [discriminate F1|reflexivity]]. exists v1. split; [destruct f; [exact Logic.I|exact F1]|]. split; [exact F2|]. split; [exact F3|].
    destruct I as (EN & N1 & qc & m & gs2 & k & OK & SM & KM & RM & G2 & Q2 & CI & ME & PSI & _). destruct (one_key m t SM KM) as (b & ->).
    assert (CI' : tn_circ T = [qc] /\ gs2 = []).
    { destruct CI as [CI|(qc2 & _ & _ & _ & GN & _)]; [exact CI|]. exfalso. destruct gs2 as [|g l]; [now apply GN|]. exact (Q2 g (qg_t g) (or_introl eq_refl) (or_introl eq_refl)). }
    destruct CI' as [CI' ->]. cbn [effs fold_left] in PSI. change (fold_left (fun s g => eff g s) (qc_gates qc) zero_state) with (effs (qc_gates qc) (ket 0 : vec)) in PSI. cbn [meas_of] in ME.
    assert (CT : tn_circ T2 = [qc; AppendGate ci (qc_new true false) (gate_c t mat_X [q] 1%N)] /\ tn_meas T2 = [[(t, b)]]).
    { rewrite <- E2. unfold tn_mcmtrx, tn_append. rewrite cx_gate, ME, CI'. cbn [gate_c qg_t qg_ctl layer_of measured existsb fst]. rewrite N.eqb_refl. cbn [orb]. split; reflexivity. }
    destruct CT as [-> ->]. pose proof (cx_post q t NE) as FX. pose proof (first_cx q t) as FC. set (qc2 := AppendGate ci (qc_new true false) (gate_c t mat_X [q] 1%N)) in *. set (qc3 := DeletePhaseTarget qc2 q true) in *.
    set (m' := mset q true [(t, b)]).
    assert (AF : after_force q true [qc; qc2] [[(t, b)]] = collapse_layers ci n 0 [qc; qc3] [m']).
    { unfold after_force. cbn [length Nat.sub]. unfold move_back. cbn [nth]. assert (NP : IsNonPhaseTarget qc2 q = false) by (unfold IsNonPhaseTarget; rewrite FC; cbn [existsb gate_c qg_t]; destruct (N.eqb_spec t q); [congruence|reflexivity]).
      rewrite NP. fold qc3. cbn [length Nat.leb set_nth firstn skipn app nth]. fold m'. reflexivity. }
    rewrite AF. assert (SM' : srt (map fst m')) by (unfold m'; apply mset_srt; repeat constructor).
    assert (RM' : forall e, In e m' -> (fst e < n)%N) by (intros e He; unfold m' in He; apply mset_vals in He; destruct He as [->|[<-|[]]]; assumption).
    assert (KM' : forall a, In a (map fst m') <-> In a [q; t]) by (intros a; unfold m'; rewrite mset_keys; cbn [map fst In]; intuition congruence).
    assert (RD : forall x, reads m' x = eqb (N.testbit x q) true && eqb (N.testbit x t) b).
    { intros x. unfold m'. rewrite reads_mset; [unfold reads; cbn [forallb fst snd]; rewrite andb_true_r; reflexivity|repeat constructor|]. cbn [mfind]. destruct (N.eqb_spec q t); [congruence|discriminate]. }
    assert (XP : forall x, N.testbit x q = true -> gate1 (all_set [q]) t mat_X phi x = phi (fx t x)).
    { intros x Bx. unfold gate1. cbn [all_set forallb]. unfold all_set. cbn [forallb]. rewrite Bx. cbn [andb]. pose proof (x_eff t phi x) as X. rewrite <- eff_effect in X by (intros Z; discriminate Z). unfold effect, gate_1 in X. cbn [qg_ctl qg_pl qg_t mfind N.eqb] in X. unfold gate1, always in X. exact X. }
    assert (OG : okg n (gate_1 t (mat_X (K := K)))) by (apply one_gate_ok; [exact Ht|apply x_unitary]). destruct F3 as (NV1 & k1 & K1).
    set (w := fun x => v1 (fx t x)).
    assert (W : forall x, (x < 2 ^ n)%N -> w x = k1 * k * cut (reads m') (effs (qc_gates qc) (ket 0)) x).
    { intros x Hx. unfold w. rewrite K1 by now apply fx_lt. unfold collapse, cut. rewrite tb_fx_neq by congruence. rewrite RD. destruct (eqb (N.testbit x q) true) eqn:Bx; cbn [andb]; [|ring]. apply eqb_prop in Bx. rewrite XP by (rewrite tb_fx_neq by congruence; exact Bx). rewrite fx_fx, PSI by exact Hx.
      unfold cut, reads, zero_state. cbn [forallb fst snd]. rewrite andb_true_r. destruct (eqb (N.testbit x t) b); ring. }
    assert (NW : norm2 n w = 1).
    { change (norm2 n v1 = 1) in NV1. rewrite <- NV1. rewrite <- (effs_norm n [gate_1 t mat_X] v1 (Forall_cons _ OG (Forall_nil _))). unfold norm2. apply asum_ext. intros x _. f_equal. unfold w. symmetry. apply x_eff. }
    assert (MN : m' <> []) by (unfold m'; apply mset_nil).
    assert (NOE : tc_engine c = true -> length m' <> 1%nat) by congruence.
    pose proof (collapse_inv ci c n Hn q m' qc (set_ls None (set_layers [qc] [m'] T1)) w (k1 * k) EN1 NW OK SM' RM' MN (proj2 (KM' q) (or_introl eq_refl)) eq_refl eq_refl W (or_introl (conj eq_refl NOE)) [q; t] KM') as J.
    assert (CL : exists qa, collapse_layers ci n 0 [qc] [m'] = ([qa], [m']) /\ collapse_layers ci n 0 [qc; qc3] [m'] = ([qa; qc3], [m'])).
    { unfold collapse_layers. cbn [nth]. destruct (existsb _ _); [exists qc; split; reflexivity|]. exists (x_circuit ci (qc_new true false) m'). split; reflexivity. }
    destruct CL as (qa & C1 & C2). rewrite C1 in J. rewrite C2. cbn [fst snd] in *. destruct J as (_ & _ & qb & mb & gb & kb & OKb & SMb & KMb & RMb & G2b & Q2b & CIb & MEb & PSIb & _). cbn [set_layers tn_circ tn_meas] in *.
    assert (mb = m'). { destruct mb; [discriminate MEb|]. cbn [meas_of] in MEb. congruence. } subst mb.
    assert (CI2 : qa = qb /\ gb = []). { destruct CIb as [[C ->]|(qx & C & _)]; [|discriminate C]. split; [congruence|reflexivity]. } destruct CI2 as [-> ->].
    split; [exact EN1|]. split; [exact NV1|]. exists qb, m', [gate_1 t mat_X], kb. cbn [set_layers tn_circ tn_meas tn_ls]. split; [exact OKb|]. split; [exact SM'|]. split; [exact KM'|]. split; [exact RM'|].
    split; [exact (Forall_cons _ OG (Forall_nil _))|]. split; [intros g a [<-|[]] [<-|[]]; now left|]. split.
    { right. exists qc3. split; [reflexivity|]. split; [|split; [rewrite FX; apply pe_refl|split; [discriminate|exact MN]]]. split; [rewrite FX; exact (Forall_cons _ OG (Forall_nil _))|]. unfold qc3, DeletePhaseTarget. cbn [qc_count].
      destruct (AppendGate_ok n ci (qc_new true false) (gate_c t mat_X [q] 1%N) Hn) as ((_ & A1) & _); [split; [constructor|cbn; lia]| |exact A1].
      rewrite <- cx_gate. apply ctl_gate_ok; [repeat constructor; cbn; intuition congruence|intros a [<-|[<-|[]]]; assumption|apply x_unitary|reflexivity]. }
    split; [destruct m'; [congruence|reflexivity]|]. split; [|right; exists v1; split; [exact EL|apply same_refl]].
    intros x Hx. rewrite effs_cons. unfold effs at 1. cbn [fold_left]. rewrite x_eff. specialize (PSIb (fx t x) (ltac:(now apply fx_lt))). cbn [effs fold_left] in PSIb. unfold w in PSIb. rewrite fx_fx in PSIb. exact PSIb.
  Qed.

  (** Measuring the same qubit twice, above the threshold: the second time the measured value is prepared anew. *)
  Lemma shape_wide T psi q r f : inv [] [] T psi -> (tc_thr c < n)%N -> (q < n)%N ->
    match tn_force_m A ci c q r f true T with
    | Ret (b, T') => (if f then b = r else chosen (tc_rnd c) (chance n q true psi) b) /\ chance n q b psi <> 0 /\ tn_n T' = n /\ tn_ls T' = None /\ tn_meas T' = [[(q, b)]] /\ exists qc, tn_circ T' = [qc]
    | Throws => f = true /\ chance n q r psi = 0
    | Undef => False
    end.
  Proof.
    intros I HT Hq. unfold tn_force_m. assert (EN := proj1 I). rewrite EN. destruct (N.leb_spec n q) as [|_]; [lia|].
    destruct (cone_stack A ci c EA n Hn T psi q I HT Hq) as (v & T1 & E1 & NV & CH & EC & EM & EL & I1). rewrite E1. cbn [bind].
    pose proof (ls_force_ok A c EA PS UP n q r f true v (tn_draw T1) Hq NV) as F.
    destruct (ls_force A c q r f true (mkLS n v) (tn_draw T1)) as [[[b L] d]| |]; cbn [forced_ok bind] in *; [|rewrite CH in F; exact F|exact F].
    destruct F as (F1 & F2 & LN & F3). rewrite CH in F1, F2. rewrite EL. destruct (inv_0 c n T1 psi I1) as (qc & k & OK & CI & ME & PSI). pose proof I1 as (EN1 & N1 & _). cbn [negb].
    set (T2 := set_draw d (set_ls None T1)). change (tn_circ T2) with (tn_circ T1). change (tn_meas T2) with (tn_meas T1). change (tn_n T2) with (tn_n T1). rewrite CI, ME, EN1. cbn [length Nat.sub move_back Nat.leb nth app set_nth firstn skipn].
    unfold collapse_layers. cbn [nth]. destruct (existsb _ _); cbn [set_layers tn_n tn_ls tn_meas tn_circ]; (split; [exact F1|]; split; [exact F2|]; split; [exact EN1|]; split; [reflexivity|]; split; [reflexivity|]; eexists; reflexivity).
  Qed.
  Lemma ket_chance (v : vec) ph z q b : anorm ph = 1 -> (z < 2 ^ n)%N -> (forall x, v x = ph * ket z x) -> chance n q b v = if eqb (N.testbit z q) b then 1 else 0.
  Proof.
    intros P1 Hz V. rewrite chance_weight, (scale_weight n _ ph v (ket z)) by (intros x _; apply V). rewrite P1, weight_ket by exact Hz. destruct (eqb (N.testbit z q) b); ring.
  Qed.
  Lemma again_wide T q b : tn_n T = n -> tn_ls T = None -> tn_meas T = [[(q, b)]] -> (exists qc, tn_circ T = [qc]) -> (tc_thr c < n)%N -> (q < n)%N -> exists T', tn_m A ci c q T = Ret (b, T').
  Proof.
    intros EN LS ME (qc & CI) HT Hq. unfold tn_m, tn_force_m. rewrite EN. destruct (N.leb_spec n q) as [|_]; [lia|]. unfold amplitudes. rewrite EN. cbn [is_nil orb]. destruct (N.leb_spec n (tc_thr c)) as [|_]; [lia|].
    unfold make_stack. rewrite LS, CI, ME. cbn [layers hd tl rev app]. cbn [cone]. cbn [filter measured existsb fst]. rewrite N.eqb_refl. cbn [orb negb run_layers].
    destruct (x_circuit_ok ci n Hn [(q, b)] (fun e He => match He with or_introl E => eq_ind (q, b) (fun e => (fst e < n)%N) Hq e E | or_intror X => match X with end end) (qc_new true (tc_near c)) 0%N (preps_new n Hn (tc_near c))) as (OK & ph & P1 & P2). set (z := zfold [(q, b)] 0) in *.
    assert (Hz : (z < 2 ^ n)%N) by (apply zfold_lt; [intros e [<-|[]]; exact Hq|pose proof (pow2_nz n); lia]).
    assert (Bz : N.testbit z q = b). { unfold z. rewrite zfold_bit by (repeat constructor; intros []). cbn [mfind]. rewrite N.eqb_refl, N.bits_0. destruct b; reflexivity. }
    set (qx := x_circuit ci (qc_new true (tc_near c)) [(q, b)]) in *. rewrite EN.
    destruct (ls_run_ok n qx (ket 0) (okg_all n _ (proj1 OK)) (proj2 OK)) as (v & R & V). change (fun x => if (x =? 0)%N then 1 else 0) with (ket 0 : vec). rewrite R. cbn [bind].
    assert (VZ : forall x, v x = ph * ket z x) by (intros x; rewrite V, effects_effs by exact (okg_ne n _ (proj1 OK)); apply P2).
    assert (NV : norm2 n v = 1). { rewrite norm_weight, (scale_weight n _ ph v (ket z)) by (intros x _; apply VZ). rewrite P1, weight_ket by exact Hz. ring. }
    assert (FL : exists v' d', ls_force_list A c [(q, b)] (mkLS n v) (tn_draw T) = Ret (mkLS n v', d') /\ norm2 n v' = 1 /\ chance n q (negb b) v' = 0).
    { assert (G : forall f, exists v' d', ls_force A c q b f true (mkLS n v) (tn_draw T) = Ret (b, mkLS n v', d') /\ norm2 n v' = 1 /\ chance n q (negb b) v' = 0).
      { intros f. pose proof (ls_force_ok A c EA PS UP n q b f true v (tn_draw T) Hq NV) as F. destruct (ls_force A c q b f true (mkLS n v) (tn_draw T)) as [[[b' L] d]| |]; cbn [forced_ok] in F; [| |destruct F].
        - destruct F as (_ & F2 & LN & N1 & k & F3). destruct L as [n' v']. cbn [ls_n ls_v] in *. subst n'. rewrite (ket_chance v ph z q b' P1 Hz VZ), Bz in F2. assert (b' = b) by (destruct b, b'; cbn in F2; congruence). subst b'.
          exists v', d. split; [reflexivity|]. split; [exact N1|]. rewrite chance_weight. apply weight_zero. intros x Hx Bx. rewrite F3 by exact Hx. unfold collapse. apply eqb_prop in Bx. rewrite Bx. destruct b; cbn; ring.
        - destruct F as [_ F]. rewrite (ket_chance v ph z q b P1 Hz VZ), Bz, eqb_reflx in F. contradiction. }
      unfold ls_force_list. destruct (tc_engine c).
      - destruct (G false) as (v' & d' & E & X). rewrite E. cbn [bind]. exists v', d'. split; [reflexivity|exact X].
      - cbn [ls_force_each]. destruct (G true) as (v' & d' & E & X). rewrite E. cbn [bind]. exists v', d'. split; [reflexivity|exact X]. }
    destruct FL as (v' & d' & E & NV' & C0). rewrite E. cbn [bind run_layers]. pose proof (ls_force_ok A c EA PS UP n q false false true v' d' Hq NV') as F.
    cbn [set_ls set_draw tn_ls tn_draw]. destruct (ls_force A c q false false true (mkLS n v') d') as [[[b' L] d]| |]; cbn [forced_ok bind] in *; [|destruct F; discriminate|destruct F].
    destruct F as (_ & F2 & _). assert (b' = b) by (destruct b, b'; cbn in C0; try reflexivity; congruence). subst b'. cbn [negb]. destruct (move_back _ _ _ _ _ _) as [[l cs] ms]. destruct (collapse_layers _ _ _ _ _) as [cs' ms']. eexists. reflexivity.
  Qed.

  (** |0...0> above the threshold. *)
  Lemma ket0_chance q b : chance n q b (ket 0 : vec) = if b then 0 else 1.
  Proof. rewrite (ket_chance (ket 0) 1 0%N q b (anorm_1 (K := K))); [rewrite N.bits_0; destruct b; reflexivity|pose proof (pow2_nz n); lia|intros x; ring]. Qed.
  Lemma eqb_refl_K (x : K) : sr_eqb x x = true.
  Proof. now apply sr_eqb_ok. Qed.
  Lemma eqb_neq_K (x y : K) : x <> y -> sr_eqb x y = false.
  Proof. intros H. destruct (sr_eqb x y) eqn:E; [|reflexivity]. apply sr_eqb_ok in E. contradiction. Qed.
  Lemma force_zero q f d : (q < n)%N -> ls_force A c q false f true (mkLS n (ket 0)) d = Ret (false, mkLS n (ket 0), d).
  Proof.
    intros Hq. unfold ls_force, ls_prob. cbn [ls_n ls_v]. apply N.ltb_lt in Hq. rewrite Hq. cbn [bind]. rewrite prob_weight, ket0_chance. rewrite eqb_refl_K. rewrite (eqb_neq_K 0 1) by congruence.
    assert (E : 1 - 0 = 1 :> K) by ring. destruct f; rewrite E, (eqb_neq_K 1 0) by exact NT; rewrite eqb_refl_K; reflexivity.
  Qed.
  Lemma force_list_zero j d : (N.of_nat j <= n)%N -> exists d', ls_force_list A c (map (fun q => (q, false)) (iota 0 j)) (mkLS n (ket 0)) d = Ret (mkLS n (ket 0), d').
  Proof.
    intros Hj. set (m := map (fun q => (q, false)) (iota 0 j)). assert (RM : forall e, In e m -> (fst e < n)%N /\ snd e = false).
    { intros e He. unfold m in He. apply in_map_iff in He. destruct He as (a & <- & Ha). apply iota_mem in Ha. cbn [fst snd]. split; [lia|reflexivity]. }
    clearbody m. unfold ls_force_list. destruct (tc_engine c).
    - assert (G : exists d', (if negb (forallb (fun e => fst e <? ls_n (mkLS n (ket 0 : vec)))%N m) then Throws
          else let '(ph, d) := ls_phase c d in let p := weight_of (ls_n (mkLS n (ket 0 : vec))) (reads m) (ls_v (mkLS n (ket 0 : vec))) in
            if sr_eqb p 0 then Undef else if sr_eqb p 1 then Ret (mkLS n (ket 0 : vec), d) else Ret (mkLS (ls_n (mkLS n (ket 0 : vec))) (fun x => if reads m x then ar_div A ph (ar_sqrt A p) * ls_v (mkLS n (ket 0 : vec)) x else 0), d)) = Ret (mkLS n (ket 0), d')).
      { cbn [ls_n ls_v]. assert (F : forallb (fun e => fst e <? n)%N m = true) by (apply forallb_forall; intros e He; apply N.ltb_lt; now apply RM). rewrite F. cbn [negb]. destruct (ls_phase c d) as [ph d1]. cbn zeta.
        assert (W : weight_of n (reads m) (ket 0 : vec) = 1). { rewrite weight_ket by (pose proof (pow2_nz n); lia). assert (R : reads m 0 = true); [|rewrite R; reflexivity]. apply forallb_forall. intros e He. rewrite N.bits_0, (proj2 (RM e He)). reflexivity. }
        rewrite W, eqb_refl_K, (eqb_neq_K 1 0) by exact NT. exists d1. reflexivity. }
      destruct m as [|[a b] [|e t]]; [exact G| |exact G]. destruct (RM (a, b) (or_introl eq_refl)) as [Ha Hb]. cbn [fst snd] in *. subst b. rewrite force_zero by exact Ha. cbn [bind]. exists d. reflexivity.
    - exists d. induction m as [|[a b] t IH]; [reflexivity|]. cbn [ls_force_each]. destruct (RM (a, b) (or_introl eq_refl)) as [Ha Hb]. cbn [fst snd] in *. subst b. rewrite force_zero by exact Ha. cbn [bind]. apply IH. intros e He. apply RM. now right.
  Qed.
  Definition zeros (j : nat) T : Prop := tn_n T = n /\ tn_circ T = [qc_new true false] /\ tn_meas T = meas_of (map (fun q => (q, false)) (iota 0 j)) /\ tn_ls T = None.
  Lemma x_circuit_zeros l (qc : qcirc) : x_circuit ci qc (map (fun q => (q, false)) l) = qc.
  Proof. unfold x_circuit. induction l as [|a t IH]; [reflexivity|]. cbn [map fold_left fst snd]. exact IH. Qed.
  Lemma mset_last (l : list (N * bool)) q b : (forall e, In e l -> (fst e < q)%N) -> mset q b l = l ++ [(q, b)].
  Proof. induction l as [|[a v] t IH]; intros H; [reflexivity|]. cbn [mset app]. pose proof (H _ (or_introl eq_refl)) as L. cbn [fst] in L. destruct (N.ltb_spec q a); [lia|]. destruct (N.eqb_spec q a); [lia|]. rewrite IH by (intros e He; apply H; now right). reflexivity. Qed.
  Lemma zeros_step j T : zeros j T -> (tc_thr c < n)%N -> (N.of_nat j < n)%N -> exists T', tn_m A ci c (N.of_nat j) T = Ret (false, T') /\ zeros (S j) T'.
  Proof.
    intros (EN & CI & ME & LS) HT Hj. unfold tn_m, tn_force_m. rewrite EN. destruct (N.leb_spec n (N.of_nat j)) as [|_]; [lia|]. unfold amplitudes. rewrite EN. cbn [is_nil orb]. destruct (N.leb_spec n (tc_thr c)) as [|_]; [lia|].
    set (m := map (fun q => (q, false)) (iota 0 j)) in *. assert (LM : layers (tn_circ T) (tn_meas T) = [(qc_new true false, m)]) by (rewrite CI, ME; apply layers_1).
    unfold make_stack. rewrite LS, LM. cbn [rev app]. cbn [cone filter].
    assert (NM : measured m (N.of_nat j) = false). { apply not_true_is_false. intros X. apply measured_In in X. unfold m in X. rewrite map_map, map_id in X. apply iota_mem in X. lia. }
    rewrite NM. cbn [negb]. unfold PastLightCone. cbn [qc_new qc_gates rev cone_loop fst snd qc_collapsed qc_count cone run_layers].
    assert (RU : ls_run (mkQC true false 0 []) (mkLS n (ket 0 : vec)) = Ret (mkLS n (ket 0))). { unfold ls_run. cbn [ls_n qc_count]. destruct (N.ltb_spec n 0) as [|_]; [lia|]. reflexivity. }
    change (fun x => if (x =? 0)%N then 1 else 0) with (ket 0 : vec). rewrite EN, RU. cbn [bind].
    assert (FL : exists d', match m with [] => Ret (mkLS n (ket 0 : vec), tn_draw T) | _ => ls_force_list A c m (mkLS n (ket 0)) (tn_draw T) end = Ret (mkLS n (ket 0), d')).
    { destruct (force_list_zero j (tn_draw T)) as (d' & E); [lia|]. fold m in E. destruct m; [exists (tn_draw T); reflexivity|exists d'; exact E]. }
    destruct FL as (d' & FL). rewrite FL. cbn [bind run_layers]. cbn [set_ls set_draw tn_draw tn_ls tn_n]. rewrite force_zero by exact Hj. cbn [bind negb tn_circ tn_meas set_ls set_draw]. rewrite CI, ME. cbn [length Nat.sub move_back].
    assert (MS : set_nth 0 (mset (N.of_nat j) false (nth 0 (if Nat.leb (length (meas_of m)) 0 then meas_of m ++ [[]] else meas_of m) [])) (if Nat.leb (length (meas_of m)) 0 then meas_of m ++ [[]] else meas_of m) = [mset (N.of_nat j) false m]) by (destruct m; reflexivity).
    rewrite MS. assert (M1 : mset (N.of_nat j) false m = map (fun q => (q, false)) (iota 0 (S j))).
    { rewrite mset_last; [|intros e He; unfold m in He; apply in_map_iff in He; destruct He as (a & <- & Ha); apply iota_mem in Ha; cbn [fst]; lia]. replace (iota 0 (S j)) with (iota 0 j ++ [N.of_nat j]); [rewrite map_app; reflexivity|]. replace (S j) with (j + 1)%nat by lia. rewrite (PParFor.iota_app j 0%N 1). reflexivity. }
    rewrite M1. set (m1 := map (fun q => (q, false)) (iota 0 (S j))). unfold collapse_layers. cbn [nth].
    assert (EX : existsb (fun q => negb (measured m1 q) && IsNonPhaseTarget (qc_new (K := K) true false) q) (iota 0 (N.to_nat n)) = false) by (apply not_true_is_false; intros X; apply existsb_exists in X; destruct X as (a & _ & X); cbn in X; rewrite andb_false_r in X; discriminate X).
    cbn [tn_n set_ls set_draw]. rewrite EN, EX. eexists. split; [reflexivity|]. split; [exact EN|]. cbn [set_layers tn_circ tn_meas tn_ls set_nth firstn skipn app]. split; [unfold m1; rewrite x_circuit_zeros; reflexivity|]. split; [fold m1; destruct m1 eqn:E1; [discriminate E1|reflexivity]|reflexivity].
  Qed.
  Lemma zeros_each k : forall j T, zeros j T -> (tc_thr c < n)%N -> (N.of_nat (j + k) <= n)%N -> exists T', m_each A ci c (iota (N.of_nat j) k) 0 T = Ret (0%N, T') /\ tn_n T' = n.
  Proof.
    induction k as [|k IH]; intros j T Z HT H; [exists T; split; [reflexivity|apply Z]|]. cbn [iota m_each]. destruct (zeros_step j T Z HT) as (T1 & E & Z1); [lia|]. rewrite E. cbn [bind].
    destruct (IH (S j) T1 Z1 HT) as (T2 & E2 & N2); [lia|]. replace (N.of_nat j + 1)%N with (N.of_nat (S j)) by lia. exists T2. split; assumption.
  Qed.
  Lemma zeros_mall T phf : tn_n T = n -> (tc_thr c < n)%N -> exists T', tn_mall A ci c (tn_set_permutation ci c 0 phf T) = Ret (0%N, T') /\ inv [] [] T' (ket 0).
  Proof.
    intros EN HT. assert (Z : zeros 0 (tn_set_permutation ci c 0 phf T)).
    { unfold tn_set_permutation. assert (F : forall l (T : tn), fold_left (fun T q => if N.testbit 0 q then tn_x ci q T else T) l T = T) by (induction l as [|a t IH]; intros T0; [reflexivity|]; cbn [fold_left]; rewrite N.bits_0; apply IH).
      rewrite F. destruct phf as [p|]; [|destruct (ls_phase c _) as [p d]]; (split; [exact EN|]; split; [reflexivity|]; split; reflexivity). }
    unfold tn_mall. rewrite (proj1 Z). destruct (N.leb_spec n (tc_thr c)) as [|_]; [lia|]. destruct (zeros_each (N.to_nat n) 0 _ Z HT) as (T2 & E & N2); [lia|]. change (N.of_nat 0) with 0%N in E. rewrite E. cbn [bind]. eexists. split; [reflexivity|].
    rewrite <- (N.mod_0_l (2 ^ n)) at 2 by apply pow2_nz. now apply set_perm_inv.
  Qed.
End T.
