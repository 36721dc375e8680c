(** QTensorNetwork: programs without measurement on any number of qubits, one measurement above the threshold, MAll, Allocate. *)
From Coq Require Import NArith List Bool Lia Ring Sorted.
From Verif Require Import Bits MFunctions MParFor MKernel Amp PAmp MEngine MAlu SpecFunctions SpecState SpecUnit3 PLoop PGates2 PEngine2 PCompose PUnit4 MQCircuit SpecQCircuit PQCirc1 PQCirc2 PQCirc3 PQCirc4 PQCirc5 PQCirc6 PQCirc8 MBdt SpecBdt PBdt1 MTensor SpecTensor PTensor1 PTensor2 PTensor3.
Import ListNotations.
Local Open Scope N_scope.

Lemma tb_outside_ins x s len j : N.testbit (outside x s len) j = if j <? s then N.testbit x j else N.testbit x (j + len).
Proof.
  unfold outside. assert (E : x mod 2 ^ s + x / 2 ^ (s + len) * 2 ^ s = N.lor (x mod 2 ^ s) (N.shiftl (N.shiftr x (s + len)) s)).
  { rewrite N.shiftl_mul_pow2, N.shiftr_div_pow2. rewrite N.add_nocarry_lxor, N.lxor_lor; [reflexivity| |].
    - apply N.bits_inj. intros i. rewrite N.land_spec, N.bits_0. destruct (N.lt_ge_cases i s) as [H|H]; [rewrite N.mul_pow2_bits_low by exact H; apply andb_false_r|rewrite N.mod_pow2_bits_high by exact H; reflexivity].
    - apply N.bits_inj. intros i. rewrite N.land_spec, N.bits_0. destruct (N.lt_ge_cases i s) as [H|H]; [rewrite N.mul_pow2_bits_low by exact H; apply andb_false_r|rewrite N.mod_pow2_bits_high by exact H; reflexivity]. }
  rewrite E, N.lor_spec. destruct (N.ltb_spec j s) as [H|H].
  - rewrite N.mod_pow2_bits_low, N.shiftl_spec_low by exact H. apply orb_false_r.
  - rewrite N.mod_pow2_bits_high, N.shiftl_spec_high' by exact H. rewrite N.shiftr_spec'. cbn [orb]. f_equal. lia.
Qed.
Lemma get_reg_0 x s len : get_reg x s len = 0 <-> forall j, s <= j < s + len -> N.testbit x j = false.
Proof.
  split.
  - intros E j Hj. pose proof (tb_get_reg x s len (j - s)) as H. rewrite E, N.bits_0 in H. destruct (N.ltb_spec (j - s) len) as [_|]; [|lia]. cbn [andb] in H. replace (j - s + s) with j in H by lia. now symmetry.
  - intros H. apply N.bits_inj. intros j. rewrite tb_get_reg, N.bits_0. destruct (N.ltb_spec j len) as [Hj|_]; [|reflexivity]. cbn [andb]. apply H. lia.
Qed.
Lemma swap_insert_get x s len : 0 < len -> (get_reg (swap_bits s (s + len) x) (s + 1) len = 0 <-> get_reg x s len = 0).
Proof.
  intros L. rewrite !get_reg_0. split; intros H j Hj.
  - destruct (N.eq_dec j s) as [->|NE].
    + specialize (H (s + len) ltac:(lia)). rewrite tb_swap in H. destruct (N.eqb_spec s (s + len)); [lia|]. rewrite N.eqb_refl in H. exact H.
    + specialize (H j ltac:(lia)). rewrite tb_swap in H. destruct (N.eqb_spec s j); [lia|]. destruct (N.eqb_spec (s + len) j); [lia|]. exact H.
  - rewrite tb_swap. destruct (N.eqb_spec s j); [lia|]. destruct (N.eqb_spec (s + len) j) as [<-|]; apply H; lia.
Qed.
Lemma swap_insert_outside x s len : 0 < len -> outside (swap_bits s (s + len) x) (s + 1) len = outside x s len.
Proof.
  intros L. apply N.bits_inj. intros j. rewrite !tb_outside_ins, !tb_swap. destruct (N.ltb_spec j (s + 1)), (N.ltb_spec j s); try lia.
  - destruct (N.eqb_spec s j); [lia|]. destruct (N.eqb_spec (s + len) j); [lia|]. reflexivity.
  - assert (j = s) by lia. subst j. rewrite N.eqb_refl. reflexivity.
  - destruct (N.eqb_spec s (j + len)); [lia|]. destruct (N.eqb_spec (s + len) (j + len)); [lia|]. reflexivity.
Qed.

Section T.
  Context {K : StarRing} (A : Arith K) (ci : K) (c : @tcfg K).
  Hypothesis EA : exact_arith A.
  Hypothesis PS : positive_sums (K := K).
  Hypothesis UP : tc_rgp c = true -> forall d, anorm (tc_ph c d) = 1%amp.
  Variable n : N.
  Hypothesis Hn : (n <= 126)%N.
  Add Ring KrDF : (sr_ring K).
  Local Notation vec := (N -> K).
  Local Notation qgate := (@qgate K).
  Local Notation qcirc := (@qcirc K).
  Local Notation tn := (@tn K).
  Local Notation tcall := (@tcall K).
  Local Notation inv := (inv c n).
  Implicit Types (psi phi v w : N -> K) (q : N) (g : qgate) (T : tn).
  Local Open Scope amp_scope.

  (** What the invariant says before the first measurement. *)
  Lemma inv_0 T psi : inv [] [] T psi -> exists (qc : qcirc) k, qc_ok n qc /\ tn_circ T = [qc] /\ tn_meas T = [] /\ forall x, (x < 2 ^ n)%N -> psi x = k * effs (qc_gates qc) (ket 0) x.
  Proof.
    intros (EN & N1 & qc & m & gs2 & k & OK & SM & KM & RM & G2 & Q2 & CI & ME & PSI & LS). exists qc, k.
    assert (m = []) by (destruct m as [|e t]; [reflexivity|]; destruct (proj1 (KM (fst e)) (or_introl eq_refl))). subst m.
    assert (CI' : tn_circ T = [qc] /\ gs2 = []).
    { destruct CI as [CI|(qc2 & _ & _ & _ & GN & _)]; [exact CI|]. exfalso. destruct gs2 as [|g t]; [now apply GN|]. exact (Q2 g (qg_t g) (or_introl eq_refl) (or_introl eq_refl)). }
    destruct CI' as [CI' ->]. split; [exact OK|]. split; [exact CI'|]. split; [exact ME|]. intros x Hx. rewrite PSI by exact Hx. reflexivity.
  Qed.
  Lemma mk_inv_0 T psi (qc : qcirc) k : tn_n T = n -> norm2 n psi = 1 -> qc_ok n qc -> tn_circ T = [qc] -> tn_meas T = [] -> (forall x, (x < 2 ^ n)%N -> psi x = k * effs (qc_gates qc) (ket 0) x) ->
    tn_ls T = None \/ (exists v, tn_ls T = Some (mkLS n v) /\ same n v psi) -> inv [] [] T psi.
  Proof.
    intros EN N1 OK CI ME PSI LS. split; [exact EN|]. split; [exact N1|]. exists qc, [], [], k. split; [exact OK|]. split; [constructor|]. split; [reflexivity|]. split; [intros e []|]. split; [constructor|]. split; [intros g q []|].
    split; [left; split; [exact CI|reflexivity]|]. split; [exact ME|]. split; [intros x Hx; rewrite PSI by exact Hx; reflexivity|]. destruct LS as [LS|LS]; [left|now right]. split; [exact LS|]. intros _. discriminate.
  Qed.
  (** Reading with the past light cone only. *)
  Lemma cone_stack T psi q : inv [] [] T psi -> (tc_thr c < n)%N -> (q < n)%N ->
    exists v T', amplitudes A ci c [q] T = Ret (mkLS n v, T') /\ norm2 n v = 1 /\ (forall b, chance n q b v = chance n q b psi) /\ tn_circ T' = tn_circ T /\ tn_meas T' = tn_meas T /\ tn_ls T' = None /\ inv [] [] T' psi.
  Proof.
    intros I HT Hq. pose proof I as (EN & N1 & _). destruct (inv_0 T psi I) as (qc & k & OK & CI & ME & PSI). unfold amplitudes. rewrite EN. cbn [is_nil orb]. destruct (N.leb_spec n (tc_thr c)) as [|_]; [lia|].
    unfold make_stack. destruct (tn_ls T) as [L|] eqn:LS.
    - assert (exists v, L = mkLS n v /\ same n v psi) as (v & -> & SV). { destruct I as (_ & _ & ? & ? & ? & ? & _ & _ & _ & _ & _ & _ & _ & _ & _ & LS'). destruct LS' as [[LS' _]|(v & LS' & SV)]; [congruence|]. exists v. split; [congruence|exact SV]. }
      cbn [bind]. exists v, (set_ls None T). split; [reflexivity|]. split; [rewrite (same_norm n v psi SV); exact N1|]. split; [intros b; now apply same_chance|]. split; [reflexivity|]. split; [reflexivity|]. split; [reflexivity|].
      apply (mk_inv_0 (set_ls None T) psi qc k); auto.
    - rewrite CI, ME. cbn [layers hd tl rev app cone measured existsb negb filter]. set (pc := PastLightCone qc [q]). cbn [run_layers].
      assert (GG : Forall (gd n) (qc_gates qc)) by (apply okg_all; apply OK).
      assert (CO : forall P, depends_on [q] P -> Forall (gd n) (qc_gates (fst pc)) /\ forall v, weight_of n P (effects (qc_gates qc) v) = weight_of n P (effects (qc_gates (fst pc)) v)).
      { intros P HP. destruct (cone_ok n P (rev (qc_gates qc)) (Forall_rev GG) [] [q] (Forall_nil _)) as (B1 & _ & _ & _ & B2); [intros h a []|exact HP|]. rewrite rev_involutive, app_nil_r in B2. split; [exact B1|exact B2]. }
      destruct (ls_run_ok n (fst pc) (ket 0) (proj1 (CO (fun _ => true) (fun _ _ _ => eq_refl))) (proj2 OK)) as (v & R & V). change (fun x => if (x =? 0)%N then 1 else 0) with (ket 0 : vec). rewrite EN, R. cbn [bind].
      exists v, (set_ls None (set_ls (Some (mkLS n v)) (set_draw (tn_draw T) T))). split; [reflexivity|].
      assert (EF : same n psi (effects (qc_gates qc) (ket 0))).
      { apply (unique_multiple A EA n psi (effects (qc_gates qc) (ket 0)) (effs (qc_gates qc) (ket 0)) k 1); [exact N1| |exact PSI|].
        - rewrite <- (ket_norm n Hn), <- (effs_norm n (qc_gates qc) (ket 0) (proj1 OK)). unfold norm2. apply asum_ext. intros x _. rewrite effects_effs by exact (okg_ne n _ (proj1 OK)). reflexivity.
        - intros x _. rewrite effects_effs by exact (okg_ne n _ (proj1 OK)). ring. }
      assert (WV : forall P, depends_on [q] P -> weight_of n P v = weight_of n P psi).
      { intros P HP. rewrite (same_weight n P psi _ EF), (proj2 (CO P HP)). unfold weight_of. apply asum_ext. intros x _. rewrite V. reflexivity. }
      split; [rewrite <- N1, !norm_weight; apply WV; intros x y _; reflexivity|]. split. { intros b. rewrite !chance_weight. apply WV. intros x y H. rewrite (H q (or_introl eq_refl)). reflexivity. }
      split; [exact CI|]. split; [exact ME|]. split; [reflexivity|]. apply (mk_inv_0 (set_ls None (set_ls (Some (mkLS n v)) (set_draw (tn_draw T) T))) psi qc k); auto.
  Qed.
  Lemma prob_any T psi q : inv [] [] T psi -> (q < n)%N -> exists T', tn_prob A ci c q T = Ret (chance n q true psi, T') /\ inv [] [] T' psi.
  Proof.
    intros I Hq. destruct (N.le_gt_cases n (tc_thr c)) as [HT|HT]; [now apply (prob_ok A ci c EA PS UP n Hn)|].
    destruct (cone_stack T psi q I HT Hq) as (v & T' & E & N1 & CH & _ & _ & _ & I'). exists T'. split; [|exact I']. unfold tn_prob. rewrite E. cbn [bind]. unfold ls_prob. cbn [ls_n ls_v]. apply N.ltb_lt in Hq. rewrite Hq. cbn [bind].
    rewrite prob_weight, CH. reflexivity.
  Qed.
  Lemma reads_any T psi : inv [] [] T psi -> reads_as A ci c T psi.
  Proof.
    intros I. pose proof I as (EN & _). unfold reads_as. rewrite EN. split.
    - destruct (amp_ok A ci c EA PS UP n Hn [] [] T psi I) as (ph & P1 & P2). exists ph. split; [exact P1|]. intros x Hx. destruct (P2 x Hx) as (T' & E & _). exists T'. exact E.
    - intros q Hq. destruct (prob_any T psi q I Hq) as (T' & E & _). exists T'. exact E.
  Qed.
  Lemma no_meas_ok l : Forall (in_range_t n) l -> forallb (fun a => is_gate a || is_read a) l = true -> forall T psi, inv [] [] T psi -> exists T', tsteps A ci c l T = Ret ([], T') /\ inv [] [] T' (after l psi).
  Proof.
    induction 1 as [|a t R1 R2 IH]; intros G T psi I; [exists T; split; [reflexivity|exact I]|]. cbn [forallb] in G. apply andb_prop in G. destruct G as [G1 G2].
    assert (ST : exists T', tstep A ci c a T = Ret ([], T') /\ inv [] [] T' (ideal_t a psi)).
    { destruct (is_gate a) eqn:Ga.
      - destruct (gate_step A ci c n Hn [] [] T psi a I R1 Ga) as (T' & E & I'); [intros _; discriminate|right; unfold meets; induction (touches a) as [|z r IHr]; [reflexivity|exact IHr]|].
        exists T'. split; [exact E|]. eapply inv_mono; [exact I'|]. intros q Hq. destruct (meets (touches a) []) eqn:EM; [|exact Hq]. exfalso. unfold meets in EM. apply existsb_exists in EM. destruct EM as (z & _ & Z). discriminate Z.
      - destruct a as [m q|cs m q|cs m q|a b|q r f ap|q|x]; try discriminate Ga; try discriminate G1; cbn [tstep in_range_t ideal_t] in *.
        + destruct (prob_any T psi q I R1) as (T' & E & I'). exists T'. rewrite E. split; [reflexivity|exact I'].
        + destruct (amp_ok A ci c EA PS UP n Hn [] [] T psi I) as (ph & P1 & P2). destruct (P2 x R1) as (T' & E & I'). exists T'. rewrite E. split; [reflexivity|exact I']. }
    destruct ST as (T' & E & I'). destruct (IH G2 T' _ I') as (T'' & E'' & I''). exists T''. cbn [tsteps]. rewrite E. cbn [bind]. rewrite E''. split; [reflexivity|exact I''].
  Qed.

  (** One measurement above the threshold. *)
  Lemma force_any T psi q r f ap : inv [] [] T psi -> (tc_thr c < n)%N -> (q < n)%N ->
    match tn_force_m A ci c q r f ap T with
    | Ret (b, T') => exists phi, (if f then b = r else chosen (tc_rnd c) (chance n q true psi) b) /\ chance n q b psi <> 0 /\ (if ap then normalized n phi (collapse q b psi) else phi = psi) /\
        (ap && tc_engine c = false -> inv (if ap then [q] else []) [] T' phi)
    | Throws => f = true /\ chance n q r psi = 0
    | Undef => False
    end.
  Proof.
    intros I HT Hq. unfold tn_force_m. assert (EN := proj1 I). rewrite EN. destruct (N.leb_spec n q) as [|_]; [lia|].
    destruct (cone_stack T psi q I HT Hq) as (v & T1 & E1 & NV & CH & EC & EM & EL & I1). rewrite E1. cbn [bind].
    pose proof (ls_force_ok A c EA PS UP n q r f ap v (tn_draw T1) Hq NV) as F.
    destruct (ls_force A c q r f ap (mkLS n v) (tn_draw T1)) as [[[b L] d]| |]; cbn [forced_ok bind] in *; [|rewrite CH in F; exact F|exact F].
    destruct F as (F1 & F2 & LN & F3). rewrite CH in F1, F2. rewrite EL. destruct (inv_0 T1 psi I1) as (qc & k & OK & CI & ME & PSI). pose proof I1 as (EN1 & N1 & _).
    destruct ap; cbn [negb].
    - set (T2 := set_draw d (set_ls None T1)). change (tn_circ T2) with (tn_circ T1). change (tn_meas T2) with (tn_meas T1). change (tn_n T2) with (tn_n T1). rewrite CI, ME, EN1. cbn [length Nat.sub move_back Nat.leb nth app set_nth firstn skipn].
      set (m := mset q b []). destruct (collapse_layers ci n 0 [qc] [m]) as [cs ms] eqn:ECL.
      assert (AX : exists phi : vec, (exists k0, forall x, (x < 2 ^ n)%N -> phi x = k0 * collapse q b psi x) /\ (norm2 n phi = 1)).
      { assert (W : chance n q b psi <> 0) by exact F2. rewrite chance_weight in W.
        exists (fun x => ar_div A 1 (ar_sqrt A (weight_of n (fun x => eqb (N.testbit x q) b) psi)) * collapse q b psi x). split; [exists (ar_div A 1 (ar_sqrt A (weight_of n (fun x => eqb (N.testbit x q) b) psi))); reflexivity|].
        etransitivity; [|exact (normal_cut A EA n (fun x => eqb (N.testbit x q) b) psi 1 (anorm_1 (K := K)) W)]. unfold norm2. apply asum_ext. intros x _. f_equal. unfold collapse. destruct (eqb (N.testbit x q) b); [reflexivity|ring]. }
      destruct AX as (phi & (k0 & K0) & NP). exists phi. split; [exact F1|]. split; [exact F2|]. split; [split; [exact NP|exists k0; exact K0]|]. intros NE. cbn [andb] in NE.
      replace cs with (fst (collapse_layers ci n 0 [qc] [m])) by (rewrite ECL; reflexivity). replace ms with (snd (collapse_layers ci n 0 [qc] [m])) by (rewrite ECL; reflexivity).
      change (set_layers (fst (collapse_layers ci n 0 [qc] [m])) (snd (collapse_layers ci n 0 [qc] [m])) T2) with (set_layers (fst (collapse_layers ci n 0 [qc] [m])) (snd (collapse_layers ci n 0 [qc] [m])) (set_layers [qc] [m] T2)).
      apply (collapse_inv ci c n Hn q m qc (set_layers [qc] [m] T2) phi (k0 * k)); try reflexivity.
      + exact EN1.
      + exact NP.
      + exact OK.
      + unfold m. apply mset_srt. constructor.
      + intros e [<-|[]]. exact Hq.
      + discriminate.
      + now left.
      + intros x Hx. rewrite K0 by exact Hx. unfold collapse, cut, m, reads. cbn [mset forallb fst snd]. rewrite andb_true_r. destruct (eqb (N.testbit x q) b); [rewrite PSI by exact Hx; ring|ring].
      + left. split; [reflexivity|]. congruence.
    - exists psi. split; [exact F1|]. split; [exact F2|]. split; [reflexivity|]. intros _. apply (mk_inv_0 (set_draw d (set_ls None T1)) psi qc k); auto.
  Qed.

  (** ** MAll *)
  Lemma mall_ok T psi : picks c n -> final c n T psi -> (n <= tc_thr c)%N -> exists x T', tn_mall A ci c T = Ret (x, T') /\ (x < 2 ^ n)%N /\ psi x <> 0 /\ inv [] [] T' (ket x).
  Proof.
    intros PK F HT.
    assert (ST : exists v T1, make_stack A ci c [] T = Ret (mkLS n v, T1) /\ same n v psi /\ tn_n T1 = n /\ norm2 n psi = 1 /\ tn_n T = n).
    { destruct F as [(M & S & I)|I].
      - destruct (stack_ok A ci c EA PS UP n Hn M S T psi [] I (or_introl eq_refl)) as (v & T1 & E & SV & _ & _ & _ & I'). exists v, T1. split; [exact E|]. split; [exact SV|]. split; [apply I'|]. split; apply I.
      - destruct I as (EN & N1 & v & LS & SV). exists v, T. unfold make_stack. rewrite LS. auto. }
    destruct ST as (v & T1 & E & SV & EN1 & N1 & EN). unfold tn_mall. rewrite EN. apply N.leb_le in HT. rewrite HT, E. cbn [bind ls_n ls_v].
    destruct (PK (tn_draw T1) v) as [P1 P2]; [rewrite (same_norm n v psi SV); exact N1|]. set (x := tc_pick c (tn_draw T1) n v) in *. exists x, (tn_set_permutation ci c x None (set_draw (tn_draw T1 + 1) T1)). split; [reflexivity|]. split; [exact P1|]. split.
    - destruct SV as (ph & _ & SV). intros Z. apply P2. rewrite SV, Z by exact P1. ring.
    - rewrite <- (N.mod_small x (2 ^ n)) at 2 by exact P1. apply (set_perm_inv ci c n Hn). exact EN1.
  Qed.
End T.

(** ** Allocate *)
Section Alloc.
  Context {K : StarRing} (A : Arith K) (ci : K) (c : @tcfg K).
  Variables (n len : N).
  Hypothesis Hn : (n + len <= 126)%N.
  Hypothesis HL : (0 < len)%N.
  Add Ring KrDG : (sr_ring K).
  Local Notation vec := (N -> K).
  Local Notation tn := (@tn K).
  Implicit Types (psi phi v w : N -> K) (q : N) (T : tn).
  Local Open Scope amp_scope.

  Lemma okg_mono a b (g : @qgate K) : (a <= b)%N -> okg a g -> okg b g.
  Proof. intros H ((W1 & W2 & W3 & W) & NE). split; [|exact NE]. split; [lia|]. split; [exact W2|]. split; [|exact W]. intros q Hq. specialize (W3 q Hq). lia. Qed.
  Lemma grow T psi : inv c n [] [] T psi -> inv c (n + len) [] [] (mkTN (n + len) (tn_circ T) (tn_meas T) None (tn_gp T) (tn_draw T)) (tensor_at n len psi (ket 0)).
  Proof.
    intros I. pose proof I as (EN & N1 & _). destruct (inv_0 c n T psi I) as (qc & k & OK & CI & ME & PSI).
    assert (TT : forall x, (x < 2 ^ (n + len))%N -> tensor_at n len psi (ket 0) x = tensor n psi (ket 0) x).
    { intros x Hx. unfold tensor_at, tensor, outside, get_reg. rewrite (N.div_small x (2 ^ (n + len))) by exact Hx. rewrite N.mul_0_l, N.add_0_r. rewrite (N.mod_small (x / 2 ^ n)); [reflexivity|]. apply N.div_lt_upper_bound; [pose proof (pow2_nz n); lia|]. rewrite <- N.pow_add_r. exact Hx. }
    assert (NT : norm2 (n + len) (tensor_at n len psi (ket 0)) = 1).
    { transitivity (norm2 (n + len) (tensor n psi (ket 0 : vec))); [unfold norm2; apply asum_ext; intros x Hx; apply basis_In in Hx; rewrite TT by exact Hx; reflexivity|].
      rewrite norm_tensor, N1. rewrite (ket_norm len) by lia. ring. }
    apply (mk_inv_0 c (n + len) _ (tensor_at n len psi (ket 0)) qc k); auto.
    - split; [|destruct OK as [_ OK]; lia]. eapply Forall_impl; [|exact (proj1 OK)]. intros g. apply okg_mono. lia.
    - intros x Hx. rewrite TT by exact Hx. unfold tensor. destruct (N.lt_ge_cases x (2 ^ n)) as [H|H].
      + rewrite N.mod_small, N.div_small by exact H. rewrite PSI by exact H. unfold ket at 2. cbn [N.eqb]. ring.
      + assert (D : (x / 2 ^ n)%N <> 0%N) by (intros Z; apply N.div_small_iff in Z; [lia|apply N.pow_nonzero; discriminate]). unfold ket at 1. apply N.eqb_neq in D. rewrite D.
        rewrite (support (qc_gates qc) (N.log2 x)); [ring| | |].
        * intros g Hg E. exfalso. assert (G := proj1 (Forall_forall _ _) (proj1 OK) g Hg). destruct G as ((W & _) & _). rewrite E in W. assert (n <= N.log2 x)%N by (apply N.log2_le_pow2; [pose proof (pow2_nz n); lia|exact H]). lia.
        * intros y Hy. unfold ket. destruct (N.eqb_spec y 0) as [->|]; [rewrite N.bits_0 in Hy; discriminate Hy|reflexivity].
        * apply N.bit_log2. pose proof (pow2_nz n). lia.
  Qed.
  Lemma shift_state s psi x : swap_bits s (s + len) x = swap_bits s (s + len) x -> tensor_at (s + 1) len psi (ket 0) (swap_bits s (s + len) x) = tensor_at s len psi (ket 0) x.
  Proof.
    intros _. unfold tensor_at. rewrite swap_insert_outside by exact HL. unfold ket. assert (E : (get_reg (swap_bits s (s + len) x) (s + 1) len =? 0)%N = (get_reg x s len =? 0)%N) by (apply eq_true_iff_eq; rewrite !N.eqb_eq; now apply swap_insert_get). rewrite E. reflexivity.
  Qed.
  Lemma shifts psi k : forall i T, (i + N.of_nat k <= n)%N -> inv c (n + len) [] [] T (tensor_at (n - i) len psi (ket 0)) ->
    inv c (n + len) [] [] (fold_left (fun T i => let q := (n - (i + 1))%N in tn_swap ci q (w8 (q + len)) T) (iota i k) T) (tensor_at (n - i - N.of_nat k) len psi (ket 0)).
  Proof.
    induction k as [|k IH]; intros i T H I; [cbn [iota fold_left]; replace (n - i - N.of_nat 0)%N with (n - i)%N by lia; exact I|]. cbn [iota fold_left].
    replace (n - i - N.of_nat (S k))%N with (n - (i + 1) - N.of_nat k)%N by lia. replace (N.succ i) with (i + 1)%N by lia. apply IH; [lia|].
    set (q := (n - (i + 1))%N). assert (W : w8 (q + len) = (q + len)%N) by (unfold w8; apply N.mod_small; change (2 ^ 8)%N with 256%N; lia). rewrite W.
    destruct (gate_step A ci c (n + len) Hn [] [] T _ (TSwap q (q + len)) I) as (T' & E & I').
    - cbn. lia.
    - reflexivity.
    - intros _. discriminate.
    - right. reflexivity.
    - cbn [tstep] in E. injection E as E. rewrite E. cbn [meets touches existsb] in I'. eapply inv_ext; [exact I'|]. intros x _. cbn [ideal_t]. replace (n - i)%N with (q + 1)%N by lia. now apply shift_state.
  Qed.
  Lemma append_cached (g : @qgate K) T L : tn_append ci g (set_ls L T) = tn_append ci g T.
  Proof. reflexivity. Qed.
  Lemma allocate_ok start T psi : inv c n [] [] T psi -> (start <= n)%N -> tn_ls T = None \/ (start < n)%N -> inv c (n + len) [] [] (tn_allocate ci start len T) (tensor_at start len psi (ket 0)).
  Proof.
    intros I HS LS. assert (EN := proj1 I). unfold tn_allocate. destruct (N.eqb_spec len 0) as [|_]; [lia|]. rewrite EN. replace (start + (n - start))%N with n by lia.
    assert (W : w8 (n + len) = (n + len)%N) by (unfold w8; apply N.mod_small; change (2 ^ 8)%N with 256%N; lia). rewrite W.
    pose proof (grow T psi I) as G. set (T0 := mkTN (n + len) (tn_circ T) (tn_meas T) None (tn_gp T) (tn_draw T)) in *.
    pose proof (shifts psi (N.to_nat (n - start)) 0 T0 ltac:(lia)) as SH. rewrite N.sub_0_r in SH. specialize (SH G). replace (n - N.of_nat (N.to_nat (n - start)))%N with start in SH by lia.
    destruct LS as [LS|LS].
    - rewrite LS. exact SH.
    - assert (EF : forall l, l <> [] -> (forall i, In i l -> (i < n)%N) -> fold_left (fun T i => let q := (n - (i + 1))%N in tn_swap ci q (w8 (q + len)) T) l (mkTN (n + len) (tn_circ T) (tn_meas T) (tn_ls T) (tn_gp T) (tn_draw T)) =
                 fold_left (fun T i => let q := (n - (i + 1))%N in tn_swap ci q (w8 (q + len)) T) l T0).
      { intros l NE B. destruct l as [|i t]; [congruence|]. cbn [fold_left]. f_equal. cbn zeta. specialize (B i (or_introl eq_refl)). set (q := (n - (i + 1))%N). assert (Wq : w8 (q + len) = (q + len)%N) by (unfold w8; apply N.mod_small; change (2 ^ 8)%N with 256%N; lia). rewrite Wq.
        unfold tn_swap. destruct (N.eqb_spec q (q + len)) as [|_]; [lia|]. reflexivity. }
      rewrite EF; [exact SH| |].
      + destruct (N.to_nat (n - start)) eqn:Z; [lia|discriminate].
      + intros i Hi. apply iota_mem in Hi. lia.
  Qed.
End Alloc.
