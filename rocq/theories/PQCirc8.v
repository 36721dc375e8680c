(** The statements about circuit objects. *)
From Coq Require Import NArith ZArith List Bool Lia Ring Sorted.
From Verif Require Import Bits MFunctions MParFor MKernel Amp PAmp MEngine MAlu SpecFunctions SpecState SpecEngine SpecAlu PLoop PGates PGates2 PProb PEngine
  MQCircuit SpecQCircuit PQCirc1 PQCirc2 PQCirc3 PQCirc4 PQCirc5 PQCirc6 PQCirc7.
Import ListNotations.
Local Open Scope N_scope.

Lemma all_okg {K : StarRing} n (l : list (@qgate K)) : Forall (good_gate n) l -> Forall (okg n) l.
Proof. intros H. eapply Forall_impl; [|exact H]. intros g Hg. now apply good_wq. Qed.
(** A decision procedure for [good_gate], used on concrete gates. *)
Fixpoint incb (lo n : N) (ps : list N) : bool := match ps with [] => true | p :: t => (lo <=? p) && (p <? n) && incb (p + 1) n t end.
Lemma incb_ok n ps : forall lo, incb lo n ps = true -> increasing_below lo n ps.
Proof. induction ps as [|p t IH]; intros lo; cbn [incb increasing_below]; auto. rewrite !andb_true_iff, N.leb_le, N.ltb_lt. intros [[A B] C]. auto. Qed.
Section G.
  Context {K : StarRing}.
  Definition mateqb (a b : mat2 K) : bool := sr_eqb (m00 a) (m00 b) && sr_eqb (m01 a) (m01 b) && sr_eqb (m10 a) (m10 b) && sr_eqb (m11 a) (m11 b).
  Definition goodb (n : N) (g : @qgate K) : bool :=
    (qg_t g <? n) && incb 0 n (qg_ctl g) && negb (existsb (N.eqb (qg_t g)) (qg_ctl g)) && negb (match qg_pl g with [] => true | _ => false end) &&
    incb 0 (2 ^ N.of_nat (length (qg_ctl g))) (map fst (qg_pl g)) && forallb (fun e => mateqb (mmul (mdag (snd e)) (snd e)) midn) (qg_pl g).
  Lemma goodb_ok n g : goodb n g = true -> good_gate n g.
  Proof.
    unfold goodb. rewrite !andb_true_iff, !negb_true_iff. intros [[[[[A B] C] D] E] F]. split; [now apply N.ltb_lt|]. split; [now apply incb_ok|].
    split. { intros H. assert (X : existsb (N.eqb (qg_t g)) (qg_ctl g) = true). { apply existsb_exists. exists (qg_t g). split; auto. apply N.eqb_refl. } congruence. }
    split. { intros X. rewrite X in D. discriminate D. } split; [now apply incb_ok|]. intros e He. rewrite forallb_forall in F. specialize (F e He).
    unfold mateqb in F. rewrite !andb_true_iff in F. destruct F as [[[F1 F2] F3] F4]. apply mat2_eq; now apply sr_eqb_ok.
  Qed.
  Lemma goodb_all n gs : forallb (goodb n) gs = true -> Forall (good_gate n) gs.
  Proof. intros H. rewrite forallb_forall in H. apply Forall_forall. intros g Hg. apply goodb_ok. auto. Qed.
End G.
Section H.
  Context {K : StarRing}.
  Add Ring KrAC : (sr_ring K).
  Implicit Types (qc : @qcirc K) (gs : list (@qgate K)) (psi : mem K).
  Lemma okg_all n gs : Forall (okg n) gs -> Forall (gd n) gs.
  Proof. intros H. eapply Forall_impl; [|exact H]. intros g. apply okg_gd. Qed.
  Lemma okg_ne n gs : Forall (okg n) gs -> Forall ne gs.
  Proof. intros H. eapply Forall_impl; [|exact H]. intros g Hg. apply Hg. Qed.
  Lemma run_pe_spec c rgp maxQB qc n gs (spec : N -> K) psi : fits c n -> qc_ok n qc /\ Forall (okg n) gs /\ pe gs (qc_gates qc) ->
    (forall x, x < 2 ^ n -> spec x = effects gs psi x) ->
    every_run (Run c rgp maxQB qc (mkEng n (Some psi))) (fun r => exists psi', r = Some (Ok (mkEng n (Some psi'))) /\ phase_equal n spec psi').
  Proof.
    intros Hf ((O1 & O2) & Og & p & P1 & P2) HS. destruct (run_same c rgp maxQB qc n psi Hf O2 (okg_all n _ O1)) as [He Ha]. split; auto.
    intros r Hr. destruct (Ha r Hr) as (q & ph & -> & A & _ & B). exists q. split; auto. exists (p * ph)%amp. split. { rewrite (anorm_mul K), P1, A. ring. }
    intros x Hx. rewrite HS by auto. rewrite effects_effs by now apply (okg_ne n). rewrite P2. rewrite <- (effects_effs (qc_gates qc)) by now apply (okg_ne n). rewrite B by auto. ring.
  Qed.
  Lemma run_pe c rgp maxQB qc n gs psi : fits c n -> qc_ok n qc /\ Forall (okg n) gs /\ pe gs (qc_gates qc) ->
    every_run (Run c rgp maxQB qc (mkEng n (Some psi))) (fun r => exists psi', r = Some (Ok (mkEng n (Some psi'))) /\ phase_equal n (effects gs psi) psi').
  Proof. intros Hf H. now apply run_pe_spec with (gs := gs). Qed.
  Lemma run_pe_wide c rgp maxQB qc n gs psi : fits c (qc_count qc) -> 0 < n -> n < qc_count qc -> qc_count qc <= maxQB -> Forall (okg (qc_count qc)) (qc_gates qc) -> Forall ne gs -> pe gs (qc_gates qc) ->
    every_run (Run c rgp maxQB qc (mkEng n (Some psi))) (fun r => exists psi', r = Some (Ok (mkEng (qc_count qc) (Some psi'))) /\
      phase_equal (qc_count qc) (effects gs (tensor n psi (ket 0))) psi').
  Proof.
    intros Hf H0 Hn HM O1 Og (p & P1 & P2). destruct (run_wide c rgp maxQB qc n psi Hf H0 Hn HM (okg_all _ _ O1)) as [He Ha]. split; auto.
    intros r Hr. destruct (Ha r Hr) as (q & ph & -> & A & _ & B). exists q. split; auto. exists (p * ph)%amp. split. { rewrite (anorm_mul K), P1, A. ring. }
    intros x Hx. rewrite effects_effs by auto. rewrite P2. rewrite <- (effects_effs (qc_gates qc)) by now apply (okg_ne (qc_count qc)). unfold wide in B. rewrite B by auto. ring.
  Qed.
  Lemma weight_phase n (P : N -> bool) (a b : mem K) ph : anorm ph = 1%amp -> (forall x, x < 2 ^ n -> a x = (ph * b x)%amp) -> weight_of n P a = weight_of n P b.
  Proof.
    intros H E. unfold weight_of. apply asum_ext. intros x Hx. apply basis_In in Hx. destruct (P x); auto. rewrite E by auto. rewrite (anorm_mul K), H. ring.
  Qed.
End H.

Lemma l_c49_append_run : forall (K : StarRing) (c : cfg) rgp maxQB (i : K) (qc : @qcirc K) n gs (psi : mem K), fits c n -> qc_count qc <= n -> Forall (good_gate n) (qc_gates qc) -> Forall (good_gate n) gs ->
  every_run (Run c rgp maxQB (AppendGates i qc gs) (mkEng n (Some psi))) (fun r =>
    exists psi', r = Some (Ok (mkEng n (Some psi'))) /\ phase_equal n (effects (qc_gates qc ++ gs) psi) psi').
Proof. intros K c rgp maxQB i qc n gs psi Hf Hc H1 H2. apply all_okg in H1, H2. apply run_pe; auto.
  assert (Hn : n < 64) by apply Hf. destruct (AppendGates_ok n i gs ltac:(lia) qc (conj H1 Hc) H2) as (A & B & C). split; auto. split; [now apply Forall_app|exact C]. Qed.

Lemma l_c49_append_run_wide : forall (K : StarRing) (c : cfg) rgp maxQB (i : K) clifford m n gs (psi : mem K), let qc := AppendGates i (qc_new true clifford) gs in Forall (good_gate m) gs -> m <= 126 ->
  n < qc_count qc -> 0 < n -> fits c (qc_count qc) -> qc_count qc <= maxQB ->
  every_run (Run c rgp maxQB qc (mkEng n (Some psi))) (fun r =>
    exists psi', r = Some (Ok (mkEng (qc_count qc) (Some psi'))) /\ phase_equal (qc_count qc) (effects gs (tensor n psi (ket 0))) psi').
Proof. intros K c rgp maxQB i clifford m n gs psi qc H2 Hm Hc H0 Hf HM. apply all_okg in H2. subst qc. apply run_pe_wide; auto.
  - destruct (AppendGates_fit i gs (qc_new true clifford)) as [(A & B & C) _]; auto.
    + split; [reflexivity|]. split; [cbn; lia|constructor].
    + eapply Forall_impl; [|exact H2]. intros g. now apply okg_mono.
  - eapply Forall_impl; [|exact H2]. intros g H. apply H.
  - destruct (AppendGates_ok m i gs Hm (qc_new true clifford)) as (_ & _ & C); auto. split; [constructor|cbn; lia]. Qed.

Lemma l_c49_recursion_bound : forall (K : StarRing) (i : K) (qc : @qcirc K) fuel g, (length (qc_gates qc) < fuel)%nat ->
  append i (qc_clifford qc) fuel (qc_count qc, qc_gates qc) g = append i (qc_clifford qc) (S (length (qc_gates qc))) (qc_count qc, qc_gates qc) g.
Proof. intros K i qc fuel g H. apply append_fuel; cbn [snd]; lia. Qed.

Lemma l_c49_exact_refuted : exists c n gs (psi : mem GI), fits c n /\ Forall (good_gate n) gs /\
  ~ every_run (Run c false 64 (AppendGates (K := GI) (0, 1)%Z (qc_new true false) gs) (mkEng n (Some psi))) (fun r =>
      exists psi', r = Some (Ok (mkEng n (Some psi'))) /\ eqv n psi' (effects gs psi)).
Proof. exists (mkCfg 4 2), 1, [gate_1 0 (mkMat (K := GI) (-1, 0) (0, 0) (0, 0) (-1, 0))%Z], (ket 0). split; [vm_compute; repeat split; discriminate|].
  split. { apply goodb_all. reflexivity. }
  intros [_ H]. change (AppendGates _ _ _) with (qc_new true false : @qcirc GI) in H.
  destruct (H (Some (Ok (mkEng 1 (Some (ket 0)))))) as (psi' & E & F). { exists (Some (Ok (Some (ket 0)))). split; reflexivity. }
  injection E as <-. specialize (F 0 ltac:(reflexivity)). discriminate F. Qed.

Lemma l_c50_inverse : forall (K : StarRing) (c : cfg) rgp maxQB (qc : @qcirc K) n (psi : mem K), fits c n -> qc_count qc <= n -> Forall (fun g => good_gate n g \/ good_swap n g) (qc_gates qc) ->
  every_run (Run c rgp maxQB qc (mkEng n (Some psi))) (fun r => exists e1, r = Some (Ok e1) /\
    every_run (Run c rgp maxQB (Inverse qc) e1) (fun r2 => exists psi2 ph, r2 = Some (Ok (mkEng n (Some psi2))) /\ anorm ph = 1%amp /\ (rgp = false -> ph = 1%amp) /\
      forall x, x < 2 ^ n -> psi x = (ph * psi2 x)%amp)).
Proof. intros K c rgp maxQB qc n psi Hf Hc Hg. change (Forall (gd n) (qc_gates qc)) in Hg. destruct (run_same c rgp maxQB qc n psi Hf Hc Hg) as [He Ha]. split; auto.
  intros r Hr. destruct (Ha r Hr) as (p1 & ph1 & -> & A1 & A2 & A3). exists (mkEng n (Some p1)). split; auto.
  assert (Hi := inv_all n _ Hg). destruct (run_same c rgp maxQB (Inverse qc) n p1 Hf Hc Hi) as [He2 Ha2]. split; auto.
  intros r2 Hr2. destruct (Ha2 r2 Hr2) as (p2 & ph2 & -> & B1 & B2 & B3). exists p2, (ph1 * ph2)%amp. split; auto.
  split. { rewrite (anorm_mul K), A1, B1. apply (Rmul_1_l (sr_ring K)). } split. { intros F. rewrite A2, B2 by auto. apply (Rmul_1_l (sr_ring K)). }
  intros x Hx. rewrite <- (inv_effects n (qc_gates qc) psi x Hg). rewrite (effects_eqv n _ Hi _ (fun y => ph1 * p1 y)%amp) by (auto; intros y Hy; now apply A3).
  rewrite (effects_scale n) by auto. change (rev (map inv_gate (qc_gates qc))) with (qc_gates (Inverse qc)). rewrite B3 by auto. apply (Rmul_assoc (sr_ring K)). Qed.

Lemma l_c51_swap : forall (K : StarRing) (c : cfg) rgp maxQB (i : K) (qc : @qcirc K) n q1 q2 (psi : mem K), fits c n -> qc_count qc <= n -> Forall (good_gate n) (qc_gates qc) -> q1 < n -> q2 < n ->
  every_run (Run c rgp maxQB (qc_Swap i qc q1 q2) (mkEng n (Some psi))) (fun r =>
    exists psi', r = Some (Ok (mkEng n (Some psi'))) /\ phase_equal n (fun x => effects (qc_gates qc) psi (swap_bits q1 q2 x)) psi').
Proof. intros K c rgp maxQB i qc n q1 q2 psi Hf Hc H1 L1 L2. apply all_okg in H1. assert (Hn : n < 64) by apply Hf. unfold qc_Swap. destruct (N.eqb_spec q1 q2).
  - subst q2. assert (E : forall x, swap_bits q1 q1 x = x). { intros x. apply N.bits_inj. intros q. rewrite tb_swap. now destruct (N.eqb_spec q1 q); subst. }
    apply run_pe_spec with (gs := qc_gates qc); auto. { split; [now split|]. split; auto. apply pe_refl. } intros x _. now rewrite E.
  - destruct (swap_gates_ok (K := K) n (N.min q1 q2) (N.max q1 q2)) as [S1 S2]; try lia.
    destruct (AppendGates_ok n i _ ltac:(lia) qc (conj H1 Hc) S1) as (A & B & C).
    apply run_pe_spec with (gs := qc_gates qc ++ [gate_c (N.min q1 q2) mat_X [N.max q1 q2] 1; gate_c (N.max q1 q2) mat_X [N.min q1 q2] 1; gate_c (N.min q1 q2) mat_X [N.max q1 q2] 1]); auto.
    + split; auto. split; [now apply Forall_app|exact C].
    + intros x _. rewrite effects_app, S2. f_equal. destruct (N.le_ge_cases q1 q2); [rewrite N.min_l, N.max_r by auto; reflexivity|]. rewrite N.min_r, N.max_l by auto.
      apply N.bits_inj. intros q. rewrite !tb_swap. destruct (N.eqb_spec q1 q), (N.eqb_spec q2 q); subst; congruence. Qed.

Lemma l_c51_swap_gate_uncollapsed : forall (K : StarRing) (c : cfg) rgp maxQB (i : K) clifford n q1 q2 (psi : mem K), fits c n -> q1 < n -> q2 < n -> q1 <> q2 ->
  every_run (Run c rgp maxQB (AppendGate i (qc_new false clifford) (swap_gate q1 q2)) (mkEng n (Some psi))) (fun r =>
    exists psi', r = Some (Ok (mkEng n (Some psi'))) /\ phase_equal n (fun x => psi (swap_bits q1 q2 x)) psi').
Proof. intros K c rgp maxQB i clifford n q1 q2 psi Hf L1 L2 Hne.
  assert (G : Forall (gd n) (qc_gates (AppendGate i (qc_new false clifford) (swap_gate q1 q2) : @qcirc K))).
  { constructor; [right|constructor]. split; [reflexivity|]. exists q2. cbn. auto. }
  destruct (run_same c rgp maxQB (AppendGate i (qc_new false clifford) (swap_gate q1 q2)) n psi Hf) as [He Ha]; auto; [cbn; lia|]. split; auto.
  intros r Hr. destruct (Ha r Hr) as (p & ph & -> & A & _ & B). exists p. split; auto. exists ph. split; auto. intros x Hx. rewrite <- B by auto. cbn. f_equal.
  apply N.bits_inj. intros q. rewrite !tb_swap. destruct (N.eqb_spec q1 q), (N.eqb_spec q2 q); subst; congruence. Qed.

Lemma l_c51_swap_gate_refuted : (forall (K : StarRing) (i : K) (qc : @qcirc K) q1 q2, qc_collapsed qc = true -> AppendGate i qc (swap_gate q1 q2) = qc) /\
  exists c, fits c 2 /\
  ~ every_run (Run c false 64 (AppendGate (K := GI) (0, 1)%Z (qc_new true false) (swap_gate 0 1)) (mkEng 2 (Some (ket 1 : mem GI)))) (fun r =>
      exists psi', r = Some (Ok (mkEng 2 (Some psi'))) /\ phase_equal 2 (fun x => ket 1 (swap_bits 0 1 x)) psi').
Proof. split. { intros K i qc q1 q2 H. unfold AppendGate. rewrite H. destruct qc as [a b n gs]. cbn in *. now subst. }
  exists (mkCfg 4 2). split; [vm_compute; repeat split; discriminate|].
  intros [_ H]. change (AppendGate _ _ _) with (qc_new true false : @qcirc GI) in H.
  destruct (H (Some (Ok (mkEng 2 (Some (ket 1)))))) as (psi' & E & ph & A & B). { exists (Some (Ok (Some (ket 1)))). split; reflexivity. }
  injection E as <-. specialize (B 2 ltac:(reflexivity)). cbn in B. destruct ph as [a b]. cbn in B. injection B as B1 B2. lia. Qed.

Lemma l_c52_round_trip : forall (K : StarRing) (fmt : K -> K) (c0 c : @qcirc K) n l, n < 256 -> qc_count c <= n -> N.of_nat (length (qc_gates c)) < 2 ^ 64 ->
  Forall (fun g => good_gate n g \/ good_swap n g) (qc_gates c) ->
  (forall g e, In g (qc_gates c) -> In e (qg_pl g) -> fst e < 2 ^ 64 /\ fmt (m00 (snd e)) = m00 (snd e) /\ fmt (m01 (snd e)) = m01 (snd e) /\
     fmt (m10 (snd e)) = m10 (snd e) /\ fmt (m11 (snd e)) = m11 (snd e)) ->
  get_circ c0 (put_circ fmt c ++ l) = Some (mkQC (qc_collapsed c0) (qc_clifford c0) (qc_count c) (qc_gates c), l).
Proof. intros K fmt c0 c n l Hn Hc HL HG HE. apply get_circ_ok; auto; [lia|]. rewrite Forall_forall in *. intros g Hg. specialize (HG g Hg). unfold writable, kept.
  assert (E : forall e, In e (qg_pl g) -> fst e < 2 ^ 64 /\ fmt (m00 (snd e)) = m00 (snd e) /\ fmt (m01 (snd e)) = m01 (snd e) /\
     fmt (m10 (snd e)) = m10 (snd e) /\ fmt (m11 (snd e)) = m11 (snd e)) by (intros e He; now apply (HE g)).
  destruct HG as [G|G].
  - apply good_wq in G. destruct G as [(A & B & C & D & F & _) _]. split; [lia|]. split; auto. split. { intros q Hq. specialize (C q Hq). lia. } split; auto.
  - destruct G as (P & q & Eq & H1 & H2 & H3). rewrite P, Eq in *. split; [lia|]. split; [repeat constructor|]. split. { intros r [<-|[]]. lia. } split; [constructor|intros e []]. Qed.

Lemma l_c52_wide_key_refuted : exists (c c' : @qcirc GI), Forall (good_gate 66) (qc_gates c) /\ qc_count c = 66 /\ get_circ (qc_new true false) (put_circ (fun a => a) c) = Some (c', []) /\
  exists x, x < 2 ^ 66 /\ effects (qc_gates c') (ket 0) x <> effects (qc_gates c) (ket 0) x.
Proof. exists (mkQC true false 66 [gate_c 0 mat_X (iota 1 65) (2 ^ 64)]), (mkQC true false 66 [gate_c 0 mat_X (iota 1 65) 0]).
  split. { apply goodb_all. reflexivity. }
  split; [reflexivity|]. split; [vm_compute; reflexivity|]. exists 0. split; [reflexivity|]. vm_compute. discriminate. Qed.

Lemma l_c52_precision_refuted : forall (K : StarRing) (fmt : K -> K) (a : K), fmt a <> a -> exists c : @qcirc K, qc_count c = 1 /\
  get_circ c (put_circ fmt c) <> Some (c, []).
Proof. intros K fmt a H. exists (mkQC true false 1 [gate_1 0 (mkMat a 0%amp 0%amp 1%amp)]). split; [reflexivity|]. vm_compute. intros E. injection E as E. auto. Qed.

Lemma l_c78_count_covers : forall (K : StarRing) (i : K) clifford m gs, m <= 126 -> Forall (good_gate m) gs ->
  let qc := AppendGates i (qc_new true clifford) gs in qc_count qc <= m /\ Forall (good_gate (qc_count qc)) (qc_gates qc).
Proof. intros K i clifford m gs Hm H qc. subst qc. apply all_okg in H. destruct (AppendGates_ok m i gs Hm (qc_new true clifford)) as ([_ X] & _); auto. { split; [constructor|cbn; lia]. } split; auto.
  destruct (AppendGates_fit i gs (qc_new true clifford)) as [(A & B & C) _]; auto.
    + split; [reflexivity|]. split; [cbn; lia|constructor].
    + eapply Forall_impl; [|exact H]. intros g. now apply okg_mono.
    + eapply Forall_impl; [|exact C]. intros g Hg. now apply good_wq. Qed.

Lemma l_c78_uncollapsed_refuted : forall (K : StarRing) (i : K) clifford gs, qc_count (AppendGates i (qc_new false clifford) gs : @qcirc K) = 0 /\ qc_gates (AppendGates i (qc_new false clifford) gs) = gs.
Proof. intros K i clifford gs. assert (G : forall (qc : @qcirc K) l, qc_collapsed qc = false -> qc_count (AppendGates i qc l) = qc_count qc /\ qc_gates (AppendGates i qc l) = qc_gates qc ++ l).
  { intros qc l. revert qc. unfold AppendGates. induction l as [|g t IH]; intros qc H; cbn [fold_left]. { now rewrite app_nil_r. }
    assert (E : AppendGate i qc g = mkQC false (qc_clifford qc) (qc_count qc) (qc_gates qc ++ [g])) by (unfold AppendGate; now rewrite H). rewrite E.
    destruct (IH (mkQC false (qc_clifford qc) (qc_count qc) (qc_gates qc ++ [g])) eq_refl) as [A B]. cbn [qc_count qc_gates] in *. split; auto. rewrite B, <- app_assoc. reflexivity. }
  apply (G (qc_new false clifford) gs eq_refl). Qed.

Lemma l_c79_light_cone : forall (K : StarRing) (c : cfg) rgp maxQB (qc : @qcirc K) n qs P (psi : mem K), fits c n -> qc_count qc <= n -> Forall (fun g => good_gate n g \/ good_swap n g) (qc_gates qc) -> depends_on qs P ->
  every_run (Run c rgp maxQB qc (mkEng n (Some psi))) (fun r => exists psi1, r = Some (Ok (mkEng n (Some psi1))) /\
    every_run (Run c rgp maxQB (fst (PastLightCone qc qs)) (mkEng n (Some psi))) (fun r2 => exists psi2, r2 = Some (Ok (mkEng n (Some psi2))) /\
      weight_of n P psi2 = weight_of n P psi1)).
Proof. intros K c rgp maxQB qc n qs P psi Hf Hc Hg HD. change (Forall (gd n) (qc_gates qc)) in Hg. destruct (run_same c rgp maxQB qc n psi Hf Hc Hg) as [He Ha]. split; auto.
  intros r Hr. destruct (Ha r Hr) as (p1 & ph1 & -> & A1 & A2 & A3). exists p1. split; auto.
  destruct (cone_ok n P (rev (qc_gates qc)) (Forall_rev Hg) [] qs (Forall_nil _)) as (B1 & _ & _ & _ & B2); auto. { intros h q []. }
  destruct (run_same c rgp maxQB (fst (PastLightCone qc qs)) n psi Hf Hc B1) as [He2 Ha2]. split; auto.
  intros r2 Hr2. destruct (Ha2 r2 Hr2) as (p2 & ph2 & -> & C1 & C2 & C3). exists p2. split; auto.
  specialize (B2 psi). rewrite rev_involutive, app_nil_r in B2. rewrite (weight_phase n P _ p1 ph1 A1 A3) in B2. rewrite B2. symmetry. apply (weight_phase n P _ p2 ph2 C1 C3). Qed.

Lemma l_c79_cone_set : forall (K : StarRing) (qc : @qcirc K) n qs, Forall (fun g => good_gate n g \/ good_swap n g) (qc_gates qc) ->
  let r := PastLightCone qc qs in (forall q, In q qs -> In q (snd r)) /\
  forall g, In g (qc_gates (fst r)) -> In g (qc_gates qc) /\ forall q, In q (qg_t g :: qg_ctl g) -> In q (snd r).
Proof. intros K qc n qs Hg r. change (Forall (gd n) (qc_gates qc)) in Hg. subst r.
  destruct (cone_ok n (fun _ => true) (rev (qc_gates qc)) (Forall_rev Hg) [] qs (Forall_nil _)) as (_ & B & C & D & _). { intros h q []. } { intros x y _. reflexivity. }
  split; [exact C|]. intros g Hin. split. { destruct (B g Hin) as [X|[]]. now apply in_rev. } intros q Hq. exact (D g q Hin Hq). Qed.

Lemma l_c80_inc : forall (K : StarRing) (c : cfg) rgp maxQB (i : K) (qc : @qcirc K) n a s len (psi : mem K), fits c n -> qc_count qc <= n -> Forall (good_gate n) (qc_gates qc) -> s + len <= n ->
  every_run (Run c rgp maxQB (qc_INC i qc a s len) (mkEng n (Some psi))) (fun r => exists psi' spec, r = Some (Ok (mkEng n (Some psi'))) /\
    basis_map n always (add_reg s len a) (fun _ => 1%amp) (effects (qc_gates qc) psi) spec /\ phase_equal n spec psi').
Proof. intros K c rgp maxQB i qc n a s len psi Hf Hc H1 Hs. apply all_okg in H1. assert (Hn : n < 64) by apply Hf.
  assert (HI := inc_ok (K := K) n a s len Hs). destruct (AppendGates_ok n i (inc_gates a s len) ltac:(lia) qc (conj H1 Hc) HI) as (A & B & C).
  destruct (run_pe c rgp maxQB (qc_INC i qc a s len) n (qc_gates qc ++ inc_gates a s len) psi Hf) as [He Ha]; [split; auto; split; [now apply Forall_app|exact C]|].
  split; auto. intros r Hr. destruct (Ha r Hr) as (p & -> & X). exists p, (effects (qc_gates qc ++ inc_gates a s len) psi). split; auto. split; auto. rewrite effects_app. now apply inc_effects. Qed.

Lemma l_c81_delete_controls : forall (K : StarRing) (qc : @qcirc K) n q b (psi : mem K), n <= 126 ->
  Forall (fun g => good_gate n g /\ qg_t g <> q /\ (In q (qg_ctl g) -> exists e, In e (qg_pl g) /\ N.testbit (fst e) (spos q (qg_ctl g)) = b)) (qc_gates qc) ->
  (forall x, N.testbit x q <> b -> psi x = 0%amp) ->
  Forall (good_gate n) (qc_gates (DeletePhaseTarget qc q b)) /\ (forall g, In g (qc_gates (DeletePhaseTarget qc q b)) -> ~ In q (qg_t g :: qg_ctl g)) /\
  forall x, effects (qc_gates (DeletePhaseTarget qc q b)) psi x = effects (qc_gates qc) psi x.
Proof. intros K qc n q b psi Hn HG HE.
  assert (FL : filter (fun g => negb (qg_t g =? q)) (qc_gates qc) = qc_gates qc).
  { clear HE. induction HG as [|g t (A & B & C) Ht IH]; cbn [filter]; auto. destruct (N.eqb_spec (qg_t g) q); [contradiction|]. cbn [negb]. now rewrite IH. }
  assert (HG' : Forall (fun g => okg n g /\ qg_t g <> q /\ alive q b g) (qc_gates qc)).
  { eapply Forall_impl; [|exact HG]. intros g (A & B & C). split; [now apply good_wq|]. split; auto. }
  unfold DeletePhaseTarget. cbn [qc_gates]. rewrite FL. destruct (delete_ok n (qc_gates qc) q b Hn HG' psi HE) as [A B].
  split. { eapply Forall_impl; [|exact A]. intros g Hg. now apply good_wq. } split.
  - intros g Hg. apply in_map_iff in Hg. destruct Hg as (g0 & <- & Hg). rewrite Forall_forall in HG'. destruct (HG' g0 Hg) as (O & T & AL).
    destruct (ps_ok n g0 q b Hn O AL) as (_ & T2 & NC & _). rewrite T2. intros [F|F]; auto.
  - intros x. rewrite !effects_effs. apply B. eapply Forall_impl; [|exact HG']. intros g Hg. apply Hg. eapply Forall_impl; [|exact A]. intros g Hg. apply Hg. Qed.

Lemma l_c81_null_matrix_refuted : exists (c : cfg) (qc : @qcirc GI), Forall (good_gate 2) (qc_gates qc) /\ IsNonPhaseTarget qc 1 = false /\
  Run c false 64 (DeletePhaseTarget qc 1 false) (mkEng 2 (Some (ket 0))) None.
Proof. exists (mkCfg 4 2), (mkQC true false 2 [gate_c 0 mat_X [1] 1]). split. { apply goodb_all. reflexivity. } split; [reflexivity|].
  exists None. split; [|reflexivity]. exists None. split; reflexivity. Qed.

Lemma l_c81_swap_refuted : exists (qc : @qcirc GI), Forall (good_gate 3) (qc_gates qc) /\ IsNonPhaseTarget qc 2 = false /\
  exists x, x < 2 ^ 3 /\ effects (qc_gates (DeletePhaseTarget qc 2 false)) (ket 1) x <> effects (qc_gates qc) (ket 1) x.
Proof. exists (mkQC true false 3 [gate_c 0 mat_X [1; 2] 3]). split. { apply goodb_all. reflexivity. }
  split; [reflexivity|]. exists 1. split; [reflexivity|]. vm_compute. discriminate. Qed.

Lemma l_c81_phase_refuted : exists (qc : @qcirc GI) (psi : mem GI), Forall (good_gate 2) (qc_gates qc) /\ IsNonPhaseTarget qc 1 = false /\ (forall x, N.testbit x 1 <> true -> psi x = 0%amp) /\
  ~ phase_equal 2 (effects (qc_gates qc) psi) (effects (qc_gates (DeletePhaseTarget qc 1 true)) psi).
Proof. exists (mkQC true false 2 [gate_c 1 (mkMat (K := GI) (1, 0) (0, 0) (0, 0) (-1, 0))%Z [0] 1]), (fun x => if N.testbit x 1 then (1, 0)%Z else (0, 0)%Z). split.
  { apply goodb_all. reflexivity. }
  split; [reflexivity|]. split. { intros x H. destruct (N.testbit x 1); [congruence|reflexivity]. }
  intros (ph & A & B). assert (B2 := B 2 ltac:(reflexivity)). assert (B3 := B 3 ltac:(reflexivity)). vm_compute in B2, B3. destruct ph as [p q]. vm_compute in B2, B3.
  injection B2 as B2 _. injection B3 as B3 _. rewrite <- B2 in B3. discriminate B3. Qed.

Lemma l_c82_append : forall (K : StarRing) (c : cfg) rgp maxQB (q1 q2 : @qcirc K) n (psi : mem K), fits c n -> qc_count q1 <= n -> qc_count q2 <= n ->
  Forall (fun g => good_gate n g \/ good_swap n g) (qc_gates q1) -> Forall (fun g => good_gate n g \/ good_swap n g) (qc_gates q2) ->
  every_run (Run c rgp maxQB (qc_Append q1 q2) (mkEng n (Some psi))) (fun r =>
    exists psi', r = Some (Ok (mkEng n (Some psi'))) /\ phase_equal n (effects (qc_gates q2) (effects (qc_gates q1) psi)) psi').
Proof. intros K c rgp maxQB q1 q2 n psi Hf C1 C2 G1 G2.
  destruct (run_same c rgp maxQB (qc_Append q1 q2) n psi Hf) as [He Ha]. { cbn [qc_Append qc_count]. destruct (_ <? _); auto. } { apply Forall_app. split; auto. }
  split; auto. intros r Hr. destruct (Ha r Hr) as (p & ph & -> & A & _ & B). exists p. split; auto. exists ph. split; auto. intros x Hx. rewrite <- B by auto.
  cbn [qc_Append qc_gates]. now rewrite effects_app. Qed.

Lemma l_c82_combine : forall (K : StarRing) (c : cfg) rgp maxQB (i : K) (q1 q2 : @qcirc K) n (psi : mem K), fits c n -> qc_count q1 <= n -> qc_count q2 <= n -> Forall (good_gate n) (qc_gates q1) -> Forall (good_gate n) (qc_gates q2) ->
  every_run (Run c rgp maxQB (qc_Combine i q1 q2) (mkEng n (Some psi))) (fun r =>
    exists psi', r = Some (Ok (mkEng n (Some psi'))) /\ phase_equal n (effects (qc_gates q2) (effects (qc_gates q1) psi)) psi').
Proof. intros K c rgp maxQB i q1 q2 n psi Hf C1 C2 G1 G2. apply all_okg in G1, G2. assert (Hn : n < 64) by apply Hf. rewrite <- effects_app.
  apply run_pe; auto. unfold qc_Combine. set (q1' := mkQC _ _ _ _).
  destruct (AppendGates_ok n i (qc_gates q2) ltac:(lia) q1') as (A & B & C); auto. { split; [exact G1|]. cbn [qc_count q1']. destruct (_ <? _); auto. }
  split; auto. split; [now apply Forall_app|exact C]. Qed.
