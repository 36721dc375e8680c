(** The statements about the stabilizer simulator. *)
From Coq Require Import NArith ZArith List Bool Lia Ring.
From Verif Require Import Amp PAmp AmpF MParFor MQCircuit MEngine MStab SpecState SpecStab SpecStab2 PStab1 PStab2 PStab3 PStab4 PStab5 PStab6 PStab7 PStab8 PStab10 PStab11 PStab12 PStab13.
Import ListNotations.
Local Open Scope N_scope.

Lemma l_c55_conjugates : forall T g, t_n T <= 127 -> (forall i, i < 2 * t_n T -> row_fits (t_n T) (t_row T i)) -> gate_fits (t_n T) g ->
  exists T1, sg_run true T g = Ok (match g with GZ _ => reduced T1 | _ => T1 end) /\ t_n T1 = t_n T /\
  forall (K : StarRing) (im h : K) i psi y, (im * im = - (1))%amp -> i < 2 * t_n T ->
    gate_act im h g (row_op im (t_n T) (t_row T i) psi) y = row_op im (t_n T) (t_row T1 i) (gate_act im h g psi) y.
Proof. intros T g Hn HR Hg. exists (map_rows T (gate_row g)). split; [|split; [reflexivity|]].
  - destruct g; cbn [gate_fits sg_run gate_row] in *; try destruct Hg as (Hc & Ht & Hne); unfold sg_x, sg_y, sg_z, sg_s, sg_is, sg_h, sg_cnot, sg_anticnot, sg_cy, sg_anticy, sg_cz, sg_anticz, sg_swap, sg_iswap, sg_iiswap;
      try (replace (a =? b) with false by (symmetry; now apply N.eqb_neq)); unfold par_rows; cbn [existsb];
      repeat match goal with H : ?x < t_n T |- _ => rewrite (proj2 (N.leb_gt (t_n T) x) H); clear H end; cbn [orb rbind]; reflexivity.
  - intros K im h i psi y Him Hi. unfold map_rows. cbn [t_row]. replace (max_lcv (t_n T)) with (2 * t_n T) by (symmetry; unfold max_lcv, w8; apply N.mod_small; lia).
    replace (i <? 2 * t_n T) with true by (symmetry; now apply N.ltb_lt). apply (gate_conj im h Him); auto. now apply HR. Qed.

Lemma l_c55_circuit : forall (K : StarRing) (im h : K), (im * im = - (1))%amp -> (h * h + h * h = 1)%amp -> no_torsion K -> forall rgp T l, reachable T -> Forall (gate_fits (t_n T)) l ->
  exists T', sg_circuit rgp T l = Ok T' /\ t_n T' = t_n T /\ reachable T' /\ forall psi, describes im T psi -> describes im T' (circuit_act im h l psi).
Proof. intros K im h Him Hh tors rgp T l R HF. now apply step_reach. Qed.

Lemma l_c55_from_basis_state : forall (K : StarRing) (im h : K), (im * im = - (1))%amp -> (h * h + h * h = 1)%amp -> no_torsion K -> forall rgp n perm l, n <= 127 -> Forall (gate_fits n) l ->
  exists T T', set_permutation rgp n perm = Ok T /\ sg_circuit rgp T l = Ok T' /\ t_n T' = n /\ describes im T' (circuit_act im h l (ket (perm mod 2 ^ n))).
Proof. intros K im h Him Hh tors rgp n perm l Hn HF. destruct (set_permutation_good im h Him Hh tors rgp n perm Hn) as (T & E & N1 & V & G). subst n. destruct (step_circuit im h Him Hh tors rgp l T HF V) as (T' & E' & N2 & V' & G').
  exists T, T'. split; auto. split; auto. split; auto. now apply G'. Qed.

Lemma l_c55_wide_refuted : exists T T', set_permutation true 128 0 = Ok T /\ sg_run true T (GX 0) = Ok T' /\ (forall rnd, exists T'', force_m true rnd T' 0 false false true = Ok (false, T'')) /\
  has_value 128 0 true (gate_act gim 0%amp (GX 0) (@ket GI 0)).
Proof. exists (tab_zero 128). eexists. split; [reflexivity|]. split; [reflexivity|]. split.
  - intros rnd. eexists. vm_compute. reflexivity.
  - intros y Hy Hb. cbn [gate_act]. rewrite (x_ket gim gim_sq 0 0 y). unfold ket. destruct (N.eqb_spec y (N.lxor 0 (2 ^ 0))) as [E|E]; [|reflexivity]. exfalso. apply Hb. rewrite E. reflexivity. Qed.

Lemma l_c56_pattern : forall T, reachable T -> t_n T <= 127 /\ (forall i, i < 2 * t_n T -> row_fits (t_n T) (t_row T i) /\ rr (t_row T i) < 4) /\
  forall (K : StarRing) (im : K), (im * im = - (1))%amp -> commutation_pattern im T.
Proof. intros T R. assert (V := reachable_valid T R). split; [apply V|]. split; [intros i Hi; now apply V|]. now apply pattern_of. Qed.

Lemma l_c56_row_operations : forall T i k, reachable T -> i < t_n T -> k < t_n T -> i <> k ->
  let n := t_n T in
  let T1 := rowmult (rowmult T (n + k) (n + i)) i k in
  let T2 := rowswap (rowswap T (n + i) (n + k)) i k in
  forall (K : StarRing) (im : K), (im * im = - (1))%amp -> commutation_pattern im T1 /\ commutation_pattern im T2 /\
    forall psi, (describes im T1 psi <-> describes im T psi) /\ (describes im T2 psi <-> describes im T psi).
Proof. intros T i k R Hi Hk Hne n T1 T2 K im Him. assert (V := reachable_valid T R).
  assert (E1 : T1 = elim_step T (n + k) (n + i)) by (unfold T1, elim_step; fold n; f_equal; lia). assert (E2 : T2 = swap_step T (n + i) (n + k)) by (unfold T2, swap_step; fold n; f_equal; lia).
  destruct (equi_elim T (n + k) (n + i)) as [N1 Q1]; try (fold n in Hi, Hk |- *; lia). destruct (equi_swap T (n + i) (n + k)) as [N2 Q2]; try (fold n in Hi, Hk |- *; lia).
  rewrite <- E1 in Q1. rewrite <- E2 in Q2. destruct (Q1 V) as [V1 G1]. destruct (Q2 V) as [V2 G2]. split; [now apply pattern_of|]. split; [now apply pattern_of|]. intros psi. split; [apply (G1 K im Him)|apply (G2 K im Him)]. Qed.

Lemma l_c56_one_state : forall T, reachable T -> (exists psi : N -> GI, describes gim T psi /\ exists y, y < 2 ^ t_n T /\ psi y = 1%amp) /\
  exists s, s < 2 ^ t_n T /\ forall (K : StarRing) (im : K), (im * im = - (1))%amp -> no_torsion K -> forall psi psi', describes im T psi -> describes im T psi' ->
    forall y, y < 2 ^ t_n T -> (psi s * psi' y = psi' s * psi y)%amp.
Proof. intros T R. assert (V := reachable_valid T R). split; [now apply gi_state|]. destruct (all_amps_spec T V) as (_ & _ & _ & s & Hs & A). exists s. split; auto. intros K im Him tors psi psi' G G' y Hy.
  rewrite (A K im psi Him tors G y Hy), (A K im psi' Him tors G' y Hy). rewrite (ARmul_assoc (Rth_ARth (Eqsth K) (Eq_ext (@sr_add K) (@sr_mul K) (@sr_opp K)) (sr_ring K))). rewrite (Rmul_comm (sr_ring K) (psi s) (psi' s)). now rewrite <- (Rmul_assoc (sr_ring K)). Qed.

Lemma l_c57_rowmult : forall T i k, row_fits (t_n T) (t_row T i) -> row_fits (t_n T) (t_row T k) ->
  (forall (K : StarRing) (im : K) psi y, (im * im = - (1))%amp ->
     row_op im (t_n T) (t_row (rowmult T i k) i) psi y = row_op im (t_n T) (t_row T k) (row_op im (t_n T) (t_row T i) psi) y) /\
  (forall j, j <> i -> t_row (rowmult T i k) j = t_row T j).
Proof. intros T i k Fi Fk. split.
  - intros K im psi y Him. unfold rowmult, set_row. cbn [t_row]. rewrite N.eqb_refl. now apply (rowmul_op im Him).
  - intros j Hj. unfold rowmult, set_row. cbn [t_row]. now replace (j =? i) with false by (symmetry; now apply N.eqb_neq). Qed.

Lemma l_c58_measure : forall (K : StarRing) (im : K), (im * im = - (1))%amp -> no_torsion K -> forall rgp rnd T t result doForce psi, reachable T -> t < t_n T -> describes im T psi ->
  match force_m rgp rnd T t result doForce true with
  | Ok (b, T') => reachable T' /\ t_n T' = t_n T /\ (doForce = true -> b = result) /\ describes im T' (collapsed t b psi) /\
      (forall psi', describes im T' psi' -> has_value (t_n T) t b psi')
  | Throw => doForce = true /\ has_value (t_n T) t (negb result) psi
  end.
Proof. intros K im Him tors rgp rnd T t result doForce psi R Ht G. assert (A := force_apply rgp rnd T t result doForce (reachable_valid T R) Ht). destruct (force_m rgp rnd T t result doForce true) as [|[b T']] eqn:E.
  - destruct A as [A1 A2]. split; auto. now apply (A2 K im).
  - destruct A as (N1 & V1 & _ & F & C & H). split; [now apply (r_measure _ _ _ _ _ _ _ _ _ R E)|]. split; auto. split; auto. split; [now apply (C K im)|]. intros psi' G'. now apply (H K im). Qed.

Lemma l_c58_random : forall (K : StarRing) (im : K), imaginary im -> no_torsion K -> forall rgp rnd T t result doForce psi, reachable T -> t < t_n T -> describes im T psi -> (forall b, ~ has_value (t_n T) t b psi) ->
  outcome_weight (t_n T) t true psi = outcome_weight (t_n T) t false psi /\
  exists T', force_m rgp rnd T t result doForce true = Ok (if doForce then result else rnd, T') /\ describes im T' (collapsed t (if doForce then result else rnd) psi).
Proof. intros K im [Him Hc] tors rgp rnd T t result doForce psi R Ht G HN. assert (V := reachable_valid T R). destruct (sep_total T t Ht) as [[|] S].
  - exfalso. destruct (force_det rgp rnd T t result false true V Ht (m_find T t V Ht S) eq_refl) as (b & _ & H). apply (HN b). now apply (H K im).
  - destruct (force_random rgp rnd T t result doForce true V Ht S (andb_false_r _)) as (T' & E & _ & _ & _ & A & W). split; [now apply (W K im)|]. exists T'. split; auto. destruct (A eq_refl) as (_ & A2 & _). now apply (A2 K im). Qed.

Lemma l_c58_determined : forall (K : StarRing) (im : K), (im * im = - (1))%amp -> no_torsion K -> forall rgp rnd T t result doForce doApply b psi, reachable T -> t < t_n T -> describes im T psi -> nonzero (t_n T) psi -> has_value (t_n T) t b psi -> doForce = false \/ doApply = true ->
  force_m rgp rnd T t result doForce doApply = if doForce && negb (Bool.eqb result b) then Throw else Ok (b, T).
Proof. intros K im Him tors rgp rnd T t result doForce doApply b psi R Ht G NZ HV HF. assert (V := reachable_valid T R). assert (F : doForce && negb doApply = false) by (destruct HF as [-> | ->]; [reflexivity|apply andb_false_r]).
  destruct (force_det rgp rnd T t result doForce doApply V Ht (has_value_determined im T t b psi Him V G NZ HV) F) as (c & E & H). rewrite (value_unique (t_n T) t b c psi NZ HV); auto. now apply (H K im). Qed.

Lemma l_c58_twice : forall rgp rnd T t result doForce b T', reachable T -> t < t_n T -> force_m rgp rnd T t result doForce true = Ok (b, T') ->
  forall rgp2 rnd2 r2 doForce2 doApply2, doForce2 = false \/ doApply2 = true ->
  force_m rgp2 rnd2 T' t r2 doForce2 doApply2 = if doForce2 && negb (Bool.eqb r2 b) then Throw else Ok (b, T').
Proof. intros rgp rnd T t result doForce b T' R Ht E rgp2 rnd2 r2 doForce2 doApply2 HF. apply (force_twice rgp rnd T t result doForce); auto; [now apply reachable_valid|]. destruct HF as [-> | ->]; [reflexivity|apply andb_false_r]. Qed.

Lemma l_c59_gaussian : forall T, reachable T -> let '(T', g) := gaussian T in
  reachable T' /\ t_n T' = t_n T /\ echelon T' g /\ gaussian T' = (T', g) /\
  forall (K : StarRing) (im : K), (im * im = - (1))%amp -> commutation_pattern im T' /\ forall psi, describes im T' psi <-> describes im T psi.
Proof. intros T R. assert (V := reachable_valid T R). assert (S := gaussian_spec T V). assert (RR := r_reduced T R). unfold reduced in RR. destruct (gaussian T) as [T' g]. destruct S as [[En E] F]. destruct (E V) as [V' G]. cbn [fst] in RR.
  split; auto. split; auto. split; [now apply echelon_of|]. split; [now apply gaussian_idem|]. intros K im Him. split; [now apply pattern_of|]. intros psi. apply (G K im Him). Qed.

Lemma l_c60_split_partial : forall (K : StarRing) (im : K), (im * im = - (1))%amp -> no_torsion K -> forall rgp dest T s m T1, reachable T -> 0 < m -> can_dispose T s m = Ok (true, T1) ->
  exists Rest Part, decompose_dispose rgp dest T1 s m = Ok (Rest, Part) /\ t_n Rest = t_n T - m /\ t_n Part = m /\ reachable Rest /\ reachable Part /\
   forall psi, describes im T psi -> exists a b, eqv (t_n T) psi (tensor_at s m a b) /\ describes im Rest a /\ describes im Part b.
Proof. intros K im Him tors rgp dest T s m T1 R Hm C. destruct (decompose_spec rgp dest T s m T1 (reachable_valid T R) Hm C) as (Rest & Part & E & N1 & N2 & V1 & V2 & H). exists Rest, Part. split; auto. split; auto. split; auto.
  split; [now apply (r_rest _ _ _ _ _ _ _ _ R Hm C E)|]. split; [now apply (r_part _ _ _ _ _ _ _ _ R Hm C E)|]. intros psi G. now apply (H K im). Qed.

Lemma l_c60_dispose_refuted : exists T R, reachable T /\ stab_dispose true T 1 1 = Ok R /\
  describes gim T (tensor_at 1 1 (fun _ => 1%amp) (@ket GI 0)) /\
  describes gim R (fun y => if N.testbit y 1 then 0%amp else (1 : GI)%amp) /\
  ~ proportional 2 (fun y => if N.testbit y 1 then 0%amp else (1 : GI)%amp) (fun _ => 1%amp) /\
  forall rnd, match force_m true rnd R 1 false false true with Ok (b, _) => b = false | Throw => False end.
Proof. exists (match sg_circuit true (tab_zero 3) [GH 0; GH 2] with Ok T => T | Throw => tab_zero 3 end). eexists. split; [|split; [reflexivity|]].
  - apply (reach_circuit true [GH 0; GH 2] (tab_zero 3)); [apply reach_zero; lia| |reflexivity]. repeat constructor.
  - split; [|split; [|split]].
    + intros p Hp y Hy. change (p < 3) in Hp. change (y < 8) in Hy. assert (p = 0 \/ p = 1 \/ p = 2) as [->|[->| ->]] by lia; assert (y = 0 \/ y = 1 \/ y = 2 \/ y = 3 \/ y = 4 \/ y = 5 \/ y = 6 \/ y = 7) as [->|[->|[->|[->|[->|[->|[->| ->]]]]]]] by lia; vm_compute; reflexivity.
    + intros p Hp y Hy. change (p < 2) in Hp. change (y < 4) in Hy. assert (p = 0 \/ p = 1) as [->| ->] by lia; assert (y = 0 \/ y = 1 \/ y = 2 \/ y = 3) as [->|[->|[->| ->]]] by lia; vm_compute; reflexivity.
    + intros (a & b & Ha & H). assert (H0 := H 0 ltac:(cbn; lia)). assert (H2 := H 2 ltac:(cbn; lia)). cbv beta in H0, H2. change (N.testbit 0 1) with false in H0. change (N.testbit 2 1) with true in H2. cbv iota in H0, H2. apply Ha.
      rewrite <- H2 in H0. rewrite mul_0_r_ in H0. rewrite <- H0. symmetry. rewrite (Rmul_comm (sr_ring GI)). apply one_mul.
    + intros rnd. vm_compute. reflexivity. Qed.

Lemma l_c61_compose : forall T C s, reachable T -> reachable C -> t_n T + t_n C <= 127 -> s <= t_n T ->
  exists R, stab_compose T C s = Ok R /\ reachable R /\ t_n R = t_n T + t_n C /\
  forall (K : StarRing) (im : K) a b, (im * im = - (1))%amp -> describes im T a -> describes im C b -> describes im R (tensor_at s (t_n C) a b).
Proof. intros T C s HT HC Hn Hs. destruct (compose_spec T C s (reachable_valid T HT) (reachable_valid C HC) Hn Hs) as (R & E & N1 & V & G). exists R. split; auto. split; [now apply (r_compose T C s)|]. split; auto. Qed.

Lemma l_c84_amplitudes : forall (K : StarRing) (im : K), (im * im = - (1))%amp -> no_torsion K -> forall T, reachable T ->
  length (all_amps T) = N.to_nat (2 ^ gauss_rank T) /\ NoDup (map fst (all_amps T)) /\ gauss_rank T <= t_n T /\
  exists s, s < 2 ^ t_n T /\ forall psi, describes im T psi ->
    forall y, y < 2 ^ t_n T -> psi y = (psi s * match get_amplitude T y with Some e => apow im (N.to_nat e) | None => 0 end)%amp.
Proof. intros K im Him tors T R. destruct (all_amps_spec T (reachable_valid T R)) as (A & B & C & s & Hs & D). split; auto. split; auto. split; auto. exists s. split; auto. intros psi G. now apply (D K im). Qed.

Lemma l_c85_is_separable : forall (K : StarRing) (im h : K), (im * im = - (1))%amp -> (h * h + h * h = 1)%amp -> no_torsion K -> forall rgp T t psi, reachable T -> t < t_n T -> describes im T psi -> notzero (t_n T) psi ->
  exists c T', is_separable rgp T t = Ok (c, T') /\ t_n T' = t_n T /\ reachable T' /\ describes im T' psi /\
    ((c = 1 /\ eigen (t_n T) t matZ psi) \/ (c = 2 /\ eigen (t_n T) t matX psi) \/ (c = 3 /\ eigen (t_n T) t (matY im) psi) \/
     (c = 0 /\ ~ eigen (t_n T) t matZ psi /\ ~ eigen (t_n T) t matX psi /\ ~ eigen (t_n T) t (matY im) psi)).
Proof. intros K im h Him Hh tors rgp T t psi R Ht G NZ. destruct (sep_spec im h Him Hh tors rgp T t psi (reachable_valid T R) Ht G NZ) as (c & T' & E & N1 & V1 & G1 & H). exists c, T'. split; auto. split; auto. split; [now apply (r_separable rgp T t c)|]. split; auto. Qed.

Lemma l_c85_zero_means_entangled : forall (K : StarRing) (im h : K), (im * im = - (1))%amp -> (h * h + h * h = 1)%amp -> no_torsion K -> domain K -> forall rgp T t psi T', reachable T -> t < t_n T -> describes im T psi -> notzero (t_n T) psi -> is_separable rgp T t = Ok (0, T') ->
  forall a b, ~ eqv (t_n T) psi (tensor_at t 1 a b).
Proof. intros K im h Him Hh tors dom rgp T t psi T' R Ht G NZ E a b. apply (is_separable_entangled im h Him Hh tors dom rgp T t psi T'); auto. now apply reachable_valid. Qed.

Lemma l_c86_prob : forall (K : StarRing) (im : K), imaginary im -> no_torsion K -> forall rgp T t, reachable T -> t < t_n T ->
  exists r, prob2 rgp T t = Ok (r, T) /\ forall psi, describes im T psi ->
    (r = 0 /\ has_value (t_n T) t false psi) \/ (r = 2 /\ has_value (t_n T) t true psi) \/ (r = 1 /\ outcome_weight (t_n T) t true psi = outcome_weight (t_n T) t false psi).
Proof. intros K im [Him Hc] tors rgp T t R Ht. destruct (prob2_spec rgp T t (reachable_valid T R) Ht) as (r & E & H). exists r. split; auto. intros psi G. now apply (H K im). Qed.

Lemma l_c87_set_permutation : forall (K : StarRing) (im h : K), (im * im = - (1))%amp -> (h * h + h * h = 1)%amp -> no_torsion K -> forall rgp n perm, n <= 127 -> exists T, set_permutation rgp n perm = Ok T /\ t_n T = n /\ reachable T /\ describes im T (ket (perm mod 2 ^ n)).
Proof. intros K im h Him Hh tors rgp n perm Hn. destruct (set_permutation_good im h Him Hh tors rgp n perm Hn) as (T & E & N1 & V & G). exists T. split; auto. split; auto. split; auto. now apply (r_new rgp n perm). Qed.

Lemma l_c88_yes_partial : forall (K : StarRing) (im : K), (im * im = - (1))%amp -> no_torsion K -> forall T s m T1 psi, reachable T -> 0 < m -> can_dispose T s m = Ok (true, T1) -> describes im T psi ->
  describes im T1 psi /\ exists a b, eqv (t_n T) psi (tensor_at s m a b).
Proof. intros K im Him tors T s m T1 psi R Hm C G. assert (V := reachable_valid T R). destruct (can_dispose_clean T s m T1 V Hm C) as (_ & _ & _ & [_ Q] & _). split; [now apply (proj2 (Q V) K im Him)|].
  destruct (decompose_spec true true T s m T1 V Hm C) as (Rest & Part & _ & _ & _ & _ & _ & H). destruct (H K im psi Him tors G) as (a & b & E & _). now exists a, b. Qed.

Lemma l_c88_no_refuted : exists T T1, reachable T /\ can_dispose T 1 1 = Ok (false, T1) /\ describes gim T (tensor_at 1 1 (fun _ => 1%amp) (@ket GI 0)).
Proof. exists (match sg_circuit true (tab_zero 3) [GH 0; GH 2] with Ok T => T | Throw => tab_zero 3 end). eexists. split; [|split].
  - apply (reach_circuit true [GH 0; GH 2] (tab_zero 3)); [apply reach_zero; lia| |reflexivity]. repeat constructor.
  - vm_compute. reflexivity.
  - intros p Hp y Hy. change (p < 3) in Hp. change (y < 8) in Hy. assert (p = 0 \/ p = 1 \/ p = 2) as [->|[->| ->]] by lia; assert (y = 0 \/ y = 1 \/ y = 2 \/ y = 3 \/ y = 4 \/ y = 5 \/ y = 6 \/ y = 7) as [->|[->|[->|[->|[->|[->|[->| ->]]]]]]] by lia; vm_compute; reflexivity. Qed.

Lemma l_c89_runs : forall (K : StarRing) (im h : K), (im * im = - (1))%amp -> (h * h + h * h = 1)%amp -> no_torsion K -> forall rgp cs T psi, reachable T -> Forall (command_fits (t_n T)) cs -> describes im T psi ->
  match run_commands rgp T cs with
  | Ok (bs, T') => length bs = count_meas cs /\ t_n T' = t_n T /\ reachable T' /\ describes im T' (commands_act im h cs bs psi)
  | Throw => exists cs1 t b cs2 bs, cs = cs1 ++ Force t b :: cs2 /\ length bs = count_meas cs1 /\ has_value (t_n T) t (negb b) (commands_act im h cs1 bs psi)
  end.
Proof. intros K im h Him Hh tors rgp cs T psi R HF G. assert (A := run_commands_spec im h Him Hh tors rgp cs T psi (reachable_valid T R) HF G). destruct (run_commands rgp T cs) as [|[bs T']] eqn:E; auto. destruct A as (A1 & A2 & _ & A4). split; auto. split; auto. split; auto. now apply (reach_commands rgp cs [] T bs). Qed.
