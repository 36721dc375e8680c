(** Proofs for QUnitClifford: Compose; a way to separate qubits that satisfies the contract. *)
From Coq Require Import Arith NArith List Bool Lia Ring Permutation.
From Verif Require Import Bits MFunctions SpecFunctions PFunctions MKernel PKernel Amp PAmp SpecState PApply PCompose PGates PGates2 PQCirc2 PQCirc3 PEngine MShard SpecShard MUnit PShard1 PShard2 PShard5 PUnit1 PUnit2 PUnit3 PUnit4 PQCirc6 PUnitW PUnit6 PUnit9 MTensor MUCliff SpecUCliff PUCliff1 PUCliff2 PUCliff3 PUCliff4 PUCliff5.
Import ListNotations.
Local Open Scope N_scope.
Local Notation up n := (upto (N.to_nat n)).

Section P.
  Context {K : StarRing}.
  Add Ring KrEG : (sr_ring K).
  Local Notation vec := (N -> K).
  Local Notation uk := (ucliff K).
  Local Notation good := PUCliff2.good.
  Implicit Types (U V T : uk) (v psi : vec).

  Lemma aprod_shift (f : N -> K) a b : aprod f (up (a + b)) = (aprod f (up a) * aprod (fun i => f (a + i)%N) (up b))%amp.
  Proof.
    rewrite N2Nat.inj_add. induction (N.to_nat b) as [|k IH]; [rewrite Nat.add_0_r; cbn [upto aprod fold_right]; ring|]. rewrite Nat.add_succ_r. cbn [upto]. rewrite !aprod_app, IH. cbn [aprod fold_right].
    replace (N.of_nat (N.to_nat a + k)) with (a + N.of_nat k)%N by lia. ring.
  Qed.
  Lemma compose_ok U T start V : good U -> good T -> start <= k_n U -> k_compose T start U = Ret V ->
    good V /\ k_n V = k_n U + k_n T /\ same_state (fun x => k_ph T * joint V x)%amp (tensor_at start (k_n T) (joint U) (joint T)).
  Proof.
    intros [W P] [WT PT] Hs E. unfold k_compose in E. destruct (N.ltb_spec (k_n U) start); [lia|]. injection E as EV. set (nT := k_n T) in *.
    assert (Nn : k_n V = k_n U + nT) by (rewrite <- EV; reflexivity). assert (Nx : k_next V = k_next U + k_next T) by (rewrite <- EV; reflexivity). assert (Np : k_ph V = k_ph U) by (rewrite <- EV; reflexivity).
    assert (S1 : forall p, p < start -> k_sh V p = k_sh U p) by (intros p Hp; rewrite <- EV; cbn [k_sh]; destruct (N.ltb_spec p start); [reflexivity|lia]).
    assert (S2 : forall i, i < nT -> k_sh V (start + i) = (k_next U + k_unit T i, k_map T i)).
    { intros i Hi. rewrite <- EV. cbn [k_sh]. destruct (N.ltb_spec (start + i) start); [lia|]. destruct (N.ltb_spec (start + i) (start + nT)); [|lia]. replace (start + i - start) with i by lia. reflexivity. }
    assert (S3 : forall p, start <= p -> k_sh V (p + nT) = k_sh U p).
    { intros p Hp. rewrite <- EV. cbn [k_sh]. destruct (N.ltb_spec (p + nT) start); [lia|]. destruct (N.ltb_spec (p + nT) (start + nT)); [lia|]. f_equal. lia. }
    assert (E1 : forall u, u < k_next U -> k_eng V u = k_eng U u) by (intros u Hu; rewrite <- EV; cbn [k_eng]; destruct (N.ltb_spec u (k_next U)); [reflexivity|lia]).
    assert (E2 : forall u, k_eng V (k_next U + u) = k_eng T u) by (intros u; rewrite <- EV; cbn [k_eng]; destruct (N.ltb_spec (k_next U + u) (k_next U)); [lia|f_equal; lia]).
    clear EV. pose (out p := if p <? start then p else p + nT).
    assert (SO : forall p, k_sh V (out p) = k_sh U p) by (intros p; unfold out; destruct (N.ltb_spec p start); [apply S1; assumption|apply S3; lia]).
    assert (CASE : forall p, p < k_n V -> (exists p0, p0 < k_n U /\ p = out p0) \/ (exists i, i < nT /\ p = start + i)).
    { intros p Hp. rewrite Nn in Hp. destruct (N.lt_ge_cases p start) as [H1|H1]; [left; exists p; unfold out; destruct (N.ltb_spec p start); split; lia|]. destruct (N.lt_ge_cases p (start + nT)) as [H2|H2]; [right; exists (p - start); split; lia|].
      left. exists (p - nT). unfold out. destruct (N.ltb_spec (p - nT) start); split; lia. }
    assert (OL : forall p, p < k_n U -> out p < k_n V) by (intros p Hp; rewrite Nn; unfold out; destruct (N.ltb_spec p start); lia).
    assert (UO : forall p, k_unit V (out p) = k_unit U p /\ k_map V (out p) = k_map U p) by (intros p; unfold k_unit, k_map; rewrite SO; split; reflexivity).
    assert (UT : forall i, i < nT -> k_unit V (start + i) = k_next U + k_unit T i /\ k_map V (start + i) = k_map T i) by (intros i Hi; unfold k_unit, k_map; rewrite S2 by exact Hi; split; reflexivity).
    assert (LV : placed (k_n V) (k_next V) (csh V) (k_eng V)).
    { split.
      - intros p u Hp F. rewrite csh_unit in F. injection F as F. rewrite csh_map, Nx. destruct (CASE p Hp) as [(p0 & H0 & ->)|(i & Hi & ->)].
        + destruct (UO p0) as [A1 A2]. rewrite A1 in F. rewrite A2. subst u. destruct (kw_in U p0 W H0) as [B1 B2]. rewrite E1 by exact B1. split; [lia|exact B2].
        + destruct (UT i Hi) as [A1 A2]. rewrite A1 in F. rewrite A2. subst u. destruct (kw_in T i WT Hi) as [B1 B2]. rewrite E2. split; [lia|exact B2].
      - intros p p' u Hp Hp' F F' M. rewrite csh_unit in F, F'. injection F as F. injection F' as F'. rewrite !csh_map in M.
        destruct (CASE p Hp) as [(p0 & H0 & ->)|(i & Hi & ->)], (CASE p' Hp') as [(p0' & H0' & ->)|(i' & Hi' & ->)].
        + destruct (UO p0) as [A1 A2]. destruct (UO p0') as [A1' A2']. f_equal. apply (pl_inj _ _ _ _ (kw_placed U W) p0 p0' u); auto; rewrite ?csh_unit, ?csh_map; congruence.
        + destruct (UO p0) as [A1 A2]. destruct (UT i' Hi') as [A1' A2']. destruct (kw_in U p0 W H0) as [B1 B2]. lia.
        + destruct (UO p0') as [A1 A2]. destruct (UT i Hi) as [A1' A2']. destruct (kw_in U p0' W H0') as [B1 B2]. lia.
        + destruct (UT i Hi) as [A1 A2]. destruct (UT i' Hi') as [A1' A2']. f_equal. apply (pl_inj _ _ _ _ (kw_placed T WT) i i' (k_unit T i')); auto; rewrite ?csh_unit, ?csh_map; [f_equal; lia|congruence].
      - intros u j Hu Hj. rewrite Nx in Hu. destruct (N.lt_ge_cases u (k_next U)) as [H1|H1].
        + rewrite E1 in Hj by exact H1. destruct (pl_cov _ _ _ _ (kw_placed U W) u j H1 Hj) as (p & Hp & F & M). rewrite csh_unit in F. injection F as F. rewrite csh_map in M. destruct (UO p) as [A1 A2]. exists (out p). rewrite csh_unit, csh_map. split; [apply OL, Hp|]. split; congruence.
        + replace u with (k_next U + (u - k_next U)) in * by lia. set (w := u - k_next U) in *. rewrite E2 in Hj. destruct (pl_cov _ _ _ _ (kw_placed T WT) w j ltac:(lia) Hj) as (p & Hp & F & M). rewrite csh_unit in F. injection F as F. rewrite csh_map in M.
          destruct (UT p Hp) as [A1 A2]. exists (start + p). rewrite csh_unit, csh_map. split; [rewrite Nn; unfold nT in *; lia|]. split; congruence. }
    split; [|split; [exact Nn|]].
    - split; [|rewrite Np; exact P]. split; [exact LV| |]; intros u Hu; rewrite Nx in Hu; unfold k_size, k_vec; (destruct (N.lt_ge_cases u (k_next U)) as [H1|H1]; [rewrite E1 by exact H1|replace u with (k_next U + (u - k_next U)) by lia; rewrite E2]); first [apply W; lia|apply WT; lia].
    - intros x. unfold joint, tensor_at. rewrite Np.
      assert (B : parts V x = (parts U (outside x start nT) * parts T (get_reg x start nT))%amp).
      { unfold parts, base_of. rewrite !(aprod_one (fun p => loc (csh _ p) _)) by reflexivity. rewrite Nx, aprod_shift.
        rewrite (aprod_ext (fun u => snd (k_eng V u) (gather (k_n V) (csh V) u x)) (fun u => snd (k_eng U u) (gather (k_n U) (csh U) u (outside x start nT)))).
        2:{ intros u Hu. apply up_in in Hu. rewrite E1 by exact Hu. f_equal. symmetry. apply (gather_eq _ _ _ _ (kw_placed U W) u _ _ Hu).
            - rewrite <- (E1 u Hu). apply (gather_lt _ _ _ _ LV).
            - intros p Hp F. rewrite csh_map. destruct (UO p) as [A1 A2]. rewrite csh_unit in F. injection F as F. rewrite <- A2. assert (F' : s_unit (csh V (out p)) = Some u) by (rewrite csh_unit; congruence).
              pose proof (gather_bit _ _ _ _ LV u x (out p) (OL p Hp) F') as GB. rewrite csh_map in GB. rewrite GB, tb_outside. unfold out. destruct (N.ltb_spec p start); reflexivity. }
        rewrite (aprod_ext (fun i => snd (k_eng V (k_next U + i)) (gather (k_n V) (csh V) (k_next U + i) x)) (fun i => snd (k_eng T i) (gather (k_n T) (csh T) i (get_reg x start nT)))).
        2:{ intros u Hu. apply up_in in Hu. rewrite E2. f_equal. symmetry. apply (gather_eq _ _ _ _ (kw_placed T WT) u _ _ Hu).
            - rewrite <- (E2 u). apply (gather_lt _ _ _ _ LV).
            - intros p Hp F. rewrite csh_map. destruct (UT p Hp) as [A1 A2]. rewrite csh_unit in F. injection F as F. rewrite <- A2. assert (F' : s_unit (csh V (start + p)) = Some (k_next U + u)) by (rewrite csh_unit; congruence).
              assert (HpV : start + p < k_n V) by (rewrite Nn; fold nT in Hp; lia). pose proof (gather_bit _ _ _ _ LV (k_next U + u) x (start + p) HpV F') as GB. rewrite csh_map in GB. rewrite GB, tb_get_reg. fold nT in Hp. destruct (N.ltb_spec p nT); [|lia]. cbn [andb]. f_equal. lia. }
        fold nT. ring. }
      rewrite B. ring.
  Qed.

  (** A qubit with a certain value of Z is split off. *)
  Definition sep_z (n m : N) (v : vec) : option (vec * vec) :=
    if forallb (fun y => N.testbit y m || sr_eqb (v y) 0%amp) (basis n) then Some (slice m 1 1 v, ket 1)
    else if forallb (fun y => negb (N.testbit y m) || sr_eqb (v y) 0%amp) (basis n) then Some (slice m 1 0 v, ket 0) else None.
  Lemma sep_z_part n m v (b : bool) : m < n -> norm2 n v = 1%amp -> esup n m b v -> let bi := if b then 1 else 0 in
    norm2 (n - 1) (slice m 1 bi v) = 1%amp /\ norm2 1 (ket bi : vec) = 1%amp /\ eqv n v (tensor_at m 1 (slice m 1 bi v) (ket bi)).
  Proof.
    intros Hm HN HE bi. split; [unfold bi; rewrite norm_slice; assumption|]. split; [rewrite norm_one; unfold bi, ket; destruct b; cbn [N.eqb Pos.eqb]; rewrite anorm_0; unfold anorm; rewrite conj_1; ring|].
    intros y Hy. unfold tensor_at. destruct (bool_dec (N.testbit y m) b) as [F|F].
    - rewrite (reg1 y m b F). fold bi. unfold ket. rewrite N.eqb_refl. unfold slice. fold (slice_ix m 1 bi (outside y m 1)). unfold bi. rewrite <- (reg1 y m b F), slice_outside. ring.
    - rewrite (HE y Hy F). assert (F' : N.testbit y m = negb b) by (destruct (N.testbit y m), b; cbn; congruence). rewrite (reg1 y m _ F'). unfold bi, ket. destruct b; cbn [negb N.eqb Pos.eqb]; ring.
  Qed.
  Lemma sep_z_ok (c : kcfg K) : kc_sep c = sep_z -> sep_ok c.
  Proof.
    intros E n m v rest one H1 Hm HN. rewrite E. unfold sep_z. destruct (forallb _ (basis n)) eqn:F1; [|clear F1; destruct (forallb _ (basis n)) eqn:F2; [|discriminate]]; intros H; injection H as <- <-.
    - apply (sep_z_part n m v true Hm HN). rewrite forallb_forall in F1. intros y Hy HB. specialize (F1 y (proj2 (up_in _ _) Hy)). apply orb_true_iff in F1. destruct F1 as [F1|F1]; [contradiction|apply sr_eqb_ok, F1].
    - apply (sep_z_part n m v false Hm HN). rewrite forallb_forall in F2. intros y Hy HB. specialize (F2 y (proj2 (up_in _ _) Hy)). apply orb_true_iff in F2. destruct F2 as [F2|F2]; [|apply sr_eqb_ok, F2]. destruct (N.testbit y m); [discriminate|contradiction].
  Qed.
End P.
