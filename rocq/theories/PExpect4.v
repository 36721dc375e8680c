(** Proofs about ExpVarUnitaryAll (MExpect2.v). *)
From Coq Require Import NArith Arith List Bool Lia Ring.
From Verif Require Import Bits Amp PAmp SpecState PLoop PGates PGates2 PGates3 PUnit9 MTensor MApi PApi9 PQCirc2 MExpect SpecExpect PExpect1 PExpect2 PExpect3 MExpect2 SpecExpect2.
Import ListNotations.
Local Open Scope N_scope.

Section U.
  Variable K : StarRing.
  Add Ring KrEV : (sr_ring K).
  Variable recip : K -> K.
  Local Notation vec := (N -> K).
  Local Notation fac := (factor K).
  Local Open Scope amp_scope.

  (** A list of gates, one for every factor. *)
  Definition gthru (u : fac -> mat2 K) (l : list fac) (v : vec) : vec := fold_left (fun v e => g1 (u e) (f_bit e) v) l v.
  Lemma gthru_ext u l : forall a b x, (forall y, a y = b y) -> gthru u l a x = gthru u l b x.
  Proof. induction l as [|e l IH]; intros a b x E; cbn [gthru fold_left]; [apply E|]. apply IH. intros y. now apply g1_ext. Qed.
  Lemma gthru_cons u e l v : gthru u (e :: l) v = gthru u l (g1 (u e) (f_bit e) v). Proof. reflexivity. Qed.
  Lemma gthru_past u l m t : ~ In t (map f_bit l) -> forall v x, gthru u l (g1 m t v) x = g1 m t (gthru u l v) x.
  Proof.
    induction l as [|e l IH]; intros NI v x; [reflexivity|]. cbn [map In] in NI. rewrite !gthru_cons. rewrite <- IH by tauto. apply gthru_ext. intros y. apply g1_comm. intros E. apply NI. now left.
  Qed.
  Lemma gthru_back u z l : NoDup (map f_bit l) -> (forall e, In e l -> mmul (z e) (u e) = midn) -> forall v x, gthru z l (gthru u l v) x = v x.
  Proof.
    induction l as [|e l IH]; intros ND HZ v x; [reflexivity|]. cbn [map] in ND. apply NoDup_cons_iff in ND. destruct ND as [NI ND]. rewrite !gthru_cons.
    rewrite (gthru_ext z l _ (gthru u l (g1 (z e) (f_bit e) (g1 (u e) (f_bit e) v)))) by (intros y; symmetry; now apply gthru_past).
    rewrite IH by (auto; intros e' He'; apply HZ; now right). rewrite g1_mul, HZ by now left. apply g1_one.
  Qed.
  Lemma gthru_turn u l e A D : NoDup (map f_bit l) -> In e l -> mmul (u e) A = mmul D (u e) -> forall v x, gthru u l (g1 A (f_bit e) v) x = g1 D (f_bit e) (gthru u l v) x.
  Proof.
    intros ND HI E. induction l as [|e' l IH]; intros v x; [destruct HI|]. cbn [map] in ND. apply NoDup_cons_iff in ND. destruct ND as [NI ND]. rewrite !gthru_cons. destruct HI as [->|HI].
    - rewrite (gthru_ext u l _ (g1 D (f_bit e) (g1 (u e) (f_bit e) v))). now apply gthru_past. intros y. rewrite !g1_mul. now rewrite E.
    - rewrite <- IH by auto. apply gthru_ext. intros y. apply g1_comm. intros Q. apply NI. rewrite Q. now apply in_map.
  Qed.
  Lemma gthru_vip n u l : (forall e, In e l -> unitary2 (u e)) -> (forall q, In q (map f_bit l) -> (q < n)%N) -> forall a b, vip n (gthru u l a) (gthru u l b) = vip n a b.
  Proof.
    induction l as [|e l IH]; intros HU HL a b; [reflexivity|]. rewrite !gthru_cons. rewrite IH by (intros; first [apply HU|apply HL]; now right). apply vip_g1. apply HL. now left. apply HU. now left.
  Qed.

  (** Inverses. *)
  Definition det (m : mat2 K) : K := m00 m * m11 m - m01 m * m10 m.
  Lemma inv2_l m : recip (det m) * det m = 1 -> mmul (inv2 recip m) m = midn.
  Proof. unfold inv2. fold (det m). intros H. set (d := recip (det m)) in *. destruct m as [p q r s]. unfold det in *. unfold mmul, midn. cbn [m00 m01 m10 m11] in *. apply mat_eq; try ring; rewrite <- H; ring. Qed.
  Lemma inv2_r m : recip (det m) * det m = 1 -> mmul m (inv2 recip m) = midn.
  Proof. unfold inv2. fold (det m). intros H. set (d := recip (det m)) in *. destruct m as [p q r s]. unfold det in *. unfold mmul, midn. cbn [m00 m01 m10 m11] in *. apply mat_eq; try ring; rewrite <- H; ring. Qed.
  Lemma mdag_dag (m : mat2 K) : mdag (mdag m) = m.
  Proof. destruct m as [p q r s]. unfold mdag. cbn [m00 m01 m10 m11]. now rewrite !sr_conj_invol. Qed.
  Lemma inv2_dag m : unitary2 m -> recip (det m) * det m = 1 -> inv2 recip m = mdag m.
  Proof. intros U H. rewrite <- (mmul_1_l (inv2 recip m)), <- U, mmul_assoc, inv2_r by auto. apply mmul_1_r. Qed.
  Lemma dag_unitary m : unitary2 m -> recip (det m) * det m = 1 -> unitary2 (mdag m) /\ mmul m (mdag m) = midn.
  Proof. intros U H. assert (E : mmul m (mdag m) = midn) by (rewrite <- (inv2_dag m U H); now apply inv2_r). split; auto. unfold unitary2. now rewrite mdag_dag. Qed.

  Definition dg (e : fac) : mat2 K := mdag (f_basis e).
  Definition sound (e : fac) : Prop := unitary2 (f_basis e) /\ mmul (f_basis e) (mdag (f_basis e)) = midn.
  Lemma sound_dag e : sound e -> unitary2 (dg e).
  Proof. intros [U E]. unfold unitary2, dg. now rewrite mdag_dag. Qed.
  Lemma obs_turn e : sound e -> mmul (dg e) (obs e) = mmul (mkMat (f_e0 e) 0 0 (f_e1 e)) (dg e).
  Proof. intros [U E]. unfold obs, dg. rewrite <- mmul_assoc, U. apply mmul_1_l. Qed.
  Definition pick (e : fac) (x : N) : K := if N.testbit x (f_bit e) then f_e1 e else f_e0 e.
  Lemma mean_pick n l e (psi : vec) : NoDup (map f_bit l) -> (forall q, In q (map f_bit l) -> (q < n)%N) -> (forall e, In e l -> sound e) -> In e l ->
    mean n (gthru dg l psi) (pick e) = obs_exp n e psi.
  Proof.
    intros ND HL HS HI. set (w := gthru dg l psi). transitivity (vip n w (g1 (mkMat (f_e0 e) 0 0 (f_e1 e)) (f_bit e) w)).
    - unfold mean, vip. apply asum_ext. intros x _. unfold g1, gate1, anorm, pick. cbn [all_set forallb m00 m01 m10 m11]. destruct (N.testbit x (f_bit e)); ring.
    - unfold w. rewrite (vip_ext n _ _ (gthru dg l psi) (gthru dg l (g1 (obs e) (f_bit e) psi))) by (auto; intros x; symmetry; apply gthru_turn; auto; now apply obs_turn, HS).
      rewrite gthru_vip; auto. intros e' He'. now apply sound_dag, HS.
  Qed.
  Lemma total_pick l x : total (map f_bit l) (flat_map f_eigs l) x = asum (fun e => pick e x) l.
  Proof. induction l as [|e l IH]; [reflexivity|]. cbn [map flat_map f_eigs app total asum]. rewrite IH. reflexivity. Qed.
  Lemma eigs_len (l : list fac) : length (flat_map f_eigs l) = (length l * 2)%nat.
  Proof. induction l as [|e l IH]; [reflexivity|]. cbn [flat_map f_eigs app length]. rewrite IH. lia. Qed.
  Lemma gthru_norm n l (psi : vec) : (forall q, In q (map f_bit l) -> (q < n)%N) -> (forall e, In e l -> sound e) -> norm2 n (gthru dg l psi) = norm2 n psi.
  Proof. intros HL HS. rewrite <- !vip_norm. apply gthru_vip; auto. intros e He. now apply sound_dag, HS. Qed.
  Lemma exp_facs n l (psi w : vec) : l <> [] -> proper_bits n (map f_bit l) -> (forall e, In e l -> sound e) -> norm2 n psi = 1 -> (forall x, w x = gthru dg l psi x) ->
    exp_floats n (map f_bit l) (flat_map f_eigs l) w = Ret (asum (fun e => obs_exp n e psi) l).
  Proof.
    intros HN [ND HL] HS H1 HW. assert (NW : norm2 n w = 1) by (rewrite <- H1, <- (gthru_norm n l psi HL HS); apply asum_ext; intros x _; now rewrite HW).
    rewrite exp_floats_ok; try now split. f_equal. transitivity (mean n (gthru dg l psi) (fun x => asum (fun e => pick e x) l)).
    - unfold mean. apply asum_ext. intros x _. now rewrite HW, total_pick.
    - rewrite (mean_asum K n _ pick l). apply asum_ext. intros e He. now apply mean_pick.
    - destruct l; [congruence|discriminate].
    - rewrite eigs_len, map_length. lia.
    - exact NW.
  Qed.
  Lemma var_fac n e (psi w : vec) : (f_bit e < n)%N -> sound e -> norm2 n psi = 1 -> (forall x, w x = gthru dg [e] psi x) ->
    var_floats n [f_bit e] (f_eigs e) w = Ret (obs_var n e psi).
  Proof.
    intros Hq HS H1 HW. assert (ND : NoDup (map f_bit [e])) by (repeat constructor; intros []). assert (HL : forall q, In q (map f_bit [e]) -> (q < n)%N) by (intros q [<-|[]]; auto). assert (HS' : forall e', In e' [e] -> sound e') by (intros e' [<-|[]]; auto).
    assert (NW : norm2 n w = 1) by (rewrite <- H1, <- (gthru_norm n [e] psi HL HS'); apply asum_ext; intros x _; now rewrite HW).
    rewrite var_one_ok by (auto; cbn; lia). f_equal. rewrite variance_is by auto.
    assert (M : forall f, mean n w f = mean n (gthru dg [e] psi) f) by (intros f; unfold mean; apply asum_ext; intros x _; now rewrite HW). rewrite !M.
    rewrite (mean_ext K n _ (total [f_bit e] (f_eigs e)) (pick e)) by (intros x _; cbn [total f_eigs]; unfold pick; ring). rewrite (mean_pick n [e] e psi) by (auto; now left). unfold obs_var. f_equal.
    set (e2 := mkF (f_bit e) (f_basis e) (f_e0 e * f_e0 e) (f_e1 e * f_e1 e)). transitivity (mean n (gthru dg [e2] psi) (pick e2)).
    - apply mean_ext. intros x _. unfold pick. cbn [total f_eigs f_bit f_e0 f_e1 e2]. destruct (N.testbit x (f_bit e)); ring.
    - rewrite (mean_pick n [e2] e2 psi); [|repeat constructor; intros []|intros q [<-|[]]; exact Hq|intros e' [<-|[]]; exact HS|now left].
      assert (EO : mmul (obs e) (obs e) = obs e2).
      { unfold obs. destruct HS as [U E]. cbn [f_basis f_e0 f_e1 e2]. rewrite mmul_assoc. f_equal. rewrite mmul_assoc. rewrite <- (mmul_assoc (mdag (f_basis e)) (f_basis e)), U, mmul_1_l, <- mmul_assoc. f_equal.
        unfold mmul. cbn [m00 m01 m10 m11]. apply mat_eq; ring. }
      unfold obs_exp. apply (vip_ext n psi _ psi); auto. intros x. unfold obs_on. rewrite <- EO. symmetry. apply (g1_mul (obs e) (obs e) (f_bit e) psi x).
  Qed.

  (** The loops of the model. *)
  Lemma apply_ops_is f u l : (forall e, In e l -> f (f_basis e) = u e) -> forall (psi : vec) x, apply_ops f (map f_bit l) (map f_basis l) psi x = gthru u l psi x.
  Proof.
    induction l as [|e l IH]; intros HF psi x; [reflexivity|]. cbn [map apply_ops]. rewrite gthru_cons, IH by (intros; apply HF; now right). apply gthru_ext. intros y. unfold app1. rewrite HF by now left. reflexivity.
  Qed.
  Definition fine (e : fac) : Prop := unitary2 (f_basis e) /\ recip (det (f_basis e)) * det (f_basis e) = 1.
  Lemma fine_sound e : fine e -> sound e.
  Proof. intros [U H]. split; auto. now apply dag_unitary. Qed.
  Lemma default_is (bits : list N) (l : list fac) : l <> [] -> default_eigs bits (flat_map f_eigs l) = flat_map f_eigs l.
  Proof. destruct l; [congruence|reflexivity]. Qed.
  Lemma unitary_all_is isExp n l (psi : vec) : l <> [] ->
    unitary_all recip isExp n (map f_bit l) (map f_basis l) (flat_map f_eigs l) psi =
    (let psi1 := apply_ops (inv2 recip) (map f_bit l) (map f_basis l) psi in do r <- float_call isExp n (map f_bit l) (flat_map f_eigs l) psi1; Ret (r, apply_ops (fun m => m) (map f_bit l) (map f_basis l) psi1)).
  Proof.
    intros HN. unfold unitary_all. rewrite default_is by auto. rewrite !map_length, Nat.ltb_irrefl. destruct l; [congruence|reflexivity].
  Qed.
  Lemma ops_back l (psi : vec) x : NoDup (map f_bit l) -> (forall e, In e l -> fine e) ->
    apply_ops (fun m => m) (map f_bit l) (map f_basis l) (apply_ops (inv2 recip) (map f_bit l) (map f_basis l) psi) x = psi x.
  Proof.
    intros ND HF. rewrite (apply_ops_is (fun m => m) f_basis) by auto. rewrite (gthru_ext f_basis l _ (gthru dg l psi)). apply gthru_back; auto. intros e He. now apply fine_sound, HF.
    intros y. apply apply_ops_is. intros e He. destruct (HF e He). now apply inv2_dag.
  Qed.
  Lemma unitary_exp_ok n l (psi : vec) : l <> [] -> proper_bits n (map f_bit l) -> (forall e, In e l -> fine e) -> norm2 n psi = 1 ->
    exists w, unitary_all recip true n (map f_bit l) (map f_basis l) (flat_map f_eigs l) psi = Ret (asum (fun e => obs_exp n e psi) l, w) /\ forall x, w x = psi x.
  Proof.
    intros HN HB HF H1. rewrite unitary_all_is by auto. cbv zeta. cbn [float_call]. rewrite (exp_facs n l psi); auto.
    - eexists. split; [reflexivity|]. intros x. apply ops_back; auto. apply HB.
    - intros e He. now apply fine_sound, HF.
    - intros x. apply apply_ops_is. intros e He. destruct (HF e He). now apply inv2_dag.
  Qed.
  Lemma unitary_var_ok n e (psi : vec) : (f_bit e < n)%N -> fine e -> norm2 n psi = 1 ->
    exists w, unitary_all recip false n [f_bit e] [f_basis e] (f_eigs e) psi = Ret (obs_var n e psi, w) /\ forall x, w x = psi x.
  Proof.
    intros Hq HF H1. pose proof (unitary_all_is false n [e] psi ltac:(discriminate)) as E. cbn [map flat_map] in E. rewrite app_nil_r in E. rewrite E. clear E. cbv zeta. cbn [float_call].
    rewrite (var_fac n e psi); auto.
    - eexists. split; [reflexivity|]. intros x. apply (ops_back [e]). repeat constructor; intros []. intros e' [<-|[]]; auto.
    - now apply fine_sound.
    - intros x. apply (apply_ops_is (inv2 recip) dg [e]). intros e' [<-|[]]. destruct HF. now apply inv2_dag.
  Qed.
  Lemma unitary_default isExp n bits ops (psi : vec) : unitary_all recip isExp n bits ops [] psi = unitary_all recip isExp n bits ops (flat_map (fun _ => [1; - (1)]) bits) psi.
  Proof. destruct bits; reflexivity. Qed.

  (** Angles. *)
  Lemma u_unitary (u : u3 K) : angles u -> unitary2 (u_mat u) /\ mmul (u_mat u) (mdag (u_mat u)) = midn.
  Proof.
    destruct u as [c s ep el]. unfold angles. cbn [u_c u_s u_ep u_el]. intros (C & S' & CS & P & L). unfold unitary2, u_mat, mmul, mdag, midn. cbn [m00 m01 m10 m11 u_c u_s u_ep u_el]. rewrite !sr_conj_mul, !conj_opp, C, S'.
    set (p := sr_conj ep) in *. set (q := sr_conj el) in *.
    split; apply mat_eq.
    - transitivity (c * c + s * s * (ep * p)); [ring|]. rewrite P. transitivity (c * c + s * s); [ring|exact CS].
    - transitivity (c * s * el * ((ep * p) - 1)); [ring|]. rewrite P. ring.
    - transitivity (c * s * q * ((ep * p) - 1)); [ring|]. rewrite P. ring.
    - transitivity ((s * s) * (el * q) + (c * c) * (ep * p) * (el * q)); [ring|]. rewrite P, L. transitivity (c * c + s * s); [ring|exact CS].
    - transitivity (c * c + s * s * (el * q)); [ring|]. rewrite L. transitivity (c * c + s * s); [ring|exact CS].
    - transitivity (c * s * p * (1 - (el * q))); [ring|]. rewrite L. ring.
    - transitivity (c * s * ep * (1 - (el * q))); [ring|]. rewrite L. ring.
    - transitivity ((s * s) * (ep * p) + (c * c) * (ep * p) * (el * q)); [ring|]. rewrite P, L. transitivity (c * c + s * s); [ring|exact CS].
  Qed.
  Lemma u_neg_dag (u : u3 K) : angles u -> u_ep u = u_el u \/ u_s u = 0 -> u_mat (u_neg u) = mdag (u_mat u).
  Proof.
    destruct u as [c s ep el]. unfold angles. cbn [u_c u_s u_ep u_el]. intros (C & S' & CS & P & L) H. unfold u_mat, u_neg, mdag. cbn [m00 m01 m10 m11 u_c u_s u_ep u_el]. rewrite !sr_conj_mul, !conj_opp, C, S'.
    destruct H as [-> | ->]; apply mat_eq; try ring; rewrite ?S'; ring.
  Qed.
  Lemma u_mat_std (u : u3 K) : u_mat u = u_std u.
  Proof. unfold u_mat, u_std. apply mat_eq; ring. Qed.
  Lemma ufac_is (e : N * u3 K * (K * K)) : mkF (fst (fst e)) (u_mat (snd (fst e))) (fst (snd e)) (snd (snd e)) = u_factor e.
  Proof. unfold u_factor. now rewrite u_mat_std. Qed.
  (** The factor measured with the angles. *)
  Definition ufac (e : N * u3 K * (K * K)) : fac := mkF (fst (fst e)) (u_mat (snd (fst e))) (fst (snd e)) (snd (snd e)).
  Lemma apply_us_is (f : u3 K -> u3 K) (u : fac -> mat2 K) l : (forall e, In e l -> u_mat (f (snd (fst e))) = u (ufac e)) -> forall (psi : vec) x,
    apply_us f (map (fun e => fst (fst e)) l) (map (fun e => snd (fst e)) l) psi x = gthru u (map ufac l) psi x.
  Proof.
    induction l as [|e l IH]; intros HF psi x; [reflexivity|]. cbn [map apply_us]. rewrite gthru_cons, IH by (intros; apply HF; now right). apply gthru_ext. intros y. unfold app1. rewrite HF by now left. reflexivity.
  Qed.
  Definition ufine (e : N * u3 K * (K * K)) : Prop := angles (snd (fst e)) /\ (u_ep (snd (fst e)) = u_el (snd (fst e)) \/ u_s (snd (fst e)) = 0).
  Lemma ufine_sound l : (forall e, In e l -> ufine e) -> forall e, In e (map ufac l) -> sound e.
  Proof. intros H e He. apply in_map_iff in He. destruct He as [a [<- Ha]]. destruct (H a Ha) as [A _]. now apply u_unitary. Qed.
  Lemma unitary3_is isExp n l (psi : vec) : l <> [] ->
    unitary_all3 isExp n (map (fun e => fst (fst e)) l) (map (fun e => snd (fst e)) l) (flat_map (fun e => [fst (snd e); snd (snd e)]) l) psi =
    (let psi1 := apply_us u_neg (map (fun e => fst (fst e)) l) (map (fun e => snd (fst e)) l) psi in
     do r <- float_call isExp n (map f_bit (map ufac l)) (flat_map f_eigs (map ufac l)) psi1; Ret (r, apply_us (fun m => m) (map (fun e => fst (fst e)) l) (map (fun e => snd (fst e)) l) psi1)).
  Proof.
    intros HN. unfold unitary_all3. rewrite !map_length, Nat.ltb_irrefl. rewrite map_map. replace (flat_map f_eigs (map ufac l)) with (flat_map (fun e : N * u3 K * (K * K) => [fst (snd e); snd (snd e)]) l) by (clear; induction l as [|e l IH]; [reflexivity|cbn [map flat_map]; rewrite IH; reflexivity]).
    destruct l; [congruence|reflexivity].
  Qed.
  Lemma us_back l (psi : vec) x : NoDup (map (fun e => fst (fst e)) l) -> (forall e, In e l -> ufine e) ->
    apply_us (fun u => u) (map (fun e => fst (fst e)) l) (map (fun e => snd (fst e)) l) (apply_us u_neg (map (fun e => fst (fst e)) l) (map (fun e => snd (fst e)) l) psi) x = psi x.
  Proof.
    intros ND HF. rewrite (apply_us_is (fun m => m) f_basis) by auto. rewrite (gthru_ext f_basis (map ufac l) _ (gthru dg (map ufac l) psi)). apply gthru_back. now rewrite map_map. intros e He. apply ufine_sound in He; auto. apply He.
    intros y. apply apply_us_is. intros e He. destruct (HF e He). now apply u_neg_dag.
  Qed.
  Lemma unitary3_exp_ok n l (psi : vec) : l <> [] -> proper_bits n (map (fun e => fst (fst e)) l) -> (forall e, In e l -> ufine e) -> norm2 n psi = 1 ->
    exists w, unitary_all3 true n (map (fun e => fst (fst e)) l) (map (fun e => snd (fst e)) l) (flat_map (fun e => [fst (snd e); snd (snd e)]) l) psi = Ret (asum (fun e => obs_exp n (ufac e) psi) l, w) /\ forall x, w x = psi x.
  Proof.
    intros HN HB HF H1. rewrite unitary3_is by auto. cbv zeta. cbn [float_call]. rewrite (exp_facs n (map ufac l) psi); auto.
    - rewrite asum_map. eexists. split; [reflexivity|]. intros x. apply us_back; auto. apply HB.
    - intros E. apply map_eq_nil in E. contradiction.
    - now rewrite map_map.
    - now apply ufine_sound.
    - intros x. apply apply_us_is. intros e He. destruct (HF e He). now apply u_neg_dag.
  Qed.
End U.
