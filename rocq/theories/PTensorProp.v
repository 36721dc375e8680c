(** QTensorNetwork; proofs of PropTensor.v. *)
From Coq Require Import NArith List Bool Lia Ring Reals.
From Verif Require Import Amp PAmp AmpC AmpC2 AmpQ8 SpecState SpecUnit3 PLoop PGates2 MQCircuit PQCirc4 PQCirc5 PQCirc8 MBdt AmpBdt AmpBdt2 SpecBdt PUnitBug PBdt1 PBdt2 PBdtProp MTensor SpecTensor PTensor1 PTensor2 PTensor3 PTensor4 PTensor5.
Import ListNotations.
Local Open Scope N_scope.

(** ** Every correct run, without normalization *)
Section Sim.
  Context {K : StarRing}.
  Add Ring KrDH : (sr_ring K).
  Local Notation vec := (N -> K).
  Local Open Scope amp_scope.
  Fixpoint sim (l : list (@tcall K)) (bs : list bool) (psi : vec) : vec :=
    match l with
    | [] => psi
    | TMeas q _ _ ap :: t => match bs with b :: bs' => sim t bs' (if ap then collapse q b psi else psi) | [] => fun _ => 0 end
    | a :: t => sim t bs (ideal_t a psi)
    end.
  Variable n : N.
  Hypothesis Hn : (n <= 126)%N.
  Lemma ideal_lin (a : @tcall K) (v w : vec) k : in_range_t n a -> is_gate a = true -> (forall x, (x < 2 ^ n)%N -> v x = k * w x) -> forall x, (x < 2 ^ n)%N -> ideal_t a v x = k * ideal_t a w x.
  Proof.
    intros R G E x Hx. destruct (gates_ok n Hn a R G) as (OG & EG & _). rewrite <- !EG. rewrite !effects_effs by exact (okg_ne n _ OG).
    rewrite (effs_eqv n (call_gates a) v (fun y => k * w y) OG E x Hx). apply effs_scale.
  Qed.
  Lemma ideal_norm (a : @tcall K) (v : vec) : in_range_t n a -> is_gate a = true -> norm2 n (ideal_t a v) = norm2 n v.
  Proof.
    intros R G. destruct (gates_ok n Hn a R G) as (OG & EG & _). rewrite <- (effs_norm n (call_gates a) v OG). unfold norm2. apply asum_ext. intros x _. rewrite <- EG, effects_effs by exact (okg_ne n _ OG). reflexivity.
  Qed.
  Lemma sim_lin l : Forall (in_range_t n) l -> forall bs (v w : vec) k, (forall x, (x < 2 ^ n)%N -> v x = k * w x) -> forall x, (x < 2 ^ n)%N -> sim l bs v x = k * sim l bs w x.
  Proof.
    induction 1 as [|a t R1 R2 IH]; intros bs v w k E x Hx; [now apply E|].
    destruct a as [m q|cs m q|cs m q|a b|q r f ap|q|y]; cbn [sim]; try (apply IH; [|exact Hx]; now apply ideal_lin); try (apply IH; assumption).
    destruct bs as [|b bs]; [ring|]. apply IH; [|exact Hx]. intros y Hy. destruct ap; [|now apply E]. unfold collapse. destruct (eqb (N.testbit y q) b); [now apply E|ring].
  Qed.
  Lemma runs_sim rnd l psi o : runs_to n rnd l psi o -> Forall (in_range_t n) l -> norm2 n psi = 1 -> forall bs v, o = Ret (bs, v) -> norm2 n v = 1 /\ exists k, forall x, (x < 2 ^ n)%N -> v x = k * sim l bs psi x.
  Proof.
    induction 1 as [psi|a t psi o G H IH|a t psi o G H IH|q r f ap t psi b phi o H1 H2 H3 H IH|q r ap t psi H]; intros R N1 bs v E; try discriminate E.
    - injection E as <- <-. split; [exact N1|]. exists 1. intros x _. cbn [sim]. ring.
    - apply Forall_cons_iff in R. destruct R as [R1 R2]. destruct (IH R2 (eq_trans (ideal_norm a psi R1 G) N1) bs v E) as (NV & k & HK). split; [exact NV|]. exists k. destruct a; try discriminate G; exact HK.
    - apply Forall_cons_iff in R. destruct R as [R1 R2]. destruct (IH R2 N1 bs v E) as (NV & k & HK). split; [exact NV|]. exists k. destruct a; try discriminate G; exact HK.
    - apply Forall_cons_iff in R. destruct R as [R1 R2]. destruct o as [[bs0 v0]| |]; cbn [bind] in E; try discriminate E. injection E as <- <-.
      assert (NP : norm2 n phi = 1) by (destruct ap; [apply H3|congruence]). destruct (IH R2 NP bs0 v0 eq_refl) as (NV & k & HK). split; [exact NV|]. cbn [sim]. destruct ap.
      + destruct H3 as (_ & k1 & K1). exists (k * k1). intros x Hx. rewrite HK by exact Hx. rewrite (sim_lin t R2 bs0 phi (collapse q b psi) k1 K1 x Hx). ring.
      + subst phi. exists k. exact HK.
  Qed.
  Variables (A : Arith K) (ci : K) (c : @tcfg K).
  Lemma wrong_result l T0 psi bs T : Forall (in_range_t n) l -> norm2 n psi = 1 -> (1 <> 0 :> K) -> tsteps A ci c l T0 = Ret (bs, T) -> (forall x, (x < 2 ^ n)%N -> sim l bs psi x = 0) ->
    ~ exists o, runs_to n (tc_rnd c) l psi o /\ agrees A ci c (tsteps A ci c l T0) o.
  Proof.
    intros R N1 NZ E Z (o & H & AG). rewrite E in AG. destruct o as [[bs' v]| |]; cbn [agrees] in AG; try contradiction. destruct AG as [<- _].
    destruct (runs_sim _ _ _ _ H R N1 bs v eq_refl) as (NV & k & HK). apply NZ. rewrite <- NV. rewrite norm_weight. apply weight_zero. intros x Hx _. rewrite HK, Z by exact Hx. ring.
  Qed.
  Lemma wrong_state l T0 psi bs T x T' s : Forall (in_range_t n) l -> norm2 n psi = 1 -> (1 <> 0 :> K) -> tsteps A ci c l T0 = Ret (bs, T) -> tn_n T = n -> (x < 2 ^ n)%N -> s * sim l bs psi x = 1 -> tn_amp A ci c x T = Ret (0, T') ->
    ~ exists o, runs_to n (tc_rnd c) l psi o /\ agrees A ci c (tsteps A ci c l T0) o.
  Proof.
    intros R N1 NZ E EN Hx S Z (o & H & AG). rewrite E in AG. destruct o as [[bs' v]| |]; cbn [agrees] in AG; try contradiction. destruct AG as [<- [(ph & P1 & P2) _]]. rewrite EN in P2. destruct (P2 x Hx) as (T'' & E2). rewrite Z in E2. injection E2 as E2 _.
    destruct (runs_sim _ _ _ _ H R N1 bs v eq_refl) as (NV & k & HK).
    assert (V0 : v x = 0). { transitivity (sr_conj ph * (ph * v x)); [transitivity (ph * sr_conj ph * v x); [fold (anorm ph); rewrite P1; ring|ring]|]. rewrite <- E2. ring. }
    assert (K0 : k = 0). { transitivity (s * (k * sim l bs psi x)); [transitivity (k * (s * sim l bs psi x)); [rewrite S; ring|ring]|]. rewrite <- HK, V0 by exact Hx. ring. }
    apply NZ. rewrite <- NV. rewrite norm_weight. apply weight_zero. intros y Hy _. rewrite HK, K0 by exact Hy. ring.
  Qed.
  Lemma wrong_stop l T0 psi : (forall q r f ap, In (TMeas q r f ap) l -> f = false) -> tsteps A ci c l T0 = Throws -> ~ exists o, runs_to n (tc_rnd c) l psi o /\ agrees A ci c (tsteps A ci c l T0) o.
  Proof.
    intros NF E (o & H & AG). rewrite E in AG. destruct o as [[bs' v]| |]; cbn [agrees] in AG; try contradiction. clear E AG T0. assert (G : forall o : out (list bool * vec), runs_to n (tc_rnd c) l psi o -> o <> Throws); [|exact (G _ H eq_refl)].
    clear H. revert psi NF. induction l as [|a t IH]; intros psi NF o H; inversion H; subst; try (apply (IH (fun b Hb => _)); fail).
    - discriminate.
    - eapply IH; [|eassumption]. intros. eapply NF. right. eassumption.
    - eapply IH; [|eassumption]. intros. eapply NF. right. eassumption.
    - match goal with X : runs_to _ _ t _ ?o |- _ => assert (Y := IH _ (fun q r f ap Hi => NF q r f ap (or_intror Hi)) _ X); destruct o as [[? ?]| |]; [discriminate|congruence|discriminate] end.
    - specialize (NF q r true ap (or_introl eq_refl)). discriminate NF.
  Qed.
End Sim.

(** ** Witnesses *)
Definition cfg8 (thr : N) (eng rgp : bool) (l : list bool) : @tcfg Q8 := mkTC thr eng false rgp (fun _ => z_i) (fun d _ => nth (N.to_nat d) l false) (fun _ _ _ => 0).
Definition tH q : @tcall Q8 := TGate H8 q.
Definition tX q : @tcall Q8 := TGate mat_X q.
Definition tCX a b : @tcall Q8 := TMC [a] mat_X b.
Definition tCZ a b : @tcall Q8 := TMC [a] (mkMat 1 0 0 (- (1)))%amp b.
Definition tM q : @tcall Q8 := TMeas q false false true.
Lemma one8_nz : (1 <> 0 :> Q8)%amp. Proof. apply neq_by. vm_compute. reflexivity. Qed.
Lemma ket8_norm n : n <= 3 -> norm2 n (ket 0 : N -> Q8) = 1%amp. Proof. intros H. assert (n = 0 \/ n = 1 \/ n = 2 \/ n = 3) as [->|[->|[->| ->]]] by lia; apply eq_by; vm_compute; reflexivity. Qed.
Lemma X8_unitary : unitary2 (mat_X : mat2 Q8). Proof. unfold unitary2. apply mat2_eq; apply eq_by; vm_compute; reflexivity. Qed.
Lemma Z8_unitary : unitary2 (mkMat 1 0 0 (- (1)) : mat2 Q8)%amp. Proof. unfold unitary2. apply mat2_eq; apply eq_by; vm_compute; reflexivity. Qed.
Ltac range8 := unfold tH, tX, tCX, tCZ, tM; repeat (apply Forall_cons); try apply Forall_nil; cbn [in_range_t];
  first [split; [reflexivity|first [exact X8_unitary|exact H8_unitary]]
        |split; [repeat constructor; cbn; intuition discriminate|split; [cbn; intros ? ?; intuition (subst; reflexivity)|first [exact X8_unitary|exact Z8_unitary]]]|reflexivity].

Lemma none8 n (f : N -> Q8) : forallb (fun x => sr_eqb (f x) 0%amp) (basis n) = true -> forall x, x < 2 ^ n -> f x = 0%amp.
Proof. intros H x Hx. rewrite forallb_forall in H. apply eq_by, H, basis_In, Hx. Qed.

Definition shape {T} (o : out (list bool * T)) : N * list bool := match o with Ret (b, _) => (0, b) | Throws => (1, []) | Undef => (2, []) end.
Lemma shape_ret {T} (o : out (list bool * T)) bs : shape o = (0, bs) -> exists t, o = Ret (bs, t).
Proof. destruct o as [[b t]| |]; intros H; try discriminate H. injection H as ->. exists t. reflexivity. Qed.
Lemma shape_throws {T} (o : out (list bool * T)) bs : shape o = (1, bs) -> o = Throws.
Proof. destruct o as [[b t]| |]; intros H; try discriminate H. reflexivity. Qed.
Definition obs {T X} (f : T -> X) (d : X) (o : out (list bool * T)) : X := match o with Ret (_, t) => f t | _ => d end.
Lemma obs_ret {T X} (f : T -> X) d (o : out (list bool * T)) bs t r : o = Ret (bs, t) -> obs f d o = r -> f t = r.
Proof. intros ->. auto. Qed.
(** What reading gives: 0 for a failure, 1 for undefined, 2 for the value [v], 3 for another value. *)
Definition kind {T} (v : Q8) (o : out (Q8 * T)) : N := match o with Throws => 0 | Undef => 1 | Ret (a, _) => if sr_eqb a v then 2 else 3 end.
Lemma kind_ret {T} v (o : out (Q8 * T)) : kind v o = 2 -> exists t, o = Ret (v, t).
Proof. unfold kind. destruct o as [[a t]| |]; intros H; try discriminate H. destruct (sr_eqb a v) eqn:E; [|discriminate H]. apply eq_by in E. subst a. exists t. reflexivity. Qed.
Lemma kind_throws {T} v (o : out (Q8 * T)) : kind v o = 0 -> o = Throws.
Proof. unfold kind. destruct o as [[a t]| |]; intros H; try discriminate H; [destruct (sr_eqb a v); discriminate H|reflexivity]. Qed.

(** ** The hypotheses at the complex numbers *)
Definition pickC (d n : N) (v : N -> CC) : N := hd 0 (filter (fun x => negb (sr_eqb (v x) 0%amp)) (basis n)).
Definition cfgC (thr : N) (eng rgp : bool) : @tcfg CC := mkTC thr eng false rgp (fun _ => 1%amp) (fun d _ => N.even d) pickC.
Lemma cfgC_unit thr eng rgp : tc_rgp (cfgC thr eng rgp) = true -> forall d, anorm (tc_ph (cfgC thr eng rgp) d) = 1%amp.
Proof. intros _ d. exact oneC_1. Qed.
Lemma cfgC_picks thr eng rgp n : picks (cfgC thr eng rgp) n.
Proof.
  intros d v H. cbn [tc_pick cfgC]. unfold pickC. assert (NE : filter (fun x => negb (sr_eqb (v x) 0%amp)) (basis n) <> []).
  { intros Z. apply (proj1 cc_sums). rewrite <- H. rewrite norm_weight. apply weight_zero. intros x Hx _. destruct (sr_eqb (v x) 0%amp) eqn:E.
    - now apply sr_eqb_ok in E.
    - exfalso. assert (X : In x []); [|destruct X]. rewrite <- Z. apply filter_In. split; [now apply basis_In|]. rewrite E. reflexivity. }
  destruct (filter (fun x => negb (sr_eqb (v x) 0%amp)) (basis n)) as [|x t] eqn:E; [congruence|]. cbn [hd]. assert (I : In x (filter (fun x => negb (sr_eqb (v x) 0%amp)) (basis n))) by (rewrite E; now left). apply filter_In in I. destruct I as [I1 I2].
  split; [now apply basis_In|]. intros Z. rewrite Z in I2. assert (X : sr_eqb (0%amp : CC) 0%amp = true) by now apply sr_eqb_ok. rewrite X in I2. discriminate I2.
Qed.
Definition cH q : @tcall CC := TGate (h_mat arCC) q.
Definition cX q : @tcall CC := TGate (mkMat 0 1 1 0)%amp q.
Definition cCX a b : @tcall CC := TMC [a] (mkMat 0 1 1 0)%amp b.
Definition cM q : @tcall CC := TMeas q false false true.
Definition gatesC : list (@tcall CC) := [cH 0; cCX 0 1; TMAC [1; 2] (h_mat arCC) 0; TProb 2; TSwap 0 2; TAmp 5; cX 1].
Definition progC : list (@tcall CC) := [cH 0; cCX 0 1; cM 0; TProb 1; cM 1; cX 0; cCX 1 2; cH 1; TAmp 3; TMeas 2 false false false; cM 2; TProb 0; cM 0].
Ltac rangeC := unfold cH, cX, cCX, cM; repeat (apply Forall_cons); try apply Forall_nil; cbn [in_range_t];
  first [split; [reflexivity|first [exact ccX_unitary|exact ccH_unitary]]
        |split; [repeat constructor; cbn; intuition discriminate|split; [cbn; intros ? ?; intuition (subst; reflexivity)|first [exact ccX_unitary|exact ccH_unitary]]]|split; reflexivity|reflexivity].
Lemma gatesC_range : Forall (in_range_t 3) gatesC. Proof. unfold gatesC. rangeC. Qed.
Lemma progC_range : Forall (in_range_t 3) progC. Proof. unfold progC. rangeC. Qed.
Lemma progC_ordered eng : ordered eng [] [] progC.
Proof. unfold progC, cH, cX, cCX, cM. cbn. repeat split; intros _; discriminate. Qed.

(** ** Appending measurements at the end *)
Section App.
  Context {K : StarRing}.
  Definition meas_only (t : list (@tcall K)) : Prop := forallb (fun a => negb (is_gate a)) t = true.
  Lemma ordered_end eng (t : list (@tcall K)) : meas_only t -> forall M S, ordered eng M S t.
  Proof.
    induction t as [|a t IH]; intros H M S; [exact I|]. unfold meas_only in H. cbn [forallb] in H. apply andb_prop in H. destruct H as [H1 H2]. destruct a as [m q|cs m q|cs m q|a b|q r f ap|q|x]; try discriminate H1; cbn [ordered]; try (now apply IH).
    destruct ap; [|now apply IH]. destruct S; [now apply IH|exact H2].
  Qed.
  Lemma ordered_app eng (l t : list (@tcall K)) : meas_only t -> forall M S, ordered eng M S l -> ordered eng M S (l ++ t).
  Proof.
    intros Ht. induction l as [|a l IH]; intros M S H; [now apply ordered_end|]. destruct a as [m q|cs m q|cs m q|a b|q r f ap|q|x]; cbn [app ordered] in *; try (now apply IH);
      try (destruct H as [H1 H2]; split; [exact H1|]; destruct (meets _ M); [now apply IH|destruct H2 as [H2 H3]; split; [exact H2|now apply IH]]).
    destruct ap; [|now apply IH]. destruct S; [now apply IH|]. rewrite forallb_app, H. exact Ht.
  Qed.
  Lemma runs_app n rnd (l t : list (@tcall K)) psi o : runs_to n rnd (l ++ t) psi o -> (o = Throws /\ runs_to n rnd l psi Throws) \/ exists bs phi o', runs_to n rnd l psi (Ret (bs, phi)) /\ runs_to n rnd t phi o' /\ o = bind o' (fun y => let (b, v) := y in Ret (bs ++ b, v)).
  Proof.
    revert psi o. induction l as [|a l IH]; intros psi o H.
    - right. exists [], psi, o. split; [constructor|]. split; [exact H|]. destruct o as [[b v]| |]; reflexivity.
    - cbn [app] in H. inversion H as [|? ? ? ? HG H4|? ? ? ? HG H4|? ? ? ? ? ? b phi o0 H1 H2 H3 H5|]; subst.
      + destruct (IH _ _ H4) as [[-> X]|(bs & phi & o' & X1 & X2 & X3)]; [left; split; [reflexivity|now apply r_gate]|right]. exists bs, phi, o'. split; [now apply r_gate|auto].
      + destruct (IH _ _ H4) as [[-> X]|(bs & phi & o' & X1 & X2 & X3)]; [left; split; [reflexivity|now apply r_read]|right]. exists bs, phi, o'. split; [now apply r_read|auto].
      + destruct (IH _ _ H5) as [[-> X]|(bs & phi' & o' & X1 & X2 & X3)].
        * left. split; [reflexivity|]. exact (r_meas n rnd q r f ap l psi b phi Throws H1 H2 H3 X).
        * right. exists (b :: bs), phi', o'. split; [exact (r_meas n rnd q r f ap l psi b phi (Ret (bs, phi')) H1 H2 H3 X1)|]. split; [exact X2|]. rewrite X3. destruct o' as [[b' v']| |]; reflexivity.
      + left. split; [reflexivity|now apply r_stop].
  Qed.
End App.
Section Fresh.
  Context {K : StarRing} (A : Arith K) (ci : K) (c : @tcfg K).
  Lemma tsteps_app (l t : list (@tcall K)) T : tsteps A ci c (l ++ t) T = bind (tsteps A ci c l T) (fun y => let (b, T) := y in bind (tsteps A ci c t T) (fun z => let (b', T) := z in Ret (b ++ b', T))).
  Proof.
    revert T. induction l as [|a l IH]; intros T; cbn [app tsteps bind]; [destruct (tsteps A ci c t T) as [[b T']| |]; reflexivity|]. destruct (tstep A ci c a T) as [[b T1]| |]; cbn [bind]; try reflexivity. rewrite IH.
    destruct (tsteps A ci c l T1) as [[b1 T2]| |]; cbn [bind]; try reflexivity. destruct (tsteps A ci c t T2) as [[b2 T3]| |]; cbn [bind]; try reflexivity. rewrite app_assoc. reflexivity.
  Qed.
  Lemma gate_fresh (a : @tcall K) T bs T' : is_gate a = true -> tn_ls T = None -> tstep A ci c a T = Ret (bs, T') -> tn_ls T' = None.
  Proof. destruct a as [m q|cs m q|cs m q|a b|q r f ap|q|x]; intros G LS E; try discriminate G; cbn [tstep] in E; injection E as _ <-; try reflexivity. unfold tn_swap. destruct (a =? b); [exact LS|reflexivity]. Qed.
  Lemma gates_fresh (l : list (@tcall K)) : forallb is_gate l = true -> forall T bs T', tn_ls T = None -> tsteps A ci c l T = Ret (bs, T') -> tn_ls T' = None.
  Proof.
    induction l as [|a l IH]; intros G T bs T' LS E; [injection E as _ <-; exact LS|]. cbn [forallb] in G. apply andb_prop in G. destruct G as [G1 G2]. cbn [tsteps] in E. destruct (tstep A ci c a T) as [[b T1]| |] eqn:E1; cbn [bind] in E; try discriminate E.
    destruct (tsteps A ci c l T1) as [[b1 T2]| |] eqn:E2; cbn [bind] in E; try discriminate E. injection E as _ <-. exact (IH G2 T1 b1 T2 (gate_fresh a T b T1 G1 LS E1) E2).
  Qed.
  Lemma new_fresh n perm phf : tn_ls (new_tn ci c n perm phf) = None.
  Proof.
    unfold new_tn, tn_set_permutation. cbn zeta. set (T0 := set_ls None (set_layers [qc_new true false] [] (mkTN n [] [] None 1%amp 0))).
    assert (G : forall l T, tn_ls T = None -> tn_ls (fold_left (fun T q => if N.testbit perm q then tn_x ci q T else T) l T) = None). { induction l as [|q l IH]; intros T H; [exact H|]. cbn [fold_left]. apply IH. destruct (N.testbit perm q); [reflexivity|exact H]. }
    specialize (G (MParFor.iota 0 (N.to_nat (tn_n T0))) T0 eq_refl). destruct phf as [p|]; [exact G|]. destruct (ls_phase c _) as [p d]. exact G.
  Qed.
End Fresh.
Section Rep.
  Context {K : StarRing}.
  Add Ring KrDI : (sr_ring K).
  Local Open Scope amp_scope.
  Lemma chance_other n q b (psi phi : N -> K) : normalized n phi (collapse q b psi) -> chance n q (negb b) phi = 0.
  Proof.
    intros (_ & k & H). rewrite chance_weight. apply weight_zero. intros x Hx E. rewrite H by exact Hx. unfold collapse. apply eqb_prop in E. rewrite E. destruct b; cbn [negb eqb]; ring.
  Qed.
End Rep.

Lemma l_c129_gates : forall (K : StarRing) (A : Arith K) (ci : K) (c : @tcfg K), exact_arith A -> positive_sums (K := K) -> (tc_rgp c = true -> forall d, anorm (tc_ph c d) = 1%amp) -> forall n perm phaseFac l, n <= 126 -> perm < 2 ^ n -> Forall (in_range_t n) l -> forallb (fun a => is_gate a || is_read a) l = true -> exists T, tsteps A ci c l (new_tn ci c n perm phaseFac) = Ret ([], T) /\ tn_n T = n /\ reads_as A ci c T (after l (ket perm)).
Proof. intros K A ci c EA PS UP n perm phf l Hn HP R G. destruct (no_meas_ok A ci c EA PS UP n Hn l R G _ _ (new_inv ci c n Hn perm phf HP)) as (T & E & I). exists T. split; [exact E|]. split; [apply I|]. exact (reads_any A ci c EA PS UP n Hn T _ I). Qed.

Lemma l_c130_programs_partial : forall (K : StarRing) (A : Arith K) (ci : K) (c : @tcfg K), exact_arith A -> positive_sums (K := K) -> (tc_rgp c = true -> forall d, anorm (tc_ph c d) = 1%amp) -> forall n perm phaseFac l, n <= 126 -> n <= tc_thr c -> perm < 2 ^ n -> Forall (in_range_t n) l -> ordered (tc_engine c) [] [] l -> exists o, runs_to n (tc_rnd c) l (ket perm) o /\ agrees A ci c (tsteps A ci c l (new_tn ci c n perm phaseFac)) o.
Proof. intros K A ci c EA PS UP n perm phf l Hn HT HP R O. destruct (program_ok A ci c EA PS UP n Hn HT l [] [] _ _ (new_inv ci c n Hn perm phf HP) R O) as (o & O1 & O2). exists o. split; [exact O1|]. exact (agrees2_agrees A ci c EA PS UP n Hn _ _ HT O2). Qed.

Lemma l_c130_layers_refuted : forall eng, let c := cfg8 9 eng false [] in exists n l, n <= tc_thr c /\ Forall (in_range_t n) l /\ ~ (exists o, runs_to n (tc_rnd c) l (ket 0) o /\ agrees arQ8 z_i c (tsteps arQ8 z_i c l (new_tn z_i c n 0 None)) o).
Proof. intros eng c. exists 3, [tM 0; tX 0; tCX 0 1; tCX 1 2]. split; [discriminate|]. split; [range8|].
  destruct (shape_ret (tsteps arQ8 z_i c [tM 0; tX 0; tCX 0 1; tCX 1 2] (new_tn z_i c 3 0 None)) [false]) as (T & E); [destruct eng; vm_compute; reflexivity|].
  destruct (kind_ret 0%amp (tn_amp arQ8 z_i c 7 T)) as (T' & EA). { refine (obs_ret (fun T => kind 0%amp (tn_amp arQ8 z_i c 7 T)) 0 _ _ T 2 E _). destruct eng; vm_compute; reflexivity. }
  assert (EN : tn_n T = 3) by (refine (obs_ret (@tn_n Q8) 0 _ _ T 3 E _); destruct eng; vm_compute; reflexivity).
  apply (wrong_state 3 ltac:(lia) arQ8 z_i c _ _ _ [false] T 7 T' 1%amp); [range8|apply ket8_norm; lia|exact one8_nz|exact E|exact EN|reflexivity|apply eq_by; vm_compute; reflexivity|exact EA]. Qed.

Lemma l_c130_phase_refuted : let c := cfg8 9 false false [true] in exists n l, n <= tc_thr c /\ Forall (in_range_t n) l /\ (exists T, tsteps arQ8 z_i c l (new_tn z_i c n 0 None) = Ret ([false; true; false], T)) /\ ~ (exists o, runs_to n (tc_rnd c) l (ket 0) o /\ agrees arQ8 z_i c (tsteps arQ8 z_i c l (new_tn z_i c n 0 None)) o).
Proof. intros c. exists 2, [tH 0; tM 1; tH 1; tCZ 1 0; tM 0; tH 1; tM 1]. split; [discriminate|]. split; [range8|]. destruct (shape_ret (tsteps arQ8 z_i c [tH 0; tM 1; tH 1; tCZ 1 0; tM 0; tH 1; tM 1] (new_tn z_i c 2 0 None)) [false; true; false]) as (T & E); [ vm_compute; reflexivity|].
  split; [exists T; exact E|]. apply (wrong_result 2 ltac:(lia) arQ8 z_i c _ _ _ [false; true; false] T); [range8|apply ket8_norm; lia|exact one8_nz|exact E|]. apply none8. vm_compute. reflexivity. Qed.

Lemma l_c130_stuck_refuted : forall eng, let c := cfg8 9 eng false [true; false] in exists n l bs T, n <= tc_thr c /\ Forall (in_range_t n) l /\ tsteps arQ8 z_i c l (new_tn z_i c n 0 None) = Ret (bs, T) /\ forall x, tn_amp arQ8 z_i c x T = if eng then Undef else Throws.
Proof. intros eng c. exists 3, [tH 2; tM 0; tX 0; tCX 0 1; tM 1; tM 0; tX 2], [false; true; true]. destruct (shape_ret (tsteps arQ8 z_i c [tH 2; tM 0; tX 0; tCX 0 1; tM 1; tM 0; tX 2] (new_tn z_i c 3 0 None)) [false; true; true]) as (T & E); [destruct eng; vm_compute; reflexivity|].
  exists T. split; [discriminate|]. split; [range8|]. split; [exact E|]. intros x.
  assert (X : (match amplitudes arQ8 z_i c [] T with Ret _ => 0 | Throws => 1 | Undef => 2 end) = if eng then 2 else 1). { refine (obs_ret (fun T => match amplitudes arQ8 z_i c [] T with Ret _ => 0 | Throws => 1 | Undef => 2 end) 0 _ _ T _ E _). destruct eng; vm_compute; reflexivity. }
  unfold tn_amp. destruct (amplitudes arQ8 z_i c [] T) as [[L T']| |], eng; try discriminate X; reflexivity. Qed.

Lemma l_c131_repeat_partial : forall (K : StarRing) (A : Arith K) (ci : K) (c : @tcfg K), exact_arith A -> positive_sums (K := K) -> (tc_rgp c = true -> forall d, anorm (tc_ph c d) = 1%amp) -> forall n perm phaseFac l q, n <= 126 -> n <= tc_thr c -> perm < 2 ^ n -> Forall (in_range_t n) l -> ordered (tc_engine c) [] [] l -> q < n -> let M := TMeas q false false true in match tsteps A ci c (l ++ [M; M]) (new_tn ci c n perm phaseFac) with Ret (bs, _) => exists bs0 b, bs = bs0 ++ [b; b] | Throws => runs_to n (tc_rnd c) l (ket perm) Throws | Undef => False end.
Proof. intros K A ci c EA PS UP n perm phf l q Hn HT HP R O Hq M. assert (R' : Forall (in_range_t n) (l ++ [M; M])) by (apply Forall_app; split; [exact R|repeat constructor; exact Hq]).
  destruct (program_ok A ci c EA PS UP n Hn HT (l ++ [M; M]) [] [] _ _ (new_inv ci c n Hn perm phf HP) R' (ordered_app _ l [M; M] eq_refl [] [] O)) as (o & O1 & O2).
  destruct (runs_app _ _ _ _ _ _ O1) as [[-> X]|(bs & phi & o' & X1 & X2 & X3)].
  - destruct (tsteps A ci c (l ++ [M; M]) (new_tn ci c n perm phf)) as [[b T]| |]; cbn [agrees2] in O2; try contradiction. exact X.
  - unfold M in X2. inversion X2 as [| | |? ? ? ? ? ? b1 phi1 o1 C1 NZ1 N1 H1|]; subst; [discriminate H|discriminate H|]. inversion H1 as [| | |? ? ? ? ? ? b2 phi2 o2 C2 NZ2 N2 H2|]; subst; [discriminate H|discriminate H|]. inversion H2; subst.
    assert (b2 = b1). { destruct (Bool.bool_dec b2 b1) as [|NE]; [assumption|]. exfalso. apply NZ2. replace b2 with (negb b1) by (clear - NE; destruct b1, b2; try reflexivity; now elim NE). now apply (chance_other n q b1 phi phi1). } subst b2.
    cbn [bind] in O2. unfold M in *; destruct (tsteps A ci c (l ++ [TMeas q false false true; TMeas q false false true]) (new_tn ci c n perm phf)) as [[b T]| |]; cbn [agrees2] in O2; try contradiction. destruct O2 as [-> _]. exists bs, b1. reflexivity. Qed.

Lemma l_c131_repeat_refuted : let c := cfg8 9 true false [true; false] in exists n l q t T, n <= tc_thr c /\ Forall (in_range_t n) l /\ q <> t /\ t < n /\ tsteps arQ8 z_i c (l ++ [tM q; tX t; tM q]) (new_tn z_i c n 0 None) = Ret ([true; false], T).
Proof. intros c. destruct (shape_ret (tsteps arQ8 z_i c [tH 0; tH 1; tM 0; tX 2; tM 0] (new_tn z_i c 3 0 None)) [true; false]) as (T & E); [ vm_compute; reflexivity|]. exists 3, [tH 0; tH 1], 0, 2, T. split; [discriminate|]. split; [range8|]. split; [discriminate|]. split; [reflexivity|exact E]. Qed.

Lemma l_c132_one_partial : forall (K : StarRing) (A : Arith K) (ci : K) (c : @tcfg K), exact_arith A -> positive_sums (K := K) -> (tc_rgp c = true -> forall d, anorm (tc_ph c d) = 1%amp) -> forall n perm phaseFac l q r f ap, n <= 126 -> tc_thr c < n -> perm < 2 ^ n -> Forall (in_range_t n) l -> forallb (fun a => is_gate a || is_read a) l = true -> q < n -> let psi := after l (ket perm) in match tsteps A ci c (l ++ [TMeas q r f ap]) (new_tn ci c n perm phaseFac) with Ret (bs, T) => exists b phi, bs = [b] /\ (if f then b = r else chosen (tc_rnd c) (chance n q true psi) b) /\ chance n q b psi <> 0%amp /\ (if ap then normalized n phi (collapse q b psi) else phi = psi) /\ (ap && tc_engine c = false -> exists ph, anorm ph = 1%amp /\ forall x, x < 2 ^ n -> exists T1, tn_amp A ci c x T = Ret ((ph * phi x)%amp, T1)) | Throws => f = true /\ chance n q r psi = 0%amp | Undef => False end.
Proof. intros K A ci c EA PS UP n perm phf l q r f ap Hn HT HP R G Hq psi. destruct (no_meas_ok A ci c EA PS UP n Hn l R G _ _ (new_inv ci c n Hn perm phf HP)) as (T0 & E & I). fold psi in I.
  rewrite (tsteps_app A ci c l [TMeas q r f ap] (new_tn ci c n perm phf)), E. cbn [bind tsteps tstep app]. pose proof (force_any A ci c EA PS UP n Hn T0 psi q r f ap I HT Hq) as F. destruct (tn_force_m A ci c q r f ap T0) as [[b T]| |]; cbn [bind]; [|exact F|exact F].
  destruct F as (phi & F1 & F2 & F3 & F4). exists b, phi. split; [reflexivity|]. split; [exact F1|]. split; [exact F2|]. split; [exact F3|]. intros NE. destruct (amp_ok A ci c EA PS UP n Hn _ _ T phi (F4 NE)) as (ph & P1 & P2). exists ph. split; [exact P1|]. intros x Hx. destruct (P2 x Hx) as (T1 & E1 & _). exists T1. exact E1. Qed.

Lemma l_c132_second_refuted : let c := cfg8 1 false false [true; false] in exists n l, tc_thr c < n /\ Forall (in_range_t n) l /\ tsteps arQ8 z_i c l (new_tn z_i c n 0 None) = Throws /\ ~ (exists o, runs_to n (tc_rnd c) l (ket 0) o /\ agrees arQ8 z_i c (tsteps arQ8 z_i c l (new_tn z_i c n 0 None)) o).
Proof. intros c. exists 3, [tH 0; tH 1; tM 0; tM 1]. split; [reflexivity|]. split; [range8|]. assert (E : tsteps arQ8 z_i c [tH 0; tH 1; tM 0; tM 1] (new_tn z_i c 3 0 None) = Throws) by (apply (shape_throws _ []); vm_compute; reflexivity). split; [exact E|]. apply wrong_stop; [|exact E].
  intros q r f ap [H|[H|[H|[H|[]]]]]; try discriminate H; injection H; congruence. Qed.

Lemma l_c132_bell_refuted : let c := cfg8 1 true false [true; false] in exists n l, tc_thr c < n /\ Forall (in_range_t n) l /\ (exists T, tsteps arQ8 z_i c l (new_tn z_i c n 0 None) = Ret ([true; false], T)) /\ ~ (exists o, runs_to n (tc_rnd c) l (ket 0) o /\ agrees arQ8 z_i c (tsteps arQ8 z_i c l (new_tn z_i c n 0 None)) o).
Proof. intros c. exists 3, [tH 0; tCX 0 1; tM 0; tM 1]. split; [reflexivity|]. split; [range8|]. destruct (shape_ret (tsteps arQ8 z_i c [tH 0; tCX 0 1; tM 0; tM 1] (new_tn z_i c 3 0 None)) [true; false]) as (T & E); [ vm_compute; reflexivity|].
  split; [exists T; exact E|]. apply (wrong_result 3 ltac:(lia) arQ8 z_i c _ _ _ [true; false] T); [range8|apply ket8_norm; lia|exact one8_nz|exact E|]. apply none8. vm_compute. reflexivity. Qed.

Lemma l_c133_mall_partial : forall (K : StarRing) (A : Arith K) (ci : K) (c : @tcfg K), exact_arith A -> positive_sums (K := K) -> (tc_rgp c = true -> forall d, anorm (tc_ph c d) = 1%amp) -> forall n perm phaseFac l, n <= 126 -> n <= tc_thr c -> perm < 2 ^ n -> picks c n -> Forall (in_range_t n) l -> ordered (tc_engine c) [] [] l -> match tsteps A ci c l (new_tn ci c n perm phaseFac) with Ret (bs, T) => exists psi, runs_to n (tc_rnd c) l (ket perm) (Ret (bs, psi)) /\ exists x T1, tn_mall A ci c T = Ret (x, T1) /\ x < 2 ^ n /\ psi x <> 0%amp /\ reads_as A ci c T1 (ket x) | Throws => runs_to n (tc_rnd c) l (ket perm) Throws | Undef => False end.
Proof. intros K A ci c EA PS UP n perm phf l Hn HT HP PK R O. destruct (program_ok A ci c EA PS UP n Hn HT l [] [] _ _ (new_inv ci c n Hn perm phf HP) R O) as (o & O1 & O2).
  destruct (tsteps A ci c l (new_tn ci c n perm phf)) as [[bs T]| |], o as [[bs' psi]| |]; cbn [agrees2] in O2; try contradiction; [|exact O1]. destruct O2 as [<- F]. exists psi. split; [exact O1|].
  destruct (mall_ok A ci c EA PS UP n Hn T psi PK F HT) as (x & T1 & E & H1 & H2 & I). exists x, T1. split; [exact E|]. split; [exact H1|]. split; [exact H2|]. exact (reads_any A ci c EA PS UP n Hn T1 _ I). Qed.

Lemma l_c133_mall_refuted : let c := cfg8 1 false false [true; false; true] in exists n l T, tc_thr c < n /\ Forall (in_range_t n) l /\ tsteps arQ8 z_i c l (new_tn z_i c n 0 None) = Ret ([], T) /\ tn_mall arQ8 z_i c T = Throws.
Proof. intros c. exists 3, [tH 0; tH 1]. destruct (shape_ret (tsteps arQ8 z_i c [tH 0; tH 1] (new_tn z_i c 3 0 None)) []) as (T & E); [vm_compute; reflexivity|]. exists T. split; [reflexivity|]. split; [range8|]. split; [exact E|].
  assert (X : (match tn_mall arQ8 z_i c T with Throws => true | _ => false end) = true). { refine (obs_ret (fun T => match tn_mall arQ8 z_i c T with Throws => true | _ => false end) false _ _ T _ E _). vm_compute. reflexivity. } destruct (tn_mall arQ8 z_i c T) as [[x T']| |]; [discriminate X|reflexivity|discriminate X]. Qed.

Lemma l_c134_set_permutation : forall (K : StarRing) (A : Arith K) (ci : K) (c : @tcfg K), exact_arith A -> positive_sums (K := K) -> (tc_rgp c = true -> forall d, anorm (tc_ph c d) = 1%amp) -> forall n perm phaseFac l (T : @tn K), n <= 126 -> tn_n T = n -> Forall (in_range_t n) l -> forallb (fun a => is_gate a || is_read a) l = true -> exists T1, tsteps A ci c l (tn_set_permutation ci c perm phaseFac T) = Ret ([], T1) /\ reads_as A ci c T1 (after l (ket (perm mod 2 ^ n))).
Proof. intros K A ci c EA PS UP n perm phf l T Hn EN R G. destruct (no_meas_ok A ci c EA PS UP n Hn l R G _ _ (set_perm_inv ci c n Hn perm phf T EN)) as (T1 & E & I). exists T1. split; [exact E|]. exact (reads_any A ci c EA PS UP n Hn T1 _ I). Qed.

Lemma l_c134_phase_refuted : forall eng, let c := cfg8 9 eng false [] in exists n perm (p : Q8) T1, anorm p = 1%amp /\ perm < 2 ^ n /\ tn_amp arQ8 z_i c perm (tn_set_permutation z_i c perm (Some p) (new_tn z_i c n 0 None)) = Ret (1%amp, T1) /\ p <> 1%amp.
Proof. intros eng c. exists 1, 1, z_i. destruct (kind_ret 1%amp (tn_amp arQ8 z_i c 1 (tn_set_permutation z_i c 1 (Some z_i) (new_tn z_i c 1 0 None)))) as (T1 & E); [destruct eng; vm_compute; reflexivity|].
  exists T1. split; [apply eq_by; vm_compute; reflexivity|]. split; [reflexivity|]. split; [exact E|apply neq_by; vm_compute; reflexivity]. Qed.

Lemma l_c135_allocate_partial : forall (K : StarRing) (A : Arith K) (ci : K) (c : @tcfg K), exact_arith A -> positive_sums (K := K) -> (tc_rgp c = true -> forall d, anorm (tc_ph c d) = 1%amp) -> forall n len start perm phaseFac l, n + len <= 126 -> 0 < len -> start <= n -> perm < 2 ^ n -> Forall (in_range_t n) l -> forallb (fun a => is_gate a || is_read a) l = true -> (start < n \/ forallb is_gate l = true) -> exists T, tsteps A ci c l (new_tn ci c n perm phaseFac) = Ret ([], T) /\ let T1 := tn_allocate ci start len T in tn_n T1 = n + len /\ reads_as A ci c T1 (tensor_at start len (after l (ket perm)) (ket 0)).
Proof. intros K A ci c EA PS UP n len start perm phf l Hn HL HS HP R G LS. assert (Hn' : n <= 126) by lia. pose proof (new_inv ci c n Hn' perm phf HP) as I0. destruct (no_meas_ok A ci c EA PS UP n Hn' l R G _ _ I0) as (T & E & I). exists T. split; [exact E|]. cbn zeta.
  assert (X : inv c (n + len) [] [] (tn_allocate ci start len T) (tensor_at start len (after l (ket perm)) (ket 0))).
  { apply (allocate_ok A ci c n len Hn HL start T _ I HS). destruct LS as [LS|LS]; [now right|left]. refine (gates_fresh A ci c l LS _ _ _ _ E). apply new_fresh. }
  split; [apply X|]. exact (reads_any A ci c EA PS UP (n + len) Hn _ _ X). Qed.

Lemma l_c135_allocate_refuted : forall eng, let c := cfg8 9 eng false [] in exists n x len T, x < 2 ^ n /\ tsteps arQ8 z_i c [TAmp x] (new_tn z_i c n 0 None) = Ret ([], T) /\ tn_n (tn_allocate z_i n len T) = n + len /\ tn_prob arQ8 z_i c n (tn_allocate z_i n len T) = Throws.
Proof. intros eng c. exists 1, 0, 1. destruct (shape_ret (tsteps arQ8 z_i c [TAmp 0] (new_tn z_i c 1 0 None)) []) as (T & E); [destruct eng; vm_compute; reflexivity|]. exists T. split; [reflexivity|]. split; [exact E|]. split.
  - refine (obs_ret (fun T => tn_n (tn_allocate z_i 1 1 T)) 0 _ _ T _ E _). destruct eng; vm_compute; reflexivity.
  - apply (kind_throws 0%amp). refine (obs_ret (fun T => kind 0%amp (tn_prob arQ8 z_i c 1 (tn_allocate z_i 1 1 T))) 0 _ _ T _ E _). destruct eng; vm_compute; reflexivity. Qed.

(** ** Programs that start with gates *)
Section Pre.
  Context {K : StarRing} (A : Arith K) (ci : K) (c : @tcfg K).
  Lemma runs_pre n (l t : list (@tcall K)) o : forallb (fun a => is_gate a || is_read a) l = true -> forall psi, runs_to n (tc_rnd c) t (after l psi) o -> runs_to n (tc_rnd c) (l ++ t) psi o.
  Proof.
    induction l as [|a l IH]; intros G psi H; [exact H|]. cbn [forallb] in G. apply andb_prop in G. destruct G as [G1 G2]. cbn [app]. unfold after in H. cbn [fold_left] in H. fold (after l (ideal_t a psi)) in H. apply orb_prop in G1. destruct G1 as [G1|G1].
    - apply r_gate; [exact G1|]. now apply IH.
    - apply r_read; [exact G1|]. apply IH; [exact G2|]. destruct a; try discriminate G1; exact H.
  Qed.
End Pre.
Definition flipC : list (@tcall CC) := [cM 1; cX 0; cCX 1 2; TAmp 6].
Lemma flipC_range : Forall (in_range_t 3) flipC. Proof. unfold flipC. rangeC. Qed.
Lemma cnotC_range : Forall (in_range_t 3) [cX 1; cM 1; TProb 2]. Proof. rangeC. Qed.


Lemma l_c130_flip_partial : forall (K : StarRing) (A : Arith K) (ci : K) (c : @tcfg K), exact_arith A -> positive_sums (K := K) -> (tc_rgp c = true -> forall d, anorm (tc_ph c d) = 1%amp) -> forall n perm phaseFac l l2 q r f r2 f2, n <= 126 -> n <= tc_thr c -> tc_engine c = false -> perm < 2 ^ n -> Forall (in_range_t n) (l ++ l2) -> forallb (fun a => is_gate a || is_read a) l = true -> q < n -> ordered false [q] [] l2 -> let p := l ++ TMeas q r f true :: TGate (mkMat 0 1 1 0)%amp q :: TMeas q r2 f2 true :: l2 in exists o, runs_to n (tc_rnd c) p (ket perm) o /\ agrees A ci c (tsteps A ci c p (new_tn ci c n perm phaseFac)) o.
Proof. intros K A ci c EA PS UP n perm phf l l2 q r f r2 f2 Hn HT HE HP R G Hq O p. apply Forall_app in R. destruct R as [R1 R2]. assert (O' : ordered (tc_engine c) [q] [] l2) by (rewrite HE; exact O).
  destruct (no_meas_ok A ci c EA PS UP n Hn l R1 G _ _ (new_inv ci c n Hn perm phf HP)) as (T & E & I). unfold p. rewrite tsteps_app, E. cbn [bind app].
  cut (exists o, runs_to n (tc_rnd c) (TMeas q r f true :: TGate mat_X q :: TMeas q r2 f2 true :: l2) (after l (ket perm)) o /\ agrees A ci c (tsteps A ci c (TMeas q r f true :: TGate mat_X q :: TMeas q r2 f2 true :: l2) T) o).
  { intros (o & O1 & O2). exists o. split; [now apply runs_pre|]. change (mkMat 0 1 1 0)%amp with (mat_X (K := K)). destruct (tsteps A ci c _ T) as [[bs T']| |]; exact O2. }
  pose proof (force_inv A ci c EA PS UP n Hn [] T _ q r f true I HT Hq) as F. cbn [tsteps tstep]. destruct (tn_force_m A ci c q r f true T) as [[b T1]| |]; cbn [bind]; [|destruct F as [-> F]; exists Throws; split; [now apply r_stop|exact Logic.I]|destruct F].
  destruct F as (phi & F1 & F2 & F3 & I1). change (tn_mtrx ci mat_X q T1) with (tn_x ci q T1).
  pose proof (flip_inv A ci c EA PS UP n Hn (proj1 PS) T1 phi q r2 f2 HE I1 HT Hq) as F'. destruct (tn_force_m A ci c q r2 f2 true (tn_x ci q T1)) as [[b2 T2]| |]; cbn [bind].
  - destruct F' as (v1 & F4 & F5 & F6 & I2). destruct (program_ok A ci c EA PS UP n Hn HT l2 [q] [] T2 v1 I2 R2 O') as (o & O1 & O2). pose proof (agrees2_agrees A ci c EA PS UP n Hn _ _ HT O2) as O3.
    exists (do (bs, v) <- (do (bs, v) <- o; Ret (b2 :: bs, v)); Ret (b :: bs, v)). split.
    + apply r_meas with (phi := phi); [exact F1|exact F2|exact F3|]. apply r_gate; [reflexivity|]. cbn [ideal_t]. apply r_meas with (phi := v1); [exact F4|exact F5|exact F6|exact O1].
    + destruct (tsteps A ci c l2 T2) as [[bs T3]| |], o as [[bs' v]| |]; cbn [bind agrees app] in *; try contradiction; try exact O3. destruct O3 as [-> O3]. split; [reflexivity|exact O3].
  - destruct F' as [-> F']. exists Throws. split; [|exact Logic.I]. change (@Throws (list bool * (N -> K))) with (do (bs, v) <- (@Throws (list bool * (N -> K))); Ret (b :: bs, v)). apply r_meas with (phi := phi); [exact F1|exact F2|exact F3|]. apply r_gate; [reflexivity|]. now apply r_stop.
  - destruct F'. Qed.

Lemma l_c130_cnot_partial : forall (K : StarRing) (A : Arith K) (ci : K) (c : @tcfg K), exact_arith A -> positive_sums (K := K) -> (tc_rgp c = true -> forall d, anorm (tc_ph c d) = 1%amp) -> forall n perm phaseFac l l2 q t r f, n <= 126 -> n <= tc_thr c -> tc_engine c = false -> perm < 2 ^ n -> Forall (in_range_t n) (l ++ l2) -> forallb (fun a => is_gate a || is_read a) l = true -> q < n -> t < n -> q <> t -> ordered false [q; t] [t] l2 -> let p := l ++ TMeas t r f true :: TMC [q] (mkMat 0 1 1 0)%amp t :: TMeas q true true true :: l2 in exists o, runs_to n (tc_rnd c) p (ket perm) o /\ agrees A ci c (tsteps A ci c p (new_tn ci c n perm phaseFac)) o.
Proof. intros K A ci c EA PS UP n perm phf l l2 q t r f Hn HT HE HP R G Hq Ht NE O p. apply Forall_app in R. destruct R as [R1 R2]. assert (O' : ordered (tc_engine c) [q; t] [t] l2) by (rewrite HE; exact O).
  destruct (no_meas_ok A ci c EA PS UP n Hn l R1 G _ _ (new_inv ci c n Hn perm phf HP)) as (T & E & I). unfold p. rewrite tsteps_app, E. cbn [bind app].
  cut (exists o, runs_to n (tc_rnd c) (TMeas t r f true :: TMC [q] mat_X t :: TMeas q true true true :: l2) (after l (ket perm)) o /\ agrees A ci c (tsteps A ci c (TMeas t r f true :: TMC [q] mat_X t :: TMeas q true true true :: l2) T) o).
  { intros (o & O1 & O2). exists o. split; [now apply runs_pre|]. change (mkMat 0 1 1 0)%amp with (mat_X (K := K)). destruct (tsteps A ci c _ T) as [[bs T']| |]; exact O2. }
  pose proof (force_inv A ci c EA PS UP n Hn [] T _ t r f true I HT Ht) as F. cbn [tsteps tstep]. destruct (tn_force_m A ci c t r f true T) as [[b T1]| |]; cbn [bind]; [|destruct F as [-> F]; exists Throws; split; [now apply r_stop|exact Logic.I]|destruct F].
  destruct F as (phi & F1 & F2 & F3 & I1). change (tn_mcmtrx ci [q] mat_X t T1) with (tn_cnot ci q t T1).
  pose proof (cnot_inv A ci c EA PS UP n Hn (proj1 PS) T1 phi q t true HE I1 HT Hq Ht NE) as F'. destruct (tn_force_m A ci c q true true true (tn_cnot ci q t T1)) as [[[|] T2]| |]; cbn [bind].
  - destruct F' as (v1 & F4 & F5 & F6 & I2). destruct (program_ok A ci c EA PS UP n Hn HT l2 [q; t] [t] T2 v1 I2 R2 O') as (o & O1 & O2). pose proof (agrees2_agrees A ci c EA PS UP n Hn _ _ HT O2) as O3.
    exists (do (bs, v) <- (do (bs, v) <- o; Ret (true :: bs, v)); Ret (b :: bs, v)). split.
    + apply r_meas with (phi := phi); [exact F1|exact F2|exact F3|]. apply r_gate; [reflexivity|]. cbn [ideal_t]. apply r_meas with (phi := v1); [reflexivity|exact F5|exact F6|exact O1].
    + destruct (tsteps A ci c l2 T2) as [[bs T3]| |], o as [[bs' v]| |]; cbn [bind agrees app] in *; try contradiction; try exact O3. destruct O3 as [-> O3]. split; [reflexivity|exact O3].
  - discriminate F'.
  - destruct F' as [_ F']. exists Throws. split; [|exact Logic.I]. change (@Throws (list bool * (N -> K))) with (do (bs, v) <- (@Throws (list bool * (N -> K))); Ret (b :: bs, v)). apply r_meas with (phi := phi); [exact F1|exact F2|exact F3|]. apply r_gate; [reflexivity|]. now apply r_stop.
  - destruct F'. Qed.

Lemma l_c130_null_refuted : forall eng, let c := cfg8 9 eng false [] in exists n l bs T, n <= tc_thr c /\ Forall (in_range_t n) l /\ tsteps arQ8 z_i c l (new_tn z_i c n 0 None) = Ret (bs, T) /\ forall x, tn_amp arQ8 z_i c x T = Undef.
Proof. intros eng c. exists 3, [tM 1; tCX 0 1; tM 0; tX 2], [false; false]. destruct (shape_ret (tsteps arQ8 z_i c [tM 1; tCX 0 1; tM 0; tX 2] (new_tn z_i c 3 0 None)) [false; false]) as (T & E); [destruct eng; vm_compute; reflexivity|].
  exists T. split; [discriminate|]. split; [range8|]. split; [exact E|]. intros x.
  assert (X : (match amplitudes arQ8 z_i c [] T with Ret _ => 0 | Throws => 1 | Undef => 2 end) = 2). { refine (obs_ret (fun T => match amplitudes arQ8 z_i c [] T with Ret _ => 0 | Throws => 1 | Undef => 2 end) 0 _ _ T _ E _). destruct eng; vm_compute; reflexivity. }
  unfold tn_amp. destruct (amplitudes arQ8 z_i c [] T) as [[L T']| |]; try discriminate X; reflexivity. Qed.

Lemma l_c131_wide_partial : forall (K : StarRing) (A : Arith K) (ci : K) (c : @tcfg K), exact_arith A -> positive_sums (K := K) -> (tc_rgp c = true -> forall d, anorm (tc_ph c d) = 1%amp) -> forall n perm phaseFac l q r f, n <= 126 -> tc_thr c < n -> perm < 2 ^ n -> Forall (in_range_t n) l -> forallb (fun a => is_gate a || is_read a) l = true -> q < n -> match tsteps A ci c (l ++ [TMeas q r f true; TMeas q false false true]) (new_tn ci c n perm phaseFac) with Ret (bs, _) => exists b, bs = [b; b] | Throws => f = true /\ chance n q r (after l (ket perm)) = 0%amp | Undef => False end.
Proof. intros K A ci c EA PS UP n perm phf l q r f Hn HT HP R G Hq. destruct (no_meas_ok A ci c EA PS UP n Hn l R G _ _ (new_inv ci c n Hn perm phf HP)) as (T & E & I). rewrite tsteps_app, E. cbn [bind app tsteps tstep].
  pose proof (shape_wide A ci c EA PS UP n Hn T _ q r f I HT Hq) as F. destruct (tn_force_m A ci c q r f true T) as [[b T1]| |]; cbn [bind]; [|exact F|exact F]. destruct F as (_ & _ & EN & LS & ME & CI).
  destruct (again_wide A ci c EA PS UP n Hn (proj1 PS) T1 q b EN LS ME CI HT Hq) as (T2 & E2). unfold tn_m in E2. rewrite E2. cbn [bind app]. exists b. reflexivity. Qed.

Lemma l_c133_zero_partial : forall (K : StarRing) (A : Arith K) (ci : K) (c : @tcfg K), exact_arith A -> positive_sums (K := K) -> (tc_rgp c = true -> forall d, anorm (tc_ph c d) = 1%amp) -> forall n phaseFac (T : @tn K), n <= 126 -> tc_thr c < n -> tn_n T = n -> exists T1, tn_mall A ci c (tn_set_permutation ci c 0 phaseFac T) = Ret (0, T1) /\ reads_as A ci c T1 (ket 0).
Proof. intros K A ci c EA PS UP n phf T Hn HT EN. destruct (zeros_mall A ci c n Hn (proj1 PS) T phf EN HT) as (T1 & E & I). exists T1. split; [exact E|]. exact (reads_any A ci c EA PS UP n Hn T1 _ I). Qed.

Lemma l_c133_basis_refuted : forall eng, let c := cfg8 1 eng false [] in exists n perm, tc_thr c < n /\ perm < 2 ^ n /\ tn_mall arQ8 z_i c (new_tn z_i c n perm None) = if eng then Undef else Throws.
Proof. intros eng c. exists 3, 7. split; [reflexivity|]. split; [reflexivity|]. assert (X : (match tn_mall arQ8 z_i c (new_tn z_i c 3 7 None) with Ret _ => 0 | Throws => 1 | Undef => 2 end) = if eng then 2 else 1) by (destruct eng; vm_compute; reflexivity).
  destruct (tn_mall arQ8 z_i c (new_tn z_i c 3 7 None)) as [[x T']| |], eng; try discriminate X; reflexivity. Qed.
