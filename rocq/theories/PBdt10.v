(** QBdt: every call in range keeps the invariant and the norm, whatever the loop over the paths skips. *)
From Coq Require Import NArith Arith List Bool Lia Ring.
From Verif Require Import Amp PAmp SpecState SpecUnit3 PLoop PGates2 MBdt SpecBdt PBdt1 PBdt2 PBdt3 PBdt4 PBdt5 PBdt6 PBdt7 PBdt8 PBdt9.
Import ListNotations.
Local Open Scope N_scope.

Section B.
  Context {K : StarRing} (A : Arith K).
  Hypothesis EA : exact_arith A.
  Hypothesis PS : positive_sums (K := K).
  Add Ring KrDB : (sr_ring K).
  Local Open Scope amp_scope.
  Local Notation bdt := (@bdt K).
  Local Notation qbdt := (@qbdt K).

  Lemma any_loop k (f : bdt -> bdt) (fn : N -> bdt -> N * bdt) : (forall t : bdt, is_null t = false -> is_null (f t) = false) ->
    (forall i t, (i < 2 ^ N.of_nat k)%N -> sym k t -> exists mask, fn i t = (mask, t) \/ fn i t = (mask, upd k (N.eqb i) f t)) ->
    forall fuel j P (t0 : bdt), sym k t0 -> (forall i, (j <= i)%N -> P i = false) -> exists Q, par_loop fuel (2 ^ N.of_nat k) j fn (upd k P f t0) = upd k Q f t0.
  Proof.
    intros F1 FN. induction fuel as [|fuel IH]; intros j P t0 S0 HP; cbn [par_loop]; [exists P; reflexivity|]. destruct (N.ltb_spec j (2 ^ N.of_nat k)) as [L|G]; [|exists P; reflexivity].
    destruct (FN j (upd k P f t0) L (sym_upd f F1 k P t0 S0)) as [mask [E|E]]; rewrite E.
    - apply IH; [exact S0|]. intros i Hi. apply HP. assert (j <= N.lor j mask)%N by apply PBdt3.lor_ge. lia.
    - rewrite upd_upd by (assumption || (intros i Hi; destruct (N.eqb_spec j i) as [<-|]; [rewrite HP by lia; reflexivity|apply andb_false_r])).
      apply IH; [exact S0|]. intros i Hi. assert (j <= N.lor j mask)%N by apply PBdt3.lor_ge. rewrite HP by lia. apply N.eqb_neq. lia.
  Qed.
  (** The parts of [holds] that do not mention the amplitudes. *)
  Definition stay (B B' : qbdt) : Prop := fit B' /\ bt_n B' = bt_n B /\ bt_rgp B' = bt_rgp B /\ anorm (scl (bt_root B')) = anorm (scl (bt_root B)).
  Lemma stay_refl B : fit B -> stay B B. Proof. intros H. repeat split; apply H. Qed.
  Lemma stay_trans B C D : stay B C -> stay C D -> stay B D.
  Proof. intros (_ & H1 & H2 & H3) (H4 & H5 & H6 & H7). repeat split; try apply H4; congruence. Qed.
  Lemma stay_of B B' psi : holds B B' psi -> stay B B'.
  Proof. intros (H1 & H2 & H3 & H4 & _). split; [exact H1|]. auto. Qed.
  Lemma ctrl_stay m cs q anti (B : qbdt) : fit B -> (q < bt_n B)%N -> unitary2 m -> stay B (ctrl_loop A m cs q anti B).
  Proof.
    intros [T NZ] Hq U. unfold ctrl_loop. cbn zeta. set (cmask := fold_left _ cs 0%N). set (cperm := if anti then 0%N else cmask). unfold par_for_qbdt, stay, fit. cbn [bt_n bt_root bt_rgp set_root]. set (k := N.to_nat q). set (e := (N.to_nat (bt_n B) - k - 1)%nat).
    replace (N.to_nat (bt_n B - q)) with (S e) by lia. assert (ED : N.to_nat (bt_n B) = (k + S e)%nat) by lia. rewrite ED in *. rewrite (branch_tight A k (k + S e)) by (assumption || lia).
    destruct (any_loop k (leaf_gate A m (S e)) (fun i t => if negb (N.land i cmask =? cperm)%N then ((cmask - 1)%N, t) else at_leaf k i (leaf_gate A m (S e)) t)) with (fuel := N.to_nat (2 ^ q)) (j := 0%N) (P := fun _ : N => false) (t0 := bt_root B) as [Q EQ].
    - intros t. apply leaf_null.
    - intros i t Hi Ht. destruct (negb _); [eexists; left; reflexivity|]. destruct (at_leaf_ok (leaf_gate A m (S e)) k i t Hi Ht) as (a & _ & E & _). eexists. right. exact E.
    - apply (tight_sym k (k + S e)); [lia|exact T].
    - reflexivity.
    - rewrite upd_none in EQ. assert (EL : par_loop (N.to_nat (2 ^ q)) (2 ^ q) 0 (fun i t => if negb (N.land i cmask =? cperm)%N then ((cmask - 1)%N, t) else at_leaf k i (leaf_gate A m (S e)) t) (bt_root B) = upd k Q (leaf_gate A m (S e)) (bt_root B)).
      { replace (2 ^ q)%N with (2 ^ N.of_nat k)%N in * by (f_equal; lia). exact EQ. }
      rewrite EL.
      destruct (upd_ok e m _ (leaf_gate_ok A EA PS m e U) k Q (bt_root B) T) as (A1 & A2 & A3 & A4). cbn zeta in *.
      destruct (prune_ok A EA PS k (k + S e) _ (tight_loose k (k + S e) _ ltac:(lia) A1)) as (P1 & P2 & P3 & P4).
      split; [split; [apply semi_tight; [exact P1|apply P3, A3, NZ]|apply P3, A3, NZ]|]. split; [reflexivity|]. split; [reflexivity|]. rewrite P2. exact A2.
  Qed.
  Lemma swap_stay a b (B : qbdt) : fit B -> (a < bt_n B)%N -> (b < bt_n B)%N -> stay B (swap A a b B).
  Proof.
    intros H Ha Hb. destruct (bcall_ok A EA PS B (BSwap a b) H) as (c & _ & _ & X); [split; [split; assumption|exact I]|]. apply (stay_of _ _ _ X).
  Qed.
  Lemma controlled_stay m cs q anti (B : qbdt) : fit B -> cs <> [] -> (forall c, In c cs -> (c < bt_n B)%N) -> (q < bt_n B)%N -> unitary2 m -> stay B (apply_controlled A m cs q anti B).
  Proof.
    intros H C0 HC Hq U. unfold apply_controlled, controlled. cbn zeta. destruct (_ && _ && _); [apply stay_refl, H|]. assert (BK : (last (sort cs) 0 < bt_n B)%N).
    { apply HC. apply (Permutation.Permutation_in _ (sort_perm cs)). assert (NE : sort cs <> []) by (intros E; pose proof (Permutation.Permutation_length (sort_perm cs)) as L; rewrite E in L; destruct cs; [congruence|discriminate]).
      destruct (exists_last NE) as (l' & a & ->). rewrite last_last. apply in_or_app. right. left. reflexivity. }
    set (bk := last (sort cs) 0%N) in *. destruct (_ <? _)%N; [|apply ctrl_stay; assumption]. destruct (_ && _ && _); [apply ctrl_stay; assumption|].
    pose proof (swap_stay bk q B H BK Hq) as S1. destruct S1 as (F1 & N1 & R1 & E1). set (B1 := swap A bk q B) in *.
    pose proof (ctrl_stay m (sort (removelast (sort cs) ++ [q])) bk anti B1 F1 ltac:(rewrite N1; exact BK) U) as S2. destruct S2 as (F2 & N2 & R2 & E2). set (B2 := ctrl_loop A m _ bk anti B1) in *.
    apply (stay_trans _ B1); [repeat split; try apply F1; assumption|]. apply (stay_trans _ B2); [repeat split; try apply F2; assumption|]. apply swap_stay; rewrite ?N2, ?N1; assumption.
  Qed.
  Lemma bcall_stay c (B : qbdt) : fit B -> in_range (bt_n B) c -> stay B (bcall_run A c B).
  Proof.
    intros H R. assert (G : no_gaps c -> stay B (bcall_run A c B)) by (intros NG; destruct (bcall_ok A EA PS B c H (conj R NG)) as (d & _ & _ & X); apply (stay_of _ _ _ X)).
    destruct c; try (apply G; exact I). cbn [in_range bcall_run] in *. destruct R as [[ND LT] U]. destruct cs as [|c cs].
    - apply G. cbn. right. right. left. lia.
    - unfold macmtrx. destruct (is0 (m01 m) && is0 (m10 m)) eqn:E1.
      + apply andb_prop in E1. destruct E1 as [E1 E2]. destruct (is0_spec (m01 m)) as [Z1|]; [|discriminate]. destruct (is0_spec (m10 m)) as [Z2|]; [|discriminate]. cbn [bcall_run] in G. unfold macmtrx in G. rewrite Z1, Z2, is0_0 in G. cbn [andb] in G. apply G. cbn. auto.
      + destruct (is0 (m00 m) && is0 (m11 m)) eqn:E3.
        * apply andb_prop in E3. destruct E3 as [E3 E4]. destruct (is0_spec (m00 m)) as [Z1|]; [|discriminate]. destruct (is0_spec (m11 m)) as [Z2|]; [|discriminate]. cbn [bcall_run] in G. unfold macmtrx in G. rewrite E1, Z1, Z2, is0_0 in G. cbn [andb] in G. apply G. cbn. auto.
        * apply controlled_stay; [exact H|discriminate|intros x Hx; apply LT; right; exact Hx|apply LT; left; reflexivity|exact U].
  Qed.
  Lemma bcalls_stay l : forall B : qbdt, fit B -> Forall (in_range (bt_n B)) l -> stay B (bcalls A l B).
  Proof.
    induction l as [|c l IH]; intros B H F; [apply stay_refl, H|]. inversion F as [|? ? F1 F2]; subst. change (stay B (bcalls A l (bcall_run A c B))). pose proof (bcall_stay c B H F1) as S1. apply (stay_trans _ _ _ S1). destruct S1 as (F3 & N3 & _). apply IH; [exact F3|]. rewrite N3. exact F2.
  Qed.
  (** Any program in range from a new simulator. *)
  Lemma any_new n perm rgp (ph : N -> K) rnd l : (0 < n)%N -> (perm < 2 ^ n)%N -> (forall j, anorm (ph j) = 1) -> Forall (in_range n) l ->
    let B := bcalls A l (new_bdt n perm None rgp ph rnd) in fit B /\ bt_n B = n /\ bt_rgp B = rgp /\ bt_rnd B = rnd /\ bt_ph B = ph /\ anorm (scl (bt_root B)) = 1.
  Proof.
    intros N0 HP PH HF. cbn zeta. destruct (from_new A EA PS n perm rgp ph rnd [] N0 HP PH (Forall_nil _)) as (F & En & Er & _ & _ & Es & _). cbn zeta in *. change (bcalls A [] ?X) with X in *. set (B0 := new_bdt n perm None rgp ph rnd) in *.
    destruct (bcalls_stay l B0 F) as (F1 & N1 & R1 & E1); [rewrite En; exact HF|]. destruct (bcalls_kept A l B0) as [K1 K2].
    destruct (from_new A EA PS n perm rgp ph rnd [] N0 HP PH (Forall_nil _)) as (_ & _ & _ & Ed & Ep & _). cbn zeta in *. change (bcalls A [] ?X) with X in *. fold B0 in Ed, Ep.
    split; [exact F1|]. split; [congruence|]. split; [congruence|]. split; [congruence|]. split; [congruence|]. rewrite E1. exact Es.
  Qed.
End B.
