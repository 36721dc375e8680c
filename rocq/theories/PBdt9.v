(** QBdt: programs from a new simulator; what the calls do not change. *)
From Coq Require Import NArith Arith List Bool Lia Ring.
From Verif Require Import Amp PAmp SpecState SpecUnit3 PLoop PGates2 MBdt SpecBdt PBdt1 PBdt2 PBdt3 PBdt4 PBdt5 PBdt6 PBdt7 PBdt8.
Import ListNotations.
Local Open Scope N_scope.

Section B.
  Context {K : StarRing} (A : Arith K).
  Hypothesis EA : exact_arith A.
  Hypothesis PS : positive_sums (K := K).
  Add Ring KrCZ : (sr_ring K).
  Local Open Scope amp_scope.
  Local Notation bdt := (@bdt K).
  Local Notation qbdt := (@qbdt K).

  Definition kept (B B' : qbdt) : Prop := bt_rnd B' = bt_rnd B /\ bt_ph B' = bt_ph B.
  Lemma kept_refl B : kept B B. Proof. split; reflexivity. Qed.
  Lemma kept_trans B C D : kept B C -> kept C D -> kept B D.
  Proof. intros [H1 H2] [H3 H4]. split; congruence. Qed.
  Lemma mtrx_kept m q B : kept B (mtrx A m q B).
  Proof. unfold mtrx. destruct (_ && _); split; reflexivity. Qed.
  Lemma phase_kept p r q B : kept B (phase A p r q B).
  Proof. unfold phase. destruct (_ && _); [apply kept_refl|apply mtrx_kept]. Qed.
  Lemma ctrl_kept m cs q a B : kept B (ctrl_loop A m cs q a B).
  Proof. split; reflexivity. Qed.
  Lemma controlled_kept sw m cs q a B : (forall x y B, kept B (sw x y B)) -> kept B (controlled A sw m cs q a B).
  Proof.
    intros H. unfold controlled. cbn zeta. destruct (_ && _ && _); [apply kept_refl|]. destruct (_ <? _)%N; [|apply ctrl_kept]. destruct (_ && _); [apply ctrl_kept|].
    eapply kept_trans; [|apply H]. eapply kept_trans; [|apply ctrl_kept]. apply H.
  Qed.
  Lemma mcphase_kept acs cs p r q B : (forall m cs q a B, kept B (acs m cs q a B)) -> kept B (mcphase_with A acs cs p r q B).
  Proof. intros H. destruct cs; cbn [mcphase_with]; [apply phase_kept|]. destruct (negb _); [apply H|]. destruct (sr_eqb 1 r); [apply kept_refl|apply H]. Qed.
  Lemma mcinvert_kept acs cs p r q B : (forall m cs q a B, kept B (acs m cs q a B)) -> kept B (mcinvert_with A acs cs p r q B).
  Proof.
    intros H. destruct cs; cbn [mcinvert_with]; [apply mtrx_kept|]. destruct (_ || _); [apply H|]. destruct (_ <? _)%N; [apply H|]. unfold hgate.
    eapply kept_trans; [|apply mtrx_kept]. eapply kept_trans; [|apply mcphase_kept, H]. apply mtrx_kept.
  Qed.
  Lemma cnot_kept a b B : kept B (cnot A a b B).
  Proof. apply mcinvert_kept. intros m cs q an C. apply controlled_kept. intros x y D. apply kept_refl. Qed.
  Lemma swap_kept a b B : kept B (swap A a b B).
  Proof. unfold swap. destruct (b <? a)%N; destruct (_ =? _)%N; try apply kept_refl; (eapply kept_trans; [|apply cnot_kept]; eapply kept_trans; [|apply cnot_kept]; apply cnot_kept). Qed.
  Lemma acs_kept m cs q an B : kept B (apply_controlled A m cs q an B).
  Proof. apply controlled_kept, swap_kept. Qed.
  Lemma xmask_kept qs B : kept B (xmask A qs B).
  Proof. unfold xmask. generalize (sort qs). intros l. revert B. induction l as [|q l IH]; intros B; cbn [fold_left]; [apply kept_refl|]. eapply kept_trans; [|apply IH]. apply mtrx_kept. Qed.
  Lemma macphase_kept cs p r q B : kept B (macphase A cs p r q B).
  Proof. unfold macphase. destruct (_ && _); [apply kept_refl|]. eapply kept_trans; [|apply xmask_kept]. eapply kept_trans; [|apply mcphase_kept, acs_kept]. apply xmask_kept. Qed.
  Lemma macinvert_kept cs p r q B : kept B (macinvert A cs p r q B).
  Proof. unfold macinvert. eapply kept_trans; [|apply xmask_kept]. eapply kept_trans; [|apply mcinvert_kept, acs_kept]. apply xmask_kept. Qed.
  Lemma bcall_kept c B : kept B (bcall_run A c B).
  Proof.
    destruct c; cbn [bcall_run]; auto using mtrx_kept, phase_kept, swap_kept, macphase_kept, macinvert_kept.
    - apply mtrx_kept.
    - unfold mcmtrx. destruct cs; [apply mtrx_kept|]. destruct (_ && _); [apply mcphase_kept, acs_kept|]. destruct (_ && _); [apply mcinvert_kept, acs_kept|apply acs_kept].
    - apply mcphase_kept, acs_kept.
    - apply mcinvert_kept, acs_kept.
    - unfold macmtrx. destruct cs; [apply mtrx_kept|]. destruct (_ && _); [apply macphase_kept|]. destruct (_ && _); [apply macinvert_kept|apply acs_kept].
  Qed.
  Lemma bcalls_kept l : forall B, kept B (bcalls A l B).
  Proof. induction l as [|c l IH]; intros B; [apply kept_refl|]. change (kept B (bcalls A l (bcall_run A c B))). eapply kept_trans; [|apply IH]. apply bcall_kept. Qed.

  (** A program from a new simulator. *)
  Lemma from_new n perm rgp (ph : N -> K) rnd l : (0 < n)%N -> (perm < 2 ^ n)%N -> (forall j, anorm (ph j) = 1) -> Forall (proper_bcall n) l ->
    let B := bcalls A l (new_bdt n perm None rgp ph rnd) in
    fit B /\ bt_n B = n /\ bt_rgp B = rgp /\ bt_rnd B = rnd /\ bt_ph B = ph /\ anorm (scl (bt_root B)) = 1 /\ holds_state B (ideal_bcalls l (ket perm)).
  Proof.
    intros N0 HP PH HF. cbn zeta. unfold new_bdt. set (B0 := mkQB n BNull rgp ph rnd 0). assert (PU : anorm (start_phase None B0) = 1) by (cbn; destruct rgp; [apply PH|apply anorm_one]).
    destruct (set_perm_ok PS B0 perm None N0 HP) as (F & E1 & E2 & E3 & E4); [apply (unit_n0 PS), PU|]. cbn zeta in *. set (B1 := set_permutation perm None B0) in *.
    assert (K1 : kept B0 B1). { unfold B1, set_permutation. destruct (_ =? _)%N; [apply kept_refl|]. unfold nonunitary_phase. destruct (bt_rgp B0); split; reflexivity. }
    destruct (program_ok A EA PS B1 (fun x => start_phase None B0 * ket perm x) l F) as (G1 & G2 & G3 & c & G4 & G5 & G6); [rewrite E1; exact E4|rewrite E1; exact HF|].
    destruct (bcalls_kept l B1) as [R1 R2]. destruct K1 as [R3 R4]. split; [exact G1|]. split; [rewrite G2; exact E1|].
    assert (ER : bt_rgp (bcalls A l B1) = rgp) by (destruct (bcalls_ok A EA PS l B1 F) as (? & ? & ? & (? & ? & X & ?)); [rewrite E1; exact HF|]; rewrite X; exact E2).
    split; [exact ER|]. split; [rewrite R1; exact R3|]. split; [rewrite R2; exact R4|]. split; [rewrite G3, E3; exact PU|].
    exists (c * start_phase None B0). split; [rewrite anorm_mul, G4, PU; ring|]. split.
    - intros X. rewrite (G5 X). unfold start_phase. cbn [bt_rgp B0]. rewrite <- ER, X. ring.
    - intros x Hx. rewrite (G6 x Hx), ideals_lin. ring.
  Qed.
  Lemma weight_ext n P (f g : N -> K) : (forall x, (x < 2 ^ n)%N -> anorm (f x) = anorm (g x)) -> weight_of n P f = weight_of n P g.
  Proof. intros H. apply asum_ext. intros x Hx. apply basis_In in Hx. destruct (P x); [apply H, Hx|reflexivity]. Qed.
  Lemma held_anorm (B : qbdt) psi : holds_state B psi -> forall x, (x < 2 ^ bt_n B)%N -> anorm (get_amplitude B x) = anorm (psi x).
  Proof. intros (c & C & _ & H) x Hx. rewrite (H x Hx), anorm_mul, C. ring. Qed.
  Lemma held_weight (B : qbdt) psi P : holds_state B psi -> weight_of (bt_n B) P (get_amplitude B) = weight_of (bt_n B) P psi.
  Proof. intros H. apply weight_ext, held_anorm, H. Qed.
End B.
