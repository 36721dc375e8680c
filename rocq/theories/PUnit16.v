(** Proofs for QUnit: trimming controls. *)
From Coq Require Import Arith NArith List Bool Lia Ring.
From Verif Require Import Bits MFunctions SpecFunctions PFunctions MKernel PKernel Amp PAmp SpecState PApply PCompose PGates PGates2 PProb PQCirc2 PQCirc3 PEngine MShard SpecShard MUnit SpecUnit PShard1 PShard2 PShard3 PShard4 PShard5 PShard6 PShard7 PShard9 PUnit1 PUnit2 PUnit3 PUnit4 PUnit5 PUnit6 PUnit7 PUnit8 PUnit9 PUnit10 PUnit11 PUnit12 PUnit13 PUnit14 PUnit15.
Import ListNotations.
Local Open Scope N_scope.

Section P.
  Context {K : StarRing} (cx : Cplx K) (D : definite (K := K)).
  Add Ring KrCE : (sr_ring K).
  Local Notation vec := (N -> K).
  Local Notation unit1 x := (anorm x = 1%amp).
  Local Notation qu := (qunit K).
  Local Notation po := (cx_po cx).
  Local Notation framed := (framed cx).
  Local Notation meaning := (meaning cx).
  Local Notation good := (good cx).
  Local Notation keeps := (keeps cx).
  Local Notation flushed := (flushed cx).
  Local Notation R2 := (RevertBasis2Qb cx).
  Implicit Types (U V X : qu) (psi phi : vec) (s : shards K) (cs l : list (N * bool)).

  Lemma keeps_sup U V q b : keeps U V -> supported q b (meaning V) <-> supported q b (meaning U).
  Proof. intros H. split; intros S; (eapply supported_like; [|exact S]); [apply like_sym|]; apply (kp_like cx U V H). Qed.
  Lemma keeps_two U V q : keeps U V -> two_sided q (meaning V) <-> two_sided q (meaning U).
  Proof. intros H. unfold two_sided. rewrite !(keeps_sup U V _ _ H). reflexivity. Qed.
  Lemma calm_sup U q b : good U -> not_inverted (u_buf U) q -> supported q b (meaning U) <-> supported q b (framed U).
  Proof. intros G HN. apply sup_pending; [apply (gd_tidy cx U G)|exact HN]. Qed.
  (** The test of one control. *)
  Lemma test_ok c (v : bool) U : good U -> c < u_n U -> bas_of U c = PauliZ -> not_inverted (u_buf U) c -> exists e b V, trim_test cx R2 c v U = (e, b, V) /\ keeps U V /\
    (b = true -> supported c (negb v) (meaning U)) /\ (b = false -> e = true -> supported c v (meaning U)) /\ (e = false -> b = false /\ two_sided c (meaning U)).
  Proof.
    intros G Hc Bz HN. destruct (probe cx D c U (gd_wf cx U G) (gd_neat cx U G) Hc Bz) as (V & E & S & BV & _ & Z1 & Z0). unfold trim_test. rewrite E. cbn [snd].
    pose proof (sound_keeps cx U V G S) as KV. pose proof (kp_good cx U V KV) as GV. assert (HNV : not_inverted (u_buf V) c) by (replace (u_buf V) with (u_buf U) by (symmetry; apply S); exact HN).
    assert (HcV : c < u_n V) by (rewrite (sound_n cx U V S); exact Hc).
    rewrite <- (calm_sup U c false G HN) in Z1. rewrite <- (calm_sup U c true G HN) in Z0.
    destruct (is0 (s_a1 (u_sh V c))) eqn:I1.
    - apply is0_iff, Z1 in I1. pose proof (flush_ok cx false c V GV HcV HNV (proj2 (keeps_sup U V c false KV) I1)) as F. exists true, v, (Flush0Eigenstate cx R2 c V). split; [reflexivity|].
      split; [eapply keeps_trans; [exact KV|apply (fl_keeps cx _ _ F)]|]. split; [intros ->; exact I1|]. split; [intros ->; auto|discriminate].
    - destruct (is0 (s_a0 (u_sh V c))) eqn:I0.
      + apply is0_iff, Z0 in I0. pose proof (flush_ok cx true c V GV HcV HNV (proj2 (keeps_sup U V c true KV) I0)) as F. exists true, (negb v), (Flush1Eigenstate cx R2 c V). split; [reflexivity|].
        split; [eapply keeps_trans; [exact KV|apply (fl_keeps cx _ _ F)]|]. split; [intros ->; exact I0|]. split; [intros Hv; destruct v; [auto|discriminate]|discriminate].
      + exists false, false, V. split; [reflexivity|]. split; [exact KV|]. split; [discriminate|]. split; [discriminate|]. intros _. split; [reflexivity|].
        split; intros H; [apply Z1, is0_iff in H|apply Z0, is0_iff in H]; congruence.
  Qed.
  (** The result of a loop that looks for a control that cannot have its value. *)
  Definition sought cs U (r : bool * qu) : Prop := keeps U (snd r) /\ (fst r = true -> exists c v, In (c, v) cs /\ supported c (negb v) (meaning U)).
  Lemma sought_cons c v cs U V r : keeps U V -> sought cs V r -> sought ((c, v) :: cs) U r.
  Proof.
    intros KV [A B]. split; [eapply keeps_trans; eassumption|]. intros E. destruct (B E) as (c' & v' & Hin & S). exists c', v'. split; [right; exact Hin|apply (keeps_sup U V _ _ KV), S].
  Qed.
  Lemma sought_now c v cs U V : keeps U V -> supported c (negb v) (meaning U) -> sought ((c, v) :: cs) U (true, V).
  Proof. intros KV S. split; [exact KV|]. intros _. exists c, v. split; [left; reflexivity|exact S]. Qed.
  Lemma below_range cs U V : keeps U V -> (forall c v, In (c, v) cs -> c < u_n U) -> forall c v, In (c, v) cs -> c < u_n V.
  Proof. intros KV H c v Hin. rewrite (keeps_n cx U V KV). apply (H c v Hin). Qed.
  Lemma trim1_ok cs : forall U, good U -> (forall c v, In (c, v) cs -> c < u_n U) -> sought cs U (trim1 cx cs U).
  Proof.
    induction cs as [|[c v] cs IH]; intros U G HR; cbn [trim1].
    - split; [apply keeps_refl, G|discriminate].
    - assert (Hc : c < u_n U) by (apply (HR c v); left; reflexivity).
      destruct (cached_control cx D v c U (gd_wf cx U G) (gd_neat cx U G) Hc) as (b & V & -> & S & _ & F). pose proof (sound_keeps cx U V G S) as KV. destruct b.
      + destruct (F eq_refl) as [Q Sp]. apply sought_now; [exact KV|]. apply calm_sup; [exact G| |exact Sp].
        intros a p b E. destruct (proj1 (queued_iff U c (proj1 (gd_tidy cx U G))) Q a p) as [E' _]. congruence.
      + apply (sought_cons c v cs U V); [exact KV|]. apply IH; [apply (kp_good cx U V KV)|]. apply (below_range cs U V KV). intros c' v' Hin. apply (HR c' v'). right. exact Hin.
  Qed.
  Lemma guard_z (U : qu) c : pauli_eqb (s_bas (u_sh U c)) PauliZ = true -> bas_of U c = PauliZ.
  Proof. unfold bas_of. destruct (s_bas (u_sh U c)); [reflexivity|discriminate|discriminate]. Qed.
  Lemma trim2_ok cs : forall U, good U -> (forall c v, In (c, v) cs -> c < u_n U) -> sought cs U (trim2 cx R2 cs U).
  Proof.
    induction cs as [|[c v] cs IH]; intros U G HR; cbn [trim2].
    - split; [apply keeps_refl, G|discriminate].
    - assert (Hc : c < u_n U) by (apply (HR c v); left; reflexivity). assert (HR' : forall c v, In (c, v) cs -> c < u_n U) by (intros c' v' Hin; apply (HR c' v'); right; exact Hin).
      destruct (negb (pauli_eqb (s_bas (u_sh U c)) PauliZ) || IsInvertTarget c (u_buf U)) eqn:Sk; [apply (sought_cons c v cs U U); [apply keeps_refl, G|apply IH; assumption]|].
      apply orb_false_iff in Sk. destruct Sk as [Sz Si]. apply negb_false_iff, guard_z in Sz. apply (not_inverted_iff _ _ (proj1 (gd_tidy cx U G))) in Si.
      destruct (test_ok c v U G Hc Sz Si) as (e & b & V & -> & KV & F & _). destruct b; [apply sought_now; auto|].
      apply (sought_cons c v cs U V); [exact KV|]. apply IH; [apply (kp_good cx U V KV)|apply (below_range cs U V KV HR')].
  Qed.
  Lemma revert_keeps c U : good U -> c < u_n U -> let V := RevertBasis1Qb cx (SeparateBit cx) c U in keeps U V /\ bas_of V c = PauliZ /\ u_buf V = u_buf U /\ mono U V.
  Proof.
    intros G Hc. cbn zeta. destruct (revert_ok cx c U (gd_wf cx U G) (gd_neat cx U G) Hc) as (S & B & O & _). split; [apply sound_keeps; assumption|]. split; [exact B|]. split; [apply S|].
    intros p. destruct (N.eq_dec p c) as [->|Hp]; [right; exact B|left; unfold bas_of; rewrite (O p Hp); reflexivity].
  Qed.
  Lemma trim3_ok cs : forall U, good U -> (forall c v, In (c, v) cs -> c < u_n U) -> sought cs U (trim3 cx R2 cs U).
  Proof.
    induction cs as [|[c v] cs IH]; intros U G HR; cbn [trim3].
    - split; [apply keeps_refl, G|discriminate].
    - assert (Hc : c < u_n U) by (apply (HR c v); left; reflexivity). assert (HR' : forall c v, In (c, v) cs -> c < u_n U) by (intros c' v' Hin; apply (HR c' v'); right; exact Hin).
      destruct (pauli_eqb (s_bas (u_sh U c)) PauliZ || IsInvertTarget c (u_buf U)) eqn:Sk; [apply (sought_cons c v cs U U); [apply keeps_refl, G|apply IH; assumption]|].
      apply orb_false_iff in Sk. destruct Sk as [_ Si]. apply (not_inverted_iff _ _ (proj1 (gd_tidy cx U G))) in Si.
      destruct (revert_keeps c U G Hc) as (K0 & B0 & E0 & _). set (U0 := RevertBasis1Qb cx (SeparateBit cx) c U) in *.
      destruct (test_ok c v U0) as (e & b & V & -> & KV & F & _); [apply K0|rewrite (keeps_n cx _ _ K0); exact Hc|exact B0|rewrite E0; exact Si|].
      pose proof (keeps_trans cx _ _ _ K0 KV) as K1. destruct b; [apply sought_now; [exact K1|apply (keeps_sup U U0 _ _ K0); auto]|].
      apply (sought_cons c v cs U V); [exact K1|]. apply IH; [apply (kp_good cx _ _ K1)|apply (below_range cs U V K1 HR')].
  Qed.
  (** ToPermBasisProb. *)
  Lemma perm_prob_ok c U : good U -> c < u_n U -> let V := ToPermBasisProb cx R2 c U in keeps U V /\ bas_of V c = PauliZ /\ not_inverted (u_buf V) c /\ mono U V /\ below (u_buf U) (u_buf V).
  Proof.
    intros G Hc. cbn zeta. unfold ToPermBasisProb. destruct (revert_keeps c U G Hc) as (K0 & B0 & E0 & M0). set (U0 := RevertBasis1Qb cx (SeparateBit cx) c U) in *.
    destruct (revert2_calm cx D c U0 (kp_good cx _ _ K0)) as [F HN]. split; [eapply keeps_trans; [exact K0|apply (fl_keeps cx _ _ F)]|].
    split; [destruct (fl_mono cx _ _ F c) as [E|E]; congruence|]. split; [exact HN|]. split; [eapply mono_trans; [exact M0|apply (fl_mono cx _ _ F)]|].
    rewrite <- E0. apply (fl_below cx _ _ F).
  Qed.
  (** What is known of the controls that are left. *)
  Definition trimmed cs U (r : option (list (N * bool))) : Prop :=
    match r with
    | None => exists c v, In (c, v) cs /\ supported c (negb v) (meaning U)
    | Some l => incl l cs /\ (NoDup (map fst cs) -> NoDup (map fst l)) /\ (forall c v, In (c, v) cs -> In (c, v) l \/ supported c v (meaning U)) /\ (forall c v, In (c, v) l -> two_sided c (meaning U))
    end.
  Lemma trimmed_keeps cs U V r : keeps U V -> trimmed cs V r -> trimmed cs U r.
  Proof.
    intros KV. destruct r as [l|].
    - intros (A1 & A2 & A3 & A4). split; [exact A1|]. split; [exact A2|]. split; [intros c v Hin; destruct (A3 c v Hin) as [H|H]; [left; exact H|right; apply (keeps_sup U V _ _ KV), H]|]. intros c v Hin. apply (keeps_two U V _ KV), (A4 c v Hin).
    - intros (c & v & Hin & S). exists c, v. split; [exact Hin|apply (keeps_sup U V _ _ KV), S].
  Qed.
  Lemma trim4_ok cs : forall U, good U -> (forall c v, In (c, v) cs -> c < u_n U) -> keeps U (snd (trim4 cx R2 cs U)) /\ trimmed cs U (fst (trim4 cx R2 cs U)).
  Proof.
    induction cs as [|[c v] cs IH]; intros U G HR; cbn [trim4].
    - split; [apply keeps_refl, G|]. cbn [fst]. split; [apply incl_refl|]. split; [auto|]. split; [intros c v []|intros c v []].
    - assert (Hc : c < u_n U) by (apply (HR c v); left; reflexivity). assert (HR' : forall c v, In (c, v) cs -> c < u_n U) by (intros c' v' Hin; apply (HR c' v'); right; exact Hin).
      destruct (perm_prob_ok c U G Hc) as (K0 & B0 & N0 & _). set (U0 := ToPermBasisProb cx R2 c U) in *.
      destruct (test_ok c v U0) as (e & b & V & -> & KV & F1 & F2 & F3); [apply K0|rewrite (keeps_n cx _ _ K0); exact Hc|exact B0|exact N0|].
      pose proof (keeps_trans cx _ _ _ K0 KV) as K1. destruct b; [split; [exact K1|]; exists c, v; split; [left; reflexivity|apply (keeps_sup U U0 _ _ K0); auto]|].
      destruct (IH V (kp_good cx _ _ K1) (below_range cs U V K1 HR')) as [I1 I2]. destruct (trim4 cx R2 cs V) as [r U2] eqn:Er. cbn [fst snd] in *.
      split; [eapply keeps_trans; [exact K1|exact I1]|]. apply (trimmed_keeps cs U V _ K1) in I2. destruct r as [l|].
      + destruct I2 as (A1 & A2 & A3 & A4). destruct e.
        * split; [intros x Hx; right; apply A1, Hx|]. split; [intros ND; cbn [map] in ND; apply NoDup_cons_iff in ND; apply A2, ND|]. split; [|exact A4].
          intros c' v' [[= <- <-]|Hin]; [right; apply (keeps_sup U U0 _ _ K0); auto|apply A3, Hin].
        * split; [intros x [Hx|Hx]; [left; exact Hx|right; apply A1, Hx]|]. split.
          { intros ND. cbn [map fst] in *. apply NoDup_cons_iff in ND. destruct ND as [ND1 ND2]. constructor; [|apply A2, ND2]. intros H. apply ND1. apply in_map_iff in H. destruct H as (x & Ex & Hx). rewrite <- Ex. apply in_map, A1, Hx. }
          split; [intros c' v' [[= <- <-]|Hin]; [left; left; reflexivity|destruct (A3 c' v' Hin) as [H|H]; [left; right; exact H|right; exact H]]|].
          intros c' v' [[= <- <-]|Hin]; [apply (keeps_two U U0 _ K0); apply F3; reflexivity|apply (A4 c' v' Hin)].
      + destruct I2 as (c' & v' & Hin & S). exists c', v'. split; [right; exact Hin|exact S].
  Qed.
  Lemma trim_ok cs U : good U -> (forall c v, In (c, v) cs -> c < u_n U) -> keeps U (snd (TrimControls cx R2 cs U)) /\ trimmed cs U (fst (TrimControls cx R2 cs U)).
  Proof.
    intros G HR. unfold TrimControls. destruct cs as [|cv cs0] eqn:Ecs.
    - cbn [fst snd]. split; [apply keeps_refl, G|]. split; [apply incl_refl|]. split; [auto|]. split; [intros c v []|intros c v []].
    - rewrite <- Ecs in *. clear Ecs cv cs0.
      destruct (trim1_ok cs U G HR) as [K1 F1]. destruct (trim1 cx cs U) as [b1 U1]. cbn [fst snd] in *. destruct b1; [split; [exact K1|apply F1; reflexivity]|]. clear F1.
      destruct (trim2_ok cs U1 (kp_good cx _ _ K1) (below_range cs U U1 K1 HR)) as [K2 F2]. destruct (trim2 cx R2 cs U1) as [b2 U2]. cbn [fst snd] in *. pose proof (keeps_trans cx _ _ _ K1 K2) as K12.
      destruct b2; [split; [exact K12|]; apply (trimmed_keeps cs U U1 None K1); apply F2; reflexivity|]. clear F2.
      destruct (trim3_ok cs U2 (kp_good cx _ _ K2) (below_range cs U U2 K12 HR)) as [K3 F3]. destruct (trim3 cx R2 cs U2) as [b3 U3]. cbn [fst snd] in *. pose proof (keeps_trans cx _ _ _ K12 K3) as K13.
      destruct b3; [split; [exact K13|]; apply (trimmed_keeps cs U U2 None K12); apply F3; reflexivity|]. clear F3.
      destruct (trim4_ok cs U3 (kp_good cx _ _ K3) (below_range cs U U3 K13 HR)) as [K4 F4]. split; [eapply keeps_trans; eassumption|]. apply (trimmed_keeps cs U U3 _ K13 F4).
  Qed.
  (** The gate with the controls that are left. *)
  Lemma holds_in cs x : holds cs x = true <-> forall c v, In (c, v) cs -> N.testbit x c = v.
  Proof.
    unfold holds. rewrite forallb_forall. split.
    - intros H c v Hin. apply (H (c, v)) in Hin. cbn [fst snd] in Hin. apply eqb_prop in Hin. exact Hin.
    - intros H [c v] Hin. cbn [fst snd]. rewrite (H c v Hin). apply eqb_reflx.
  Qed.
  Lemma gate_zero P t m psi x : (psi x = 0)%amp -> psi (fx t x) = 0%amp -> gate1 P t m psi x = 0%amp.
  Proof. intros E1 E2. rewrite gate1_at, E1, E2. ring. Qed.
  Lemma fx_other t x c : c <> t -> N.testbit (fx t x) c = N.testbit x c.
  Proof. intros H. apply tb_fx_neq. congruence. Qed.
  Lemma holds_none cs t m psi c v : In (c, v) cs -> c <> t -> supported c (negb v) psi -> same_state (gate1 (holds cs) t m psi) psi.
  Proof.
    intros Hin Hct S x. destruct (holds cs x) eqn:H.
    - pose proof (proj1 (holds_in cs x) H c v Hin) as Ec. assert (Ev : N.testbit x c <> negb v) by (rewrite Ec; destruct v; discriminate).
      rewrite (gate_zero _ t m psi x); [symmetry|apply S; exact Ev|apply S; rewrite fx_other by exact Hct; exact Ev]. apply S, Ev.
    - unfold gate1. rewrite H. reflexivity.
  Qed.
  Lemma holds_some cs l t m psi : ctl cs t = false -> incl l cs -> (forall c v, In (c, v) cs -> In (c, v) l \/ supported c v psi) -> same_state (gate1 (holds cs) t m psi) (gate1 (holds l) t m psi).
  Proof.
    intros Ht HI HS x. destruct (holds cs x) eqn:H.
    - assert (H' : holds l x = true) by (apply holds_in; intros c v Hin; apply (proj1 (holds_in cs x) H), HI, Hin). unfold gate1. rewrite H, H'. reflexivity.
    - destruct (holds l x) eqn:H'; [|unfold gate1; rewrite H, H'; reflexivity].
      assert (Z : exists c v, In (c, v) cs /\ N.testbit x c <> v).
      { unfold holds in H. clear -H. induction cs as [|[c v] cs IH]; [discriminate|]. cbn [forallb fst snd] in H. destruct (eqb (N.testbit x c) v) eqn:E.
        - destruct (IH H) as (c' & v' & Hin & Hn). exists c', v'. split; [right; exact Hin|exact Hn].
        - exists c, v. split; [left; reflexivity|]. apply eqb_false_iff in E. exact E. }
      destruct Z as (c & v & Hin & Hn). destruct (HS c v Hin) as [Hl|Sp]; [destruct (Hn (proj1 (holds_in l x) H' c v Hl))|].
      assert (Hct : c <> t) by (intros ->; assert (ctl cs t = true) by (apply ctl_iff; exists v; exact Hin); congruence).
      assert (Z1 : psi x = 0%amp) by (apply Sp, Hn). assert (Z2 : psi (fx t x) = 0%amp) by (apply Sp; rewrite fx_other by exact Hct; exact Hn).
      rewrite !gate_zero by assumption. reflexivity.
  Qed.
  (** A controlled gate does what it should. *)
  Record done (L : N -> N -> Prop) (G : vec -> vec) U V : Prop := mkDone { dn_good : good V; dn_like : like (meaning V) (G (meaning U)); dn_held : held U V; dn_ctl : forall c t, links V c t -> links U c t \/ L c t }.
  Context (L : N -> N -> Prop).
  Lemma done_keeps U V : keeps U V -> done L (fun psi => psi) U V.
  Proof. intros [A B C E]; split; try assumption. intros c t H. left. apply E, H. Qed.
  Lemma does_done q M U V : does cx q M U V -> done L (gate1 always q M) U V.
  Proof. intros [A B C E]; split; try assumption. intros c t H. left. apply E, H. Qed.
  Lemma done_after G U V X : keeps U V -> (forall psi phi, like psi phi -> like (G psi) (G phi)) -> done L G V X -> done L G U X.
  Proof.
    intros [A1 A2 A3 A4] HG [B1 B2 B3 B4]. split; [exact B1| |eapply held_trans; eassumption|intros c t H; destruct (B4 c t H); [left; apply A4; assumption|right; assumption]]. eapply like_trans; [exact B2|apply HG, A2].
  Qed.
  Lemma done_before G U V X : done L G U V -> keeps V X -> done L G U X.
  Proof. intros [A1 A2 A3 A4] [B1 B2 B3 B4]. split; [exact B1| |eapply held_trans; eassumption|intros c t H; apply A4, B4, H]. eapply like_trans; eassumption. Qed.
  Lemma done_like G G' U V : done L G U V -> like (G (meaning U)) (G' (meaning U)) -> done L G' U V.
  Proof. intros [A B C E] LL. split; [exact A| |exact C|exact E]. eapply like_trans; eassumption. Qed.
End P.
