(** Reachable tableaus are valid; the lemmas restated for reachable tableaus. *)
From Coq Require Import NArith ZArith List Bool Lia Ring.
From Verif Require Import Amp PAmp AmpF Bits MFunctions MParFor MQCircuit MEngine MStab SpecState SpecStab SpecStab2 PStab1 PStab2 PStab3 PStab4 PStab5 PStab6 PStab7 PStab8 PStab9 PStab10 PStab11 PStab12 PGates2 PLoop PCompose.
Import ListNotations.
Local Open Scope N_scope.

Definition qstep := fun rgp T g Hg V => step_gate q_i q_h q_i_ok q_h_ok q_tors rgp T g Hg V.
Lemma sepx_valid rgp T t s T' : valid T -> t < t_n T -> is_separable_x rgp T t = Ok (s, T') -> t_n T' = t_n T /\ valid T'.
Proof.
  intros V Ht H. unfold is_separable_x in H. destruct (step_h q_i q_h q_i_ok rgp T t Ht V) as (T1 & E1 & N1 & V1 & _). rewrite E1 in H. cbn [rbind] in H.
  destruct (sep_total T1 t ltac:(lia)) as [b S]. rewrite S in H. cbn [rbind] in H. destruct (step_h q_i q_h q_i_ok rgp T1 t ltac:(lia) V1) as (T2 & E2 & N2 & V2 & _). rewrite E2 in H. cbn [rbind] in H. injection H as <- <-. split; [congruence|auto].
Qed.
Lemma sepy_valid rgp T t s T' : valid T -> t < t_n T -> is_separable_y rgp T t = Ok (s, T') -> t_n T' = t_n T /\ valid T'.
Proof.
  intros V Ht H. unfold is_separable_y in H. destruct (step_is q_i q_h q_i_ok q_tors rgp T t Ht V) as (T1 & E1 & N1 & V1 & _). rewrite E1 in H. cbn [rbind] in H.
  destruct (is_separable_x rgp T1 t) as [|[b T2]] eqn:S; [discriminate|]. destruct (sepx_valid rgp T1 t b T2 V1 ltac:(lia) S) as [N2 V2]. cbn [rbind fst snd] in H.
  destruct (step_s q_i q_h q_i_ok q_tors rgp T2 t ltac:(lia) V2) as (T3 & E3 & N3 & V3 & _). rewrite E3 in H. cbn [rbind] in H. injection H as <- <-. split; [congruence|auto].
Qed.
Lemma sep_valid rgp T t c T' : valid T -> is_separable rgp T t = Ok (c, T') -> t < t_n T /\ t_n T' = t_n T /\ valid T'.
Proof.
  intros V H. unfold is_separable in H. destruct (N.lt_ge_cases t (t_n T)) as [Ht|Ht].
  2:{ unfold is_separable_z in H. replace (t_n T <=? t) with true in H by (symmetry; now apply N.leb_le). discriminate. }
  split; auto. destruct (sep_total T t Ht) as [b S]. rewrite S in H. cbn [rbind] in H. destruct b; [injection H as <- <-; auto|].
  destruct (is_separable_x rgp T t) as [|[x T1]] eqn:X; [discriminate|]. destruct (sepx_valid rgp T t x T1 V Ht X) as [N1 V1]. cbn [rbind fst snd] in H. destruct x; [injection H as <- <-; auto|].
  destruct (is_separable_y rgp T1 t) as [|[y T2]] eqn:Y; [discriminate|]. destruct (sepy_valid rgp T1 t y T2 V1 ltac:(lia) Y) as [N2 V2]. cbn [rbind fst snd] in H. injection H as <- <-. split; [congruence|auto].
Qed.
Lemma force_valid rgp rnd T t result doForce doApply b T' : valid T -> force_m rgp rnd T t result doForce doApply = Ok (b, T') -> valid T'.
Proof.
  intros V H. destruct (N.lt_ge_cases t (t_n T)) as [Ht|Ht].
  2:{ unfold force_m in H. replace (t_n T <=? t) with true in H by (symmetry; now apply N.leb_le). discriminate. }
  destruct (doForce && negb doApply) eqn:F.
  - unfold force_m in H. rewrite F in H. replace (t_n T <=? t) with false in H by (symmetry; now apply N.leb_gt). now injection H as <- <-.
  - destruct (sep_total T t Ht) as [[|] S].
    + destruct (force_det rgp rnd T t result doForce doApply V Ht (m_find T t V Ht S) F) as (c & E & _). rewrite E in H. destruct (doForce && negb (Bool.eqb result c)); [discriminate|]. now injection H as <- <-.
    + destruct (force_random rgp rnd T t result doForce doApply V Ht S F) as (T1 & E & _ & V1 & _). rewrite E in H. now injection H as <- <-.
Qed.
Theorem reachable_valid T : reachable T -> valid T.
Proof.
  intros H. induction H as [rgp n perm T Hn E|rgp T g T' R IH Hg E|rgp rnd T t result doForce doApply b T' R IH E|T R IH|rgp T t c T' R IH E|T C s R HT IT HC IC Hn E|rgp dest T s m T1 R D HT IT Hm C E|rgp dest T s m T1 R D HT IT Hm C E].
  - destruct (set_permutation_good q_i q_h q_i_ok q_h_ok q_tors rgp n perm Hn) as (T1 & E1 & _ & V & _). rewrite E1 in E. now injection E as <-.
  - destruct (qstep rgp T g Hg IH) as (T1 & E1 & _ & V & _). rewrite E1 in E. now injection E as <-.
  - now apply (force_valid _ _ _ _ _ _ _ _ _ IH E).
  - now apply reduced_equi.
  - now apply (sep_valid _ _ _ _ _ IH E).
  - destruct (N.lt_ge_cases (t_n T) s) as [L|L].
    + unfold stab_compose in E. replace (t_n T <? s) with true in E by (symmetry; now apply N.ltb_lt). discriminate.
    + destruct (compose_spec T C s IT IC Hn L) as (R1 & E1 & _ & V & _). rewrite E1 in E. now injection E as <-.
  - destruct (decompose_spec rgp dest T s m T1 IT Hm C) as (R1 & D1 & E1 & _ & _ & V & _). rewrite E1 in E. now injection E as <- <-.
  - destruct (decompose_spec rgp dest T s m T1 IT Hm C) as (R1 & D1 & E1 & _ & _ & _ & V & _). rewrite E1 in E. now injection E as <- <-.
Qed.
Lemma reach_zero n : n <= 127 -> reachable (tab_zero n).
Proof. intros H. apply (r_new true n 0); auto. Qed.
Lemma reach_circuit rgp l : forall T T', reachable T -> Forall (gate_fits (t_n T)) l -> sg_circuit rgp T l = Ok T' -> reachable T'.
Proof.
  induction l as [|g l IH]; intros T T' R HF E; [now injection E as <-|]. inversion HF as [|? ? Hg HF']; subst. destruct (qstep rgp T g Hg (reachable_valid T R)) as (T1 & E1 & N1 & _). unfold sg_circuit in E. cbn [fold_left rbind] in E. rewrite E1 in E.
  apply (IH T1); [now apply (r_gate rgp T g)|now rewrite N1|exact E].
Qed.
Lemma reach_commands rgp cs : forall l T bs T', reachable T -> Forall (command_fits (t_n T)) cs -> fold_left (fun r c => rbind r (fun st => run_command rgp st c)) cs (Ok (l, T)) = Ok (bs, T') -> reachable T'.
Proof.
  induction cs as [|c cs IH]; intros l T bs T' R HF E; [now injection E as _ <-|]. inversion HF as [|? ? Hc HF']; subst. cbn [fold_left rbind] in E.
  destruct (run_command rgp (l, T) c) as [|[l1 T1]] eqn:E1; [now rewrite rc_throw in E|].
  assert (Q : t_n T1 = t_n T /\ reachable T1).
  { destruct c as [g|t rnd|t b]; cbn [run_command command_fits] in *.
    - destruct (qstep rgp T g Hc (reachable_valid T R)) as (T2 & E2 & N2 & _). rewrite E2 in E1. cbn [rbind] in E1. injection E1 as <- <-. split; auto. now apply (r_gate rgp T g).
    - assert (A := force_apply rgp rnd T t false false (reachable_valid T R) Hc). destruct (force_m rgp rnd T t false false true) as [|[b T2]] eqn:E2; [discriminate|]. cbn [rbind fst snd] in E1. injection E1 as <- <-. split; [apply A|]. now apply (r_measure _ _ _ _ _ _ _ _ _ R E2).
    - assert (A := force_apply rgp false T t b true (reachable_valid T R) Hc). destruct (force_m rgp false T t b true true) as [|[b' T2]] eqn:E2; [discriminate|]. cbn [rbind fst snd] in E1. injection E1 as <- <-. split; [apply A|]. now apply (r_measure _ _ _ _ _ _ _ _ _ R E2). }
  destruct Q as [N1 R1]. apply (IH l1 T1 bs); auto. now rewrite N1.
Qed.
Lemma step_reach rgp T l (K : StarRing) (im h : K) : (im * im = - (1))%amp -> (h * h + h * h = 1)%amp -> no_torsion K -> reachable T -> Forall (gate_fits (t_n T)) l ->
  exists T', sg_circuit rgp T l = Ok T' /\ t_n T' = t_n T /\ reachable T' /\ forall psi, describes im T psi -> describes im T' (circuit_act im h l psi).
Proof.
  intros Him Hh tors R HF. destruct (step_circuit im h Him Hh tors rgp l T HF (reachable_valid T R)) as (T' & E & N1 & _ & G). exists T'. split; auto. split; auto. split; auto. now apply (reach_circuit rgp l T).
Qed.
Section J.
  Context {K : StarRing}.
  Add Ring KrAQ : (sr_ring K).
  Lemma neg1_mul (a : K) : (- (1) * a = - a)%amp. Proof. ring. Qed.
  Lemma one_mul (a : K) : (1 * a = a)%amp. Proof. ring. Qed.
End J.
Lemma pattern_of T : valid T -> forall (K : StarRing) (im : K), (im * im = - (1))%amp -> commutation_pattern im T.
Proof.
  intros V K im Him i j Hi Hj. assert (C : forall psi y, row_op im (t_n T) (t_row T i) (row_op im (t_n T) (t_row T j) psi) y = (ph im (2 * b2n (pat (t_n T) i j)) * row_op im (t_n T) (t_row T j) (row_op im (t_n T) (t_row T i) psi) y)%amp).
  { intros psi y. rewrite <- (proj1 (proj2 (proj2 V)) i j Hi Hj). apply (rop_comm im Him); now apply valid_fit. }
  split; intros P psi y Hy; rewrite C.
  - replace (pat (t_n T) i j) with true. 2:{ symmetry. unfold pat. apply orb_true_iff. destruct P as [P|P]; [left|right]; now apply N.eqb_eq. }
    cbn [b2n]. change (2 * 1) with 2. rewrite (ph_2 im Him). apply neg1_mul.
  - replace (pat (t_n T) i j) with false. 2:{ symmetry. unfold pat. apply orb_false_iff. split; apply N.eqb_neq; intros Q; apply P; [left|right]; auto. }
    cbn [b2n]. change (2 * 0) with 0. rewrite ph_0. apply one_mul.
Qed.
Lemma echelon_of T g : reduced_form T g -> echelon T g.
Proof. intros [H1 H2 H3 H4]. split; auto. Qed.
Lemma of_echelon T g : echelon T g -> reduced_form T g.
Proof. intros (H1 & H2 & H3 & H4). constructor; auto. Qed.
Lemma nz_notzero {K : StarRing} n (psi : N -> K) : nonzero n psi -> notzero n psi.
Proof. intros (y & Hy & Ny) E. apply Ny. now apply E. Qed.
