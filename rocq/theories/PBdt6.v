(** QBdt: amplitudes, new simulators, SetQuantumState, programs of gates, probabilities. *)
From Coq Require Import NArith Arith List Bool Lia Ring Permutation.
From Verif Require Import Amp PAmp SpecState PLoop PGates2 MBdt SpecBdt PBdt1 PBdt2 PBdt3 PBdt4 PBdt5.
Import ListNotations.
Local Open Scope N_scope.

Lemma double_mod y k : N.double y mod 2 ^ (k + 1) = N.double (y mod 2 ^ k).
Proof. rewrite N.pow_add_r, N.pow_1_r, N.double_spec, (N.double_spec (y mod 2 ^ k)), (N.mul_comm (2 ^ k) 2). apply N.mul_mod_distr_l; [apply N.pow_nonzero; discriminate|discriminate]. Qed.
Lemma succ_double_mod y k : N.succ_double y mod 2 ^ (k + 1) = N.succ_double (y mod 2 ^ k).
Proof.
  assert (P : 2 ^ k <> 0) by (apply N.pow_nonzero; discriminate). rewrite !N.succ_double_spec, N.pow_add_r, N.pow_1_r. pose proof (N.mod_lt y (2 ^ k) P). pose proof (N.div_mod y (2 ^ k) P).
  symmetry. apply (N.mod_unique _ _ (y / 2 ^ k)); nia.
Qed.
Lemma agree_0 r x : agree 0 r x = true.
Proof. unfold agree. rewrite !N.pow_0_r, !N.mod_1_r. reflexivity. Qed.
Lemma agree_S k r x : agree (k + 1) r x = eqb (N.odd x) (N.odd r) && agree k (N.div2 r) (N.div2 x).
Proof.
  unfold agree. destruct (two_cases x) as [Ex|Ex], (two_cases r) as [Er|Er]; rewrite Ex, Er; rewrite ?odd_double, ?odd_succ, ?div2_d, ?div2_s, ?double_mod, ?succ_double_mod; cbn [eqb andb]; apply eq_true_iff_eq; rewrite ?N.eqb_eq; rewrite ?N.double_spec, ?N.succ_double_spec;
    repeat match goal with |- context [?a mod ?b] => generalize (a mod b); intros ? end; split; intros E; try discriminate; lia.
Qed.
Lemma agree_full n r x : r < 2 ^ n -> x < 2 ^ n -> agree n r x = (x =? r).
Proof. intros H1 H2. unfold agree. rewrite !N.mod_small by assumption. reflexivity. Qed.

Section B.
  Context {K : StarRing} (A : Arith K).
  Hypothesis EA : exact_arith A.
  Hypothesis PS : positive_sums (K := K).
  Add Ring KrCW : (sr_ring K).
  Local Open Scope amp_scope.
  Local Notation bdt := (@bdt K).
  Local Notation qbdt := (@qbdt K).

  Lemma path_shift n : forall q perm (t : bdt) s, path_scale n (q + 1) perm t s = path_scale n q (N.div2 perm) t s.
  Proof.
    induction n as [|n IH]; intros q perm t s; [reflexivity|]. cbn [path_scale]. rewrite IH. replace (N.testbit (N.div2 perm) q) with (N.testbit perm (q + 1)) by (rewrite N.div2_spec, N.shiftr_spec' by lia; reflexivity). reflexivity.
  Qed.
  Lemma path_val n : forall perm (t : bdt) p, path_scale n 0 perm t (p * scl t) = p * val n t perm.
  Proof.
    induction n as [|n IH]; intros perm t p; [reflexivity|]. cbn [path_scale val]. rewrite N.bit0_odd. destruct (is_null (br t (N.odd perm))); [reflexivity|]. change (0 + 1)%N with (0 + 1)%N. rewrite path_shift, IH. ring.
  Qed.
  Lemma amp_get (B : qbdt) x : get_amplitude B x = amp B x.
  Proof. unfold get_amplitude, amp. transitivity (path_scale (N.to_nat (bt_n B)) 0 x (bt_root B) (1 * scl (bt_root B))); [f_equal; ring|]. rewrite path_val. ring. Qed.

  (** ** New simulators *)
  Lemma chain_shift n : forall s q perm, chain n s (q + 1) perm = chain (K := K) n s q (N.div2 perm).
  Proof.
    induction n as [|n IH]; intros s q perm; [reflexivity|]. cbn [chain]. rewrite IH. replace (N.testbit (N.div2 perm) q) with (N.testbit perm (q + 1)) by (rewrite N.div2_spec, N.shiftr_spec' by lia; reflexivity). reflexivity.
  Qed.
  Lemma chain_ok n : forall (s : K) perm, s <> 0 -> tight n (chain n s 0 perm) /\ scl (chain n s 0 perm) = s /\ forall x, val n (chain n s 0 perm) x = if agree (N.of_nat n) perm x then s else 0.
  Proof.
    induction n as [|n IH]; intros s perm S0.
    - cbn [chain]. split; [split; reflexivity|]. split; [reflexivity|]. intros x. rewrite agree_0. reflexivity.
    - cbn [chain]. rewrite N.bit0_odd, chain_shift. destruct (IH 1 (N.div2 perm) (proj1 PS)) as (T & E & V). replace (N.of_nat (S n)) with (N.of_nat n + 1)%N by lia. pose proof (tight_null _ _ T) as NN.
      assert (Z : forall x, val n (@zero_node K) x = 0) by (intros x; apply val_0; reflexivity).
      destruct (N.odd perm) eqn:O; (split; [|split; [reflexivity|]]).
      + right. split; [exact S0|]. split; [apply zero_tight|]. split; [exact T|]. rewrite E. cbn [scl zero_node]. rewrite anorm_0, (anorm_one (K := K)). ring.
      + intros x. rewrite agree_S, O. destruct (two_cases x) as [Ex|Ex]; rewrite Ex; rewrite ?odd_double, ?odd_succ, ?div2_d, ?div2_s; cbn [eqb andb].
        * rewrite val_d by reflexivity. rewrite Z. ring.
        * rewrite val_s by exact NN. rewrite V. destruct (agree _ _ _); ring.
      + right. split; [exact S0|]. split; [exact T|]. split; [apply zero_tight|]. rewrite E. cbn [scl zero_node]. rewrite anorm_0, (anorm_one (K := K)). ring.
      + intros x. rewrite agree_S, O. destruct (two_cases x) as [Ex|Ex]; rewrite Ex; rewrite ?odd_double, ?odd_succ, ?div2_d, ?div2_s; cbn [eqb andb].
        * rewrite val_d by exact NN. rewrite V. destruct (agree _ _ _); ring.
        * rewrite val_s by reflexivity. rewrite Z. ring.
  Qed.
  (** The phase of SetPermutation. *)
  Definition start_phase (phf : option K) (B : qbdt) : K := match phf with Some p => p | None => if bt_rgp B then bt_ph B (bt_draw B) else 1 end.
  Lemma set_perm_ok (B : qbdt) perm phf : (0 < bt_n B)%N -> (perm < 2 ^ bt_n B)%N -> start_phase phf B <> 0 ->
    let B' := set_permutation perm phf B in fit B' /\ bt_n B' = bt_n B /\ bt_rgp B' = bt_rgp B /\ scl (bt_root B') = start_phase phf B /\ forall x, (x < 2 ^ bt_n B)%N -> amp B' x = start_phase phf B * ket perm x.
  Proof.
    intros N0 HP S0. unfold set_permutation. destruct (N.eqb_spec (bt_n B) 0); [lia|]. cbn zeta.
    assert (G : forall B1 : qbdt, bt_n B1 = bt_n B -> bt_rgp B1 = bt_rgp B -> let B' := set_root (chain (N.to_nat (bt_n B1)) (start_phase phf B) 0 perm) B1 in
      fit B' /\ bt_n B' = bt_n B /\ bt_rgp B' = bt_rgp B /\ scl (bt_root B') = start_phase phf B /\ forall x, (x < 2 ^ bt_n B)%N -> amp B' x = start_phase phf B * ket perm x).
    { intros B1 E1 E2. cbn zeta. unfold fit, amp. cbn [set_root bt_n bt_root bt_rgp]. rewrite E1. destruct (chain_ok (N.to_nat (bt_n B)) _ perm S0) as (T & E & V). split; [split; [exact T|rewrite E; exact S0]|]. split; [reflexivity|]. split; [exact E2|]. split; [exact E|].
      intros x Hx. rewrite V, N2Nat.id, agree_full by assumption. unfold ket. destruct (x =? perm)%N; ring. }
    destruct phf as [p|]; [apply (G B); reflexivity|]. unfold nonunitary_phase, start_phase in *. destruct (bt_rgp B) eqn:R; [apply (G (next_draw B)); [reflexivity|exact R]|apply (G B); [reflexivity|exact R]].
  Qed.

  (** ** SetQuantumState *)
  (** A full tree: [d] levels of nodes with both branches. *)
  Fixpoint full (d : nat) (t : bdt) : Prop :=
    match t, d with
    | BNull, _ => False
    | BNode _ l r, O => l = BNull /\ r = BNull
    | BNode _ l r, S d => full d l /\ full d r
    end.
  (** The scale of a leaf. *)
  Fixpoint lf (d : nat) (t : bdt) (x : N) : K := match d with O => scl t | S d => lf d (br t (N.odd x)) (N.div2 x) end.
  Lemma full_branch d : forall (s : K), s <> 0 -> full d (branch A d (BNode s BNull BNull)).
  Proof. induction d as [|d IH]; intros s S0; cbn [branch full]; [split; reflexivity|]. rewrite (is0_n s S0). cbn [is_null orb full]. split; apply IH, (h_n0 A EA PS). Qed.
  Lemma leaf_shift d : forall q i s (t : bdt), set_leaf d (q + 1) i s t = set_leaf d q (N.div2 i) s t.
  Proof.
    induction d as [|d IH]; intros q i s t; [reflexivity|]. destruct t as [|x l r]; [reflexivity|]. cbn [set_leaf]. rewrite !IH. replace (N.testbit (N.div2 i) q) with (N.testbit i (q + 1)) by (rewrite N.div2_spec, N.shiftr_spec' by lia; reflexivity). reflexivity.
  Qed.
  Lemma set_leaf_ok d : forall i s (t : bdt), full d t -> full d (set_leaf d 0 i s t) /\ forall x, lf d (set_leaf d 0 i s t) x = if agree (N.of_nat d) i x then s else lf d t x.
  Proof.
    induction d as [|d IH]; intros i s t H; (destruct t as [|y l r]; [destruct H|]); cbn [set_leaf].
    - cbn in H. split; [exact H|]. intros x. rewrite agree_0. reflexivity.
    - destruct H as [H1 H2]. rewrite N.bit0_odd, !leaf_shift. replace (N.of_nat (S d)) with (N.of_nat d + 1)%N by lia. destruct (N.odd i) eqn:O.
      + destruct (IH (N.div2 i) s r H2) as [F V]. split; [split; assumption|]. intros x. rewrite agree_S, O. cbn [lf]. destruct (N.odd x); cbn [br eqb andb]; [apply V|reflexivity].
      + destruct (IH (N.div2 i) s l H1) as [F V]. split; [split; assumption|]. intros x. rewrite agree_S, O. cbn [lf]. destruct (N.odd x); cbn [br eqb andb]; [reflexivity|apply V].
  Qed.
  Lemma fill_ok d psi : forall fuel j (t : bdt), full d t -> (j + N.of_nat fuel = 2 ^ N.of_nat d)%N ->
    let t' := par_loop fuel (2 ^ N.of_nat d) j (fun i t => (0%N, set_leaf d 0 i (psi i) t)) t in full d t' /\ forall x, (x < 2 ^ N.of_nat d)%N -> lf d t' x = if (j <=? x)%N then psi x else lf d t x.
  Proof.
    induction fuel as [|fuel IH]; intros j t H E; cbn [par_loop].
    - split; [exact H|]. intros x Hx. destruct (N.leb_spec j x); [lia|reflexivity].
    - destruct (N.ltb_spec j (2 ^ N.of_nat d)) as [L|G]; [|lia]. rewrite N.lor_0_r. destruct (set_leaf_ok d j (psi j) t H) as [F V]. destruct (IH (j + 1)%N _ F ltac:(lia)) as [F2 V2]. split; [exact F2|]. intros x Hx. rewrite V2 by exact Hx. rewrite V, agree_full by assumption.
      destruct (N.leb_spec (j + 1) x), (N.leb_spec j x); try lia; try reflexivity; destruct (N.eqb_spec x j); subst; try lia; reflexivity.
  Qed.
  Lemma pop_ok d : forall t : bdt, full d t -> semi d (pop A d t) /\ forall x, val d (pop A d t) x = lf d t x.
  Proof.
    induction d as [|d IH]; intros t H; (destruct t as [|s l r]; [destruct H|]).
    - cbn in *. auto.
    - destruct H as [H1 H2]. cbn [pop]. assert (NN : is_null l = false) by (destruct l; [destruct d; destruct H1|reflexivity]). rewrite NN. destruct (IH l H1) as [S1 V1]. destruct (IH r H2) as [S2 V2].
      destruct (pop_top_ok A EA PS d s _ _ S1 S2) as (S3 & V3 & V4). cbn zeta in *. split; [exact S3|]. intros x. cbn [lf]. destruct (two_cases x) as [Ex|Ex]; rewrite Ex.
      + rewrite V3, odd_double, div2_d. apply V1. + rewrite V4, odd_succ, div2_s. apply V2.
  Qed.
  Lemma set_state_ok (B : qbdt) psi : let B' := set_state A psi B in semi (N.to_nat (bt_n B)) (bt_root B') /\ bt_n B' = bt_n B /\ bt_rgp B' = bt_rgp B /\ forall x, (x < 2 ^ bt_n B)%N -> amp B' x = psi x.
  Proof.
    cbn zeta. unfold set_state, set_tree, amp. cbn [set_root bt_n bt_root bt_rgp]. set (d := N.to_nat (bt_n B)). replace (bt_n B) with (N.of_nat d) by lia.
    destruct (fill_ok d psi (N.to_nat (2 ^ N.of_nat d)) 0 _ (full_branch d 1 (proj1 PS)) ltac:(lia)) as [F V]. cbn zeta in *. set (t := par_loop _ _ _ _ _) in *. clearbody t. destruct (pop_ok d t F) as [P PV].
    destruct (prune_ok A EA PS d d _ (semi_loose d (pop A d t) P)) as (Q1 & _ & _ & Q4). cbn zeta in *. split; [exact Q1|]. split; [reflexivity|]. split; [reflexivity|]. intros x Hx. rewrite Q4, PV, V by exact Hx. destruct (N.leb_spec 0 x); [reflexivity|lia].
  Qed.
  Lemma set_state_fit (B : qbdt) psi y : (y < 2 ^ bt_n B)%N -> psi y <> 0 -> fit (set_state A psi B).
  Proof.
    intros Hy P. destruct (set_state_ok B psi) as (S & N & _ & V). cbn zeta in *. assert (R0 : scl (bt_root (set_state A psi B)) <> 0) by (intros E; apply P; rewrite <- V by exact Hy; apply val_0, E).
    split; [|exact R0]. rewrite N. apply semi_tight; assumption.
  Qed.

  (** ** Programs *)
  Lemma qubits_wfc n cs q : qubits_ok n cs q -> cs = [] \/ wfc n cs q.
  Proof.
    intros [ND L]. destruct cs as [|c cs]; [left; reflexivity|right]. inversion ND; subst. split; [discriminate|]. split; [assumption|]. split; [assumption|]. split; [intros x Hx; apply L; right; exact Hx|apply L; left; reflexivity].
  Qed.
  Lemma qubits_t n cs q : qubits_ok n cs q -> (q < n)%N.
  Proof. intros [_ L]. apply L. left. reflexivity. Qed.
  Lemma phase_up (B : qbdt) p r q : fit B -> (q < bt_n B)%N -> anorm p = 1 -> anorm r = 1 -> holds_up B (phase A p r q B) (gate1 always q (mkMat p 0 0 r) (amp B)).
  Proof.
    intros H Q P R. unfold phase. destruct ((bt_rgp B || sr_eqb 1 p) && sr_eqb p r) eqn:E; [|apply (mtrx_up A EA PS); auto; apply (phase_unitary (K := K)); assumption].
    apply andb_prop in E. destruct E as [E1 E2]. destruct (eqb_spec K p r); [|discriminate]. subst r. apply (skip_up (K := K)); auto; [apply (phase_unitary (K := K)); assumption|]. cbn. apply orb_prop in E1. destruct E1 as [E1|E1]; [left; exact E1|right]. destruct (eqb_spec K 1 p); [congruence|discriminate].
  Qed.
  Lemma swap_diag a x : swap_bits a a x = x.
  Proof. apply N.bits_inj. intros m. rewrite tb_swap. destruct (N.eqb_spec a m); subst; reflexivity. Qed.
  Lemma bcall_ok (B : qbdt) c : fit B -> proper_bcall (bt_n B) c -> holds_up B (bcall_run A c B) (ideal_bcall c (amp B)).
  Proof.
    intros H [P G]. destruct c as [m q|p r q|p r q|a b|cs m q|cs p r q|cs p r q|cs m q|cs p r q|cs p r q]; cbn [bcall_run ideal_bcall in_range no_gaps] in *.
    - destruct P. apply (mtrx_up A EA PS); assumption.
    - destruct P as (? & ? & ?). apply phase_up; assumption.
    - destruct P as (? & ? & ?). apply (mtrx_up A EA PS); auto. apply (anti_unitary (K := K)); assumption.
    - destruct P. apply holds_up_of. destruct (N.eq_dec a b) as [->|NE].
      + unfold swap. rewrite N.ltb_irrefl, N.eqb_refl. apply holds_refl; [exact H|]. intros x. rewrite swap_diag. reflexivity.
      + apply (swap_run A EA PS); assumption.
    - destruct P as [Q U]. destruct (qubits_wfc _ _ _ Q) as [-> | W]; [apply (mtrx_up A EA PS); [exact H|exact (qubits_t _ _ _ Q)|exact U]|]. apply holds_up_of, (mcmtrx_run A EA PS); assumption.
    - destruct P as (Q & U & V). destruct (qubits_wfc _ _ _ Q) as [-> | W]; [apply phase_up; auto; exact (qubits_t _ _ _ Q)|]. apply holds_up_of, (mcphase_run A EA PS); auto. left. apply (swap_run A EA PS).
    - destruct P as (Q & U & V). destruct (qubits_wfc _ _ _ Q) as [-> | W]; [apply (mtrx_up A EA PS); auto; [exact (qubits_t _ _ _ Q)|apply (anti_unitary (K := K)); assumption]|]. apply holds_up_of, (mcinvert_run A EA PS); auto. left. apply (swap_run A EA PS).
    - destruct P as [Q U]. destruct (qubits_wfc _ _ _ Q) as [-> | W]; [apply (mtrx_up A EA PS); [exact H|exact (qubits_t _ _ _ Q)|exact U]|]. apply holds_up_of, (macmtrx_run A EA PS); auto. destruct G as [G|[G|[G|G]]]; auto. right. right. left. destruct cs as [|c [|c' cs]]; [destruct W; congruence|exists c; reflexivity|cbn in G; lia].
    - destruct P as (Q & U & V). destruct (qubits_wfc _ _ _ Q) as [-> | W].
      + unfold macphase. cbn [xmask sort fold_right fold_left]. destruct (sr_eqb 1 p && sr_eqb 1 r) eqn:E; [|apply phase_up; auto; exact (qubits_t _ _ _ Q)]. apply andb_prop in E. destruct E as [E1 E2]. destruct (eqb_spec K 1 p); [|discriminate]. destruct (eqb_spec K 1 r); [|discriminate]. subst.
        apply holds_up_of, holds_refl; [exact H|]. intros x. symmetry. apply (gate1_ident (all_clear []) q (amp B) x).
      + apply holds_up_of, (macphase_run A EA PS); auto.
    - destruct P as (Q & U & V). destruct (qubits_wfc _ _ _ Q) as [-> | W]; [apply (mtrx_up A EA PS); auto; [exact (qubits_t _ _ _ Q)|apply (anti_unitary (K := K)); assumption]|]. apply holds_up_of, (macinvert_run A EA PS); auto.
  Qed.
  Lemma gate1_lin P t m (c : K) psi x : gate1 P t m (fun x => c * psi x) x = c * gate1 P t m psi x.
  Proof. unfold gate1. destruct (P x); [|reflexivity]. destruct (N.testbit x t); ring. Qed.
  Lemma ideal_lin c (k : K) psi x : ideal_bcall c (fun x => k * psi x) x = k * ideal_bcall c psi x.
  Proof. destruct c; cbn [ideal_bcall]; try apply gate1_lin. reflexivity. Qed.
  Lemma ideal_ext c (psi phi : N -> K) x : (forall x, psi x = phi x) -> ideal_bcall c psi x = ideal_bcall c phi x.
  Proof. intros E. destruct c; cbn [ideal_bcall]; try (apply gate1_amp, E). apply E. Qed.
  Lemma ideals_ext l : forall (psi phi : N -> K) x, (forall x, psi x = phi x) -> ideal_bcalls l psi x = ideal_bcalls l phi x.
  Proof. induction l as [|c l IH]; intros psi phi x E; [apply E|]. cbn. apply IH. intros y. apply ideal_ext, E. Qed.
  Lemma ideals_lin l : forall (k : K) psi x, ideal_bcalls l (fun x => k * psi x) x = k * ideal_bcalls l psi x.
  Proof. induction l as [|c l IH]; intros k psi x; [reflexivity|]. change (ideal_bcalls l (ideal_bcall c (fun x => k * psi x)) x = k * ideal_bcalls l (ideal_bcall c psi) x). rewrite <- IH. apply ideals_ext. intros y. apply ideal_lin. Qed.
  Lemma bcalls_ok l : forall B : qbdt, fit B -> Forall (proper_bcall (bt_n B)) l -> holds_up B (bcalls A l B) (ideal_bcalls l (amp B)).
  Proof.
    induction l as [|c l IH]; intros B H P; [apply holds_up_of, holds_refl; [exact H|reflexivity]|]. inversion P as [|? ? P1 P2]; subst. destruct (bcall_ok B c H P1) as (k & K1 & K2 & K3). pose proof K3 as (F & N & R & _ & V).
    destruct (IH (bcall_run A c B) F) as (k' & L1 & L2 & L3); [rewrite N; exact P2|]. exists (k' * k). split; [rewrite anorm_mul, K1, L1; ring|]. split; [intros E; rewrite K2, L2 by congruence; ring|].
    eapply holds_trans; [exact K3|]. eapply holds_ext; [|exact L3]. intros x. cbv beta. rewrite (ideals_ext l _ _ x V), ideals_lin. change (ideal_bcalls (c :: l) (amp B) x) with (ideal_bcalls l (ideal_bcall c (amp B)) x). ring.
  Qed.
  (** Amplitudes at basis states of the simulator only. *)
  Lemma ideal_local n c (psi phi : N -> K) : in_range n c -> (forall x, (x < 2 ^ n)%N -> psi x = phi x) -> forall x, (x < 2 ^ n)%N -> ideal_bcall c psi x = ideal_bcall c phi x.
  Proof.
    intros P E x Hx.
    assert (SB : forall q, (q < n)%N -> (N.setbit x q < 2 ^ n)%N) by (intros q Hq; apply lt_pow2_bits; intros i Hi; rewrite N.setbit_eqb, (bits_high x n) by assumption; destruct (N.eqb_spec q i); [lia|reflexivity]).
    assert (CB : forall q, (N.clearbit x q < 2 ^ n)%N) by (intros q; apply lt_pow2_bits; intros i Hi; rewrite N.clearbit_eqb, (bits_high x n) by assumption; reflexivity).
    assert (GG : forall Q q m, (q < n)%N -> gate1 Q q m psi x = gate1 Q q m phi x) by (intros Q q m Hq; unfold gate1; rewrite !E by auto; reflexivity).
    destruct c; cbn [ideal_bcall in_range] in *; try (apply GG; first [exact (proj1 P)|exact (qubits_t _ _ _ (proj1 P))]). destruct P. apply E, swap_bits_lt; assumption.
  Qed.
  Lemma ideals_local n l : Forall (in_range n) l -> forall (psi phi : N -> K), (forall x, (x < 2 ^ n)%N -> psi x = phi x) -> forall x, (x < 2 ^ n)%N -> ideal_bcalls l psi x = ideal_bcalls l phi x.
  Proof. induction l as [|c l IH]; intros P psi phi E x Hx; [apply E, Hx|]. inversion P; subst. apply IH; auto. intros y Hy. apply (ideal_local n); assumption. Qed.
  Lemma program_ok (B : qbdt) psi l : fit B -> (forall x, (x < 2 ^ bt_n B)%N -> amp B x = psi x) -> Forall (proper_bcall (bt_n B)) l ->
    let B' := bcalls A l B in fit B' /\ bt_n B' = bt_n B /\ anorm (scl (bt_root B')) = anorm (scl (bt_root B)) /\ holds_state B' (ideal_bcalls l psi).
  Proof.
    intros H E P. cbn zeta. destruct (bcalls_ok l B H P) as (k & K1 & K2 & (F & N & R & S & V)). split; [exact F|]. split; [exact N|]. split; [exact S|]. exists k. split; [exact K1|]. split; [rewrite R; exact K2|]. intros x Hx. rewrite N in Hx. rewrite amp_get, V. f_equal.
    apply (ideals_local (bt_n B)); auto. eapply Forall_impl; [|exact P]. intros c [Hc _]. exact Hc.
  Qed.

  (** ** Sums *)
  Lemma basis_0 : basis 0 = [0%N].
  Proof. reflexivity. Qed.
  Lemma tsum_basis d : forall f : N -> K, asum f (basis (N.of_nat d)) = tsum d f.
  Proof.
    induction d as [|d IH]; intros f; [change (f 0%N + 0 = f 0%N); ring|]. cbn [tsum]. rewrite <- !IH. rewrite (asum_perm K f (basis (N.of_nat (S d))) (map N.double (basis (N.of_nat d)) ++ map N.succ_double (basis (N.of_nat d)))).
    - rewrite asum_app, !asum_map. reflexivity.
    - apply NoDup_Permutation; [apply basis_NoDup| |].
      + assert (I1 : NoDup (map N.double (basis (N.of_nat d)))) by (apply FinFun.Injective_map_NoDup; [intros a b E; rewrite !N.double_spec in E; lia|apply basis_NoDup]).
        assert (I2 : NoDup (map N.succ_double (basis (N.of_nat d)))) by (apply FinFun.Injective_map_NoDup; [intros a b E; rewrite !N.succ_double_spec in E; lia|apply basis_NoDup]).
        assert (D : forall x, In x (map N.double (basis (N.of_nat d))) -> ~ In x (map N.succ_double (basis (N.of_nat d)))) by (intros x X1 X2; apply in_map_iff in X1, X2; destruct X1 as (a & E1 & _), X2 as (b & E2 & _); rewrite N.double_spec in E1; rewrite N.succ_double_spec in E2; lia).
        revert I1 D. generalize (map N.double (basis (N.of_nat d))). intros l I1 D. induction I1 as [|x l NI I1 IHl]; [exact I2|]. cbn. constructor; [|apply IHl; intros y Hy; apply D; right; exact Hy]. rewrite in_app_iff. intros [X|X]; [contradiction|]. apply (D x (or_introl eq_refl) X).
      + intros x. rewrite in_app_iff, !in_map_iff, basis_In, Nat2N.inj_succ, N.pow_succ_r'. split.
        * intros Hx. destruct (two_cases x) as [Ex|Ex]; [left|right]; exists (N.div2 x); (split; [symmetry; exact Ex|]); apply basis_In; revert Ex; generalize (N.div2 x); intros y Ex; subst x; rewrite ?N.double_spec, ?N.succ_double_spec in Hx; lia.
        * intros [(y & <- & Hy)|(y & <- & Hy)]; apply basis_In in Hy; rewrite ?N.double_spec, ?N.succ_double_spec; lia.
  Qed.
  Lemma tsum_basis' n (f : N -> K) : asum f (basis n) = tsum (N.to_nat n) f.
  Proof. rewrite <- tsum_basis, N2Nat.id. reflexivity. Qed.
  Lemma norm_ok (B : qbdt) : fit B -> norm2 (bt_n B) (get_amplitude B) = anorm (scl (bt_root B)).
  Proof. intros [T _]. unfold norm2. rewrite tsum_basis'. rewrite <- (tight_norm (N.to_nat (bt_n B)) _ T). apply tsum_ext. intros x. rewrite amp_get. reflexivity. Qed.

  Lemma prob_shift n : forall q i (t : bdt) s, path_prob n (q + 1) i t s = path_prob n q (N.div2 i) t s.
  Proof.
    induction n as [|n IH]; intros q i t s; [reflexivity|]. cbn [path_prob]. rewrite IH. replace (N.testbit (N.div2 i) q) with (N.testbit i (q + 1)) by (rewrite N.div2_spec, N.shiftr_spec' by lia; reflexivity). reflexivity.
  Qed.
  Lemma path_prob_ok k e : forall (t : bdt) p, tight (k + S e) t -> tsum k (fun i => path_prob k 0 i t (p * scl t)) = anorm p * tsum (k + S e) (fun x => if N.testbit x (N.of_nat k) then anorm (val (k + S e) t x) else 0).
  Proof.
    induction k as [|k IH]; intros t p H; (destruct t as [|s l r]; [destruct e; destruct H|]).
    - cbn [plus tsum path_prob br]. cbn [plus] in H. pose proof H as H0. cbn [tight] in H. destruct H as [(-> & -> & ->)|(N & H1 & H2 & E)].
      + cbn [is_null]. rewrite !tsum_0; [ring| |]; intros x; rewrite (val_0 _ (BNode 0 BNull BNull)) by reflexivity; rewrite anorm_0; destruct (N.testbit _ _); reflexivity.
      + rewrite (tight_null _ _ H2). rewrite (tsum_0 e (fun x => if N.testbit (N.double x) (N.of_nat 0) then _ else 0)) by (intros x; rewrite bits_d; reflexivity).
        rewrite (tsum_ext e _ (fun x => anorm s * anorm (val e r x))) by (intros x; rewrite bits_s, val_s by (apply (tight_null _ _ H2)); apply anorm_mul). rewrite tsum_scale, (tight_norm e r H2). cbn [scl]. rewrite !anorm_mul. ring.
    - cbn [plus tsum path_prob]. cbn [plus] in H. cbn [tight] in H. destruct H as [(-> & -> & ->)|(N & H1 & H2 & E)].
      + rewrite !tsum_0; [ring| | | |]; intros x; try (rewrite (val_0 _ (BNode 0 BNull BNull)) by reflexivity; rewrite anorm_0; destruct (N.testbit _ _); reflexivity); cbn [br]; destruct (N.testbit _ _); reflexivity.
      + rewrite (tsum_ext k _ (fun i => path_prob k 0 i l (p * s * scl l))).
        2:{ intros i. cbn [br]. rewrite N.bit0_odd, odd_double, (tight_null _ _ H1). cbn [scl]. rewrite prob_shift, div2_d. reflexivity. }
        rewrite (tsum_ext k (fun x => if is_null _ then 0 else _) (fun i => path_prob k 0 i r (p * s * scl r))).
        2:{ intros i. cbn [br]. rewrite N.bit0_odd, odd_succ, (tight_null _ _ H2). cbn [scl]. rewrite prob_shift, div2_s. reflexivity. }
        rewrite !IH by assumption. rewrite (anorm_mul K p s).
        rewrite (tsum_ext (k + S e) (fun x => if N.testbit (N.double x) _ then _ else 0) (fun x => anorm s * (if N.testbit x (N.of_nat k) then anorm (val (k + S e) l x) else 0))).
        2:{ intros x. rewrite Nat2N.inj_succ, testbit_d, val_d by (apply (tight_null _ _ H1)). rewrite anorm_mul. destruct (N.testbit x _); ring. }
        rewrite (tsum_ext (k + S e) (fun x => if N.testbit (N.succ_double x) _ then _ else 0) (fun x => anorm s * (if N.testbit x (N.of_nat k) then anorm (val (k + S e) r x) else 0))).
        2:{ intros x. rewrite Nat2N.inj_succ, testbit_s, val_s by (apply (tight_null _ _ H2)). rewrite anorm_mul. destruct (N.testbit x _); ring. }
        rewrite !tsum_scale. ring.
  Qed.
  Lemma prob_ok (B : qbdt) q : fit B -> (q < bt_n B)%N -> prob B q = weight_of (bt_n B) (fun x => N.testbit x q) (get_amplitude B).
  Proof.
    intros [T _] Hq. unfold prob, weight_of. rewrite !tsum_basis'. replace (N.to_nat (bt_n B)) with (N.to_nat q + S (N.to_nat (bt_n B) - N.to_nat q - 1))%nat in T |- * by lia.
    rewrite (tsum_ext (N.to_nat q) _ (fun i => path_prob (N.to_nat q) 0 i (bt_root B) (1 * scl (bt_root B)))) by (intros i; f_equal; ring). rewrite (path_prob_ok (N.to_nat q) (N.to_nat (bt_n B) - N.to_nat q - 1)) by exact T. rewrite (anorm_one (K := K)), N2Nat.id.
    transitivity (tsum (N.to_nat q + S (N.to_nat (bt_n B) - N.to_nat q - 1)) (fun x => if N.testbit x q then anorm (val (N.to_nat q + S (N.to_nat (bt_n B) - N.to_nat q - 1)) (bt_root B) x) else 0)); [ring|].
    apply tsum_ext. intros x. rewrite amp_get. unfold amp. replace (N.to_nat q + S (N.to_nat (bt_n B) - N.to_nat q - 1))%nat with (N.to_nat (bt_n B)) by lia. reflexivity.
  Qed.
End B.
