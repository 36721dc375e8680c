(** Valid tableaus; gates and row operations on tableaus. *)
From Coq Require Import NArith ZArith List Bool Lia Ring.
From Verif Require Import Amp PAmp Bits MFunctions MParFor MQCircuit MEngine MStab SpecState SpecStab PStab1 PStab2 PGates2.
Import ListNotations.
Local Open Scope N_scope.

Ltac deq := repeat match goal with
  | |- context [?a =? ?b] => let E := fresh "E" in destruct (N.eqb_spec a b) as [E|E]
  | H : context [?a =? ?b] |- _ => let E := fresh "E" in destruct (N.eqb_spec a b) as [E|E]
  end.

(** ** The invariant *)
Definition pat (n i j : N) : bool := (i + n =? j) || (j + n =? i).
Definition valid (T : tab) : Prop :=
  t_n T <= 127 /\
  (forall i, i < 2 * t_n T -> fitrow (t_n T) (t_row T i) /\ rr (t_row T i) < 4) /\
  (forall i j, i < 2 * t_n T -> j < 2 * t_n T -> sym (t_n T) (t_row T i) (t_row T j) = pat (t_n T) i j) /\
  (forall i, t_n T <= i -> i < 2 * t_n T -> rr (t_row T i) mod 2 = 0).
Lemma valid_n T : valid T -> t_n T <= 127. Proof. intros H. apply H. Qed.
Lemma valid_fit T i : valid T -> i < 2 * t_n T -> fitrow (t_n T) (t_row T i). Proof. intros H Hi. now apply H. Qed.
Lemma valid_lcv T : valid T -> max_lcv (t_n T) = 2 * t_n T.
Proof. intros H. apply valid_n in H. unfold max_lcv, w8. apply N.mod_small. lia. Qed.

(** Rows that agree below 2n are the same tableau for all purposes. *)
Lemma valid_ext T T' : t_n T' = t_n T -> (forall i, i < 2 * t_n T -> t_row T' i = t_row T i) -> valid T -> valid T'.
Proof.
  intros En E (V1 & V2 & V3 & V4). unfold valid. rewrite En. repeat split; auto.
  - rewrite E by auto. now apply V2.
  - rewrite E by auto. now apply V2.
  - rewrite E by auto. now apply V2.
  - intros i j Hi Hj. rewrite !E by auto. now apply V3.
  - intros i Hi Hi2. rewrite E by auto. now apply V4.
Qed.

Section K.
  Context {K : StarRing}.
  Add Ring KrAG : (sr_ring K).
  Variable im h : K.
  Hypothesis Him : (im * im = - (1))%amp.
  Local Notation vec := (N -> K).
  Local Notation ph := (ph im).
  Local Notation rop := (rop im).
  Local Notation stab := (stab im).

  (** The state is stabilised by all stabilizer rows. *)
  Definition good (T : tab) (psi : vec) : Prop := forall p, p < t_n T -> stab (t_n T) (t_row T (t_n T + p)) psi.

  (** An operator with an even power of i squares to one. *)
  Lemma phi_sq n x z y : (phi n x z y + phi n x z (N.lxor y x)) mod 4 = 0.
  Proof.
    unfold phi. rewrite <- sumf_add. transitivity (sumf (fun _ => 0) (N.to_nat n) mod 4).
    - apply sumf_mod4. intros j _. unfold phij. rewrite tb_lxor. destruct (N.testbit x j), (N.testbit z j), (N.testbit y j); reflexivity.
    - generalize (N.to_nat n). intros k. induction k as [|k IH]; [reflexivity|]. cbn [sumf]. now rewrite N.add_0_r.
  Qed.
  Lemma rop_sq n w psi y : fitrow n w -> rop n w (rop n w psi) y = (ph (2 * rr w) * psi y)%amp.
  Proof.
    intros Hw. rewrite (rop_closed im Him n w) by auto. rewrite (rop_closed im Him n w) by auto. rewrite N.lxor_assoc, N.lxor_nilpotent, N.lxor_0_r.
    rewrite (Rmul_assoc (sr_ring K)), <- ph_add. f_equal. apply ph_eq; auto. assert (A := phi_sq n (rx w) (rz w) y). revert A. generalize (phi n (rx w) (rz w) y), (phi n (rx w) (rz w) (N.lxor y (rx w))). intros; mlia.
  Qed.
  Lemma rop_even n w psi y : fitrow n w -> rr w mod 2 = 0 -> rop n w (rop n w psi) y = psi y.
  Proof. intros Hw He. rewrite rop_sq by auto. rewrite (ph_eq im Him _ 0) by mlia. rewrite ph_0. ring. Qed.
  Lemma rowmul_unstab n wi wk psi : fitrow n wi -> fitrow n wk -> rr wk mod 2 = 0 -> stab n (row_mul n wi wk) psi -> stab n wk psi -> stab n wi psi.
  Proof.
    intros Hi Hk He Sm Sk y Hy. change (rop n wi psi y = psi y). rewrite <- (rop_even n wk (rop n wi psi) y) by auto.
    transitivity (rop n wk psi y); [|now apply Sk]. apply (rop_ext im Him n wk _ psi Hk); auto. intros u Hu. rewrite <- rowmul_op by auto. now apply Sm.
  Qed.

  (** ** Gates as maps of basis states *)
  Definition bitph (b : bool) (x z : bool) (y : bool) : N := if b then phi1 x z y else 0.
  Lemma mono_pauli t x z : mono1 im t (phi1 x z) (fun _ => x) (gate1 always t (pauli1 im x z)).
  Proof. intros psi y. rewrite gate1_pauli by auto. reflexivity. Qed.
  Lemma mono_s t : mono1 im t b2n (fun _ => false) (gate1 always t (matS im)).
  Proof.
    intros psi y. unfold gate1, always, matS, dm1. rewrite N.lxor_0_r. destruct (N.testbit y t); cbn [m00 m01 m10 m11 b2n]; [rewrite ph_1|rewrite ph_0]; ring.
  Qed.
  Lemma mono_is t : mono1 im t (fun b => 3 * b2n b) (fun _ => false) (gate1 always t (matIS im)).
  Proof.
    intros psi y. unfold gate1, always, matIS, dm1. rewrite N.lxor_0_r. destruct (N.testbit y t); cbn [m00 m01 m10 m11 b2n]; [change (3 * 1) with 3; rewrite ph_3 by auto|change (3 * 0) with 0; rewrite ph_0]; ring.
  Qed.
  Lemma mono_ctl c t x z (anti : bool) : mono2 im c t (fun yc yt => bitph (xorb yc anti) x z yt) (fun yc _ => (false, xorb yc anti && x)) (gate1 ((if anti then all_clear else all_set) [c]) t (pauli1 im x z)).
  Proof.
    intros psi y. assert (G := gate1_pauli im Him t x z psi y). unfold gate1, always in G. unfold gate1.
    assert (P : (if anti then all_clear else all_set) [c] y = xorb (N.testbit y c) anti) by (destruct anti; cbn; destruct (N.testbit y c); reflexivity). rewrite P.
    unfold bitph, dm2, dm1. cbn [fst snd]. rewrite N.lxor_0_l. destruct (xorb (N.testbit y c) anti); cbn [andb]; [exact G|]. rewrite ph_0, N.lxor_0_r. ring.
  Qed.
  Lemma swap_flip c t y : c <> t -> swap_bits c t y = N.lxor y (dm2 c t (xorb (N.testbit y c) (N.testbit y t), xorb (N.testbit y c) (N.testbit y t))).
  Proof.
    intros Hne. apply N.bits_inj. intros m. rewrite tb_swap, tb_lxor, tb_dm2. cbn [fst snd].
    destruct (N.eqb_spec c m) as [E|E]; [subst m|]; [|destruct (N.eqb_spec t m) as [E2|E2]; [subst m|]].
    - replace (t =? c) with false by (symmetry; apply N.eqb_neq; auto). cbn [andb]. rewrite xorb_false_r. destruct (N.testbit y c), (N.testbit y t); reflexivity.
    - cbn [andb]. destruct (N.testbit y c), (N.testbit y t); reflexivity.
    - cbn [andb]. now rewrite !xorb_false_r.
  Qed.
  Lemma mono_swap c t e : c <> t -> mono2 im c t (fun yc yt => if xorb yc yt then e else 0) (fun yc yt => (xorb yc yt, xorb yc yt)) (gate_swap always c t (mkMat 0%amp (ph e) (ph e) 0%amp)).
  Proof.
    intros Hne psi y. unfold gate_swap, always. cbn [andb]. destruct (xorb (N.testbit y c) (N.testbit y t)) eqn:E.
    - cbv zeta. rewrite swap_flip, E by auto. cbn [m00 m01 m10 m11]. destruct (N.testbit y c); ring.
    - unfold dm2, dm1. cbn [fst snd]. rewrite N.lxor_0_l, N.lxor_0_r, ph_0. ring.
  Qed.

  (** The rows of a gate, as the code updates them. *)
  Definition gate_row (g : cgate) : row -> row :=
    match g with
    | GX t => upd1 t x_bits | GY t => upd1 t y_bits | GZ t => upd1 t z_bits | GS t => upd1 t s_bits | GIS t => upd1 t is_bits | GH t => upd1 t h_bits
    | GCNOT c t => upd2 c t cnot_bits | GACNOT c t => upd2 c t anticnot_bits | GCY c t => upd2 c t cy_bits | GACY c t => upd2 c t anticy_bits
    | GCZ c t => upd2 c t cz_bits | GACZ c t => upd2 c t anticz_bits
    | GSWAP a b => upd2 a b swap_bits2 | GISWAP a b => upd2 a b iswap_bits | GIISWAP a b => upd2 a b iiswap_bits
    end.
  Lemma gate_conj n g w psi y : gate_fits n g -> fitrow n w -> gate_act im h g (rop n w psi) y = rop n (gate_row g w) (gate_act im h g psi) y.
  Proof.
    intros Hg Hw. destruct g; cbn [gate_fits gate_row gate_act] in *; try destruct Hg as (Hc & Ht & Hne).
    - apply (conj1 im Him n t _ _ _ x_bits w psi y Hg Hw (mono_pauli t true false)). reflexivity.
    - apply (conj1 im Him n t _ _ _ y_bits w psi y Hg Hw (mono_pauli t true true)). reflexivity.
    - apply (conj1 im Him n t _ _ _ z_bits w psi y Hg Hw (mono_pauli t false true)). reflexivity.
    - apply (conj1 im Him n t _ _ _ s_bits w psi y Hg Hw (mono_s t)). reflexivity.
    - apply (conj1 im Him n t _ _ _ is_bits w psi y Hg Hw (mono_is t)). reflexivity.
    - now apply conjH.
    - apply (conj2 im Him n c t _ _ _ cnot_bits w psi y Hc Ht Hne Hw (mono_ctl c t true false false)). reflexivity.
    - apply (conj2 im Him n c t _ _ _ anticnot_bits w psi y Hc Ht Hne Hw (mono_ctl c t true false true)). reflexivity.
    - apply (conj2 im Him n c t _ _ _ cy_bits w psi y Hc Ht Hne Hw (mono_ctl c t true true false)). reflexivity.
    - apply (conj2 im Him n c t _ _ _ anticy_bits w psi y Hc Ht Hne Hw (mono_ctl c t true true true)). reflexivity.
    - apply (conj2 im Him n c t _ _ _ cz_bits w psi y Hc Ht Hne Hw (mono_ctl c t false true false)). reflexivity.
    - apply (conj2 im Him n c t _ _ _ anticz_bits w psi y Hc Ht Hne Hw (mono_ctl c t false true true)). reflexivity.
    - apply (conj2 im Him n a b _ _ _ swap_bits2 w psi y Hc Ht Hne Hw (mono_swap a b 0 Hne)). reflexivity.
    - assert (M := mono_swap a b 1 Hne). rewrite ph_1 in M. apply (conj2 im Him n a b _ _ _ iswap_bits w psi y Hc Ht Hne Hw M). reflexivity.
    - assert (M := mono_swap a b 3 Hne). rewrite ph_3 in M by auto. apply (conj2 im Him n a b _ _ _ iiswap_bits w psi y Hc Ht Hne Hw M). reflexivity.
  Qed.
End K.

Lemma gate_sym n g w v : gate_fits n g -> sym n (gate_row g w) (gate_row g v) = sym n w v.
Proof.
  intros Hg. destruct g; cbn [gate_fits gate_row] in *; try destruct Hg as (Hc & Ht & Hne);
    first [apply sym_upd1; [assumption|vm_compute; reflexivity]|apply sym_upd2; [assumption|assumption|assumption|vm_compute; reflexivity]].
Qed.
Lemma gate_fit n g w : gate_fits n g -> fitrow n w -> fitrow n (gate_row g w).
Proof. intros Hg Hw. destruct g; cbn [gate_fits gate_row] in *; try destruct Hg as (Hc & Ht & Hne); first [now apply fit_upd1|now apply fit_upd2]. Qed.
Lemma gate_rr4 g w : rr w < 4 -> rr (gate_row g w) < 4.
Proof. intros H. destruct g; cbn [gate_row]; first [now apply rr4_upd1|now apply rr4_upd2]. Qed.
Lemma gate_rr2 g w : rr (gate_row g w) mod 2 = rr w mod 2.
Proof.
  destruct g; cbn [gate_row];
    first [match goal with |- rr (upd1 ?t ?f ?w) mod 2 = _ => assert (A := rr_upd1 t f w) end|match goal with |- rr (upd2 ?c ?t ?f ?w) mod 2 = _ => assert (A := rr_upd2 c t f w) end];
    revert A; match goal with |- ?a mod 4 = (?r + 2 * ?b) mod 4 -> _ => generalize a, r, b end; intros; mlia.
Qed.
Definition map_rows (T : tab) (f : row -> row) : tab := mkTab (t_n T) (fun i => if i <? max_lcv (t_n T) then f (t_row T i) else t_row T i).
Lemma map_rows_row T f i : valid T -> i < 2 * t_n T -> t_row (map_rows T f) i = f (t_row T i).
Proof. intros V H. unfold map_rows. cbn [t_row]. rewrite valid_lcv by auto. now replace (i <? 2 * t_n T) with true by (symmetry; now apply N.ltb_lt). Qed.
Lemma gate_valid T g : valid T -> gate_fits (t_n T) g -> valid (map_rows T (gate_row g)).
Proof.
  intros V Hg. assert (V' := V). destruct V' as (V1 & V2 & V3 & V4). unfold valid. change (t_n (map_rows T (gate_row g))) with (t_n T).
  assert (R := fun i Hi => map_rows_row T (gate_row g) i V Hi). repeat split; auto.
  - rewrite R by auto. apply gate_fit; auto. now apply V2.
  - rewrite R by auto. apply gate_fit; auto. now apply V2.
  - rewrite R by auto. apply gate_rr4. now apply V2.
  - intros i j Hi Hj. rewrite !R by auto. rewrite gate_sym by auto. now apply V3.
  - intros i Hi Hi2. rewrite R by auto. rewrite gate_rr2. now apply V4.
Qed.
Lemma gate_good {K : StarRing} (im h : K) T g psi : (im * im = - (1))%amp -> valid T -> gate_fits (t_n T) g -> good im T psi -> good im (map_rows T (gate_row g)) (gate_act im h g psi).
Proof.
  intros Him V Hg G p Hp. change (t_n (map_rows T (gate_row g))) with (t_n T) in *. rewrite map_rows_row by (auto; lia). intros y Hy.
  change (rop im (t_n T) (gate_row g (t_row T (t_n T + p))) (gate_act im h g psi) y = gate_act im h g psi y). rewrite <- gate_conj by (auto; apply valid_fit; auto; lia).
  assert (E : forall psi psi' : N -> K, eqv (t_n T) psi psi' -> gate_act im h g psi y = gate_act im h g psi' y).
  { clear - Hg Hy. intros a b E. assert (CS : forall t v, t < t_n T -> v < 2 ^ t_n T -> N.clearbit v t < 2 ^ t_n T /\ N.setbit v t < 2 ^ t_n T).
    { intros t v Ht Hv. split; apply (setb_lt v t false) || apply (setb_lt v t true); auto. }
    assert (W : forall x y, x < 2 ^ t_n T -> y < t_n T -> N.clearbit x y < 2 ^ t_n T) by (intros; apply CS; auto).
    assert (Sb : forall u v, u < t_n T -> v < t_n T -> swap_bits u v y < 2 ^ t_n T).
    { intros u v Hu Hv. unfold swap_bits. apply (setb_lt _ _ (N.testbit y v)); auto. apply (setb_lt _ _ (N.testbit y u)); auto. }
    destruct g; cbn [gate_act gate_fits] in *; try destruct Hg as (Hc & Ht & Hne); unfold gate1, gate_swap; cbv zeta;
      repeat match goal with |- context [if ?c then _ else _] => destruct c end; rewrite ?E by (auto; apply CS; auto); reflexivity. }
  apply E. exact (G p Hp).
Qed.
