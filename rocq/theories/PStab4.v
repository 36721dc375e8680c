(** Row operations keep the state; Gaussian elimination. *)
From Coq Require Import NArith ZArith List Bool Lia Ring.
From Verif Require Import Amp PAmp Bits MFunctions MParFor MQCircuit MEngine MStab SpecState SpecStab PStab1 PStab2 PStab3.
Import ListNotations.
Local Open Scope N_scope.

Lemma in_iota a k : forall x, In x (iota a k) <-> a <= x < a + N.of_nat k.
Proof.
  revert a. induction k as [|k IH]; intros a x; cbn [iota In]; [lia|]. rewrite IH. lia.
Qed.
Lemma t_row_set T i w k : t_row (set_row T i w) k = if k =? i then w else t_row T k. Proof. reflexivity. Qed.

(** ** One elimination step: stabilizer [k] times stabilizer [i], destabilizer [i-n] times destabilizer [k-n]. *)
Definition elim_step (T : tab) (k i : N) : tab := rowmult (rowmult T k i) (i - t_n T) (k - t_n T).
Definition swap_step (T : tab) (i k : N) : tab := rowswap (rowswap T i k) (i - t_n T) (k - t_n T).

Lemma elim_rows T k i a : t_n T <= i -> i < 2 * t_n T -> t_n T <= k -> k < 2 * t_n T -> k <> i ->
  t_row (elim_step T k i) a = if a =? k then row_mul (t_n T) (t_row T k) (t_row T i)
    else if a =? i - t_n T then row_mul (t_n T) (t_row T (i - t_n T)) (t_row T (k - t_n T)) else t_row T a.
Proof.
  intros Hi Hi2 Hk Hk2 Hne. unfold elim_step, rowmult. cbn [t_n set_row]. rewrite !t_row_set.
  replace (i - t_n T =? k) with false by (symmetry; apply N.eqb_neq; lia). replace (k - t_n T =? k) with false by (symmetry; apply N.eqb_neq; lia).
  destruct (N.eqb_spec a k) as [E|E]; [subst a|reflexivity]. replace (k =? i - t_n T) with false by (symmetry; apply N.eqb_neq; lia). reflexivity.
Qed.
(** The rows after a double swap: positions permuted by a transposition in both halves. *)
Definition tau (i k p : N) : N := if p =? i then k else if p =? k then i else p.
Definition sig (n i k a : N) : N := if a <? n then tau (i - n) (k - n) a else tau i k a.
Lemma rowswap_row T i k a : t_row (rowswap T i k) a = t_row T (tau i k a).
Proof.
  unfold rowswap, tau. destruct (N.eqb_spec i k) as [->|H]; [destruct (N.eqb_spec a k) as [->|]; reflexivity|]. cbn [t_row set_row].
  destruct (N.eqb_spec a k) as [->|E1].
  - replace (k =? i) with false by (symmetry; apply N.eqb_neq; auto). reflexivity.
  - destruct (N.eqb_spec a i) as [->|E2]; reflexivity.
Qed.
Lemma rowswap_n T i k : t_n (rowswap T i k) = t_n T. Proof. unfold rowswap. destruct (i =? k); reflexivity. Qed.
Lemma tau_other i k p : p <> i -> p <> k -> tau i k p = p.
Proof. intros A B. unfold tau. rewrite (proj2 (N.eqb_neq p i) A), (proj2 (N.eqb_neq p k) B). reflexivity. Qed.
Lemma tau_bound n i k p : i < n -> k < n -> p < n -> tau i k p < n. Proof. unfold tau. deq; lia. Qed.
Lemma tau_lb n i k p : n <= i -> n <= k -> n <= p -> n <= tau i k p. Proof. unfold tau. deq; lia. Qed.
Lemma tau_inj i k p q : tau i k p = tau i k q -> p = q. Proof. unfold tau. deq; lia. Qed.
Lemma tau_shift n i k p : n <= i -> n <= k -> n <= p -> tau i k p = n + tau (i - n) (k - n) (p - n).
Proof.
  intros A B C. unfold tau. destruct (N.eqb_spec p i) as [->|E]; [rewrite N.eqb_refl; lia|]. replace (p - n =? i - n) with false by (symmetry; apply N.eqb_neq; lia).
  destruct (N.eqb_spec p k) as [->|F]; [rewrite N.eqb_refl; lia|]. replace (p - n =? k - n) with false by (symmetry; apply N.eqb_neq; lia). lia.
Qed.
Lemma swap_rows T i k a : t_n T <= i -> i < 2 * t_n T -> t_n T <= k -> k < 2 * t_n T ->
  t_row (swap_step T i k) a = t_row T (sig (t_n T) i k a).
Proof.
  intros Hi Hi2 Hk Hk2. unfold swap_step. rewrite !rowswap_row. f_equal. unfold sig. destruct (N.ltb_spec a (t_n T)) as [L|L].
  - assert (B := tau_bound (t_n T) (i - t_n T) (k - t_n T) a ltac:(lia) ltac:(lia) L). apply tau_other; lia.
  - rewrite (tau_other (i - t_n T) (k - t_n T) a) by lia. reflexivity.
Qed.
Lemma sig_bound n i k a : n <= i -> i < 2 * n -> n <= k -> k < 2 * n -> a < 2 * n -> sig n i k a < 2 * n.
Proof. intros. unfold sig, tau. destruct (a <? n); deq; lia. Qed.
Lemma pat_iff n x y : x < 2 * n -> y < 2 * n -> pat n x y = true <-> (x < n /\ n <= y /\ x = y - n) \/ (y < n /\ n <= x /\ y = x - n).
Proof. intros Hx Hy. unfold pat. rewrite orb_true_iff, !N.eqb_eq. lia. Qed.
Lemma sig_pat n i k a b : n <= i -> i < 2 * n -> n <= k -> k < 2 * n -> a < 2 * n -> b < 2 * n -> pat n (sig n i k a) (sig n i k b) = pat n a b.
Proof.
  intros Hi Hi2 Hk Hk2 Ha Hb. apply eq_true_iff_eq. rewrite !pat_iff by (auto; now apply sig_bound). unfold sig.
  destruct (N.ltb_spec a n) as [La|La]; destruct (N.ltb_spec b n) as [Lb|Lb].
  - assert (A := tau_bound n (i - n) (k - n) a ltac:(lia) ltac:(lia) La). assert (B := tau_bound n (i - n) (k - n) b ltac:(lia) ltac:(lia) Lb). lia.
  - assert (A := tau_bound n (i - n) (k - n) a ltac:(lia) ltac:(lia) La). rewrite (tau_shift n i k b) by lia. assert (I := tau_inj (i - n) (k - n) a (b - n)).
    split; intros [(H1 & H2 & H3)|(H1 & H2 & H3)]; try lia; left; repeat split; try lia; rewrite H3; lia.
  - assert (B := tau_bound n (i - n) (k - n) b ltac:(lia) ltac:(lia) Lb). rewrite (tau_shift n i k a) by lia. assert (I := tau_inj (i - n) (k - n) b (a - n)).
    split; intros [(H1 & H2 & H3)|(H1 & H2 & H3)]; try lia; right; repeat split; try lia; rewrite H3; lia.
  - assert (A := tau_lb n i k a Hi Hk La). assert (B := tau_lb n i k b Hi Hk Lb). lia.
Qed.
Lemma pat_f n u v : u + n <> v -> v + n <> u -> pat n u v = false.
Proof. intros A B. unfold pat. rewrite (proj2 (N.eqb_neq _ _) A), (proj2 (N.eqb_neq _ _) B). reflexivity. Qed.
Lemma pat_t n u v : u + n = v \/ v + n = u -> pat n u v = true.
Proof. intros [H|H]; unfold pat; rewrite (proj2 (N.eqb_eq _ _) H); auto using orb_true_r. Qed.
Ltac pf := repeat match goal with |- context [pat ?n ?u ?v] => first [rewrite (pat_f n u v) by lia | rewrite (pat_t n u v) by lia] end.
Lemma elim_valid T k i : valid T -> t_n T <= i -> i < 2 * t_n T -> t_n T <= k -> k < 2 * t_n T -> k <> i -> valid (elim_step T k i).
Proof.
  intros V Hi Hi2 Hk Hk2 Hne. assert (V' := V). destruct V' as (V1 & V2 & V3 & V4). assert (R := fun a => elim_rows T k i a Hi Hi2 Hk Hk2 Hne). unfold valid.
  change (t_n (elim_step T k i)) with (t_n T). split; [auto|]. split; [|split].
  - intros a Ha. rewrite R. destruct (a =? k); [|destruct (a =? i - t_n T)].
    + split; [apply fitrow_mul; apply V2; auto|apply clifford_lt].
    + split; [apply fitrow_mul; apply V2; lia|apply clifford_lt].
    + now apply V2.
  - intros a b Ha Hb. rewrite !R. destruct (N.eqb_spec a k) as [Ea|Ea]; [|destruct (N.eqb_spec a (i - t_n T)) as [Ea2|Ea2]];
      (destruct (N.eqb_spec b k) as [Eb|Eb]; [|destruct (N.eqb_spec b (i - t_n T)) as [Eb2|Eb2]]);
      subst; rewrite ?sym_mul_l, ?sym_mul_r, ?sym_mul_l; rewrite !V3 by lia; pf; rewrite ?xorb_false_l, ?xorb_false_r; reflexivity.
  - intros a Ha Ha2. rewrite R. destruct (N.eqb_spec a k) as [Ea|Ea].
    + rewrite row_mul_parity, V3 by lia. assert (A := V4 k Hk Hk2). assert (B := V4 i Hi Hi2). pf. cbn [b2n]. clear - A B. mlia.
    + destruct (N.eqb_spec a (i - t_n T)) as [Ea2|Ea2]; [exfalso; lia|now apply V4].
Qed.
Lemma swap_step_n T i k : t_n (swap_step T i k) = t_n T. Proof. unfold swap_step. now rewrite !rowswap_n. Qed.
Lemma swap_valid T i k : valid T -> t_n T <= i -> i < 2 * t_n T -> t_n T <= k -> k < 2 * t_n T -> valid (swap_step T i k).
Proof.
  intros V Hi Hi2 Hk Hk2. assert (V' := V). destruct V' as (V1 & V2 & V3 & V4). assert (R := fun a => swap_rows T i k a Hi Hi2 Hk Hk2).
  unfold valid. rewrite swap_step_n. assert (PB := fun a => sig_bound (t_n T) i k a Hi Hi2 Hk Hk2).
  split; [auto|]. split; [|split].
  - intros a Ha. rewrite R. apply V2. auto.
  - intros a b Ha Hb. rewrite !R. rewrite V3 by auto. now apply sig_pat.
  - intros a Ha Ha2. rewrite R. apply V4; auto. unfold sig. replace (a <? t_n T) with false by (symmetry; apply N.ltb_ge; auto). now apply tau_lb.
Qed.

Section K.
  Context {K : StarRing}.
  Variable im : K.
  Hypothesis Him : (im * im = - (1))%amp.
  Local Notation vec := (N -> K).
  Lemma elim_good T k i (psi : vec) : valid T -> t_n T <= i -> i < 2 * t_n T -> t_n T <= k -> k < 2 * t_n T -> k <> i -> good im (elim_step T k i) psi <-> good im T psi.
  Proof.
    intros V Hi Hi2 Hk Hk2 Hne. assert (R := fun a => elim_rows T k i a Hi Hi2 Hk Hk2 Hne).
    assert (Fi : fitrow (t_n T) (t_row T i)) by now apply valid_fit. assert (Fk : fitrow (t_n T) (t_row T k)) by now apply valid_fit. split; intros G p Hp.
    - change (t_n (elim_step T k i)) with (t_n T) in *. assert (Gi := G (i - t_n T)). assert (Gp := G p Hp). change (t_n (elim_step T k i)) with (t_n T) in *.
      replace (t_n T + (i - t_n T)) with i in Gi by lia. specialize (Gi ltac:(lia)). rewrite R in Gi, Gp.
      replace (i =? k) with false in Gi by (symmetry; apply N.eqb_neq; auto). replace (i =? i - t_n T) with false in Gi by (symmetry; apply N.eqb_neq; lia).
      destruct (N.eqb_spec (t_n T + p) k) as [E|E].
      + rewrite E. apply (rowmul_unstab im Him (t_n T) (t_row T k) (t_row T i)); auto. now apply V.
      + destruct (N.eqb_spec (t_n T + p) (i - t_n T)) as [E2|E2]; [exfalso; lia|exact Gp].
    - change (t_n (elim_step T k i)) with (t_n T) in *. rewrite R. destruct (N.eqb_spec (t_n T + p) k) as [E|E].
      + apply rowmul_stab; auto; [replace k with (t_n T + (k - t_n T)) by lia|replace i with (t_n T + (i - t_n T)) by lia]; apply G; lia.
      + destruct (N.eqb_spec (t_n T + p) (i - t_n T)) as [E2|E2]; [exfalso; lia|now apply G].
  Qed.
  Lemma tau_invol i k p : tau i k (tau i k p) = p. Proof. unfold tau. deq; lia. Qed.
  Lemma swap_good T i k (psi : vec) : t_n T <= i -> i < 2 * t_n T -> t_n T <= k -> k < 2 * t_n T -> good im (swap_step T i k) psi <-> good im T psi.
  Proof.
    intros Hi Hi2 Hk Hk2. assert (R := fun a => swap_rows T i k a Hi Hi2 Hk Hk2). unfold good. rewrite swap_step_n.
    assert (RH : forall a, t_n T <= a -> t_row (swap_step T i k) a = t_row T (tau i k a)).
    { intros a Ha. rewrite R. unfold sig. replace (a <? t_n T) with false by (symmetry; apply N.ltb_ge; auto). reflexivity. }
    assert (B : forall a, t_n T <= a -> a < 2 * t_n T -> t_n T <= tau i k a < 2 * t_n T) by (intros a H1 H2; split; [now apply tau_lb|now apply tau_bound]).
    split; intros G p Hp.
    - assert (H := B (t_n T + p) ltac:(lia) ltac:(lia)). assert (Gq := G (tau i k (t_n T + p) - t_n T) ltac:(lia)).
      replace (t_n T + (tau i k (t_n T + p) - t_n T)) with (tau i k (t_n T + p)) in Gq by lia. rewrite RH, tau_invol in Gq by lia. exact Gq.
    - rewrite RH by lia. assert (H := B (t_n T + p) ltac:(lia) ltac:(lia)).
      replace (tau i k (t_n T + p)) with (t_n T + (tau i k (t_n T + p) - t_n T)) by lia. apply G. lia.
  Qed.
End K.

(** ** The elimination *)
(** [T'] has the same qubit count, and if [T] is valid then so is [T'], for the same states. *)
Definition equi (T T' : tab) : Prop :=
  t_n T' = t_n T /\ (valid T -> valid T' /\ forall (K : StarRing) (im : K), (im * im = - (1))%amp -> forall psi, good im T' psi <-> good im T psi).
Lemma equi_refl T : equi T T. Proof. split; [reflexivity|]. intros V. split; auto. intros; reflexivity. Qed.
Lemma equi_trans A B C : equi A B -> equi B C -> equi A C.
Proof.
  intros [E1 F1] [E2 F2]. split; [congruence|]. intros V. destruct (F1 V) as [V1 G1]. destruct (F2 V1) as [V2 G2]. split; auto.
  intros K im Him psi. rewrite G2, G1 by auto. reflexivity.
Qed.
Lemma equi_elim T k i : t_n T <= i -> i < 2 * t_n T -> t_n T <= k -> k < 2 * t_n T -> k <> i -> equi T (elim_step T k i).
Proof. intros. split; [reflexivity|]. intros V. split; [now apply elim_valid|]. intros K im Him psi. now apply elim_good. Qed.
Lemma equi_swap T i k : t_n T <= i -> i < 2 * t_n T -> t_n T <= k -> k < 2 * t_n T -> equi T (swap_step T i k).
Proof.
  intros. split; [apply swap_step_n|]. intros V. split; [now apply swap_valid|]. intros K im Him psi. now apply swap_good.
Qed.

Section G.
  (** [sel] is x or z: a mask of the row that adds up under multiplication. *)
  Variable sel : row -> N.
  Hypothesis sel_mul : forall n a b, sel (row_mul n a b) = N.lxor (sel a) (sel b).

  Lemma elim_all_spec T0 j i l : forall T, t_n T = t_n T0 -> t_n T <= i -> i < 2 * t_n T -> (forall k, In k l -> i < k < 2 * t_n T) ->
    let T' := fold_left (fun T k2 => if N.testbit (sel (t_row T k2)) j then rowmult (rowmult T k2 i) (i - t_n T) (k2 - t_n T) else T) l T in
    equi T T' /\
    (forall k, t_n T <= k -> k < 2 * t_n T -> ~ In k l -> t_row T' k = t_row T k) /\
    (NoDup l -> N.testbit (sel (t_row T i)) j = true -> forall k, In k l ->
       t_row T' k = if N.testbit (sel (t_row T k)) j then row_mul (t_n T) (t_row T k) (t_row T i) else t_row T k).
  Proof.
    induction l as [|k2 l IH]; intros T En Hi Hi2 HL; cbn [fold_left].
    - split; [apply equi_refl|]. split; auto. intros _ _ k [].
    - destruct (HL k2 (or_introl eq_refl)) as [Hk Hk2]. fold (elim_step T k2 i).
      set (T1 := if N.testbit (sel (t_row T k2)) j then elim_step T k2 i else T).
      assert (E1 : equi T T1) by (unfold T1; destruct (N.testbit (sel (t_row T k2)) j); [apply equi_elim; lia|apply equi_refl]).
      assert (N1 : t_n T1 = t_n T) by apply E1.
      destruct (IH T1 ltac:(congruence) ltac:(lia) ltac:(lia) ltac:(rewrite N1; intros k Hk'; apply HL; now right)) as (A & B & C).
      rewrite N1 in B, C.
      assert (R1 : forall a, t_n T <= a -> a <> k2 -> t_row T1 a = t_row T a).
      { intros a Ha Hn. unfold T1. destruct (N.testbit (sel (t_row T k2)) j); auto. rewrite elim_rows by lia. deq; try reflexivity; exfalso; lia. }
      split; [|split].
      + eapply equi_trans; [exact E1|exact A].
      + intros k Hk' Hk2' Hn. rewrite B; auto; [|intros Hin; apply Hn; now right]. apply R1; auto. intros ->. apply Hn. now left.
      + intros ND Hpi k Hin. inversion ND as [|? ? Hnin ND']; subst. destruct Hin as [->|Hin].
        * rewrite B by (auto; lia). unfold T1. destruct (N.testbit (sel (t_row T k)) j) eqn:Ek; auto. rewrite elim_rows by lia. now rewrite N.eqb_refl.
        * assert (Hne : k <> k2) by (intros ->; contradiction). assert (Hk3 := HL k (or_intror Hin)).
          rewrite C; auto; [|rewrite R1 by lia; exact Hpi]. rewrite !R1 by lia. reflexivity.
  Qed.

  (** Leading columns: the lowest set bit. *)
  Definition lead (w : row) (j : N) : Prop := N.testbit (sel w) j = true /\ forall m, m < j -> N.testbit (sel w) m = false.
  Definition lowclear (w : row) (j : N) : Prop := forall m, m < j -> N.testbit (sel w) m = false.
  (** State of the elimination before column [j]: rows [lo..i) lead in increasing columns below [j], rows [i..2n) are clear below [j]. *)
  Definition ech (T : tab) (lo i j : N) (piv : N -> N) : Prop :=
    (forall a, lo <= a -> a < i -> lead (t_row T a) (piv a) /\ piv a < j) /\
    (forall a b, lo <= a -> a < b -> b < i -> piv a < piv b) /\
    (forall a, i <= a -> a < 2 * t_n T -> lowclear (t_row T a) j).
  Lemma lowclear_S w j : lowclear w j -> N.testbit (sel w) j = false -> lowclear w (j + 1).
  Proof. intros H E m Hm. destruct (N.eq_dec m j) as [->|Hn]; auto. apply H. lia. Qed.

  Lemma iota_nodup a k : NoDup (iota a k).
  Proof.
    revert a. induction k as [|k IH]; intros a; cbn [iota]; [constructor|]. constructor; auto. rewrite in_iota. lia.
  Qed.

  Lemma gauss_col_spec T lo i j piv : max_lcv (t_n T) = 2 * t_n T -> t_n T <= lo -> lo <= i -> i <= 2 * t_n T -> ech T lo i j piv ->
    let '(T', i') := gauss_col sel (T, i) j in
    equi T T' /\ i <= i' /\ i' <= 2 * t_n T /\ (exists piv', ech T' lo i' (j + 1) piv') /\
    (forall a, t_n T <= a -> a < i -> t_row T' a = t_row T a) /\
    (forall P : row -> Prop, (forall a, i <= a -> a < 2 * t_n T -> P (t_row T a)) -> (forall u v, P u -> P v -> P (row_mul (t_n T) u v)) ->
       forall a, i <= a -> a < 2 * t_n T -> P (t_row T' a)).
  Proof.
    intros HM Hlo Hi Hi2 (E1 & E2 & E3). unfold gauss_col. rewrite HM.
    destruct (find (fun k => N.testbit (sel (t_row T k)) j) (iota i (N.to_nat (2 * t_n T - i)))) as [k|] eqn:F.
    - apply find_some in F. destruct F as [Hin Hk]. apply in_iota in Hin.
      assert (Hk2 : t_n T <= k < 2 * t_n T) by lia. fold (swap_step T i k). set (T1 := swap_step T i k).
      assert (Eq1 : equi T T1) by (apply equi_swap; lia). assert (N1 : t_n T1 = t_n T) by apply Eq1.
      assert (R1 : forall a, t_n T <= a -> t_row T1 a = t_row T (if a =? i then k else if a =? k then i else a)).
      { intros a Ha. unfold T1. rewrite swap_rows by lia. unfold sig. replace (a <? t_n T) with false by (symmetry; apply N.ltb_ge; auto). reflexivity. }
      assert (S := elim_all_spec T1 j i (iota (i + 1) (N.to_nat (2 * t_n T - (i + 1)))) T1 eq_refl ltac:(lia) ltac:(lia)).
      match type of S with ?A -> _ => assert (SA : A) by (intros k0 Hk0; apply in_iota in Hk0; lia) end. specialize (S SA). clear SA. cbv zeta in S.
      unfold gauss_elim. rewrite N1, HM. rewrite N1 in S.
      set (T2 := fold_left _ _ T1) in *. destruct S as (S1 & S2 & S3).
      assert (Li : N.testbit (sel (t_row T1 i)) j = true) by (rewrite R1, N.eqb_refl by lia; exact Hk).
      specialize (S3 (iota_nodup _ _) Li).
      assert (N2 : t_n T2 = t_n T) by (transitivity (t_n T1); [apply S1|auto]).
      assert (RA : forall a, t_n T <= a -> a < i -> t_row T2 a = t_row T a).
      { intros a Ha Hai. rewrite S2 by (auto; try lia; rewrite in_iota; lia). rewrite R1 by lia. f_equal. deq; lia. }
      assert (RI : t_row T2 i = t_row T k) by (rewrite S2 by (auto; try lia; rewrite in_iota; lia); rewrite R1, N.eqb_refl by lia; reflexivity).
      assert (RB : forall a, i < a -> a < 2 * t_n T -> t_row T2 a = (if N.testbit (sel (t_row T1 a)) j then row_mul (t_n T) (t_row T1 a) (t_row T k) else t_row T1 a)).
      { intros a Ha Ha2. rewrite S3 by (rewrite in_iota; lia). replace (t_row T1 i) with (t_row T k) by (rewrite R1, N.eqb_refl by lia; reflexivity). reflexivity. }
      assert (RB1 : forall a, i < a -> a < 2 * t_n T -> exists b, i <= b < 2 * t_n T /\ t_row T1 a = t_row T b).
      { intros a Ha Ha2. rewrite R1 by lia. eexists. split; [|reflexivity]. deq; lia. }
      split; [eapply equi_trans; eauto|]. split; [lia|]. split; [lia|]. split; [|split].
      + exists (fun a => if a =? i then j else piv a). split; [|split].
        * intros a Ha Hai. destruct (N.eqb_spec a i) as [->|Ea].
          { rewrite RI. split; [|lia]. split; auto. apply E3; lia. }
          { rewrite RA by lia. destruct (E1 a) as [L1 L2]; try lia. split; auto. lia. }
        * intros a b Ha Hab Hb. destruct (N.eqb_spec a i) as [->|Ea]; [lia|]. destruct (N.eqb_spec b i) as [->|Eb]; [apply E1; lia|apply E2; lia].
        * intros a Ha Ha2. rewrite N2 in Ha2. rewrite RB by lia. destruct (RB1 a) as (b & Hb & Eb); try lia. rewrite Eb. destruct (N.testbit (sel (t_row T b)) j) eqn:Ej.
          { apply lowclear_S; [|rewrite sel_mul, tb_lxor, Ej, Hk; reflexivity]. intros m Hm. rewrite sel_mul, tb_lxor. rewrite (E3 b) by lia. rewrite (E3 k) by lia. reflexivity. }
          { apply lowclear_S; auto. apply E3; lia. }
      + exact RA.
      + intros P HP HM2 a Ha Ha2. destruct (N.eq_dec a i) as [->|Hn]; [rewrite RI; apply HP; lia|]. rewrite RB by lia. destruct (RB1 a) as (b & Hb & Eb); try lia. rewrite Eb.
        destruct (N.testbit (sel (t_row T b)) j); [apply HM2; apply HP; lia|apply HP; lia].
    - split; [apply equi_refl|]. split; [lia|]. split; [lia|]. split; [|split; auto]. exists piv. split; [|split; auto].
      + intros a Ha Hai. destruct (E1 a Ha Hai). split; auto. lia.
      + intros a Ha Ha2. apply lowclear_S; [now apply E3|]. apply (find_none _ _ F a). apply in_iota. lia.
  Qed.

  (** All columns. *)
  Lemma gauss_cols_spec lo k : forall T i j piv, max_lcv (t_n T) = 2 * t_n T -> t_n T <= lo -> lo <= i -> i <= 2 * t_n T -> ech T lo i j piv ->
    let '(T', i') := fold_left (gauss_col sel) (iota j k) (T, i) in
    equi T T' /\ i <= i' /\ i' <= 2 * t_n T /\ (exists piv', ech T' lo i' (j + N.of_nat k) piv') /\
    (forall a, t_n T <= a -> a < i -> t_row T' a = t_row T a) /\
    (forall P : row -> Prop, (forall a, i <= a -> a < 2 * t_n T -> P (t_row T a)) -> (forall u v, P u -> P v -> P (row_mul (t_n T) u v)) ->
       forall a, i <= a -> a < 2 * t_n T -> P (t_row T' a)).
  Proof.
    induction k as [|k IH]; intros T i j piv HM Hlo Hi Hi2 HE; cbn [iota fold_left].
    - rewrite N.add_0_r. split; [apply equi_refl|]. split; [lia|]. split; [lia|]. split; [eauto|]. split; auto.
    - assert (C := gauss_col_spec T lo i j piv HM Hlo Hi Hi2 HE). destruct (gauss_col sel (T, i) j) as [T1 i1]. destruct C as (A1 & A2 & A3 & (piv1 & A4) & A5 & A6).
      assert (N1 : t_n T1 = t_n T) by apply A1. rewrite <- N1 in A3.
      assert (D := IH T1 i1 (j + 1) piv1 ltac:(rewrite N1; auto) ltac:(lia) ltac:(lia) A3 A4). destruct (fold_left (gauss_col sel) (iota (j + 1) k) (T1, i1)) as [T2 i2].
      destruct D as (B1 & B2 & B3 & (piv2 & B4) & B5 & B6). rewrite N1 in B3, B5, B6.
      split; [eapply equi_trans; eauto|]. split; [lia|]. split; [lia|]. split; [exists piv2; replace (j + N.of_nat (S k)) with (j + 1 + N.of_nat k) by lia; auto|]. split.
      + intros a Ha Hai. rewrite B5 by lia. apply A5; lia.
      + intros P HP HM2 a Ha Ha2. assert (HP1 := A6 P HP HM2). destruct (N.lt_ge_cases a i1) as [L|L]; [|apply (B6 P); auto; intros; apply HP1; lia].
        rewrite B5 by lia. apply HP1; lia.
  Qed.
End G.

(** A nonzero pairing forbids the zero row. *)
Lemma sym_zero n w v : fitrow n w -> rx w = 0 -> rz w = 0 -> sym n w v = false.
Proof. intros _ H1 H2. apply sx_false. intros j _. unfold symj. rewrite H1, H2, N.bits_0. reflexivity. Qed.
Lemma lowclear_zero sel n w : sel w < 2 ^ n -> lowclear sel w n -> sel w = 0.
Proof.
  intros H L. apply N.bits_inj. intros m. rewrite N.bits_0. destruct (N.lt_ge_cases m n) as [A|A]; [now apply L|now apply (tb_high _ n)].
Qed.

Record reduced_form (T : tab) (g : N) : Prop := mkRF {
  rf_g : g <= t_n T;
  rf_x : exists piv, (forall a, a < g -> lead rx (t_row T (t_n T + a)) (piv a) /\ piv a < t_n T) /\ (forall a b, a < b -> b < g -> piv a < piv b);
  rf_x0 : forall a, g <= a -> a < t_n T -> rx (t_row T (t_n T + a)) = 0;
  rf_z : exists piv, (forall a, g <= a -> a < t_n T -> lead rz (t_row T (t_n T + a)) (piv a) /\ piv a < t_n T) /\ (forall a b, g <= a -> a < b -> b < t_n T -> piv a < piv b) }.

Theorem gaussian_spec T : valid T ->
  let '(T', g) := gaussian T in equi T T' /\ reduced_form T' g.
Proof.
  intros V. assert (HM := valid_lcv T V). unfold gaussian.
  assert (E0 : ech rx T (t_n T) (t_n T) 0 (fun _ => 0)) by (split; [|split]; intros; try lia; intros m Hm; lia).
  assert (A := gauss_cols_spec rx ltac:(reflexivity) (t_n T) (N.to_nat (t_n T)) T (t_n T) 0 _ HM ltac:(lia) ltac:(lia) ltac:(lia) E0).
  destruct (fold_left (gauss_col rx) (iota 0 (N.to_nat (t_n T))) (T, t_n T)) as [T1 i1]. destruct A as (A1 & A2 & A3 & (piv1 & A4) & A5 & _).
  assert (N1 : t_n T1 = t_n T) by apply A1. assert (V1 : valid T1) by (apply A1; auto).
  rewrite N.add_0_l, N2Nat.id in A4. destruct A4 as (X1 & X2 & X3).
  assert (E1 : ech rz T1 i1 i1 0 (fun _ => 0)) by (split; [|split]; intros; try lia; intros m Hm; lia).
  assert (B := gauss_cols_spec rz ltac:(reflexivity) i1 (N.to_nat (t_n T)) T1 i1 0 _ ltac:(rewrite N1; auto) ltac:(lia) ltac:(lia) ltac:(lia) E1).
  destruct (fold_left (gauss_col rz) (iota 0 (N.to_nat (t_n T))) (T1, i1)) as [T2 i2]. destruct B as (B1 & B2 & B3 & (piv2 & B4) & B5 & B6).
  assert (N2 : t_n T2 = t_n T) by (transitivity (t_n T1); [apply B1|auto]). assert (V2 : valid T2) by (apply B1; auto).
  rewrite N.add_0_l, N2Nat.id in B4. destruct B4 as (Z1 & Z2 & Z3). rewrite N1 in *.
  assert (X0 : forall a, i1 <= a -> a < 2 * t_n T -> rx (t_row T2 a) = 0).
  { intros a Ha Ha2. apply (B6 (fun w => rx w = 0)); auto.
    - intros b Hb Hb2. apply (lowclear_zero rx (t_n T)); [|apply X3; lia]. assert (F := valid_fit T1 b V1 ltac:(lia)). rewrite N1 in F. apply F.
    - intros u v Hu Hv. cbn [row_mul rx]. rewrite Hu, Hv. reflexivity. }
  assert (I2 : i2 = 2 * t_n T).
  { destruct (N.eq_dec i2 (2 * t_n T)) as [|Hn]; auto. exfalso. assert (L : i2 < 2 * t_n T) by lia.
    assert (F := valid_fit T2 i2 V2 ltac:(lia)). rewrite N2 in F.
    assert (Rz : rz (t_row T2 i2) = 0) by (apply (lowclear_zero rz (t_n T)); [apply F|]; apply Z3; rewrite ?N2; lia).
    assert (S := proj1 (proj2 (proj2 V2)) i2 (i2 - t_n T) ltac:(lia) ltac:(lia)). rewrite N2 in S. rewrite sym_zero in S by (auto; apply X0; lia).
    unfold pat in S. revert S. deq; cbn; try discriminate; lia. }
  split; [eapply equi_trans; eauto|]. constructor; rewrite ?N2.
  - lia.
  - exists (fun a => piv1 (t_n T + a)). split.
    + intros a Ha. rewrite B5 by lia. apply X1; lia.
    + intros a b Hab Hb. apply X2; lia.
  - intros a Ha Ha2. apply X0; lia.
  - exists (fun a => piv2 (t_n T + a)). split.
    + intros a Ha Ha2. apply Z1; lia.
    + intros a b Ha Hab Hb. apply Z2; lia.
Qed.
Lemma equi_reduced T : valid T -> equi T (reduced T).
Proof. intros V. assert (H := gaussian_spec T V). unfold reduced. destruct (gaussian T). apply H. Qed.
