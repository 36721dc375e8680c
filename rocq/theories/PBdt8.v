(** QBdt: Compose at the end, IsSeparable, ForceM. *)
From Coq Require Import NArith Arith List Bool Lia Ring.
From Verif Require Import Amp PAmp SpecState SpecUnit3 PLoop PGates2 MBdt SpecBdt PBdt1 PBdt2 PBdt3 PBdt4 PBdt5 PBdt6 PBdt7.
Import ListNotations.
Local Open Scope N_scope.

Lemma agree_sym k r x : agree k r x = agree k x r.
Proof. unfold agree. apply N.eqb_sym. Qed.
Lemma shiftr_S x n : N.shiftr x (N.of_nat (S n)) = N.shiftr (N.div2 x) (N.of_nat n).
Proof. rewrite N.div2_spec, N.shiftr_shiftr. f_equal. lia. Qed.

Section B.
  Context {K : StarRing} (A : Arith K).
  Hypothesis EA : exact_arith A.
  Hypothesis PS : positive_sums (K := K).
  Add Ring KrCY : (sr_ring K).
  Local Open Scope amp_scope.
  Local Notation bdt := (@bdt K).
  Local Notation qbdt := (@qbdt K).

  Lemma val_agree n : forall (t : bdt) x y, agree (N.of_nat n) x y = true -> val n t x = val n t y.
  Proof.
    induction n as [|n IH]; intros t x y H; [reflexivity|]. replace (N.of_nat (S n)) with (N.of_nat n + 1)%N in H by lia. rewrite agree_S in H. apply andb_prop in H. destruct H as [H1 H2]. apply eqb_prop in H1. cbn [val]. rewrite H1. destruct (is_null _); [reflexivity|]. f_equal. apply IH, H2.
  Qed.
  Lemma agree_mod n x : agree n x (x mod 2 ^ n) = true.
  Proof. unfold agree. rewrite N.mod_mod by (apply N.pow_nonzero; discriminate). apply N.eqb_refl. Qed.

  (** ** Compose *)
  Lemma insert0_id b : forall m (t : bdt), tight m t -> insert0 b m t = t.
  Proof.
    induction m as [|m IH]; intros t H; (destruct t as [|s l r]; [destruct H|]); cbn [insert0].
    - cbn in H. destruct H as [-> ->]. destruct (is0_spec s) as [->|]; reflexivity.
    - cbn in H. destruct H as [(-> & -> & ->)|(N & H1 & H2 & _)]; [rewrite is0_0; reflexivity|]. rewrite (is0_n s N), (tight_null _ _ H1). rewrite !IH by assumption. reflexivity.
  Qed.
  Lemma insert_ok (b : bdt) m : tight (S m) b -> scl b <> 0 -> forall n (t : bdt), tight (S n) t -> scl t <> 0 ->
    let t' := insert_at b (S n) (S m) t in tight (S n + S m) t' /\ scl t' = scl t /\ forall x, val (S n + S m) t' x = val (S n) t x * val (S m) (set_scl 1 b) (N.shiftr x (N.of_nat (S n))).
  Proof.
    intros Hb B0. destruct b as [|sb b0 b1]; [destruct Hb|]. set (b := BNode sb b0 b1) in *.
    assert (LEAF : forall c : bdt, tight 0 c -> let u := insert0 b (S m) (BNode (scl c) (br b false) (br b true)) in tight (S m) u /\ scl u = scl c /\ forall x, val (S m) u x = scl c * val (S m) (set_scl 1 b) x).
    { intros c Hc. cbn zeta. destruct (is0_spec (scl c)) as [Z|Z].
      - cbn [insert0]. rewrite Z, is0_0. split; [apply zero_tight|]. split; [reflexivity|]. intros x. rewrite (val_0 _ zero_node) by reflexivity. ring.
      - assert (T : tight (S m) (BNode (scl c) (br b false) (br b true))) by (change (tight (S m) (set_scl (scl c) b)); apply tight_scale; [exact Hb|intros; contradiction|intros _; exact Z]).
        rewrite insert0_id by exact T. split; [exact T|]. split; [reflexivity|]. intros x. change (BNode (scl c) (br b false) (br b true)) with (set_scl (scl c) b). apply val_set. reflexivity. }
    induction n as [|n IH]; intros t H T0; (destruct t as [|s l r]; [destruct H|]); cbn zeta; cbn [scl] in T0.
    - cbn [tight] in H. destruct H as [(E & _)|(_ & H1 & H2 & E)]; [contradiction|]. pose proof (tight_null 0 _ H1) as N1. pose proof (tight_null 0 _ H2) as N2. cbn [insert_at]. rewrite (is0_n s T0), N1. cbn [plus].
      assert (CASE : insert_at b 1 (S m) (BNode s l r) = BNode s (insert0 b (S m) (BNode (scl l) (br b false) (br b true))) (insert0 b (S m) (BNode (scl r) (br b false) (br b true)))).
      { cbn [insert_at]. rewrite (is0_n s T0), N1. destruct (is0_spec (scl l)) as [Z|Z].
        - f_equal. cbn [insert0]. rewrite Z, is0_0. destruct l as [|sl ll lr]; [discriminate|]. cbn in H1, Z. destruct H1 as [-> ->]. subst. reflexivity.
        - destruct (is0_spec (scl r)) as [Z2|Z2]; [|reflexivity]. f_equal. cbn [insert0]. rewrite Z2, is0_0. destruct r as [|sr rl rr]; [discriminate|]. cbn in H2, Z2. destruct H2 as [-> ->]. subst. reflexivity. }
      cbn [insert_at] in CASE. rewrite (is0_n s T0), N1 in CASE. rewrite CASE. destruct (LEAF l H1) as (L1 & L2 & L3). destruct (LEAF r H2) as (R1 & R2 & R3). cbn zeta in *. set (l' := insert0 b _ (BNode (scl l) _ _)) in *. set (r' := insert0 b _ (BNode (scl r) _ _)) in *. clearbody l' r'.
      split; [|split; [reflexivity|]].
      + cbn [tight]. right. rewrite L2, R2. auto.
      + intros x. change (N.of_nat 1) with 1%N. rewrite <- N.div2_spec. destruct (two_cases x) as [Ex|Ex]; rewrite Ex.
        * rewrite !val_d by (assumption || eapply tight_null; eassumption). rewrite L3, div2_d. cbn [val]. ring.
        * rewrite !val_s by (assumption || eapply tight_null; eassumption). rewrite R3, div2_s. cbn [val]. ring.
    - change (tight (S (S n)) (BNode s l r)) in H. cbn [tight] in H. change (((s = 0 /\ l = BNull /\ r = BNull) \/ (s <> 0 /\ tight (S n) l /\ tight (S n) r /\ anorm (scl l) + anorm (scl r) = 1))) in H.
      destruct H as [(E & _)|(_ & H1 & H2 & E)]; [contradiction|]. pose proof (tight_null _ _ H1) as N1. pose proof (tight_null _ _ H2) as N2.
      assert (CASE : insert_at b (S (S n)) (S m) (BNode s l r) = BNode s (insert_at b (S n) (S m) l) (insert_at b (S n) (S m) r)) by (cbn [insert_at]; rewrite (is0_n s T0), N1; reflexivity). rewrite CASE. clear CASE.
      assert (SUB : forall c : bdt, tight (S n) c -> let u := insert_at b (S n) (S m) c in tight (S n + S m) u /\ scl u = scl c /\ forall x, val (S n + S m) u x = val (S n) c x * val (S m) (set_scl 1 b) (N.shiftr x (N.of_nat (S n)))).
      { intros c Hc. destruct (is0_spec (scl c)) as [Z|Z]; [|apply IH; assumption]. pose proof (tight_zero _ _ Hc Z) as ->. cbn zeta. assert (EZ : insert_at b (S n) (S m) zero_node = zero_node) by (unfold zero_node; cbn [insert_at]; rewrite is0_0; reflexivity). rewrite EZ. split; [apply zero_tight|]. split; [reflexivity|]. intros x. rewrite !(val_0 _ zero_node) by reflexivity. ring. }
      destruct (SUB l H1) as (L1 & L2 & L3). destruct (SUB r H2) as (R1 & R2 & R3). cbn zeta in *. set (l' := insert_at b (S n) (S m) l) in *. set (r' := insert_at b (S n) (S m) r) in *. clearbody l' r'.
      change (S (S n) + S m)%nat with (S (S n + S m)). split; [|split; [reflexivity|]].
      + cbn [tight]. right. rewrite L2, R2. auto.
      + intros x. rewrite shiftr_S. destruct (two_cases x) as [Ex|Ex]; rewrite Ex.
        * rewrite !val_d by (assumption || eapply tight_null; eassumption). rewrite L3, div2_d. ring.
        * rewrite !val_s by (assumption || eapply tight_null; eassumption). rewrite R3, div2_s. ring.
  Qed.
  Lemma compose_ok (B C : qbdt) : (0 < bt_n B)%N -> (0 < bt_n C)%N -> fit B -> fit C ->
    let D := compose C (bt_n B) B in fit D /\ bt_n D = (bt_n B + bt_n C)%N /\ scl (bt_root D) = scl (bt_root B) /\ forall x, scl (bt_root C) * get_amplitude D x = tensor (bt_n B) (get_amplitude B) (get_amplitude C) x.
  Proof.
    intros NB NC [TB SB] [TC SC]. unfold compose. destruct (N.eqb_spec (bt_n C) 0) as [|_]; [lia|]. cbn zeta. unfold fit. cbn [set_count set_root bt_n bt_root].
    destruct (N.to_nat (bt_n B)) as [|n] eqn:En; [lia|]. destruct (N.to_nat (bt_n C)) as [|m] eqn:Em; [lia|]. destruct (insert_ok (bt_root C) m TC SC n (bt_root B) TB SB) as (T & E & V). cbn zeta in *.
    replace (N.to_nat (bt_n B + bt_n C)) with (S n + S m)%nat by lia. split; [split; [exact T|rewrite E; exact SB]|]. split; [reflexivity|]. split; [exact E|].
    intros x. unfold tensor. rewrite !amp_get. unfold amp. cbn [set_count set_root bt_n bt_root]. replace (N.to_nat (bt_n B + bt_n C)) with (S n + S m)%nat by lia. rewrite V, En, Em. replace (N.of_nat (S n)) with (bt_n B) by lia. rewrite N.shiftr_div_pow2.
    rewrite (val_agree (S n) (bt_root B) x (x mod 2 ^ bt_n B)) by (replace (N.of_nat (S n)) with (bt_n B) by lia; apply agree_mod). rewrite (val_unit (K := K) (S m) (bt_root C)) by (apply (tight_null _ _ TC)). ring.
  Qed.

  (** ** IsSeparable: the answer yes *)
  Fixpoint above (k : nat) (t : bdt) (x : N) : K :=
    match k with
    | O => if is0 (scl t) then 0 else 1
    | S k => scl t * above k (br t (N.odd x)) (N.div2 x)
    end.
  Lemma above_agree k : forall (t : bdt) x y, agree (N.of_nat k) x y = true -> above k t x = above k t y.
  Proof.
    induction k as [|k IH]; intros t x y H; [reflexivity|]. replace (N.of_nat (S k)) with (N.of_nat k + 1)%N in H by lia. rewrite agree_S in H. apply andb_prop in H. destruct H as [H1 H2]. apply eqb_prop in H1. cbn [above]. rewrite H1. f_equal. apply IH, H2.
  Qed.
  Lemma separable_ok e (u : bdt) : forall k (t : bdt), tight (k + S e) t -> (forall v, In v (leaves_at k t) -> v = u) -> forall x, val (k + S e) t x = above k t x * val (S e) u (N.shiftr x (N.of_nat k)).
  Proof.
    induction k as [|k IH]; intros t H L x; (destruct t as [|s l r]; [destruct e; destruct H|]).
    - cbn [plus] in *. change (N.of_nat 0) with 0%N. rewrite N.shiftr_0_r. cbn [leaves_at] in L. pose proof H as H0. cbn [tight] in H. destruct H as [(-> & -> & ->)|(N & H1 & H2 & _)].
      + cbn [above scl]. rewrite is0_0. rewrite (val_0 _ (BNode 0 BNull BNull)) by reflexivity. ring.
      + rewrite (tight_null _ _ H1), (tight_null _ _ H2) in L. cbn [orb] in L. rewrite (L _ (or_introl eq_refl)). cbn [above]. replace (is0 (scl u)) with false; [ring|]. rewrite <- (L _ (or_introl eq_refl)). cbn [scl]. symmetry. apply is0_n, N.
    - cbn [plus] in *. cbn [leaves_at] in L. cbn [tight] in H. destruct H as [(-> & -> & ->)|(N & H1 & H2 & _)].
      + cbn [above scl]. rewrite (val_0 _ (BNode 0 BNull BNull)) by reflexivity. ring.
      + rewrite shiftr_S. cbn [above scl]. destruct (two_cases x) as [Ex|Ex]; rewrite Ex; rewrite ?odd_double, ?odd_succ, ?div2_d, ?div2_s; cbn [br].
        * rewrite val_d by (apply (tight_null _ _ H1)). rewrite (IH l H1) by (intros v Hv; apply L, in_or_app; left; exact Hv). ring.
        * rewrite val_s by (apply (tight_null _ _ H2)). rewrite (IH r H2) by (intros v Hv; apply L, in_or_app; right; exact Hv). ring.
  Qed.
  Lemma is_separable_ok (B : qbdt) start : fit B -> (start <= bt_n B)%N -> is_separable start B = true -> exists a b, forall x, get_amplitude B x = tensor start a b x.
  Proof.
    intros [T S0] Hs H. destruct (N.eq_dec start (bt_n B)) as [E|NE].
    - exists (get_amplitude B), (fun _ => 1). intros x. unfold tensor. rewrite !amp_get. unfold amp. rewrite (val_agree (N.to_nat (bt_n B)) (bt_root B) x (x mod 2 ^ start)) by (rewrite N2Nat.id, <- E; apply agree_mod). ring.
    - unfold is_separable in H. set (e := (N.to_nat (bt_n B) - N.to_nat start - 1)%nat). assert (ED : N.to_nat (bt_n B) = (N.to_nat start + S e)%nat) by lia. rewrite ED in T.
      destruct (leaves_at (N.to_nat start) (bt_root B)) as [|u us] eqn:EL.
      + exists (fun x => above (N.to_nat start) (bt_root B) x), (fun y => val (S e) (@zero_node K) y). intros x. unfold tensor. rewrite amp_get. unfold amp. rewrite ED. rewrite (separable_ok e (@zero_node K) (N.to_nat start) (bt_root B) T) by (intros v Hv; rewrite EL in Hv; destruct Hv).
        rewrite N2Nat.id, N.shiftr_div_pow2. f_equal. apply above_agree. rewrite N2Nat.id. apply agree_mod.
      + exists (fun x => above (N.to_nat start) (bt_root B) x), (fun y => val (S e) u y). intros x. unfold tensor. rewrite amp_get. unfold amp. rewrite ED. rewrite (separable_ok e u (N.to_nat start) (bt_root B) T).
        * rewrite N2Nat.id, N.shiftr_div_pow2. f_equal. apply above_agree. rewrite N2Nat.id. apply agree_mod.
        * intros v Hv. rewrite EL in Hv. destruct Hv as [<-|Hv]; [reflexivity|]. rewrite forallb_forall in H. symmetry. apply bdt_eqb_ok, H, Hv.
  Qed.

  (** ** ForceM *)
  Lemma rv_rv k x : (x < 2 ^ N.of_nat k)%N -> rv k (rv k x) = x.
  Proof. intros H. apply N.bits_inj. intros i. rewrite !rv_bit. destruct (N.ltb_spec i (N.of_nat k)) as [L|G]; cbn [andb]; [|symmetry; apply (bits_high x (N.of_nat k)); assumption]. destruct (N.ltb_spec (N.of_nat k - 1 - i) (N.of_nat k)); [|lia]. cbn [andb]. f_equal. lia. Qed.
  Lemma path_at_shift k : forall q i f (t : bdt), at_path k (q + 1) i f t = at_path k q (N.div2 i) f t.
  Proof.
    induction k as [|k IH]; intros q i f t; [reflexivity|]. destruct t as [|s l r]; [reflexivity|]. cbn [at_path]. rewrite !IH. replace (N.testbit (N.div2 i) q) with (N.testbit i (q + 1)) by (rewrite N.div2_spec, N.shiftr_spec' by lia; reflexivity). reflexivity.
  Qed.
  Lemma at_path_upd f : f BNull = BNull -> forall k i (t : bdt), at_path k 0 i f t = upd k (N.eqb (rv k i)) f t.
  Proof.
    intros F0. induction k as [|k IH]; intros i t.
    - cbn [at_path rv]. destruct t; [exact F0|]. reflexivity.
    - destruct t as [|s l r]; [reflexivity|]. cbn [at_path upd rv]. rewrite N.bit0_odd, !path_at_shift, !IH. pose proof (rv_lt k (N.div2 i)) as L. set (v := rv k (N.div2 i)) in *. destruct (N.odd i).
      + f_equal.
        * rewrite (upd_ext f k _ (fun _ => false) l); [symmetry; apply upd_none|]. intros j Hj _. apply N.eqb_neq. lia.
        * apply upd_ext. intros j Hj _. destruct (N.eqb_spec v j); symmetry; [apply N.eqb_eq|apply N.eqb_neq]; lia.
      + rewrite N.add_0_l. f_equal. rewrite (upd_ext f k (fun j => (v =? j + 2 ^ N.of_nat k)%N) (fun _ => false) r); [symmetry; apply upd_none|]. intros j Hj _. apply N.eqb_neq. lia.
  Qed.
  Lemma all_paths f k : f BNull = BNull -> (forall t : bdt, is_null t = false -> is_null (f t) = false) -> forall fuel j (t0 : bdt), (j + N.of_nat fuel = 2 ^ N.of_nat k)%N ->
    par_loop fuel (2 ^ N.of_nat k) j (fun i t => (0%N, at_path k 0 i f t)) (upd k (fun i => (rv k i <? j)%N) f t0) = upd k (fun _ => true) f t0.
  Proof.
    intros F0 F1. induction fuel as [|fuel IH]; intros j t0 E; cbn [par_loop].
    - apply upd_ext. intros i Hi _. apply N.ltb_lt. pose proof (rv_lt k i). lia.
    - destruct (N.ltb_spec j (2 ^ N.of_nat k)) as [L|G]; [|lia]. rewrite N.lor_0_r, at_path_upd by exact F0. rewrite upd_upd.
      + rewrite (upd_ext f k _ (fun i => (rv k i <? j + 1)%N)); [apply IH; lia|]. intros i Hi _. destruct (N.eqb_spec (rv k j) i) as [<-|NE].
        * rewrite rv_rv by exact L. rewrite orb_true_r. symmetry. apply N.ltb_lt. lia.
        * rewrite orb_false_r. assert (rv k i <> j) by (intros <-; apply NE, rv_rv, Hi). destruct (N.ltb_spec (rv k i) j), (N.ltb_spec (rv k i) (j + 1)); try lia; reflexivity.
      + exact F1.
      + intros i Hi. destruct (N.eqb_spec (rv k j) i) as [<-|NE]; [rewrite rv_rv by exact L; rewrite N.ltb_irrefl; reflexivity|apply andb_false_r].
  Qed.
  Lemma force_null r : force_leaf A r BNull = BNull. Proof. reflexivity. Qed.
  Lemma force_nonnull r (t : bdt) : is_null t = false -> is_null (force_leaf A r t) = false.
  Proof. destruct t as [|s l t']; [discriminate|]. intros _. cbn [force_leaf]. destruct (_ || _); [reflexivity|]. destruct r; destruct (is0 _); reflexivity. Qed.
  (** The condition of ForceM: every non-zero node of the level gives the branch [b] the squared magnitude [p]. *)
  Fixpoint level (k : nat) (b : bool) (p : K) (t : bdt) : Prop :=
    match k, t with
    | _, BNull => True
    | O, BNode _ l r => is_null l = false -> anorm (scl (if b then r else l)) = p
    | S k, BNode _ l r => level k b p l /\ level k b p r
    end.
  Lemma force_ok e b p : p <> 0 -> forall k (t : bdt), tight (k + S e) t -> level k b p t ->
    let t' := upd k (fun _ => true) (force_leaf A b) t in tight (k + S e) t' /\ scl t' = scl t /\ forall x, val (k + S e) t x * (if eqb (N.testbit x (N.of_nat k)) b then 1 else 0) = ar_sqrt A p * val (k + S e) t' x.
  Proof.
    intros P0. induction k as [|k IH]; intros t H L; (destruct t as [|s l r]; [destruct e; destruct H|]); cbn zeta; cbn [plus upd].
    - cbn [plus] in H. cbn [level] in L. pose proof H as H0. cbn [tight] in H. destruct H as [(-> & -> & ->)|(N & H1 & H2 & E)].
      + cbn [force_leaf is_null orb]. split; [exact H0|]. split; [reflexivity|]. intros x. rewrite (val_0 _ (BNode 0 BNull BNull)), (val_0 _ zero_node) by reflexivity. ring.
      + pose proof (tight_null _ _ H1) as N1. pose proof (tight_null _ _ H2) as N2. specialize (L N1). cbn [force_leaf]. rewrite N1, N2. cbn [orb].
        assert (GEN : forall c : bdt, tight e c -> anorm (scl c) = p -> scl c <> 0 /\ tight e (set_scl (ar_div A (scl c) (aabs A (scl c))) c) /\ anorm (ar_div A (scl c) (aabs A (scl c))) = 1 /\ forall x, val e c x = ar_sqrt A p * val e (set_scl (ar_div A (scl c) (aabs A (scl c))) c) x).
        { intros c Hc Ec. assert (C0 : scl c <> 0) by (intros Z; apply P0; rewrite <- Ec, Z; apply anorm_0). pose proof (unit_div A EA (scl c) C0) as UD. split; [exact C0|]. split; [|split; [exact UD|]].
          - apply tight_scale; [exact Hc|intros; contradiction|intros _; apply (unit_n0 PS), UD].
          - intros x. rewrite val_set by (apply (tight_null _ _ Hc)). rewrite (val_unit (K := K) e c x) by (apply (tight_null _ _ Hc)). rewrite <- Ec. fold (aabs A (scl c)). rewrite <- (div_mul A EA (scl c) (aabs A (scl c))) at 1 by (apply (abs_n0 A EA), C0). ring. }
        assert (Z : forall x, val e (@zero_node K) x = 0) by (intros x; apply val_0; reflexivity).
        destruct b.
        * destruct (GEN r H2 L) as (C0 & T & UD & V). rewrite (is0_n _ C0). split; [|split; [reflexivity|]].
          -- cbn [tight]. right. split; [exact N|]. split; [apply zero_tight|]. split; [exact T|]. rewrite scl_set by exact N2. cbn [scl zero_node]. rewrite anorm_0, UD. ring.
          -- intros x. destruct (two_cases x) as [Ex|Ex]; rewrite Ex.
             ++ rewrite bits_d. cbn [N.eqb negb andb eqb N.of_nat]. rewrite (val_d _ _ zero_node) by reflexivity. rewrite Z. ring.
             ++ rewrite bits_s. cbn [N.eqb orb eqb N.of_nat]. rewrite !val_s by (rewrite ?null_set; exact N2). rewrite V. ring.
        * destruct (GEN l H1 L) as (C0 & T & UD & V). rewrite (is0_n _ C0). split; [|split; [reflexivity|]].
          -- cbn [tight]. right. split; [exact N|]. split; [exact T|]. split; [apply zero_tight|]. rewrite scl_set by exact N1. cbn [scl zero_node]. rewrite anorm_0, UD. ring.
          -- intros x. destruct (two_cases x) as [Ex|Ex]; rewrite Ex.
             ++ rewrite bits_d. cbn [N.eqb negb andb eqb N.of_nat]. rewrite !val_d by (rewrite ?null_set; exact N1). rewrite V. ring.
             ++ rewrite bits_s. cbn [N.eqb orb eqb N.of_nat]. rewrite (val_s _ _ _ zero_node) by reflexivity. rewrite Z. ring.
    - cbn [plus] in H. cbn [level] in L. destruct L as [L1 L2]. cbn [tight] in H. destruct H as [(-> & -> & ->)|(N & H1 & H2 & E)].
      + replace (upd k (fun _ => true) (force_leaf A b) BNull) with (@BNull K) by (destruct k; reflexivity). split; [left; auto|]. split; [reflexivity|]. intros x. rewrite (val_0 _ (BNode 0 BNull BNull)) by reflexivity. ring.
      + destruct (IH l H1 L1) as (A1 & A2 & A3). destruct (IH r H2 L2) as (B1 & B2 & B3). cbn zeta in *. set (l' := upd k _ _ l) in *. set (r' := upd k _ _ r) in *. clearbody l' r'. split; [|split; [reflexivity|]].
        * cbn [tight]. right. rewrite A2, B2. auto.
        * intros x. rewrite Nat2N.inj_succ. destruct (two_cases x) as [Ex|Ex]; rewrite Ex.
          -- rewrite testbit_d, !val_d by (eapply tight_null; eassumption). transitivity (s * (val (k + S e) l (N.div2 x) * (if eqb (N.testbit (N.div2 x) (N.of_nat k)) b then 1 else 0))); [ring|]. rewrite A3. ring.
          -- rewrite testbit_s, !val_s by (eapply tight_null; eassumption). transitivity (s * (val (k + S e) r (N.div2 x) * (if eqb (N.testbit (N.div2 x) (N.of_nat k)) b then 1 else 0))); [ring|]. rewrite B3. ring.
  Qed.
  (** The condition in terms of the state: the qubit is independent of the qubits below. *)
  Lemma level_of e b p : forall k (t : bdt) (c : K), c <> 0 -> tight (k + S e) t ->
    (forall i, p * wt (k + S e) (fun x => agree (N.of_nat k) i x && true) (fun x => c * val (k + S e) t x) = wt (k + S e) (fun x => agree (N.of_nat k) i x && eqb (N.testbit x (N.of_nat k)) b) (fun x => c * val (k + S e) t x)) -> level k b p t.
  Proof.
    induction k as [|k IH]; intros t c C0 H W; (destruct t as [|s l r]; [exact I|]).
    - cbn [level]. intros NL. cbn [plus] in *. cbn [tight] in H. destruct H as [(-> & -> & ->)|(N & H1 & H2 & E)]; [discriminate|]. pose proof (tight_null _ _ H1) as N1. pose proof (tight_null _ _ H2) as N2.
      specialize (W 0%N). rewrite !wt_scale in W. assert (W' : p * (anorm s * (anorm (scl l) + anorm (scl r))) = anorm s * anorm (scl (if b then r else l))).
      { apply (cancel A EA) with (z := anorm c); [apply (anorm_n0 A EA), C0|]. transitivity (p * (anorm c * wt (S e) (fun x => agree (N.of_nat 0) 0 x && true) (val (S e) (BNode s l r)))).
        - unfold wt. cbn [tsum]. rewrite (tsum_ext e (fun x => if agree _ _ (N.double x) && true then _ else 0) (fun x => anorm s * anorm (val e l x))) by (intros x; rewrite agree_0, val_d by exact N1; cbn; apply anorm_mul).
          rewrite (tsum_ext e (fun x => if agree _ _ (N.succ_double x) && true then _ else 0) (fun x => anorm s * anorm (val e r x))) by (intros x; rewrite agree_0, val_s by exact N2; cbn; apply anorm_mul). rewrite !tsum_scale, (tight_norm e l H1), (tight_norm e r H2). ring.
        - rewrite W. unfold wt. cbn [tsum]. rewrite (tsum_ext e (fun x => if agree _ _ (N.double x) && _ then _ else 0) (fun x => (if b then 0 else 1) * (anorm s * anorm (val e l x)))).
          2:{ intros x. change (N.of_nat 0) with 0%N. rewrite agree_0, bits_d, val_d by exact N1. rewrite anorm_mul. destruct b; cbn; ring. }
          rewrite (tsum_ext e (fun x => if agree _ _ (N.succ_double x) && _ then _ else 0) (fun x => (if b then 1 else 0) * (anorm s * anorm (val e r x)))).
          2:{ intros x. change (N.of_nat 0) with 0%N. rewrite agree_0, bits_s, val_s by exact N2. rewrite anorm_mul. destruct b; cbn; ring. }
          rewrite !tsum_scale, (tight_norm e l H1), (tight_norm e r H2). destruct b; ring. }
      apply (cancel A EA) with (z := anorm s); [apply (anorm_n0 A EA), N|]. transitivity (anorm s * anorm (scl (if b then r else l))); [ring|]. rewrite <- W', E. ring.
    - cbn [level]. cbn [plus] in *. cbn [tight] in H. destruct H as [(-> & -> & ->)|(N & H1 & H2 & E)]; [destruct k; split; exact I|]. pose proof (tight_null _ _ H1) as N1. pose proof (tight_null _ _ H2) as N2.
      assert (G : forall (b' : bool) i, p * wt (k + S e) (fun x => agree (N.of_nat k) i x && true) (fun x => c * s * val (k + S e) (if b' then r else l : bdt) x) = wt (k + S e) (fun x => agree (N.of_nat k) i x && eqb (N.testbit x (N.of_nat k)) b) (fun x => c * s * val (k + S e) (if b' then r else l : bdt) x)).
      { intros b' i. specialize (W (half b' i)). replace (N.of_nat (S k)) with (N.of_nat k + 1)%N in W by lia. rewrite !wt_half in W. rewrite half_odd, half_div in W.
        rewrite (wt_ext _ (fun x => agree (N.of_nat k) i x && true) (fun y => agree (N.of_nat k) i y && true) _ (fun y => c * val (S (k + S e)) (BNode s l r) (half b' y))) by (try reflexivity; intros y; rewrite val_half by assumption; ring). rewrite W.
        apply wt_ext; intros y; [rewrite half_testbit; reflexivity|rewrite val_half by assumption; ring]. }
      split; [apply (IH l (c * s)); [apply (mul_n0 A EA); assumption|exact H1|exact (G false)]|apply (IH r (c * s)); [apply (mul_n0 A EA); assumption|exact H2|exact (G true)]].
  Qed.
  Lemma level_root b p e : forall k (t : bdt), tight (k + S e) t -> scl t <> 0 -> level k b p t -> exists y : K, anorm y = p.
  Proof.
    induction k as [|k IH]; intros t T S0 L; (destruct t as [|s l r]; [destruct e; destruct T|]); cbn [plus tight] in T; (destruct T as [(E & _)|(N & H1 & H2 & E)]; [contradiction|]); cbn [level] in L.
    - exists (scl (if b then r else l)). apply L, (tight_null _ _ H1).
    - destruct L as [L1 L2]. destruct (is0_spec (scl l)) as [Zl|Zl]; [|apply (IH l); assumption]. destruct (is0_spec (scl r)) as [Zr|Zr]; [|apply (IH r); assumption].
      exfalso. apply (proj1 PS). rewrite <- E, Zl, Zr, anorm_0. ring.
  Qed.
  Lemma force_m_ok (B : qbdt) q (want doForce : bool) p : fit B -> (q < bt_n B)%N -> (forall j, anorm (bt_ph B j) = 1) -> let '(r, B') := force_m A q want doForce true B in
    independent (bt_n B) q r p (get_amplitude B) -> p <> 0 ->
    fit B' /\ bt_n B' = bt_n B /\ anorm (scl (bt_root B')) = 1 /\ exists c, forall x, get_amplitude B' x = c * collapse q r (get_amplitude B) x.
  Proof.
    intros [T S0] Hq PH. unfold force_m. destruct (if sr_eqb (prob B q) 1 then (true, B) else _) as [r B1] eqn:E1. cbn [negb].
    assert (P1 : bt_n B1 = bt_n B /\ bt_root B1 = bt_root B /\ bt_ph B1 = bt_ph B /\ bt_rgp B1 = bt_rgp B). { destruct (sr_eqb (prob B q) 1); [injection E1 as _ <-; auto|]. destruct (sr_eqb (prob B q) 0); [injection E1 as _ <-; auto|]. destruct doForce; injection E1 as _ <-; auto. }
    clear E1. destruct P1 as (Q1 & Q2 & Q3 & Q4). destruct (nonunitary_phase B1) as [ph B2] eqn:E2.
    assert (P2 : bt_n B2 = bt_n B /\ bt_root B2 = bt_root B /\ anorm ph = 1). { unfold nonunitary_phase in E2. destruct (bt_rgp B1); injection E2 as <- <-; cbn; rewrite ?Q3; auto using (anorm_one (K := K)). }
    destruct P2 as (R1 & R2 & R3). intros IND P0. rewrite R2. set (k := N.to_nat q). set (e := (N.to_nat (bt_n B) - k - 1)%nat). assert (ED : N.to_nat (bt_n B) = (k + S e)%nat) by lia. rewrite ED in T.
    assert (PN : ph <> 0) by (apply (unit_n0 PS), R3). assert (NN : is_null (bt_root B) = false) by (apply (tight_null _ _ T)).
    set (t0 := set_scl ph (bt_root B)). assert (T0 : tight (k + S e) t0) by (apply tight_scale; [exact T|intros; contradiction|intros _; exact PN]).
    rewrite (branch_tight A (k + 1) (k + S e)) by (assumption || lia).
    assert (EQ : (2 ^ q = 2 ^ N.of_nat k)%N) by (f_equal; lia). rewrite EQ. clear EQ.
    assert (EP : par_loop (N.to_nat (2 ^ N.of_nat k)) (2 ^ N.of_nat k) 0 (fun i t => (0%N, at_path k 0 i (force_leaf A r) t)) t0 = upd k (fun _ => true) (force_leaf A r) t0).
    { rewrite <- (all_paths (force_leaf A r) k (force_null r) (force_nonnull r) (N.to_nat (2 ^ N.of_nat k)) 0 t0) by lia. f_equal. rewrite (upd_ext _ k _ (fun _ => false)); [symmetry; apply upd_none|]. intros i _ _. apply N.ltb_ge. lia. }
    rewrite EP. clear EP.
    assert (SG : forall x, val (k + S e) t0 x = ph * val (k + S e) (set_scl 1 (bt_root B)) x) by (intros x; apply val_set, NN). assert (SU : forall x, val (k + S e) (bt_root B) x = scl (bt_root B) * val (k + S e) (set_scl 1 (bt_root B)) x) by (intros x; apply (val_unit (K := K)), NN).
    assert (LV : level k r p t0).
    { apply (level_of e r p k t0 (scl (bt_root B)) S0 T0). intros i. specialize (IND i). rewrite !wt_weight, ED in IND.
      assert (WE : forall P, wt (k + S e) P (fun x => scl (bt_root B) * val (k + S e) t0 x) = wt (k + S e) P (get_amplitude B)).
      { intros P. rewrite (wt_ext _ P P _ (fun x => ph * get_amplitude B x)); [rewrite wt_scale, R3; ring|reflexivity|]. intros x. rewrite amp_get. unfold amp. rewrite ED, SG, SU. ring. }
      rewrite !WE. replace (N.of_nat k) with q by lia. rewrite <- IND. f_equal. apply wt_ext; [|reflexivity]. intros x. apply andb_true_r. }
    destruct (force_ok e r p P0 k t0 T0 LV) as (F1 & F2 & F3). cbn zeta in *. set (t1 := upd k _ _ t0) in *. clearbody t1.
    assert (SC0 : scl t0 = ph) by (unfold t0; apply scl_set, NN).
    destruct (prune_ok A EA PS (k + 1) (k + S e) t1 (tight_loose (k + 1) (k + S e) t1 ltac:(lia) F1)) as (U1 & U2 & U3 & U4). cbn zeta in *.
    assert (SN : scl (prune A (k + 1) t1) <> 0) by (apply U3; rewrite F2, SC0; exact PN).
    unfold fit. cbn [set_root bt_n bt_root]. rewrite R1, ED. split; [split; [apply semi_tight; assumption|exact SN]|]. split; [reflexivity|]. split; [rewrite U2, F2, SC0; exact R3|].
    destruct (level_root r p e k t0 T0) as [y Ey]; [rewrite SC0; exact PN|exact LV|]. assert (SQ : anorm (ar_sqrt A p) = p) by (rewrite <- Ey, <- (anorm_add0 y); apply (anorm_root A EA)).
    set (d := scl (bt_root B) * sr_conj ph * ar_sqrt A p). assert (D0 : d <> 0).
    { apply (mul_n0 A EA); [apply (mul_n0 A EA); [exact S0|apply conj_n0, PN]|]. intros Z. apply P0. rewrite <- SQ, Z. apply anorm_0. }
    exists (ar_div A 1 d). intros x. unfold collapse. transitivity (ar_div A 1 d * d * val (k + S e) t1 x).
    { rewrite (div_mul A EA) by exact D0. rewrite amp_get. unfold amp. cbn [set_root bt_n bt_root]. rewrite R1, ED, U4. ring. }
    transitivity (ar_div A 1 d * (scl (bt_root B) * sr_conj ph * (ar_sqrt A p * val (k + S e) t1 x))); [unfold d; ring|]. rewrite <- F3, SG. f_equal. rewrite amp_get. unfold amp. rewrite ED, SU. replace (N.of_nat k) with q by lia. unfold anorm in R3. destruct (eqb _ r).
    - transitivity (scl (bt_root B) * (ph * sr_conj ph) * val (k + S e) (set_scl 1 (bt_root B)) x); [ring|]. rewrite R3. ring.
    - ring.
  Qed.
End B.
