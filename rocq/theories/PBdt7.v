(** QBdt: measurements. *)
From Coq Require Import NArith Arith List Bool Lia Ring.
From Verif Require Import Amp PAmp SpecState PLoop PGates2 MBdt SpecBdt PBdt1 PBdt2 PBdt3 PBdt4 PBdt5 PBdt6.
Import ListNotations.
Local Open Scope N_scope.

Section B.
  Context {K : StarRing} (A : Arith K).
  Hypothesis EA : exact_arith A.
  Hypothesis PS : positive_sums (K := K).
  Add Ring KrCX : (sr_ring K).
  Local Open Scope amp_scope.
  Local Notation bdt := (@bdt K).
  Local Notation qbdt := (@qbdt K).

  (** ** MAll *)
  Definition wt (n : nat) (P : N -> bool) (psi : N -> K) : K := tsum n (fun x => if P x then anorm (psi x) else 0).
  Lemma wt_weight n P psi : weight_of n P psi = wt (N.to_nat n) P psi.
  Proof. unfold weight_of, wt. apply tsum_basis'. Qed.
  Definition half (b : bool) (x : N) : N := if b then N.succ_double x else N.double x.
  Lemma half_odd b x : N.odd (half b x) = b. Proof. destruct b; [apply odd_succ|apply odd_double]. Qed.
  Lemma half_div b x : N.div2 (half b x) = x. Proof. destruct b; [apply div2_s|apply div2_d]. Qed.
  Lemma half_of r : half (N.odd r) (N.div2 r) = r.
  Proof. unfold half. destruct (two_cases r) as [E|E]; rewrite E at 1; rewrite ?odd_succ, ?odd_double; symmetry; exact E. Qed.
  (** Only one half of the basis states agrees in the lowest bit. *)
  Lemma wt_half n k r (Q : N -> bool) psi : wt (S n) (fun x => agree (k + 1) r x && Q x) psi = wt n (fun y => agree k (N.div2 r) y && Q (half (N.odd r) y)) (fun y => psi (half (N.odd r) y)).
  Proof.
    unfold wt. cbn [tsum].
    rewrite (tsum_ext n (fun x => if agree (k + 1) r (N.double x) && _ then _ else 0) (fun x => if eqb false (N.odd r) && agree k (N.div2 r) x && Q (N.double x) then anorm (psi (N.double x)) else 0)) by (intros x; rewrite agree_S, odd_double, div2_d; reflexivity).
    rewrite (tsum_ext n (fun x => if agree (k + 1) r (N.succ_double x) && _ then _ else 0) (fun x => if eqb true (N.odd r) && agree k (N.div2 r) x && Q (N.succ_double x) then anorm (psi (N.succ_double x)) else 0)) by (intros x; rewrite agree_S, odd_succ, div2_s; reflexivity).
    unfold half. destruct (N.odd r); cbn [eqb andb]; rewrite (tsum_0 n (fun _ => 0)) by reflexivity; ring.
  Qed.
  Lemma wt_ext n P Q (psi phi : N -> K) : (forall x, P x = Q x) -> (forall x, psi x = phi x) -> wt n P psi = wt n Q phi.
  Proof. intros E1 E2. apply tsum_ext. intros x. rewrite E1, E2. reflexivity. Qed.
  Lemma wt_scale n P c (psi : N -> K) : wt n P (fun x => c * psi x) = anorm c * wt n P psi.
  Proof. unfold wt. rewrite <- tsum_scale. apply tsum_ext. intros x. destruct (P x); [apply anorm_mul|ring]. Qed.

  Definition chosen_bits (rnd : N -> K -> bool) (n : nat) (psi : N -> K) (r : N) : Prop :=
    forall k, (k < N.of_nat n)%N -> exists p, p * wt n (fun x => agree k r x && true) psi = wt n (fun x => agree k r x && N.testbit x k) psi /\ chosen rnd p (N.testbit r k).
  Lemma half_testbit b y k : N.testbit (half b y) (k + 1) = N.testbit y k.
  Proof. rewrite N.add_1_r. destruct b; [apply testbit_s|apply testbit_d]. Qed.
  Lemma val_half d s (l r : bdt) b y : is_null l = false -> is_null r = false -> val (S d) (BNode s l r) (half b y) = s * val d (if b then r else l) y.
  Proof. intros H1 H2. destruct b; [apply val_s, H2|apply val_d, H1]. Qed.

  Lemma m_all_ok coll rnd n : forall q draw (t : bdt), tight n t -> scl t <> 0 ->
    exists r draw' t', m_all A coll n q rnd draw t = ((r * 2 ^ q)%N, draw', t') /\ (r < 2 ^ N.of_nat n)%N /\ chosen_bits rnd n (val n t) r /\ val n t r <> 0 /\
      (coll = false -> t' = t) /\ (coll = true -> tight n t' /\ scl t' = scl t /\ forall x, val n t' x = if agree (N.of_nat n) r x then scl t else 0).
  Proof.
    induction n as [|n IH]; intros q draw t H T0.
    - exists 0%N, draw, t. split; [reflexivity|]. split; [cbn; lia|]. split; [intros k Hk; lia|]. split; [exact T0|]. split; [reflexivity|]. intros _. split; [exact H|]. split; [reflexivity|]. intros x. rewrite agree_0. reflexivity.
    - pose proof H as H0. destruct t as [|s l r]; [destruct H|]. cbn [tight] in H. destruct H as [(E & _)|(S0 & H1 & H2 & E)]; [contradiction|]. pose proof (tight_null _ _ H1) as N1. pose proof (tight_null _ _ H2) as N2.
      cbn [m_all]. set (p := anorm (scl (br (BNode s l r) true))). cbn [br] in p.
      destruct (if sr_eqb p 1 then (true, draw) else if sr_eqb p 0 then (false, draw) else (rnd draw p, (draw + 1)%N)) as [b draw1] eqn:EB.
      assert (CH : chosen rnd p b).
      { destruct (eqb_spec K p 1) as [P1|P1]; [left; injection EB as <- _; auto|]. destruct (eqb_spec K p 0) as [P0|P0]; [right; left; injection EB as <- _; auto|]. right. right. injection EB as <- _. eauto. }
      set (c := if b then r else l).
      assert (Tc : tight n c) by (unfold c; destruct b; assumption). pose proof (tight_null _ _ Tc) as Nc.
      assert (C0 : scl c <> 0).
      { intros Z. unfold c in Z. destruct CH as [[P1 ->]|[[P0 ->]|(P1 & P0 & _)]].
        - apply (proj1 PS). rewrite <- P1. unfold p. rewrite Z. apply anorm_0.
        - apply (proj1 PS). rewrite <- E, Z. fold p. rewrite P0, anorm_0. ring.
        - destruct b; [apply P0; unfold p; rewrite Z; apply anorm_0|]. apply P1. unfold p. rewrite <- E, Z, anorm_0. ring. }
      assert (EBr : (if coll then branch A 1 (BNode s l r) else BNode s l r) = BNode s l r) by (destruct coll; [apply (branch_tight A 1 (S n)); [lia|exact H0]|reflexivity]). rewrite EBr. clear EBr.
      replace (br (BNode s l r) b) with c by (unfold c; destruct b; reflexivity). set (c' := if coll then set_scl 1 c else c).
      assert (Tc' : tight n c'). { unfold c'. destruct coll; [|exact Tc]. apply tight_scale; [exact Tc|intros Z; contradiction|intros _; exact (proj1 PS)]. }
      assert (C0' : scl c' <> 0) by (unfold c'; destruct coll; [rewrite scl_set by exact Nc; exact (proj1 PS)|exact C0]).
      destruct (IH (q + 1)%N draw1 c' Tc' C0') as (r' & draw' & t' & EM & Hr & CB & V0 & K1 & K2). rewrite EM.
      assert (VC : exists k, k <> 0 /\ forall x, val n c x = k * val n c' x).
      { unfold c'. destruct coll; [exists (scl c); split; [exact C0|]; intros x; apply (val_unit (K := K)), Nc|exists 1; split; [exact (proj1 PS)|intros x; ring]]. }
      destruct VC as (k0 & K0 & VC).
      exists (half b r'), draw', (if coll then if b then BNode s zero_node t' else BNode s t' zero_node else BNode s l r).
      split; [|split; [|split; [|split; [|split]]]].
      + f_equal. f_equal. assert (PW : (2 ^ (q + 1) = 2 * 2 ^ q)%N) by (rewrite N.add_1_r; apply N.pow_succ_r'). destruct b; cbn [half]; rewrite PW.
        * replace (r' * (2 * 2 ^ q))%N with (N.double r' * 2 ^ q + 0)%N by (rewrite N.double_spec; lia). replace (2 ^ q)%N with (1 * 2 ^ q + 0)%N at 1 by lia. rewrite lor_cat by (apply N.neq_0_lt_0, N.pow_nonzero; discriminate).
          rewrite N.lor_0_l, N.add_0_r. f_equal. destruct r'; reflexivity.
        * rewrite (N.double_spec r'). lia.
      + rewrite Nat2N.inj_succ, N.pow_succ_r'. unfold half. destruct b; rewrite ?N.double_spec, ?N.succ_double_spec; lia.
      + intros k Hk. destruct (N.eq_dec k 0) as [->|Nk].
        * exists p. split.
          -- unfold wt. cbn [tsum]. rewrite !(tsum_ext n (fun x => if agree 0 _ _ && true then _ else 0) (fun x => anorm (val (S n) (BNode s l r) (half false x)))) by (intros x; rewrite agree_0; reflexivity).
             rewrite (tsum_ext n (fun x => if agree 0 _ (N.succ_double x) && true then _ else 0) (fun x => anorm s * anorm (val n r x))) by (intros x; rewrite agree_0, val_s by exact N2; cbn; apply anorm_mul).
             rewrite (tsum_ext n (fun x => anorm (val (S n) _ (half false x))) (fun x => anorm s * anorm (val n l x))) by (intros x; rewrite val_half by assumption; apply anorm_mul).
             rewrite (tsum_0 n (fun x => if agree 0 _ _ && N.testbit (N.double x) 0 then _ else 0)) by (intros x; rewrite bits_d, andb_false_r; reflexivity).
             rewrite (tsum_ext n (fun x => if agree 0 _ (N.succ_double x) && N.testbit _ 0 then _ else 0) (fun x => anorm s * anorm (val n r x))) by (intros x; rewrite agree_0, bits_s, val_s by exact N2; cbn; apply anorm_mul).
             rewrite !tsum_scale, (tight_norm n l H1), (tight_norm n r H2). transitivity (p * anorm s * (anorm (scl l) + anorm (scl r))); [ring|]. rewrite E. fold p. ring.
          -- rewrite N.bit0_odd, half_odd. exact CH.
        * replace k with (k - 1 + 1)%N by lia. set (k1 := (k - 1)%N). destruct (CB k1 ltac:(lia)) as (p1 & W1 & CH1). exists p1. split.
          -- rewrite !wt_half. rewrite half_odd, half_div.
             rewrite (wt_ext n _ (fun y => agree k1 r' y && true) _ (fun y => s * k0 * val n c' y)) by (try reflexivity; intros y; rewrite val_half by assumption; fold c; rewrite VC; ring).
             rewrite (wt_ext n _ (fun y => agree k1 r' y && N.testbit y k1) (fun y => val (S n) _ (half b y)) (fun y => s * k0 * val n c' y)) by (intros y; first [rewrite half_testbit; reflexivity|rewrite val_half by assumption; fold c; rewrite VC; ring]).
             rewrite !wt_scale, <- W1. ring.
          -- rewrite half_testbit. exact CH1.
      + rewrite val_half by assumption. fold c. rewrite VC. repeat apply (mul_n0 A EA); auto.
      + intros ->. reflexivity.
      + intros ->. destruct (K2 eq_refl) as (T1 & T2 & T3). unfold c' in T2, T3. rewrite scl_set in T2, T3 by exact Nc. pose proof (tight_null _ _ T1) as NT. replace (N.of_nat (S n)) with (N.of_nat n + 1)%N by lia.
        destruct b; (split; [|split; [reflexivity|]]).
        * right. split; [exact S0|]. split; [apply zero_tight|]. split; [exact T1|]. rewrite T2. cbn [scl zero_node]. rewrite anorm_0, (anorm_one (K := K)). ring.
        * intros x. rewrite agree_S, half_odd, half_div. destruct (two_cases x) as [Ex|Ex]; rewrite Ex; rewrite ?odd_double, ?odd_succ, ?div2_d, ?div2_s; cbn [eqb andb].
          -- rewrite val_d by reflexivity. rewrite (val_0 _ zero_node) by reflexivity. ring.
          -- rewrite val_s by exact NT. rewrite T3. cbn [scl]. destruct (agree _ _ _); ring.
        * right. split; [exact S0|]. split; [exact T1|]. split; [apply zero_tight|]. rewrite T2. cbn [scl zero_node]. rewrite anorm_0, (anorm_one (K := K)). ring.
        * intros x. rewrite agree_S, half_odd, half_div. destruct (two_cases x) as [Ex|Ex]; rewrite Ex; rewrite ?odd_double, ?odd_succ, ?div2_d, ?div2_s; cbn [eqb andb].
          -- rewrite val_d by exact NT. rewrite T3. cbn [scl]. destruct (agree _ _ _); ring.
          -- rewrite val_s by reflexivity. rewrite (val_0 _ zero_node) by reflexivity. ring.
  Qed.
  Lemma chosen_drawn rnd n psi r : chosen_bits rnd (N.to_nat n) psi r -> drawn_all rnd n psi r.
  Proof.
    intros H k Hk. destruct (H k ltac:(lia)) as (p & W & C). exists p. split; [|exact C]. rewrite !wt_weight. rewrite <- W. f_equal. apply wt_ext; [|reflexivity]. intros x. rewrite andb_true_r. reflexivity.
  Qed.
  Lemma drawn_ext rnd n (psi phi : N -> K) r : (forall x, psi x = phi x) -> drawn_all rnd n psi r -> drawn_all rnd n phi r.
  Proof.
    intros E H k Hk. destruct (H k Hk) as (p & W & C). exists p. split; [|exact C]. rewrite !wt_weight in *.
    assert (E' : forall P, wt (N.to_nat n) P phi = wt (N.to_nat n) P psi) by (intros P; apply wt_ext; [reflexivity|intros x; symmetry; apply E]). rewrite !E'. exact W.
  Qed.
  Lemma mall_ok (B : qbdt) : fit B -> let '(r, B') := mall A B in (r < 2 ^ bt_n B)%N /\ drawn_all (bt_rnd B) (bt_n B) (get_amplitude B) r /\ get_amplitude B r <> 0 /\
    fit B' /\ bt_n B' = bt_n B /\ forall x, (x < 2 ^ bt_n B)%N -> get_amplitude B' x = scl (bt_root B) * ket r x.
  Proof.
    intros [T S]. unfold mall, m_all_optional_collapse. destruct (m_all_ok true (bt_rnd B) (N.to_nat (bt_n B)) 0 (bt_draw B) (bt_root B) T S) as (r & d' & t' & E & Hr & CB & V0 & _ & K2). rewrite E. rewrite N.pow_0_r, N.mul_1_r. rewrite N2Nat.id in *.
    destruct (K2 eq_refl) as (T1 & T2 & T3). split; [exact Hr|]. split; [apply (drawn_ext _ _ (amp B)); [intros x; symmetry; apply amp_get|apply chosen_drawn, CB]|]. split; [rewrite amp_get; exact V0|]. split; [split; cbn [bt_n bt_root]; [exact T1|rewrite T2; exact S]|]. split; [reflexivity|].
    intros x Hx. rewrite amp_get. unfold amp. cbn [bt_n bt_root]. rewrite T3, agree_full by assumption. unfold ket. destruct (x =? r)%N; ring.
  Qed.
  Lemma sample_ok (B : qbdt) qs : fit B -> let '(s, B') := sample_clone A qs B in bt_n B' = bt_n B /\ bt_root B' = bt_root B /\ exists r, (r < 2 ^ bt_n B)%N /\ drawn_all (bt_rnd B) (bt_n B) (get_amplitude B) r /\ get_amplitude B r <> 0 /\
    forall j, N.testbit s j = match nth_error qs (N.to_nat j) with Some q => N.testbit r q | None => false end.
  Proof.
    intros [T SR]. unfold sample_clone, m_all_optional_collapse. destruct (m_all_ok false (bt_rnd B) (N.to_nat (bt_n B)) 0 (bt_draw B) (bt_root B) T SR) as (r & d' & t' & E & Hr & CB & V0 & K1 & _). rewrite E. rewrite N.pow_0_r, N.mul_1_r. rewrite N2Nat.id in *. cbn [bt_n bt_root].
    split; [reflexivity|]. split; [apply K1; reflexivity|]. exists r. split; [exact Hr|]. split; [apply (drawn_ext _ _ (amp B)); [intros x; symmetry; apply amp_get|apply chosen_drawn, CB]|]. split; [rewrite amp_get; exact V0|].
    intros j.
    assert (G : forall qs i a, N.testbit (fold_left (fun a jq => if N.testbit r (snd jq) then N.lor a (2 ^ fst jq) else a) (combine (map (fun k => (N.of_nat i + k)%N) (upto (length qs))) qs) a) j = N.testbit a j || ((N.of_nat i <=? j)%N && match nth_error qs (N.to_nat j - i) with Some q => N.testbit r q | None => false end)).
    { clear qs. induction qs as [|q qs IH]; intros i a.
      - cbn. destruct (N.to_nat j - i)%nat; rewrite andb_false_r, orb_false_r; reflexivity.
      - assert (EU : map (fun k => (N.of_nat i + k)%N) (upto (length (q :: qs))) = N.of_nat i :: map (fun k => (N.of_nat (S i) + k)%N) (upto (length qs))).
        { assert (U : forall m, upto (S m) = 0%N :: map N.succ (upto m)) by (induction m as [|m IHm]; [reflexivity|change (upto (S (S m))) with (upto (S m) ++ [N.of_nat (S m)]); rewrite IHm at 1; change (upto (S m)) with (upto m ++ [N.of_nat m]); rewrite map_app; cbn [app map]; do 3 f_equal; lia]).
          cbn [length]. rewrite U. cbn [map]. f_equal; [lia|]. rewrite map_map. apply map_ext. intros k. lia. }
        rewrite EU. cbn [combine fold_left fst snd]. rewrite IH. destruct (N.leb_spec (N.of_nat i) j) as [L|L], (N.leb_spec (N.of_nat (S i)) j) as [L2|L2]; try lia; cbn [andb].
        + replace (N.to_nat j - i)%nat with (S (N.to_nat j - S i)) by lia. cbn [nth_error]. destruct (N.testbit r q); [|reflexivity]. rewrite N.lor_spec, N.pow2_bits_eqb. destruct (N.eqb_spec (N.of_nat i) j); [lia|rewrite orb_false_r; reflexivity].
        + replace (N.to_nat j - i)%nat with O by lia. cbn [nth_error]. destruct (N.testbit r q); rewrite ?orb_false_r; [|reflexivity]. rewrite N.lor_spec, N.pow2_bits_eqb. destruct (N.eqb_spec (N.of_nat i) j); [reflexivity|lia].
        + rewrite !orb_false_r. destruct (N.testbit r q); [|reflexivity]. rewrite N.lor_spec, N.pow2_bits_eqb. destruct (N.eqb_spec (N.of_nat i) j); [lia|rewrite orb_false_r; reflexivity]. }
    specialize (G qs O 0%N). rewrite N.bits_0 in G. cbn [orb] in G. rewrite Nat.sub_0_r in G. replace (N.of_nat 0 <=? j)%N with true in G by (symmetry; apply N.leb_le; lia). cbn [andb] in G. rewrite <- G. f_equal. f_equal. f_equal. rewrite <- (map_id (upto (length qs))) at 1. apply map_ext. intros k. lia.
  Qed.
End B.
