(** Proofs about the generic circuits (part 2: ripple-carry addition). *)
From Coq Require Import NArith List Bool Lia Ring.
From Verif Require Import Bits MFunctions MParFor PParFor MKernel Amp PAmp MEngine SpecState SpecEngine
  PGates PGates2 PGates3 PEngine PCompose MAlu SpecAlu PAlu PAlu2 PAlu5 PAlu6 PAlu9 MCircuit PCircuit.
Import ListNotations.
Local Open Scope N_scope.

(** ** Carries *)
Lemma carry_bit w k : N.testbit (w + 1) k = xorb (N.testbit w k) ((w + 1) mod 2 ^ k =? 0).
Proof.
  pose proof (pow2_pos k) as HP. rewrite !testbit_div_mod. remember (2 ^ k) as p eqn:Ep. clear Ep.
  assert (Ew : w = p * (w / p) + w mod p) by (apply N.div_mod; lia). pose proof (N.mod_lt w p) as Hr.
  set (q := w / p) in *. set (r := w mod p) in *. clearbody q r. assert (r < p) by lia. clear Hr.
  destruct (N.eq_dec (r + 1) p) as [E|E].
  - assert (E1 : (w + 1) / p = q + 1). { symmetry. apply (N.div_unique _ _ _ 0); lia. }
    assert (E2 : (w + 1) mod p = 0). { symmetry. apply (N.mod_unique _ _ (q + 1)); lia. }
    assert (O : forall q, negb (q mod 2 =? 0) = N.odd q) by (intros q'; rewrite <- N.bit0_odd, testbit_div_mod; now rewrite N.pow_0_r, N.div_1_r).
    rewrite E1, E2, !O, N.odd_add. now destruct (N.odd q).
  - assert (E1 : (w + 1) / p = q). { symmetry. apply (N.div_unique _ _ _ (r + 1)); lia. }
    assert (E2 : (w + 1) mod p = r + 1). { symmetry. apply (N.mod_unique _ _ q); lia. }
    rewrite E1, E2. destruct (N.eqb_spec (r + 1) 0); [lia|]. now rewrite xorb_false_r.
Qed.
Lemma mod_pow2_0 a k : (a mod 2 ^ k =? 0) = forallb (fun l => negb (N.testbit a l)) (iota 0 (N.to_nat k)).
Proof.
  apply eq_true_iff_eq. rewrite N.eqb_eq, forallb_forall. split.
  - intros E l Hl. apply iota_In in Hl. rewrite <- (N.mod_small l k) by lia. assert (T : N.testbit (a mod 2 ^ k) l = false) by (rewrite E; apply N.bits_0).
    rewrite tb_mod2 in T. destruct (N.ltb_spec l k); [|lia]. cbn [andb] in T. rewrite N.mod_small by lia. now rewrite T.
  - intros H. apply N.bits_inj. intros l. rewrite tb_mod2, N.bits_0. destruct (N.ltb_spec l k); auto. cbn [andb].
    specialize (H l). rewrite iota_In in H. assert (T : negb (N.testbit a l) = true) by (apply H; lia). now apply negb_true_iff in T.
Qed.
Lemma add_pow2_bit v i k : i <= k -> N.testbit (v + 2 ^ i) k =
  xorb (N.testbit v k) (forallb (fun l => negb (N.testbit (v + 2 ^ i) l)) (iota i (N.to_nat (k - i)))).
Proof.
  intros Hk. pose proof (pow2_pos i) as HP.
  assert (E : (v + 2 ^ i) / 2 ^ i = v / 2 ^ i + 1).
  { rewrite <- (N.mul_1_l (2 ^ i)) at 1. apply N.div_add. lia. }
  assert (T : forall l, N.testbit (v + 2 ^ i) (l + i) = N.testbit (v / 2 ^ i + 1) l) by (intros l; now rewrite <- E, tb_div2).
  replace k with ((k - i) + i) at 1 2 by lia. rewrite T, carry_bit, tb_div2. f_equal. rewrite mod_pow2_0.
  replace (iota i (N.to_nat (k - i))) with (map (fun x => i + x) (iota 0 (N.to_nat (k - i)))) by (rewrite iota_map_add; f_equal; lia).
  generalize (iota 0 (N.to_nat (k - i))). induction l as [|a r IH]; auto. cbn [forallb map]. rewrite <- IH, (N.add_comm i a), T. reflexivity.
Qed.
Lemma add_pow2_low v i k : k < i -> N.testbit (v + 2 ^ i) k = N.testbit v k.
Proof.
  intros H. assert (E : (v + 2 ^ i) mod 2 ^ i = v mod 2 ^ i).
  { rewrite <- (N.mul_1_l (2 ^ i)) at 1. apply N.mod_add. apply pow2_nz. }
  assert (T : N.testbit ((v + 2 ^ i) mod 2 ^ i) k = N.testbit (v mod 2 ^ i) k) by now rewrite E.
  rewrite !tb_mod2 in T. destruct (N.ltb_spec k i); [exact T|lia].
Qed.

(** ** Values spread over qubits [p 0], ..., [p (L - 1)] *)
Fixpoint pvn (p : N -> N) (L : nat) (x : N) : N :=
  match L with O => 0 | S l => pvn p l x + N.b2n (N.testbit x (p (N.of_nat l))) * 2 ^ N.of_nat l end.
Definition pv p L x := pvn p (N.to_nat L) x.
Lemma pvn_lt p L x : pvn p L x < 2 ^ N.of_nat L.
Proof.
  induction L as [|l IH]. cbn. lia. cbn [pvn]. replace (N.of_nat (S l)) with (N.of_nat l + 1) by lia. rewrite N.pow_add_r.
  change (2 ^ 1) with 2. destruct (N.testbit x (p (N.of_nat l))); cbn [N.b2n]; lia.
Qed.
Lemma pv_lt p L x : pv p L x < 2 ^ L.
Proof. unfold pv. rewrite <- (N2Nat.id L) at 2. apply pvn_lt. Qed.
Lemma tb_pv p L x k : N.testbit (pv p L x) k = (k <? L) && N.testbit x (p k).
Proof.
  unfold pv. assert (G : forall l, N.testbit (pvn p l x) k = (k <? N.of_nat l) && N.testbit x (p k)).
  { induction l as [|l IH]; cbn [pvn]. rewrite N.bits_0. destruct (N.ltb_spec k (N.of_nat 0)); [lia|reflexivity]. rewrite tb_cat by apply pvn_lt. rewrite IH.
    destruct (N.ltb_spec k (N.of_nat l)), (N.ltb_spec k (N.of_nat (S l))); auto; try lia; cbn [andb].
    - replace (k - N.of_nat l) with 0 by lia. replace k with (N.of_nat l) by lia. now destruct (N.testbit x (p (N.of_nat l))).
    - destruct (N.testbit x (p (N.of_nat l))); cbn [N.b2n]; [|apply N.bits_0].
      apply (tb_high 1 1). reflexivity. lia. }
  rewrite G. now rewrite N2Nat.id.
Qed.
(** [y] is [x] with [a] added to that value. *)
Definition padds (p : N -> N) (L a x y : N) : Prop :=
  (forall k, k < L -> N.testbit y (p k) = N.testbit (pv p L x + a) k) /\
  (forall q, (forall k, k < L -> p k <> q) -> N.testbit y q = N.testbit x q).
Lemma padds_pv p L a x y : padds p L a x y -> pv p L y = (pv p L x + a) mod 2 ^ L.
Proof.
  intros [H _]. apply N.bits_inj. intros k. rewrite tb_pv, tb_mod2. destruct (N.ltb_spec k L); auto. cbn [andb]. now apply H.
Qed.
Lemma dec_pos (p : N -> N) L q : (exists k, k < L /\ p k = q) \/ (forall k, k < L -> p k <> q).
Proof.
  induction L as [|L IH] using N.peano_ind. right. intros; lia. destruct IH as [[k [Hk E]]|H]. left. exists k. split; auto. lia.
  destruct (N.eq_dec (p L) q) as [E|E]. left. exists L. split; auto. lia. right. intros k Hk. destruct (N.eq_dec k L) as [->|]; auto. apply H. lia.
Qed.
Lemma padds_det p L a b x y z : a mod 2 ^ L = b mod 2 ^ L -> padds p L a x y -> padds p L b x z -> y = z.
Proof.
  intros E [H1 H2] [G1 G2]. apply N.bits_inj. intros q. destruct (dec_pos p L q) as [[k [Hk <-]]|H].
  - rewrite H1, G1 by auto. assert (T : (pv p L x + a) mod 2 ^ L = (pv p L x + b) mod 2 ^ L).
    { rewrite <- N.add_mod_idemp_r, E, N.add_mod_idemp_r by apply pow2_nz. reflexivity. }
    assert (T' : N.testbit ((pv p L x + a) mod 2 ^ L) k = N.testbit ((pv p L x + b) mod 2 ^ L) k) by now rewrite T.
    rewrite !tb_mod2 in T'. destruct (N.ltb_spec k L); [exact T'|lia].
  - now rewrite H2, G2.
Qed.
Lemma padds_trans p L a b x y z : padds p L a x y -> padds p L b y z -> padds p L (a + b) x z.
Proof.
  intros Hxy [G1 G2]. pose proof (padds_pv _ _ _ _ _ Hxy) as E. destruct Hxy as [H1 H2]. split.
  - intros k Hk. rewrite G1 by auto. rewrite E.
    assert (T : ((pv p L x + a) mod 2 ^ L + b) mod 2 ^ L = (pv p L x + (a + b)) mod 2 ^ L).
    { rewrite N.add_mod_idemp_l by apply pow2_nz. f_equal. lia. }
    assert (T' := f_equal (fun v => N.testbit v k) T). cbn beta in T'. rewrite !tb_mod2 in T'. destruct (N.ltb_spec k L); [exact T'|lia].
  - intros q Hq. now rewrite G2, H2.
Qed.
Lemma padds_0 p L x : padds p L 0 x x.
Proof. split; auto. intros k Hk. rewrite N.add_0_r, tb_pv. destruct (N.ltb_spec k L); auto. lia. Qed.
Lemma pv_reg s len x : pv (fun k => s + k) len x = get_reg x s len.
Proof. apply N.bits_inj. intros k. rewrite tb_pv, tb_get_reg. f_equal. f_equal. lia. Qed.
Lemma padds_reg s len a x : padds (fun k => s + k) len a x (add_reg s len a x).
Proof.
  split.
  - intros k Hk. rewrite pv_reg. unfold add_reg. rewrite tb_put_reg by apply mod_lt_pow2. rewrite tb_mod2.
    replace (s + k - s) with k by lia. bcases; try lia; auto.
  - intros q Hq. unfold add_reg. rewrite tb_put_reg by apply mod_lt_pow2. destruct (N.ltb_spec q s); auto. destruct (N.ltb_spec q (s + len)); auto.
    exfalso. apply (Hq (q - s)); lia.
Qed.

Definition pact (cs : list N) (p : N -> N) (L i x : N) : N :=
  fold_left (fun y j => flip (all_clear (cs ++ map p (iota i (N.to_nat (j + 1)))) y) (p (i + j + 1)) y) (iota 0 (N.to_nat (L - 1 - i)))
    (flip (all_clear cs x) (p i) x).
Lemma all_clear_app a b x : all_clear (a ++ b) x = all_clear a x && all_clear b x.
Proof. apply forallb_app. Qed.
Lemma forallb_ext_in {A} (f g : A -> bool) l : (forall a, In a l -> f a = g a) -> forallb f l = forallb g l.
Proof. induction l as [|a r IH]; auto. intros H. cbn [forallb]. rewrite H by now left. rewrite IH; auto. intros. apply H. now right. Qed.
Lemma forallb_map {A B} (f : A -> B) g l : forallb g (map f l) = forallb (fun a => g (f a)) l.
Proof. induction l as [|a r IH]; auto. cbn [map forallb]. now rewrite IH. Qed.

Lemma pact_idle cs p L i x : all_clear cs x = false -> pact cs p L i x = x.
Proof.
  intros H. unfold pact. rewrite H. cbn [flip]. generalize (iota 0 (N.to_nat (L - 1 - i))). induction l as [|j r IH]; auto. cbn [fold_left].
  rewrite all_clear_app, H. cbn [andb flip]. exact IH.
Qed.
Lemma pact_ok cs p L i x : i < L -> (forall k l, k < L -> l < L -> p k = p l -> k = l) -> (forall k, k < L -> ~ In (p k) cs) ->
  all_clear cs x = true -> padds p L (2 ^ i) x (pact cs p L i x).
Proof.
  intros Hi Hp Hc Hx. pose (z := fun m => fold_left (fun y j => flip (all_clear (cs ++ map p (iota i (N.to_nat (j + 1)))) y) (p (i + j + 1)) y) (iota 0 m)
    (flip (all_clear cs x) (p i) x)).
  assert (G : forall m, (m <= N.to_nat (L - 1 - i))%nat -> all_clear cs (z m) = true /\
     (forall k, k < L -> N.testbit (z m) (p k) = if k <=? i + N.of_nat m then N.testbit (pv p L x + 2 ^ i) k else N.testbit x (p k)) /\
     (forall q, (forall k, k < L -> p k <> q) -> N.testbit (z m) q = N.testbit x q)).
  { induction m as [|m IH]; intros Hm.
    - unfold z. cbn [iota fold_left]. rewrite Hx. split; [|split].
      + rewrite all_clear_flip; auto.
      + intros k Hk. rewrite tb_flip. cbn [andb]. destruct (N.leb_spec k (i + N.of_nat 0)).
        * destruct (N.eqb_spec (p i) (p k)) as [E|E].
          -- apply Hp in E; auto. subst k. rewrite add_pow2_bit by lia. rewrite N.sub_diag. cbn [N.to_nat iota forallb].
             rewrite tb_pv. destruct (N.ltb_spec i L); [|lia]. reflexivity.
          -- assert (k < i). { destruct (N.eq_dec k i). subst; congruence. lia. }
             rewrite add_pow2_low by auto. rewrite tb_pv. destruct (N.ltb_spec k L); [|lia]. cbn [andb]. now rewrite xorb_false_r.
        * destruct (N.eqb_spec (p i) (p k)) as [E|E]. apply Hp in E; auto. lia. now rewrite xorb_false_r.
      + intros q Hq. rewrite tb_flip. destruct (N.eqb_spec (p i) q) as [E|E]. exfalso. now apply (Hq i). now rewrite andb_false_r, xorb_false_r.
    - destruct IH as [I1 [I2 I3]]; [lia|]. assert (Ez : z (S m) = flip (all_clear (cs ++ map p (iota i (N.to_nat (N.of_nat m + 1)))) (z m)) (p (i + N.of_nat m + 1)) (z m)).
      { unfold z. rewrite iota_snoc, fold_left_app. cbn [fold_left]. now rewrite N.add_0_l. }
      assert (EC : all_clear (cs ++ map p (iota i (N.to_nat (N.of_nat m + 1)))) (z m) =
                   forallb (fun l => negb (N.testbit (pv p L x + 2 ^ i) l)) (iota i (N.to_nat (N.of_nat m + 1)))).
      { rewrite all_clear_app, I1. cbn [andb]. unfold all_clear. rewrite forallb_map. apply forallb_ext_in. intros l Hl. apply iota_In in Hl.
        rewrite I2 by lia. destruct (N.leb_spec l (i + N.of_nat m)); [auto|lia]. }
      rewrite Ez, EC. clear Ez EC. set (B := forallb _ _). assert (HB : N.testbit (pv p L x + 2 ^ i) (i + N.of_nat m + 1) = xorb (N.testbit x (p (i + N.of_nat m + 1))) B).
      { rewrite add_pow2_bit by lia. rewrite tb_pv. destruct (N.ltb_spec (i + N.of_nat m + 1) L); [|lia]. cbn [andb]. f_equal. unfold B. f_equal. f_equal. lia. }
      clearbody B. split; [|split].
      + rewrite all_clear_flip; auto. apply Hc. lia.
      + intros k Hk. rewrite tb_flip, I2 by auto. destruct (N.eqb_spec (p (i + N.of_nat m + 1)) (p k)) as [E|E].
        * apply Hp in E; try lia. subst k. destruct (N.leb_spec (i + N.of_nat m + 1) (i + N.of_nat m)); [lia|].
          destruct (N.leb_spec (i + N.of_nat m + 1) (i + N.of_nat (S m))); [|lia]. now rewrite HB, andb_true_r.
        * assert (k <> i + N.of_nat m + 1) by (intros ->; congruence). rewrite andb_false_r, xorb_false_r. bcases; auto; lia.
      + intros q Hq. rewrite tb_flip, I3 by auto. destruct (N.eqb_spec (p (i + N.of_nat m + 1)) q) as [E|E]. exfalso. apply (Hq (i + N.of_nat m + 1)); auto. lia.
        now rewrite andb_false_r, xorb_false_r. }
  destruct (G (N.to_nat (L - 1 - i))) as [_ [G2 G3]]; [lia|]. split.
  - intros k Hk. change (pact cs p L i x) with (z (N.to_nat (L - 1 - i))). rewrite G2 by auto. destruct (N.leb_spec k (i + N.of_nat (N.to_nat (L - 1 - i)))); [auto|lia].
  - exact G3.
Qed.

(** The whole loop over the set bits of the constant. *)
Definition ploop (cs : list N) (p : N -> N) (L a m x : N) : N :=
  fold_left (fun y i => if N.testbit a i then pact cs p L i y else y) (iota 0 (N.to_nat m)) x.
Lemma ploop_idle cs p L a m x : all_clear cs x = false -> ploop cs p L a m x = x.
Proof.
  intros H. unfold ploop. generalize (iota 0 (N.to_nat m)). induction l as [|i r IH]; auto. cbn [fold_left]. destruct (N.testbit a i); auto.
  now rewrite pact_idle.
Qed.
Lemma all_clear_padds cs p L a x y : (forall k, k < L -> ~ In (p k) cs) -> padds p L a x y -> all_clear cs y = all_clear cs x.
Proof.
  intros Hc [_ H]. unfold all_clear. apply forallb_ext_in. intros q Hq. rewrite H; auto. intros k Hk E. subst q. now apply (Hc k).
Qed.
Lemma mod_pow2_succ a m : a mod 2 ^ (m + 1) = a mod 2 ^ m + (if N.testbit a m then 2 ^ m else 0).
Proof.
  apply N.bits_inj. intros j. rewrite tb_mod2. replace (if N.testbit a m then 2 ^ m else 0) with (N.b2n (N.testbit a m) * 2 ^ m) by (destruct (N.testbit a m); cbn [N.b2n]; lia).
  rewrite tb_cat by apply mod_lt_pow2. rewrite tb_mod2. bcases; try lia; auto; cbn [andb].
  - replace j with m by lia. rewrite N.sub_diag. now destruct (N.testbit a m).
  - destruct (N.testbit a m); cbn [N.b2n]; symmetry; [|apply N.bits_0]. apply (tb_high 1 1). reflexivity. lia.
Qed.
Lemma ploop_ok cs p L a m x : m <= L -> (forall k l, k < L -> l < L -> p k = p l -> k = l) -> (forall k, k < L -> ~ In (p k) cs) ->
  all_clear cs x = true -> padds p L (a mod 2 ^ m) x (ploop cs p L a m x).
Proof.
  intros Hm Hp Hc Hx. revert Hm. induction m as [|m IH] using N.peano_ind; intros Hm.
  - cbn. rewrite N.mod_1_r. apply padds_0.
  - specialize (IH ltac:(lia)). unfold ploop. rewrite N2Nat.inj_succ, iota_snoc, fold_left_app. cbn [fold_left]. rewrite N.add_0_l, N2Nat.id.
    fold (ploop cs p L a m x). rewrite <- N.add_1_r, mod_pow2_succ. destruct (N.testbit a m).
    + eapply padds_trans. exact IH. apply pact_ok; auto. lia. now rewrite (all_clear_padds _ _ _ _ _ _ Hc IH).
    + now rewrite N.add_0_r.
Qed.

Section P.
  Context {K : StarRing}.
  Add Ring KrL : (sr_ring K).
  Local Notation V := (mem K).
  Local Notation circ := (circ K).

  (** ** The gate lists act as [pact] *)
  Lemma act_ripple cs s len i x (tg : N -> N) (p : N -> N) : i < len -> (forall k, k + 1 < len -> p k = s + k) -> (forall j, i + j + 1 < len -> tg j = p (i + j + 1)) ->
    cact (flat_map (fun j => qi_MACInvert (cs ++ map (fun b => s + b) (iota i (N.to_nat (j + 1)))) 1%amp 1%amp (tg j)) (iota 0 (N.to_nat (len - 1 - i))) : circ)
      (flip (all_clear cs x) (p i) x) = pact cs p len i x.
  Proof.
    intros Hi Hp Ht. rewrite cact_flat. unfold pact. generalize (flip (all_clear cs x) (p i) x). clear x.
    assert (G : forall l, (forall j, In j l -> i + j + 1 < len) -> forall y,
      fold_left (fun y a => cact (qi_MACInvert (cs ++ map (fun b : N => s + b) (iota i (N.to_nat (a + 1)))) 1%amp 1%amp (tg a) : circ) y) l y =
      fold_left (fun y j => flip (all_clear (cs ++ map p (iota i (N.to_nat (j + 1)))) y) (p (i + j + 1)) y) l y).
    { induction l as [|j r IH]; intros Hl y; auto. cbn [fold_left]. rewrite act_MAC, Ht by (apply Hl; now left). rewrite IH by (intros; apply Hl; now right).
      f_equal. f_equal. f_equal. f_equal. apply map_ext_in. intros k Hk. apply iota_In in Hk. symmetry. apply Hp. specialize (Hl j (or_introl eq_refl)). lia. }
    intros y. apply G. intros j Hj. apply iota_In in Hj. lia.
  Qed.
  Lemma wf_ripple n cs s len i (tg p : N -> N) : i < len -> (forall k, k + 1 < len -> p k = s + k) -> (forall j, i + j + 1 < len -> tg j = p (i + j + 1)) ->
    (forall k l, k < len -> l < len -> p k = p l -> k = l) -> (forall k, k < len -> p k < n /\ ~ In (p k) cs) -> NoDup cs -> (forall q, In q cs -> q < n) ->
    Forall (wfx n) (flat_map (fun j => qi_MACInvert (cs ++ map (fun b => s + b) (iota i (N.to_nat (j + 1)))) 1%amp 1%amp (tg j)) (iota 0 (N.to_nat (len - 1 - i))) : circ).
  Proof.
    intros Hi Hp Ht Hinj Hpn ND Hq. apply wf_flat. intros j Hj. apply iota_In in Hj. apply wf_MAC. rewrite Ht by lia.
    replace (map (fun b => s + b) (iota i (N.to_nat (j + 1)))) with (map p (iota i (N.to_nat (j + 1)))).
    2: { apply map_ext_in. intros k Hk. apply iota_In in Hk. apply Hp. lia. }
    assert (HD : NoDup (cs ++ map p (iota i (N.to_nat (j + 1))))).
    { apply NoDup_app_disjoint; auto.
      - apply map_NoDup_in; [|apply PParFor.iota_NoDup]. intros a b Ha Hb E. apply iota_In in Ha, Hb. apply Hinj; auto; lia.
      - intros q Hq1 Hq2. apply in_map_iff in Hq2. destruct Hq2 as [k [<- Hk]]. apply iota_In in Hk. destruct (Hpn k); [lia|]. auto. }
    apply wfc_intro; auto.
    - intros HI. apply in_app_or in HI. destruct HI as [HI|HI]. destruct (Hpn (i + j + 1)); [lia|]. auto.
      apply in_map_iff in HI. destruct HI as [k [E Hk]]. apply iota_In in Hk. apply Hinj in E; lia.
    - apply Hpn. lia.
    - intros q HI. apply in_app_or in HI. destruct HI as [HI|HI]; auto. apply in_map_iff in HI. destruct HI as [k [<- Hk]]. apply iota_In in Hk. apply Hpn. lia.
  Qed.
End P.
