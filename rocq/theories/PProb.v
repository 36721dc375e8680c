(** Probabilities and measurement. *)
From Coq Require Import NArith List Bool Lia Permutation Ring.
From Verif Require Import Bits MFunctions SpecFunctions PFunctions MParFor SpecParFor PParFor MKernel PKernel Amp PAmp SpecState MEngine SpecEngine PLoop PApply PGates PGates2 PGates3 PCompose.
Import ListNotations.
Local Open Scope N_scope.

(** ** The powers of a mask *)
Lemma lowest_bit v : 0 < v -> exists k, N.testbit v k = true /\ (forall i, i < k -> N.testbit v i = false) /\
  forall i, N.testbit (v - 1) i = if i <? k then true else if i =? k then false else N.testbit v i.
Proof.
  induction v as [v IH] using (well_founded_induction N.lt_wf_0). intros Hv.
  destruct (N.testbit v 0) eqn:E.
  - exists 0. split; auto. split. intros; lia. intros i. destruct (N.ltb_spec i 0); [lia|].
    assert (Ev : v = 2 * (v / 2) + 1).
    { pose proof (N.div_mod v 2 ltac:(lia)) as D. rewrite <- N.bit0_mod, E in D. exact D. }
    assert (Ev1 : v - 1 = 2 * (v / 2)) by lia. set (w := v / 2) in *. clearbody w. rewrite Ev1. destruct (N.eqb_spec i 0) as [->|Hi].
    + apply N.testbit_even_0.
    + replace i with (N.succ (i - 1)) by lia. rewrite Ev.
      now rewrite N.testbit_even_succ, N.testbit_odd_succ by lia.
  - assert (Ev : v = 2 * (v / 2)).
    { pose proof (N.div_mod v 2 ltac:(lia)) as D. rewrite <- N.bit0_mod, E in D. cbn [N.b2n] in D. lia. }
    set (w := v / 2) in *. destruct (IH w) as [k [K1 [K2 K3]]]; try lia.
    exists (k + 1). rewrite Ev, N.add_1_r, N.testbit_even_succ by lia. split; auto. split.
    + intros i Hi. destruct (N.eq_dec i 0) as [->|]. apply N.testbit_even_0. replace i with (N.succ (i - 1)) by lia. rewrite N.testbit_even_succ by lia. apply K2. lia.
    + intros i. replace (2 * w - 1) with (2 * (w - 1) + 1) by lia. destruct (N.eq_dec i 0) as [->|].
      * rewrite N.testbit_odd_0. destruct (N.ltb_spec 0 (N.succ k)); auto. lia.
      * replace i with (N.succ (i - 1)) by lia. rewrite N.testbit_odd_succ, N.testbit_even_succ, K3 by lia.
        destruct (N.ltb_spec (i - 1) k), (N.ltb_spec (N.succ (i - 1)) (N.succ k)), (N.eqb_spec (i - 1) k), (N.eqb_spec (N.succ (i - 1)) (N.succ k)); auto; lia.
Qed.

Lemma mask_powers_ok n fuel : forall v lo, n <= lo + N.of_nat fuel -> v < 2 ^ n -> (forall i, i < lo -> N.testbit v i = false) ->
  exists ps, mask_powers fuel v = map (fun q => 2 ^ q) ps /\ increasing_below lo n ps /\ forall i, In i ps <-> N.testbit v i = true.
Proof.
  induction fuel as [|fuel IH]; intros v lo Hf Hv Hlo; cbn [mask_powers].
  - exists []. split; auto. split. exact I. intros i. split. intros []. intros Hi.
    destruct (N.lt_ge_cases i lo). rewrite Hlo in Hi by auto. discriminate. rewrite (tb_high v n) in Hi by (auto; lia). discriminate.
  - destruct (N.eqb_spec v 0) as [->|Hnz].
    + exists []. split; auto. split. exact I. intros i. rewrite N.bits_0. split; [intros []|discriminate].
    + destruct (lowest_bit v) as [k [K1 [K2 K3]]]. lia.
      assert (T : forall i, N.testbit (N.land v (v - 1)) i = N.testbit v i && negb (i =? k)).
      { intros i. rewrite N.land_spec, K3. destruct (N.ltb_spec i k), (N.eqb_spec i k); try lia; cbn [negb]; try reflexivity.
        now rewrite andb_diag, andb_true_r. }
      assert (E : N.land (N.lxor (N.land v (v - 1)) v) v = 2 ^ k).
      { apply N.bits_inj. intros i. rewrite N.land_spec, N.lxor_spec, T, tb_pow2. destruct (N.eqb_spec i k) as [->|].
        - rewrite N.eqb_refl, K1. reflexivity.
        - destruct (N.eqb_spec k i); [congruence|]. cbn [negb]. rewrite andb_true_r, xorb_nilpotent. reflexivity. }
      rewrite E. assert (Hk : lo <= k < n).
      { split. apply N.nlt_ge. intros H. rewrite Hlo in K1 by auto. discriminate. apply N.nle_gt. intros H. rewrite (tb_high v n) in K1 by auto. discriminate. }
      destruct (IH (N.land v (v - 1)) (k + 1)) as [ps [P1 [P2 P3]]].
      * lia.
      * now apply land_lt_pow2.
      * intros i Hi. rewrite T. destruct (N.eqb_spec i k); cbn [negb]. apply andb_false_r. rewrite K2 by lia. reflexivity.
      * exists (k :: ps). split. cbn [map]. now rewrite P1. split. split; auto.
        intros i. cbn [In]. rewrite P3, T. destruct (N.eqb_spec i k) as [->|]; cbn [negb].
        -- rewrite K1. tauto.
        -- rewrite andb_true_r. split; auto. intros [->|]; congruence.
Qed.

Section Prob.
  Context {K : StarRing}.
  Variable c : cfg.
  Add Ring Kr7 : (sr_ring K).
  Local Notation V := (mem K).

  Lemma asum_reindex n (P : N -> Prop) (Q : N -> bool) (h : N -> N) (f : N -> K) xs : enumerates P xs ->
    (forall x y, P x -> P y -> h x = h y -> x = y) -> (forall y, (y < 2 ^ n /\ Q y = true) <-> exists x, P x /\ h x = y) ->
    asum (fun x => f (h x)) xs = asum (fun x => if Q x then f x else 0%amp) (basis n).
  Proof.
    intros HE Hinj HQ. rewrite <- (asum_enum n Q f (map h xs)). now rewrite asum_map. eapply enum_map; eauto.
  Qed.

  Lemma setbit_lor x q : N.lor x (2 ^ q) = N.setbit x q.
  Proof. apply N.bits_inj. intros m. rewrite N.lor_spec, tb_pow2, tb_setbit. apply orb_comm. Qed.
  Lemma setbit_inj x y q : N.testbit x q = false -> N.testbit y q = false -> N.setbit x q = N.setbit y q -> x = y.
  Proof.
    intros Hx Hy E. apply N.bits_inj. intros m. destruct (N.eq_dec q m) as [<-|]. congruence.
    apply (f_equal (fun z => N.testbit z m)) in E. rewrite !tb_setbit in E. destruct (N.eqb_spec q m); [congruence|]. exact E.
  Qed.
  Lemma setbit_clearbit x q : N.testbit x q = true -> N.setbit (N.clearbit x q) q = x.
  Proof.
    intros E. apply N.bits_inj. intros m. rewrite tb_setbit, tb_clearbit. destruct (N.eqb_spec q m); subst; cbn [orb negb]; rewrite ?andb_true_r; auto.
  Qed.

  Lemma odd_div2 x : N.testbit x 0 = true -> 2 * (x / 2) + 1 = x.
  Proof. intros E. pose proof (N.div_mod x 2 ltac:(lia)) as D. rewrite <- N.bit0_mod, E in D. cbn [N.b2n] in D. lia. Qed.
  Lemma even_div2 x : N.testbit x 0 = false -> 2 * (x / 2) = x.
  Proof. intros E. pose proof (N.div_mod x 2 ltac:(lia)) as D. rewrite <- N.bit0_mod, E in D. cbn [N.b2n] in D. lia. Qed.

  Lemma weight_split2 n (P Q : N -> bool) (psi : V) :
    weight_of n P psi = (weight_of n (fun x => P x && Q x) psi + weight_of n (fun x => P x && negb (Q x)) psi)%amp.
  Proof. unfold weight_of. rewrite <- asum_add. apply asum_ext. intros x _. destruct (P x), (Q x); cbn [andb negb]; ring. Qed.
  Lemma weight_ext n (P Q : N -> bool) (psi phi : V) : (forall x, x < 2 ^ n -> P x = Q x /\ psi x = phi x) -> weight_of n P psi = weight_of n Q phi.
  Proof. intros H. unfold weight_of. apply asum_ext. intros x Hx. apply basis_In in Hx. destruct (H x Hx) as [-> ->]. reflexivity. Qed.

  Lemma sum_bit_ok n q (term : N -> K) xs : q < n -> enumerates (fun x => x < 2 ^ n /\ forall j, q <= j < q + 1 -> N.testbit x j = false) xs ->
    asum (fun x => term (N.lor x (2 ^ q))) xs = asum (fun x => if N.testbit x q then term x else 0%amp) (basis n).
  Proof.
    intros Hq HE. eapply (asum_reindex n _ (fun x => N.testbit x q) (fun x => N.lor x (2 ^ q)) term); eauto.
    - intros x y [_ Hx] [_ Hy]. rewrite !setbit_lor. apply setbit_inj; [apply Hx | apply Hy]; lia.
    - intros y. split.
      + intros [Hy By]. exists (N.clearbit y q). split. split. now apply clearbit_lt.
        intros j Hj. replace j with q by lia. rewrite tb_clearbit, N.eqb_refl. apply andb_false_r.
        rewrite setbit_lor. now apply setbit_clearbit.
      + intros [x [[Hx Bx] <-]]. rewrite setbit_lor. split. now apply setbit_lt. now rewrite tb_setbit, N.eqb_refl.
  Qed.

  Lemma basis_1 : basis 1 = [0; 1].
  Proof. reflexivity. Qed.

  Lemma tb_shl1 x j : N.testbit (N.shiftl x 1) j = if j =? 0 then false else N.testbit x (j - 1).
  Proof.
    rewrite tb_shiftl. destruct (N.leb_spec 1 j), (N.eqb_spec j 0); try lia; auto.
  Qed.

  Theorem prob_ok simd n q (psi : V) r : fits c n -> q < n -> Prob c simd n q (Some psi) r ->
    r = Ok (weight_of n (fun x => N.testbit x q) psi).
  Proof.
    intros Hf Hq. assert (Hn : n < 64) by apply Hf. unfold Prob. destruct (N.leb_spec n q); [lia|]. destruct (N.eqb_spec n 1) as [->|Hn1].
    - intros ->. f_equal. unfold weight_of. rewrite basis_1. assert (q = 0) by lia. subst. cbn [asum]. change (N.testbit 0 0) with false. change (N.testbit 1 0) with true. cbv iota. ring.
    - rewrite pow2Ocl_small by lia. destruct simd.
      + destruct (N.eqb_spec (2 ^ q) 1) as [E|E].
        * assert (q = 0). { destruct (N.eq_dec q 0); auto. assert (1 <= q) by lia. pose proof (pow2_le_mono 1 q H0). change (2 ^ 1) with 2 in *. lia. } subst q.
          intros [p [HS ->]]. f_equal. rewrite N.shiftr_div_pow2 in HS.
          replace (2 ^ n / 2 ^ 2) with (2 ^ (n - 2)) in HS.
          2:{ apply N.div_unique_exact. discriminate. rewrite <- N.pow_add_r. f_equal. lia. }
          apply (sum_for_ok c n) in HS; auto; [|apply pow2_le_mono; lia]. destruct HS as [xs [HE ->]].
          assert (HW : forall l, l < 2 ^ (n - 2) -> w64 (N.shiftl l 2) = 4 * l /\ N.lor (4 * l) 1 = 4 * l + 1 /\ N.lor (4 * l) 3 = 4 * l + 3).
          { intros l Hl. assert (E4 : N.shiftl l 2 = 4 * l) by (rewrite N.shiftl_mul_pow2; change (2 ^ 2) with 4; lia).
            assert (El : forall d, d < 4 -> N.lor (4 * l) d = 4 * l + d).
            { intros d Hd. symmetry. apply add_lor. rewrite <- E4. apply N.bits_inj. intros j. rewrite N.land_spec, N.bits_0, tb_shiftl.
              destruct (N.leb_spec 2 j); auto. rewrite (tb_high d 2) by auto. apply andb_false_r. }
            rewrite !El by lia. split; auto. rewrite E4. apply (w64_small _ n); auto.
            replace (2 ^ n) with (4 * 2 ^ (n - 2)). lia. change 4 with (2 ^ 2). rewrite <- N.pow_add_r. f_equal. lia. }
          rewrite (asum_ext K _ (fun l => anorm (psi (4 * l + 1)%N) + anorm (psi (4 * l + 3)%N))%amp).
          2:{ intros l Hl. apply (proj2 HE) in Hl. destruct (HW l Hl) as [A [B C]]. now rewrite A, B, C. }
          rewrite asum_add. rewrite (weight_split2 n _ (fun x => negb (N.testbit x 1))). unfold weight_of.
          assert (P4 : 2 ^ n = 4 * 2 ^ (n - 2)) by (change 4 with (2 ^ 2); rewrite <- N.pow_add_r; f_equal; lia).
          assert (T01 : forall l d, d < 4 -> N.testbit (4 * l + d) 0 = N.testbit d 0 /\ N.testbit (4 * l + d) 1 = N.testbit d 1).
          { intros l d Hd. replace (4 * l + d) with (d + l * 2 ^ 2) by (change (2 ^ 2) with 4; lia). split; rewrite tb_cat by (change (2 ^ 2) with 4; lia); reflexivity. }
          assert (TI : forall x, x = 4 * (x / 4) + x mod 4) by (intros; apply N.div_mod; lia).
          f_equal.
          -- apply (asum_reindex n _ (fun x => N.testbit x 0 && negb (N.testbit x 1)) (fun l => 4 * l + 1) (fun x => anorm (psi x)) xs HE).
             ++ intros x y _ _ Exy. lia.
             ++ intros y. split.
                ** intros [Hy By]. exists (y / 4). pose proof (TI y). assert (Hm : y mod 4 < 4) by (apply N.mod_lt; lia).
                   assert (y mod 4 = 1).
                   { rewrite H0 in By. rewrite (proj1 (T01 _ _ Hm)), (proj2 (T01 _ _ Hm)) in By.
                     destruct (y mod 4) as [|[[[]|[]|]|[[]|[]|]|]]; auto; try discriminate; lia. }
                   split; lia.
                ** intros [x [Hx <-]]. split. lia. destruct (T01 x 1) as [-> ->]. lia. reflexivity.
          -- apply (asum_reindex n _ (fun x => N.testbit x 0 && negb (negb (N.testbit x 1))) (fun l => 4 * l + 3) (fun x => anorm (psi x)) xs HE).
             ++ intros x y _ _ Exy. lia.
             ++ intros y. split.
                ** intros [Hy By]. exists (y / 4). pose proof (TI y). assert (Hm : y mod 4 < 4) by (apply N.mod_lt; lia).
                   assert (y mod 4 = 3).
                   { rewrite H0 in By. rewrite (proj1 (T01 _ _ Hm)), (proj2 (T01 _ _ Hm)) in By.
                     destruct (y mod 4) as [|[[[]|[]|]|[[]|[]|]|]]; auto; try discriminate; lia. }
                   split; lia.
                ** intros [x [Hx <-]]. split. lia. destruct (T01 x 3) as [-> ->]. lia. reflexivity.
        * assert (Hq0 : q <> 0) by (intros ->; apply E; reflexivity).
          intros [p [HS ->]]. f_equal.
          replace (N.shiftr (2 ^ n) 1) with (2 ^ (n - 1)) in HS.
          2:{ rewrite N.shiftr_div_pow2. apply N.div_unique_exact. discriminate. rewrite <- N.pow_add_r. f_equal. lia. }
          replace (N.shiftr (2 ^ q) 1) with (2 ^ (q - 1)) in HS.
          2:{ rewrite N.shiftr_div_pow2. apply N.div_unique_exact. discriminate. rewrite <- N.pow_add_r. f_equal. lia. }
          apply (sum_skip_ok c (n - 1)) in HS; [|apply (fits_le _ _ _ Hf); lia|lia]. destruct HS as [xs [HE ->]].
          assert (HW : forall l, l < 2 ^ (n - 1) -> w64 (N.shiftl l 1) = N.shiftl l 1).
          { intros l Hl. apply (w64_small _ n); auto. apply lt_pow2_bits. intros m Hm. rewrite tb_shl1. destruct (N.eqb_spec m 0); auto. apply (tb_high l (n - 1)); auto. lia. }
          rewrite (asum_ext K _ (fun l => anorm (psi (N.setbit (N.shiftl l 1) q)) + anorm (psi (N.setbit (N.setbit (N.shiftl l 1) q) 0)))%amp).
          2:{ intros l Hl. apply (proj2 HE) in Hl. rewrite HW by tauto. rewrite !setbit_lor. change 1 with (2 ^ 0) at 3. now rewrite setbit_lor. }
          rewrite asum_add. rewrite (weight_split2 n _ (fun x => negb (N.testbit x 0))). unfold weight_of.
          assert (Hshr : forall y, y < 2 ^ n -> N.shiftr y 1 < 2 ^ (n - 1)) by (intros y Hy; apply shiftr_lt; replace (n - 1 + 1) with n by lia; auto).
          f_equal.
          -- apply (asum_reindex n _ (fun x => N.testbit x q && negb (N.testbit x 0)) (fun l => N.setbit (N.shiftl l 1) q) (fun x => anorm (psi x)) xs HE).
             ++ intros x y [Hx Bx] [Hy By] Exy. apply N.bits_inj. intros m. destruct (N.eq_dec m (q - 1)) as [->|Hm].
                rewrite Bx, By by lia. reflexivity.
                apply (f_equal (fun z => N.testbit z (m + 1))) in Exy. rewrite !tb_setbit, !tb_shl1 in Exy.
                destruct (N.eqb_spec q (m + 1)); [lia|]. destruct (N.eqb_spec (m + 1) 0); [lia|]. cbn [orb] in Exy. now replace (m + 1 - 1) with m in Exy by lia.
             ++ intros y. split.
                ** intros [Hy By]. apply andb_true_iff in By. destruct By as [B1 B2]. apply negb_true_iff in B2.
                   exists (N.clearbit (N.shiftr y 1) (q - 1)). split.
                   --- split. apply clearbit_lt. auto. intros j Hj. replace j with (q - 1) by lia. rewrite tb_clearbit, N.eqb_refl. apply andb_false_r.
                   --- apply N.bits_inj. intros m. rewrite tb_setbit, tb_shl1. destruct (N.eqb_spec q m); subst; auto. cbn [orb].
                       destruct (N.eqb_spec m 0); subst; auto. rewrite tb_clearbit, tb_shiftr. destruct (N.eqb_spec (q - 1) (m - 1)); [lia|]. cbn [negb]. rewrite andb_true_r. f_equal. lia.
                ** intros [x [[Hx Bx] <-]]. split.
                   --- apply setbit_lt; auto. apply lt_pow2_bits. intros m Hm. rewrite tb_shl1. destruct (N.eqb_spec m 0); auto. apply (tb_high x (n - 1)); auto. lia.
                   --- rewrite !tb_setbit, N.eqb_refl, !tb_shl1. destruct (N.eqb_spec q 0); [lia|]. reflexivity.
          -- apply (asum_reindex n _ (fun x => N.testbit x q && negb (negb (N.testbit x 0))) (fun l => N.setbit (N.setbit (N.shiftl l 1) q) 0) (fun x => anorm (psi x)) xs HE).
             ++ intros x y [Hx Bx] [Hy By] Exy. apply N.bits_inj. intros m. destruct (N.eq_dec m (q - 1)) as [->|Hm].
                rewrite Bx, By by lia. reflexivity.
                apply (f_equal (fun z => N.testbit z (m + 1))) in Exy. rewrite !tb_setbit, !tb_shl1 in Exy.
                destruct (N.eqb_spec q (m + 1)); [lia|]. destruct (N.eqb_spec (m + 1) 0); [lia|]. destruct (N.eqb_spec 0 (m + 1)); [lia|]. cbn [orb] in Exy. now replace (m + 1 - 1) with m in Exy by lia.
             ++ intros y. split.
                ** intros [Hy By]. apply andb_true_iff in By. destruct By as [B1 B2]. rewrite negb_involutive in B2.
                   exists (N.clearbit (N.shiftr y 1) (q - 1)). split.
                   --- split. apply clearbit_lt. auto. intros j Hj. replace j with (q - 1) by lia. rewrite tb_clearbit, N.eqb_refl. apply andb_false_r.
                   --- apply N.bits_inj. intros m. rewrite !tb_setbit, tb_shl1. destruct (N.eqb_spec 0 m) as [<-|]; [now rewrite B2|]. destruct (N.eqb_spec q m) as [<-|]; [now rewrite B1|]. cbn [orb].
                       destruct (N.eqb_spec m 0); [congruence|]. rewrite tb_clearbit, tb_shiftr. destruct (N.eqb_spec (q - 1) (m - 1)); [lia|]. cbn [negb]. rewrite andb_true_r. f_equal. lia.
                ** intros [x [[Hx Bx] <-]]. split.
                   --- apply setbit_lt; [|lia]. apply setbit_lt; auto. apply lt_pow2_bits. intros m Hm. rewrite tb_shl1. destruct (N.eqb_spec m 0); auto. apply (tb_high x (n - 1)); auto. lia.
                   --- rewrite !tb_setbit, N.eqb_refl. cbn [orb]. destruct (N.eqb_spec 0 q); auto.
      + intros [p [HS ->]]. f_equal. apply (sum_skip_ok c n) in HS; auto; [|lia]. destruct HS as [xs [HE ->]].
        apply (sum_bit_ok n q (fun x => anorm (psi x)) xs Hq HE).
  Qed.

  Theorem ctrlprob_ok n control target cstate (psi : V) p : fits c n -> control < n -> target < n -> control <> target ->
    CtrlOrAntiProb_num c n control target cstate (psi : V) p ->
    p = weight_of n (fun x => Bool.eqb (N.testbit x control) cstate && N.testbit x target) psi.
  Proof.
    intros Hf Hc Ht Hne HS. assert (Hn : n < 64) by apply Hf. unfold CtrlOrAntiProb_num in HS. rewrite !pow2Ocl_small in HS by lia.
    apply (sum_skip_ok c n) in HS; auto; [|lia]. destruct HS as [xs [HE ->]].
    pose proof (sum_bit_ok n target (fun x => if Bool.eqb (N.testbit x control) cstate then anorm (psi x) else 0%amp) xs Ht HE) as H.
    etransitivity; [|etransitivity; [exact H|]].
    - apply asum_ext. intros x _. rewrite setbit_lor, tb_setbit, land_pow2_testbit.
      destruct (N.eqb_spec target control); [congruence|]. cbn [orb].
      destruct (N.testbit x control), cstate; cbn [Bool.eqb]; rewrite ?N.eqb_refl; auto.
      + destruct (N.eqb_spec (2 ^ control) 0) as [E0|]; auto. now apply pow2_nz in E0.
      + destruct (N.eqb_spec 0 (2 ^ control)) as [E0|]; auto. symmetry in E0. now apply pow2_nz in E0.
    - apply asum_ext. intros x _. destruct (N.testbit x target), (Bool.eqb (N.testbit x control) cstate); reflexivity.
  Qed.

  Theorem probreg_ok n start len perm (psi : V) p : fits c n -> start + len <= n -> perm < 2 ^ len -> ProbReg c n start len perm (Some psi) p ->
    p = weight_of n (fun x => get_reg x start len =? perm) psi.
  Proof.
    intros Hf Hs Hp HS. assert (Hn : n < 64) by apply Hf. unfold ProbReg in HS.
    destruct (N.eq_dec start 64) as [|Hs64]; [lia|]. rewrite pow2Ocl_small in HS by lia.
    apply (sum_skip_ok c n) in HS; auto. destruct HS as [xs [HE ->]].
    assert (Hpn : perm < 2 ^ n) by (apply N.lt_le_trans with (2 ^ len); auto; apply pow2_le_mono; lia).
    assert (Tp : forall m, N.testbit (w64 (N.shiftl (w64 perm) start)) m = (start <=? m) && (m <? start + len) && N.testbit perm (m - start)).
    { intros m. rewrite (w64_small perm n) by auto. unfold w64. autorewrite with tb.
      destruct (N.ltb_spec m 64), (N.leb_spec start m), (N.ltb_spec m (start + len)); cbn [andb]; auto; try lia;
      rewrite (tb_high perm len) by (auto; lia); auto. }
    set (d := w64 (N.shiftl (w64 perm) start)) in *.
    apply (asum_reindex n _ (fun x => get_reg x start len =? perm) (fun x => N.lor x d) (fun x => anorm (psi x)) xs HE).
    - intros x y [Hx Bx] [Hy By] Exy. apply N.bits_inj. intros m.
      destruct (N.leb_spec start m); [destruct (N.ltb_spec m (start + len))|].
      + rewrite Bx, By by lia. reflexivity.
      + apply (f_equal (fun z => N.testbit z m)) in Exy. rewrite !N.lor_spec, Tp in Exy. destruct (N.ltb_spec m (start + len)); [lia|]. rewrite andb_false_r, !orb_false_r in Exy. exact Exy.
      + apply (f_equal (fun z => N.testbit z m)) in Exy. rewrite !N.lor_spec, Tp in Exy. destruct (N.leb_spec start m); [lia|]. rewrite !orb_false_r in Exy. exact Exy.
    - intros y. rewrite N.eqb_eq. split.
      + intros [Hy Ry]. exists (N.ldiff y d). split.
        * split. apply lt_pow2_bits. intros m Hm. now rewrite N.ldiff_spec, (tb_high y n).
          intros j Hj. rewrite N.ldiff_spec, Tp. destruct (N.leb_spec start j), (N.ltb_spec j (start + len)); try lia. cbn [andb].
          rewrite <- Ry, tb_get_reg. destruct (N.ltb_spec (j - start) len); [|lia]. cbn [andb]. replace (j - start + start) with j by lia. now destruct (N.testbit y j).
        * apply N.bits_inj. intros m. rewrite N.lor_spec, N.ldiff_spec, Tp.
          destruct (N.leb_spec start m), (N.ltb_spec m (start + len)); cbn [andb negb]; rewrite ?andb_true_r, ?orb_false_r; auto.
          rewrite <- Ry, tb_get_reg. destruct (N.ltb_spec (m - start) len); [|lia]. cbn [andb]. replace (m - start + start) with m by lia. now destruct (N.testbit y m).
      + intros [x [[Hx Bx] <-]]. split.
        * apply lor_lt_pow2; auto. apply lt_pow2_bits. intros m Hm. rewrite Tp. destruct (N.ltb_spec m (start + len)); [lia|]. now rewrite andb_false_r.
        * apply N.bits_inj. intros j. rewrite tb_get_reg, N.lor_spec, Tp. destruct (N.ltb_spec j len); cbn [andb].
          -- rewrite Bx by lia. destruct (N.leb_spec start (j + start)), (N.ltb_spec (j + start) (start + len)); try lia. cbn [andb orb]. f_equal. lia.
          -- symmetry. now apply (tb_high perm len).
  Qed.

  Theorem probmask_ok n mask perm (psi : V) r : fits c n -> mask < 2 ^ n -> N.land perm mask = perm -> ProbMask c n mask perm (Some psi) r ->
    r = Ok (weight_of n (fun x => N.land x mask =? perm) psi).
  Proof.
    intros Hf Hm Hp. assert (Hn : n < 64) by apply Hf. unfold ProbMask. destruct (N.leb_spec (2 ^ n) mask); [lia|].
    destruct (mask_powers_ok n 64 mask 0) as [ps [-> [Hi Hin]]]; auto; try lia.
    intros [p [HS ->]]. f_equal. apply (sum_mask_ok c n) in HS; auto. destruct HS as [xs [HE ->]].
    assert (Tp : forall m, N.testbit perm m = true -> N.testbit mask m = true).
    { intros m E. rewrite <- Hp, N.land_spec in E. now apply andb_true_iff in E. }
    apply (asum_reindex n _ (fun x => N.land x mask =? perm) (fun x => N.lor x perm) (fun x => anorm (psi x)) xs HE).
    - intros x y [Hx Bx] [Hy By] Exy. apply N.bits_inj. intros m. apply (f_equal (fun z => N.testbit z m)) in Exy. rewrite !N.lor_spec in Exy.
      destruct (N.testbit perm m) eqn:E. apply Tp, Hin in E. now rewrite Bx, By by auto. now rewrite !orb_false_r in Exy.
    - intros y. rewrite N.eqb_eq. split.
      + intros [Hy Ry]. exists (N.ldiff y mask). split. split.
        * apply lt_pow2_bits. intros m Hmm. now rewrite N.ldiff_spec, (tb_high y n).
        * intros q Hq. apply Hin in Hq. rewrite N.ldiff_spec, Hq. apply andb_false_r.
        * apply N.bits_inj. intros m. rewrite N.lor_spec, N.ldiff_spec, <- Ry, N.land_spec. destruct (N.testbit mask m), (N.testbit y m); reflexivity.
      + intros [x [[Hx Bx] <-]]. split.
        * apply lor_lt_pow2; auto. rewrite <- Hp. now apply land_mask_lt.
        * apply N.bits_inj. intros m. rewrite N.land_spec, N.lor_spec. destruct (N.testbit mask m) eqn:E.
          -- apply Hin in E. rewrite Bx by auto. cbn [orb]. apply andb_true_r.
          -- rewrite andb_false_r. destruct (N.testbit perm m) eqn:E2; auto. apply Tp in E2. congruence.
  Qed.

  Theorem probparity_ok pb n mask (psi : V) r : fits c n -> pb <= 64 -> mask < 2 ^ n -> mask < 2 ^ pb -> ProbParity c pb n mask (Some psi) r ->
    r = Ok (weight_of n (fun x => odd_bits 64 (N.land x mask)) psi).
  Proof.
    intros Hf Hpb Hm Hm'. unfold ProbParity. destruct (N.leb_spec (2 ^ n) mask); [lia|]. destruct (N.eqb_spec mask 0) as [->|].
    - intros ->. f_equal. unfold weight_of. symmetry. apply asum_zero. intros x _. now rewrite N.land_0_r, odd_bits_0.
    - intros [p [HS ->]]. f_equal. apply (sum_for_ok c n) in HS; auto; [|lia]. destruct HS as [xs [HE ->]].
      unfold weight_of. etransitivity. apply (asum_perm _ _ _ (basis n)). eapply enum_perm; eauto. split. apply basis_NoDup. intros; apply basis_In.
      apply asum_ext. intros x _. rewrite popCountOcl_odd; auto. now apply land_mask_lt.
  Qed.

  Lemma probregall_fold (f : N -> K) (g : N -> N) l : forall arr k,
    fold_left (fun (arr : N -> K) i => fun k => if k =? g i then (arr k + f i)%amp else arr k) l arr k =
    (arr k + asum (fun i => if g i =? k then f i else 0%amp) l)%amp.
  Proof.
    induction l as [|i l IH]; intros arr k; cbn [fold_left asum]. ring.
    rewrite IH. rewrite (N.eqb_sym (g i) k). destruct (N.eqb_spec k (g i)); ring.
  Qed.
  Theorem probregall_ok n start len (v : option V) k : n < 64 -> len < 64 -> ProbRegAll n start len (v : option V) k = weight_of n (fun x => get_reg x start len =? k) (vread v).
  Proof.
    intros Hn Hl. unfold ProbRegAll. rewrite probregall_fold. rewrite <- basis_iota. unfold weight_of, ProbAll.
    rewrite pow2Ocl_small by auto.
    rewrite (asum_ext K _ (fun x => if get_reg x start len =? k then anorm (vread v x) else 0%amp)). ring.
    intros x _. rewrite land_ones, N.shiftr_div_pow2. reflexivity.
  Qed.
  (** The register probabilities add up to the total norm. *)
  Theorem reg_total n start len (psi : V) :
    asum (fun k => weight_of n (fun x => get_reg x start len =? k) psi) (basis len) = norm2 n psi.
  Proof.
    unfold weight_of, norm2. rewrite asum_swap. apply asum_ext. intros x _.
    transitivity (asum (fun k => if get_reg x start len =? k then anorm (psi x) else 0%amp) (basis len)); auto.
    rewrite <- (asum_enum len (fun k => get_reg x start len =? k) (fun _ => anorm (psi x)) [get_reg x start len]).
    - cbn [asum]. ring.
    - split. constructor; [intros []|constructor]. intros k. rewrite N.eqb_eq. cbn [In]. split.
      + intros [<-|[]]. split; auto. apply get_reg_lt.
      + intros [_ <-]. auto.
  Qed.

  Theorem inner_ok n (a b : V) p : fits c n -> inner_sum c n a b p -> p = asum (fun x => sr_conj (a x) * b x)%amp (basis n).
  Proof.
    intros Hf HS. apply (sum_for_ok c n) in HS; auto; [|lia]. destruct HS as [xs [HE ->]]. apply asum_perm. eapply enum_perm; eauto.
    split. apply basis_NoDup. intros; apply basis_In.
  Qed.

  Lemma fold_asum (f : N -> K) l : forall a, fold_left (fun acc i => (acc + f i)%amp) l a = (a + asum f l)%amp.
  Proof. induction l as [|x l IH]; intros a; cbn [fold_left asum]. ring. rewrite IH. ring. Qed.
  Theorem expectation_ok (emb : N -> K) n start len (psi : V) : start + len < 64 ->
    expectation_num emb n start len psi = asum (fun x => anorm (psi x) * emb (get_reg x start len))%amp (basis n).
  Proof.
    intros H. unfold expectation_num. rewrite fold_asum, <- basis_iota.
    rewrite (asum_ext K _ (fun x => anorm (psi x) * emb (get_reg x start len))%amp). ring.
    intros x _. do 2 f_equal. apply N.bits_inj. intros j. rewrite tb_shiftr, N.land_spec, bitRegMask_ok, tb_get_reg by auto.
    destruct (N.leb_spec start (j + start)), (N.ltb_spec (j + start) (start + len)), (N.ltb_spec j len); try lia; cbn [andb]; rewrite ?andb_true_r, ?andb_false_r; auto.
  Qed.

  (** ** Measurement *)

  Lemma cellwise_ok n e (body : N -> prog K) (f : N -> K -> K) (psi psi' : V) : fits c n -> e <= 2 ^ n ->
    (forall i, i < e -> within (fun a => a = i) (body i) /\ forall m : V, exec (body i) m i = f i (m i)) ->
    loop_for c e body psi psi' -> forall x, x < e -> psi' x = f x (psi x).
  Proof.
    intros Hf He Hb HR x Hx. apply (loop_for_runs c n) in HR; auto.
    apply runs_cell in HR. destruct HR as [A _]. rewrite A by auto. now apply Hb. intros i Hi. now apply Hb.
  Qed.

  Theorem applym_ok n mask result (nrm : K) (psi : V) v' : fits c n -> mask < 2 ^ n -> result < 2 ^ n -> ApplyM c n mask result nrm (Some psi) v' ->
    exists psi', v' = Some psi' /\ eqv n psi' (project (fun x => N.land x mask =? result) nrm psi).
  Proof.
    intros Hf Hm Hr [psi' [HR ->]]. assert (Hn : n < 64) by apply Hf. exists psi'. split; auto. intros x Hx. rewrite !(w64_small _ n) in HR by auto.
    apply (cellwise_ok n (2 ^ n) _ (fun x y => if N.land x mask =? result then (nrm * y)%amp else 0%amp) psi psi' Hf (N.le_refl _)) with (2 := HR); auto.
    intros i _. unfold applym_body. destruct (N.land i mask =? result).
    - split. split; auto. cbn [within2]; auto. intros m. cbn [exec]. apply mset_eq.
    - split. split; auto. exact I. intros m. cbn [exec]. apply mset_eq.
  Qed.

  (** The outcome repeats: all weight is on the outcome, none on any other. *)
  Theorem project_repeat n (P : N -> bool) g (psi : V) :
    weight_of n P (project P g psi) = norm2 n (project P g psi) /\
    (forall Q, (forall x, Q x = true -> P x = false) -> weight_of n Q (project P g psi) = 0%amp) /\
    norm2 n (project P g psi) = (anorm g * weight_of n P psi)%amp.
  Proof.
    unfold weight_of, norm2, project. split; [|split].
    - apply asum_ext. intros x _. destruct (P x); auto. symmetry. apply anorm_0.
    - intros Q HQ. apply asum_zero. intros x _. destruct (Q x) eqn:E; auto. rewrite HQ by auto. apply anorm_0.
    - rewrite <- asum_scale. apply asum_ext. intros x _. destruct (P x). apply anorm_mul. rewrite anorm_0. ring.
  Qed.

  Theorem mparity_ok pb n mask result (psi psi' : V) : fits c n -> pb <= 64 -> mask < 2 ^ n -> mask < 2 ^ pb ->
    loop_for c (2 ^ n) (mparity_body pb mask result) psi psi' ->
    eqv n psi' (project (fun x => Bool.eqb (odd_bits 64 (N.land x mask)) result) 1%amp psi).
  Proof.
    intros Hf Hpb Hm Hm' HR x Hx. unfold project.
    apply (cellwise_ok n (2 ^ n) _ (fun x y => if Bool.eqb (odd_bits 64 (N.land x mask)) result then (1 * y)%amp else 0%amp) psi psi' Hf (N.le_refl _)) with (2 := HR); auto.
    intros i _. unfold mparity_body. rewrite popCountOcl_odd by (auto; now apply land_mask_lt). destruct (Bool.eqb _ _).
    - split. split; auto. exact (fun _ => I). intros m. cbn [exec]. ring.
    - split. split; auto. exact I. intros m. cbn [exec]. apply mset_eq.
  Qed.

  Theorem normalize_ok n (cnrm : K) below (psi psi' : V) : fits c n -> loop_for c (2 ^ n) (normalize_body cnrm below) psi psi' ->
    eqv n psi' (fun x => (cnrm * (if below (anorm (psi x)) then 0 else psi x))%amp).
  Proof.
    intros Hf HR x Hx.
    apply (cellwise_ok n (2 ^ n) _ (fun x y => (cnrm * (if below (anorm y) then 0 else y))%amp) psi psi' Hf (N.le_refl _)) with (2 := HR); auto.
    intros i _. unfold normalize_body. split. split; auto. cbn [within2]; auto. intros m. cbn [exec]. apply mset_eq.
  Qed.

  (** ** Amplitude pages *)
  Theorem get_page_ok n offset len (v : option V) (out : V) r : fits c n -> offset + len <= 2 ^ n -> GetAmplitudePage c n offset len v out r ->
    exists out', r = Ok out' /\ forall i, i < len -> out' i = vread v (offset + i).
  Proof.
    intros Hf Hr. assert (Hn : n < 64) by apply Hf. pose proof (pow2_lt_mono n 64 Hn). unfold GetAmplitudePage. rewrite isBadPermRange_ok by lia. destruct (N.ltb_spec (2 ^ n) (offset + len)); [lia|].
    intros [out' [HR ->]]. exists out'. split; auto. intros i Hi.
    apply (cellwise_ok n len _ (fun i _ => vread v (offset + i)) out out' Hf) with (3 := HR); auto. lia.
    intros j Hj. split. split; auto. exact I. intros m. cbn [exec]. rewrite mset_eq. f_equal. unfold w64. rewrite N.mod_small by lia. lia.
  Qed.
  Lemma cleared_ok n v (m : V) : fits c n -> cleared c n v m -> eqv n m (vread v).
  Proof.
    intros Hf. destruct v as [psi|]; cbn [cleared]. intros ->. intros x _. reflexivity.
    intros [fresh HF] x Hx. exact (fill_ok c n _ _ _ _ Hf (N.le_refl _) HF x Hx).
  Qed.
  Lemma paged_write n offset len (val : N -> K) (m0 m' : V) : fits c n -> offset + len <= 2 ^ n ->
    loop_for c len (fun lcv => Wr (w64 (lcv + offset)) (val lcv) Ret) m0 m' ->
    forall x, x < 2 ^ n -> m' x = if (offset <=? x) && (x <? offset + len) then val (x - offset) else m0 x.
  Proof.
    intros Hf Hr HR x Hx. assert (Hn : n < 64) by apply Hf. pose proof (pow2_lt_mono n 64 Hn).
    apply (loop_for_runs c n) in HR; auto; [|lia].
    destruct (runs_local (fun x => x < len) (fun i a => a = i + offset) (fun lcv => Wr (w64 (lcv + offset)) (val lcv) Ret) m0 m') as [A B]; auto.
    - intros; lia.
    - intros i Hi. split. unfold w64. rewrite N.mod_small by lia. reflexivity. exact I.
    - destruct (N.leb_spec offset x), (N.ltb_spec x (offset + len)); cbn [andb].
      + rewrite (A (x - offset)) by lia. cbn [exec]. unfold w64. rewrite N.mod_small by lia. replace (x - offset + offset) with x by lia. apply mset_eq.
      + apply B. intros i Hi. lia.
      + apply B. intros i Hi. lia.
      + apply B. intros i Hi. lia.
  Qed.
  Theorem set_page_ok n offset len (page : V) v r : fits c n -> offset + len <= 2 ^ n -> SetAmplitudePage c n offset len (page : V) v r ->
    exists m', r = Ok (Some m') /\ eqv n m' (overwrite offset len page (vread v)).
  Proof.
    intros Hf Hr. assert (Hn : n < 64) by apply Hf. pose proof (pow2_lt_mono n 64 Hn). unfold SetAmplitudePage. rewrite isBadPermRange_ok by lia. destruct (N.ltb_spec (2 ^ n) (offset + len)); [lia|].
    intros [m0 [m' [HC [HR ->]]]]. exists m'. split; auto. intros x Hx. rewrite (paged_write n offset len page m0 m' Hf Hr HR x Hx). unfold overwrite.
    destruct (_ && _); auto. apply (cleared_ok n v); auto.
  Qed.
  Theorem set_page_eng_ok n ns (src : option V) srcOffset dstOffset len v r : fits c n -> ns < 64 -> dstOffset + len <= 2 ^ n -> srcOffset + len <= 2 ^ ns ->
    SetAmplitudePageEng c n ns (src : option V) srcOffset dstOffset len v r ->
    exists v', r = Ok v' /\ eqv n (vread v') (overwrite dstOffset len (fun i => vread src (srcOffset + i)) (vread v)).
  Proof.
    intros Hf Hns Hd Hs. assert (Hn : n < 64) by apply Hf. pose proof (pow2_lt_mono n 64 Hn). pose proof (pow2_lt_mono ns 64 Hns).
    unfold SetAmplitudePageEng. rewrite !isBadPermRange_ok by lia.
    destruct (N.ltb_spec (2 ^ n) (dstOffset + len)); [lia|]. destruct (N.ltb_spec (2 ^ ns) (srcOffset + len)); [lia|]. cbn [orb].
    assert (G : forall m0 m', cleared c n v m0 -> loop_for c len (fun lcv => Wr (w64 (lcv + dstOffset)) (vread src (w64 (lcv + srcOffset))) Ret) m0 m' ->
      eqv n (vread (Some m')) (overwrite dstOffset len (fun i => vread src (srcOffset + i)) (vread v))).
    { intros m0 m' HC HR x Hx. cbn [vread]. rewrite (paged_write n dstOffset len (fun lcv => vread src (w64 (lcv + srcOffset))) m0 m' Hf Hd HR x Hx). unfold overwrite.
      destruct (N.leb_spec dstOffset x), (N.ltb_spec x (dstOffset + len)); cbn [andb]; try (apply (cleared_ok n v); auto).
      f_equal. unfold w64. rewrite N.mod_small by lia. lia. }
    destruct v as [psi|], src as [ps|]; cbn [andb].
    - intros [m0 [m' [HC [HR ->]]]]. exists (Some m'). split; auto. eapply G; eauto.
    - destruct (N.eqb_spec len (2 ^ n)).
      + intros ->. exists None. split; auto. intros x Hx. cbn [vread]. unfold overwrite. destruct (N.leb_spec dstOffset x), (N.ltb_spec x (dstOffset + len)); cbn [andb]; auto; lia.
      + intros [m0 [m' [HC [HR ->]]]]. exists (Some m'). split; auto. eapply G; eauto.
    - intros [m0 [m' [HC [HR ->]]]]. exists (Some m'). split; auto. eapply G; eauto.
    - intros ->. exists None. split; auto. intros x _. cbn [vread]. unfold overwrite. now destruct (_ && _).
  Qed.

  Theorem shuffle_ok n (va vb va' vb' : option V) : fits c n -> 0 < n -> ShuffleBuffers c n va vb va' vb' ->
    eqv n (vread va') (fun x => if N.testbit x (n - 1) then vread vb (x - 2 ^ (n - 1)) else vread va x) /\
    eqv n (vread vb') (fun x => if N.testbit x (n - 1) then vread vb x else vread va (x + 2 ^ (n - 1))).
  Proof.
    intros Hf H0. assert (Hn : n < 64) by apply Hf.
    assert (EH : N.shiftr (2 ^ n) 1 = 2 ^ (n - 1)).
    { rewrite N.shiftr_div_pow2. symmetry. apply N.div_unique_exact. discriminate. rewrite <- N.pow_add_r. f_equal. lia. }
    assert (E2 : 2 ^ n = 2 * 2 ^ (n - 1)) by (rewrite <- N.pow_succ_r'; f_equal; lia).
    assert (TB : forall x, x < 2 ^ n -> N.testbit x (n - 1) = (2 ^ (n - 1) <=? x)) by (intros x Hx; apply top_bit; [lia | auto]).
    unfold ShuffleBuffers. rewrite EH. set (h := 2 ^ (n - 1)) in *.
    assert (G : forall a b m', cleared c n va a -> cleared c n vb b -> loop_for c h (shuffle_body h) (pair_mem a b) m' ->
      eqv n (fun x => m' (2 * x)) (fun x => if N.testbit x (n - 1) then vread vb (x - h) else vread va x) /\
      eqv n (fun x => m' (2 * x + 1)) (fun x => if N.testbit x (n - 1) then vread vb x else vread va (x + h))).
    { intros a b m' HA HB HR. apply (cleared_ok n) in HA, HB; auto. apply (loop_for_runs c n) in HR; auto; [|lia].
      destruct (runs_local (fun x => x < h) (fun i z => z = 2 * (i + h) \/ z = 2 * i + 1) (shuffle_body h) (pair_mem a b) m') as [A B]; auto.
      - intros; lia.
      - intros i Hi. unfold shuffle_body. cbn [within2]. repeat split; auto.
      - assert (Pe : forall x, pair_mem a b (2 * x) = a x).
        { intros x. unfold pair_mem. rewrite N.testbit_even_0. f_equal. rewrite N.shiftr_div_pow2. change (2 ^ 1) with 2. rewrite N.mul_comm. now apply N.div_mul. }
        assert (Po : forall x, pair_mem a b (2 * x + 1) = b x).
        { intros x. unfold pair_mem. rewrite N.testbit_odd_0. f_equal. rewrite N.shiftr_div_pow2. change (2 ^ 1) with 2.
          symmetry. apply (N.div_unique (2 * x + 1) 2 x 1); lia. }
        assert (EX : forall i, i < h -> m' (2 * (i + h)) = b i /\ m' (2 * i + 1) = a (i + h)).
        { intros i Hi. rewrite !(A i) by auto. unfold shuffle_body. cbn [exec]. rewrite Pe, Po. rewrite mset_neq by lia. rewrite !mset_eq. auto. }
        split; intros x Hx; rewrite TB by auto; destruct (N.leb_spec h x).
        + destruct (EX (x - h)) as [E _]. lia. replace (x - h + h) with x in E by lia. rewrite E. apply HB. lia.
        + rewrite B by (intros i Hi; lia). rewrite Pe. apply HA. lia.
        + rewrite B by (intros i Hi; lia). rewrite Po. apply HB. lia.
        + destruct (EX x) as [_ E]. lia. rewrite E. apply HA. lia. }
    destruct va as [pa|], vb as [pb|].
    - intros [a [b [m' [HA [HB [HR [-> ->]]]]]]]. exact (G a b m' HA HB HR).
    - intros [a [b [m' [HA [HB [HR [-> ->]]]]]]]. exact (G a b m' HA HB HR).
    - intros [a [b [m' [HA [HB [HR [-> ->]]]]]]]. exact (G a b m' HA HB HR).
    - intros [-> ->]. split; intros x _; cbn [vread]; destruct (N.testbit x (n - 1)); reflexivity.
  Qed.
End Prob.
