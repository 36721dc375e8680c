(** Proofs about the C interface, part 6: ADD, Hash, LDA; Compose; init_clone. *)
From Coq Require Import NArith List Bool Lia Permutation Ring Sorted.
From Verif Require Import Bits MFunctions SpecFunctions PFunctions MParFor PParFor MKernel PKernel Amp PAmp SpecState MEngine SpecEngine PLoop PApply PGates PGates2 PGates3 PCompose PProb PEngine PEngine2
  MAlu SpecAlu PAlu PShard2 PQCirc1 PQCirc4 PQCirc6 SpecUnit3 MQCircuit MTensor SpecApi MApi SpecApi2 PApi1 PApi2 PApi3 PApi4 PApi5.
Import ListNotations.
Local Open Scope N_scope.

(** The listed qubits are at ascending positions. *)
Definition ascends (m : list (N * N)) (q : list N) : Prop := StronglySorted N.lt (map (fun x => match mfind x m with Some v => v | None => 0 end) q).
Lemma order_ascends m ids q : in_order m ids -> StronglySorted (earlier ids) q -> ascends m q.
Proof.
  intros H1 H2. unfold ascends. induction H2 as [|a t X1 IH X2]; cbn [map]; constructor; auto. rewrite Forall_forall in *. intros v Hv. apply in_map_iff in Hv. destruct Hv as (b & <- & Hb).
  destruct (X2 b Hb) as (l1 & l2 & l3 & E). rewrite (H1 l1 b (l2 ++ a :: l3)) by auto. rewrite (H1 (l1 ++ b :: l2) a l3) by (now rewrite <- app_assoc). rewrite app_length. cbn [length]. lia.
Qed.
Lemma value_write q k f : NoDup q -> k < 2 ^ N.of_nat (length q) -> value_of q (write_value q k f) = k.
Proof.
  intros ND Hk. apply N.bits_inj. intros j. destruct (N.lt_ge_cases j (N.of_nat (length q))) as [L|L].
  - destruct (nth_error q (N.to_nat j)) as [x|] eqn:E. 2:{ apply nth_error_None in E. lia. } rewrite <- (Nnat.N2Nat.id j). rewrite (value_nth q _ _ x E). now apply write_bits.
  - rewrite !(tb_high _ (N.of_nat (length q))); auto. apply value_lt.
Qed.
Lemma write_back q k f x : NoDup q -> write_value q (value_of q f) (write_value q k f) x = f x.
Proof.
  intros ND. destruct (in_dec N.eq_dec x q) as [I|I].
  - apply In_nth_error in I. destruct I as (j & J). rewrite (write_bits q _ _ j x ND J). now apply value_nth.
  - now rewrite !write_other.
Qed.

Section Arith.
  Context {K : StarRing} (c : @acfg K).
  Local Notation nstate := ((N -> bool) -> K).
  Local Open Scope amp_scope.
  Add Ring KrDO : (sr_ring K).
  Implicit Type Psi : nstate.

  Lemma reads_ext n Q m Psi f g : names n m -> reads_named Q m Psi -> (forall x, f x = g x) -> Psi f = Psi g.
  Proof. intros HN (ph & P1 & P2) H. apply (unit_cancel ph); auto. rewrite <- !P2. f_equal. apply index_ext. auto. Qed.

  Lemma positions n m q : names n m -> incl q (map fst m) -> (forall x, In x q -> (x < 256)%N) -> map (shard_id m) q = map (fun x => match mfind x m with Some v => v | None => 0%N end) q.
  Proof. intros H1 H2 H3. apply map_ext_in. intros x Hx. destruct (shard_ok n m x H1) as (v & _ & V2 & _ & V4); auto. now rewrite V2, V4. Qed.
  Lemma map1_ok q Q m Psi : names (s_n Q) m -> reads_named Q m Psi -> q <> [] -> incl q (map fst m) -> (forall x, In x q -> (x < 256)%N) -> ascends m q ->
    exists start Q' m', map1 q Q m = Ret (start, Q', m') /\ s_n Q' = s_n Q /\ names (s_n Q) m' /\ reads_named Q' m' Psi /\ map fst m' = map fst m /\ register m' start q /\ (start + N.of_nat (length q) <= s_n Q)%N /\
      (forall x v, mfind x m = Some v -> (forall b, In b (map (shard_id m) q) -> (b < v)%N) -> mfind x m' = Some v).
  Proof.
    intros HN HR NE IN LT AS. unfold map1. unfold ascends in AS. rewrite (positions (s_n Q) m q) by auto. set (bits := map _ q) in *.
    assert (PB : forall j x b, nth_error q j = Some x -> nth_error bits j = Some b -> mfind x m = Some b).
    { intros j x b J1 J2. unfold bits in J2. rewrite nth_error_map, J1 in J2. cbn [option_map] in J2. injection J2 as <-. destruct (names_pos _ _ HN x) as (v & _ & V & _). { apply IN. eapply nth_error_In; eauto. } now rewrite V. }
    assert (BL : forall b, In b bits -> (b < s_n Q)%N). { intros b Hb. unfold bits in Hb. apply in_map_iff in Hb. destruct Hb as (x & <- & X). destruct (names_pos _ _ HN x) as (v & _ & V & L); auto. now rewrite V. }
    assert (N256 : (s_n Q < 256)%N) by apply HN.
    destruct bits as [|b0 tb] eqn:EB. { destruct q; [congruence|discriminate]. } assert (L0 := BL b0 (or_introl eq_refl)).
    rewrite (lowest_sorted b0 tb) by (first [lia | exact AS]).
    destruct (gather_ok (b0 :: tb) q b0 0 Q m Psi (s_n Q)) as (Q' & m' & E & X1 & X2 & X3 & X4 & X5 & X6); auto.
    { rewrite <- EB. unfold bits. now rewrite map_length. }
    { intros b Hb. split; [|auto]. rewrite N.add_0_r. destruct Hb as [->|Hb]; [lia|]. inversion AS as [|? ? Y1 Y2]; subst. rewrite Forall_forall in Y2. specialize (Y2 b Hb). lia. }
    exists b0, Q', m'. rewrite E. cbn [bind]. split; auto. split; auto. split; auto. split; auto. split; auto. rewrite N.add_0_r in X5. split; [exact X5|]. split.
    - destruct (nth_error q (length q - 1)) as [x|] eqn:EX.
      + specialize (X5 _ _ EX). apply mfind_In in X5. assert (Y : (b0 + N.of_nat (length q - 1) < s_n Q)%N). { apply (names_in _ _ X2). apply in_map_iff. now exists (x, (b0 + N.of_nat (length q - 1))%N). } destruct q; [congruence|]. cbn [length] in *. lia.
      + apply nth_error_None in EX. destruct q; [congruence|]. cbn [length] in *. lia.
    - intros x v F C. apply X6; auto.
  Qed.

  (** A bijection of the values of one register. *)
  Lemma arith1 n start Q m ids Psi q (h g : N -> N) v' : s_n Q = n -> names n m -> Permutation (map fst m) ids -> nweight ids (fun _ => true) Psi = 1 -> reads_named Q m Psi -> register m start q -> NoDup q -> (start + N.of_nat (length q) <= n)%N ->
    (forall v, (v < 2 ^ N.of_nat (length q))%N -> (h v < 2 ^ N.of_nat (length q))%N) -> (forall v, (v < 2 ^ N.of_nat (length q))%N -> (g v < 2 ^ N.of_nat (length q))%N) -> (forall v, (v < 2 ^ N.of_nat (length q))%N -> h (g v) = v) ->
    (forall v, (v < 2 ^ N.of_nat (length q))%N -> g (h v) = v) ->
    (forall x, (x < 2 ^ n)%N -> v' x = s_v Q (put_reg x start (N.of_nat (length q)) (h (get_reg x start (N.of_nat (length q)))))) ->
    exists Psi', nweight ids (fun _ => true) Psi' = 1 /\ reads_named (mkSim n v') m Psi' /\ forall f, Psi' (write_value q (g (value_of q f)) f) = Psi f.
  Proof.
    intros HS HN HP HW HR RG ND HL Hh Hg HG HG2 HV. set (len := N.of_nat (length q)) in *. exists (fun f => Psi (write_value q (h (value_of q f)) f)).
    assert (RD : reads_named (mkSim n v') m (fun f => Psi (write_value q (h (value_of q f)) f))).
    { destruct HR as (ph & P1 & P2). exists ph. split; auto. intros f. cbn [s_v]. rewrite HV by now apply index_lt. unfold len. rewrite (reg_value n) by auto. rewrite (reg_write n); auto. apply Hh. apply value_lt. }
    split; [|split; auto].
    - rewrite <- HW. rewrite <- (norm_named n m ids v' _ HN HP (reads_anorm _ _ _ RD)), <- (norm_named n m ids (s_v Q) Psi HN HP (reads_anorm _ _ _ HR)).
      transitivity (norm2 n (fun x => s_v Q (put_reg x start len (h (get_reg x start len))))). { apply asum_ext. intros x Hx. apply basis_In in Hx. now rewrite HV. }
      apply (norm_bij n (fun x => put_reg x start len (h (get_reg x start len)))).
      + intros x Hx. apply put_reg_lt; auto. apply Hh. apply get_reg_lt.
      + intros x y _ _. apply (upd_inj h start len); auto. intros v w Hv Hw E. rewrite <- (HG2 v), <- (HG2 w) by auto. now rewrite E.
    - intros f. rewrite value_write; auto. 2:{ apply Hg. apply value_lt. } rewrite HG by apply value_lt. eapply reads_ext; [apply HN|apply HR|]. intros x. now apply write_back.
  Qed.

  Lemma on_sim_ok a sid s Q m f Q' m' : nth_error (a_slots a) (N.to_nat sid) = Some s -> sl_sim s = Some (Q, m) -> f Q m = Ret (Q', m') -> on_sim (K := K) sid f a = Ret (put sid (mkSlot (sl_res s) (Some (Q', m')) (sl_err s)) a).
  Proof. intros H1 H2 H3. unfold on_sim. rewrite (lookup_in _ _ s) by auto. now rewrite H2, H3. Qed.
  Definition ascending (a : @api K) (sid : N) (q : list N) : Prop := exists m, map_of a sid = Some m /\ ascends m q.
  Lemma range_ok8 n s len : (n < 256)%N -> (s + len <= n)%N -> isBadBitRange s len n = false.
  Proof. intros H1 H2. rewrite isBadBitRange_ok by (change (2 ^ 8)%N with 256%N; lia). apply N.ltb_ge. lia. Qed.
  Lemma ascends_nodup m q : ascends m q -> NoDup q.
  Proof. intros H. apply srt_nodup in H. eapply NoDup_map_inv; eauto. Qed.

  Section Call.
    Variables (a : @api K) (sid : N) (ids : list N) (Psi : nstate).
    Hypothesis (HH : holds a sid ids Psi) (HI : forall x, In x ids -> (x < 256)%N).
    Lemma open_call q0 : In q0 ids -> exists s Q m, nth_error (a_slots a) (N.to_nat sid) = Some s /\ sl_sim s = Some (Q, m) /\ names (s_n Q) m /\ Permutation (map fst m) ids /\ nweight ids (fun _ => true) Psi = 1 /\ reads_named Q m Psi /\ map_of a sid = Some m.
    Proof.
      intros I0. destruct HH as (s & S1 & S2 & S3 & S4 & S5). pose proof (some_sim s ids q0 _ eq_refl S3 I0) as SS. destruct (sim_of s) as [Q m] eqn:ES. cbn [fst snd] in *. exists s, Q, m.
      do 6 (split; auto). unfold map_of. rewrite S1. cbn [option_map]. now rewrite ES.
    Qed.
    Lemma add_ok q k : ac_cap c = 6%N -> q <> [] -> incl q ids -> ascending a sid q ->
      exists a' Psi', api_add c sid [k] q a = Ret a' /\ holds a' sid ids Psi' /\ only_at sid a a' /\ forall f, Psi' (write_value q ((value_of q f + k) mod 2 ^ N.of_nat (length q))%N f) = Psi f.
    Proof.
      intros CAP NE IN (m0 & M1 & AS). destruct q as [|q0 tq] eqn:EQ; [congruence|]. rewrite <- EQ in *. destruct (open_call q0) as (s & Q & m & S1 & S2 & HN & HP & HW & HR & EM). { apply IN. rewrite EQ. now left. }
      assert (m0 = m) by congruence. subst m0.
      assert (IN' : incl q (map fst m)). { intros x Hx. eapply Permutation_in; [apply Permutation_sym; apply HP|]. auto. }
      destruct (map1_ok q Q m Psi HN HR NE IN') as (start & Q' & m' & E & X1 & X2 & X3 & X4 & X5 & X6 & _); auto.
      set (len := N.of_nat (length q)) in *. assert (P0 : (2 ^ len <> 0)%N) by (apply N.pow_nonzero; lia).
      destruct (arith1 (s_n Q) start Q' m' ids Psi q (fun v => (v + (2 ^ len - k mod 2 ^ len)) mod 2 ^ len)%N (fun v => (v + k) mod 2 ^ len)%N
        (fun x => s_v Q' (set_reg start len ((get_reg x start len + (2 ^ len - k mod 2 ^ len)) mod 2 ^ len)%N x))) as (Psi' & Y1 & Y2 & Y3); auto.
      - now rewrite X4.
      - eapply ascends_nodup; eauto.
      - intros v Hv. now apply N.mod_lt.
      - intros v Hv. now apply N.mod_lt.
      - intros v Hv. fold len in Hv. rewrite N.add_mod_idemp_l by auto. assert (KM := N.mod_lt k _ P0). rewrite (N.div_mod' k (2 ^ len)) at 1. set (r := (k mod 2 ^ len)%N) in *.
        replace (v + (2 ^ len * (k / 2 ^ len) + r) + (2 ^ len - r))%N with (v + (1 + k / 2 ^ len) * 2 ^ len)%N by lia. rewrite N.mod_add by auto. now apply N.mod_small.
      - intros v Hv. fold len in Hv. rewrite N.add_mod_idemp_l by auto. assert (KM := N.mod_lt k _ P0). rewrite (N.div_mod' k (2 ^ len)) at 2. set (r := (k mod 2 ^ len)%N) in *.
        replace (v + (2 ^ len - r) + (2 ^ len * (k / 2 ^ len) + r))%N with (v + (1 + k / 2 ^ len) * 2 ^ len)%N by lia. rewrite N.mod_add by auto. now apply N.mod_small.
      - eexists. exists Psi'. split; [unfold api_add; eapply on_sim_ok; eauto|].
        + unfold combine_a. rewrite CAP. cbn [length]. cbn -[map1 sim_inc]. rewrite E. cbn [bind]. unfold sim_inc. fold len. rewrite X1, range_ok8 by (auto; apply HN). reflexivity.
        + split; [|split; auto]; rewrite put_eta.
          * eapply holds_put; eauto. now rewrite X4.
          * eapply put_only; eauto.
    Qed.
    Lemma hash_ok q t : q <> [] -> incl q ids -> ascending a sid q -> (forall v, (v < 2 ^ N.of_nat (length q))%N -> (t v < 2 ^ N.of_nat (length q))%N) ->
      (forall v w, (v < 2 ^ N.of_nat (length q))%N -> (w < 2 ^ N.of_nat (length q))%N -> t v = t w -> v = w) ->
      exists a' Psi', api_hash sid q t a = Ret a' /\ holds a' sid ids Psi' /\ only_at sid a a' /\ forall f, Psi' (write_value q (t (value_of q f)) f) = Psi f.
    Proof.
      intros NE IN (m0 & M1 & AS) T1 T2. destruct q as [|q0 tq] eqn:EQ; [congruence|]. rewrite <- EQ in *. destruct (open_call q0) as (s & Q & m & S1 & S2 & HN & HP & HW & HR & EM). { apply IN. rewrite EQ. now left. }
      assert (m0 = m) by congruence. subst m0.
      assert (IN' : incl q (map fst m)). { intros x Hx. eapply Permutation_in; [apply Permutation_sym; apply HP|]. auto. }
      destruct (map1_ok q Q m Psi HN HR NE IN') as (start & Q' & m' & E & X1 & X2 & X3 & X4 & X5 & X6 & _); auto.
      set (len := N.of_nat (length q)) in *. set (h := fun y => match find (fun k => (t k =? y)%N) (basis len) with Some k => k | None => 0%N end).
      assert (FND : forall y, (y < 2 ^ len)%N -> exists k, find (fun k => (t k =? y)%N) (basis len) = Some k /\ (k < 2 ^ len)%N /\ t k = y).
      { intros y Hy. destruct (find (fun k => (t k =? y)%N) (basis len)) as [k|] eqn:F.
        - apply find_some in F. destruct F as [F1 F2]. apply basis_In in F1. apply N.eqb_eq in F2. eauto.
        - exfalso. destruct (finite_surj len t T1 T2 y Hy) as (x & X & Y). pose proof (find_none _ _ F x) as Z. cbv beta in Z. rewrite Y, N.eqb_refl in Z. assert (false = true); [|discriminate]. symmetry. apply Z. now apply basis_In. }
      assert (HT : forall v, (v < 2 ^ len)%N -> h (t v) = v). { intros v Hv. unfold h. destruct (FND (t v) (T1 v Hv)) as (k & -> & K1 & K2). apply T2; auto. }
      destruct (arith1 (s_n Q) start Q' m' ids Psi q h t
        (fun x => match find (fun k => (t k =? get_reg x start len)%N) (basis len) with Some k => s_v Q' (set_reg start len k x) | None => 0 end)) as (Psi' & Y1 & Y2 & Y3); auto.
      - now rewrite X4.
      - eapply ascends_nodup; eauto.
      - intros v Hv. unfold h. destruct (FND v Hv) as (k & -> & K1 & K2). auto.
      - intros v Hv. unfold h. destruct (FND v Hv) as (k & -> & K1 & K2). auto.
      - intros x Hx. fold len. unfold h. destruct (FND (get_reg x start len)) as (k & -> & K1 & K2); [apply get_reg_lt|]. reflexivity.
      - eexists. exists Psi'. split; [unfold api_hash; eapply on_sim_ok; eauto|].
        + rewrite E. cbn [bind]. unfold sim_hash. fold len. rewrite X1, range_ok8 by (auto; apply HN). reflexivity.
        + split; [|split; auto]; rewrite put_eta.
          * eapply holds_put; eauto. now rewrite X4.
          * eapply put_only; eauto.
    Qed.
  End Call.
End Arith.
