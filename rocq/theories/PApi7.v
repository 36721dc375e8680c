(** Proofs about the C interface, part 7: LDA, Compose, init_clone. *)
From Coq Require Import NArith List Bool Lia Permutation Ring Sorted.
From Verif Require Import Bits MFunctions SpecFunctions PFunctions MParFor PParFor MKernel PKernel Amp PAmp SpecState MEngine SpecEngine PLoop PApply PGates PGates2 PGates3 PCompose PProb PEngine PEngine2
  MAlu SpecAlu PAlu PShard2 PQCirc1 PQCirc4 PQCirc6 SpecUnit3 MQCircuit MTensor PUnit4 SpecApi MApi SpecApi2 PApi1 PApi2 PApi3 PApi4 PApi5 PApi6.
Import ListNotations.
Local Open Scope N_scope.

Lemma sorted_app (l1 l2 : list N) : StronglySorted N.lt (l1 ++ l2) -> StronglySorted N.lt l1 /\ StronglySorted N.lt l2 /\ forall a b, In a l1 -> In b l2 -> a < b.
Proof.
  induction l1 as [|a t IH]; cbn [app]; intros H. { split; [constructor|]. split; auto. intros a b []. }
  inversion H as [|? ? H1 H2]; subst. destruct (IH H1) as (I1 & I2 & I3). rewrite Forall_forall in H2. split; [constructor; auto; rewrite Forall_forall; intros x X; apply H2; apply in_or_app; auto|]. split; auto.
  intros x y [->|X] Y; [apply H2; apply in_or_app; auto|auto].
Qed.
Lemma setbit_add x k : x < 2 ^ k -> N.setbit x k = x + 2 ^ k.
Proof.
  intros H. assert (L : N.land x (2 ^ k) = 0). { apply N.bits_inj. intros j. rewrite N.land_spec, N.bits_0, N.pow2_bits_eqb. destruct (N.eqb_spec k j); [|apply andb_false_r]. subst. rewrite (tb_high x j); auto; lia. }
  unfold N.setbit. rewrite N.shiftl_1_l. now rewrite N.add_nocarry_lxor, N.lxor_lor by auto.
Qed.
Lemma sorted_span b l : StronglySorted N.lt (b :: l) -> forall c, (forall x, In x (b :: l) -> x < c) -> b + N.of_nat (length (b :: l)) <= c.
Proof.
  revert b. induction l as [|a t IH]; intros b H c Hc. { specialize (Hc b (or_introl eq_refl)). cbn [length]. lia. }
  inversion H as [|? ? H1 H2]; subst. rewrite Forall_forall in H2. specialize (IH a H1 c (fun x X => Hc x (or_intror X))). specialize (H2 a (or_introl eq_refl)). cbn [length] in *. lia.
Qed.

Section Arith.
  Context {K : StarRing} (c : @acfg K).
  Local Notation nstate := ((N -> bool) -> K).
  Local Open Scope amp_scope.
  Add Ring KrDP : (sr_ring K).
  Implicit Type Psi : nstate.

  Lemma map2_ok q1 q2 Q m Psi : names (s_n Q) m -> reads_named Q m Psi -> q1 <> [] -> q2 <> [] -> incl (q1 ++ q2) (map fst m) -> (forall x, In x (q1 ++ q2) -> (x < 256)%N) -> ascends m (q1 ++ q2) ->
    exists s1 s2 Q' m', map2 q1 q2 Q m = Ret (s1, s2, Q', m') /\ s_n Q' = s_n Q /\ names (s_n Q) m' /\ reads_named Q' m' Psi /\ map fst m' = map fst m /\ register m' s1 q1 /\ register m' s2 q2 /\
      (s1 + N.of_nat (length q1) <= s2)%N /\ (s2 + N.of_nat (length q2) <= s_n Q)%N.
  Proof.
    intros HN HR NE1 NE2 IN LT AS. unfold map2. unfold ascends in AS. rewrite map_app in AS.
    rewrite (positions (s_n Q) m q1), (positions (s_n Q) m q2); auto; try (intros x Hx; first [apply IN | apply LT]; apply in_or_app; auto; fail).
    set (pos := fun x => match mfind x m with Some v => v | None => 0%N end) in *.
    assert (PB : forall x, In x (q1 ++ q2) -> mfind x m = Some (pos x)). { intros x Hx. destruct (names_pos _ _ HN x) as (v & _ & V & _). { now apply IN. } unfold pos. now rewrite V. }
    assert (BL : forall x, In x (q1 ++ q2) -> (pos x < s_n Q)%N). { intros x Hx. destruct (names_pos _ _ HN x) as (v & _ & V & L). { now apply IN. } unfold pos. now rewrite V. }
    assert (N256 : (s_n Q < 256)%N) by apply HN. apply sorted_app in AS. destruct AS as (A1 & A2 & A3).
    assert (NT1 : forall j x b, nth_error q1 j = Some x -> nth_error (map pos q1) j = Some b -> mfind x m = Some b).
    { intros j x b J1 J2. rewrite nth_error_map, J1 in J2. cbn [option_map] in J2. injection J2 as <-. apply PB. apply in_or_app. left. eapply nth_error_In; eauto. }
    assert (NT2 : forall j x b, nth_error q2 j = Some x -> nth_error (map pos q2) j = Some b -> x = x /\ In x q2 /\ b = pos x).
    { intros j x b J1 J2. rewrite nth_error_map, J1 in J2. cbn [option_map] in J2. injection J2 as <-. split; auto. split; auto. eapply nth_error_In; eauto. }
    assert (L1 : forall b, In b (map pos q1) -> (b < s_n Q)%N). { intros b Hb. apply in_map_iff in Hb. destruct Hb as (x & <- & X). apply BL. apply in_or_app. auto. }
    assert (L2 : forall b, In b (map pos q2) -> (b < s_n Q)%N). { intros b Hb. apply in_map_iff in Hb. destruct Hb as (x & <- & X). apply BL. apply in_or_app. auto. }
    assert (LE1 : length q1 = length (map pos q1)) by now rewrite map_length. assert (LE2 : length q2 = length (map pos q2)) by now rewrite map_length.
    assert (Q2 : forall x, In x q2 -> In (pos x) (map pos q2)) by (intros; now apply in_map).
    remember (map pos q1) as b1 eqn:EB1. remember (map pos q2) as b2 eqn:EB2. destruct b1 as [|x1 t1]. { destruct q1; [congruence|discriminate]. } destruct b2 as [|x2 t2]. { destruct q2; [congruence|discriminate]. }
    assert (Z1 := L1 x1 (or_introl eq_refl)). assert (Z2 := L2 x2 (or_introl eq_refl)). assert (Z3 := A3 x1 x2 (or_introl eq_refl) (or_introl eq_refl)).
    rewrite (lowest_sorted x1 t1) by (first [lia | exact A1]). rewrite (lowest_sorted x2 t2) by (first [lia | exact A2]).
    destruct (N.ltb_spec x2 x1) as [G|G]; [lia|]. cbv beta iota. rewrite (lowest_sorted x1 t1) by (first [lia | exact A1]). rewrite (lowest_sorted x2 t2) by (first [lia | exact A2]).
    destruct (gather_ok (x1 :: t1) q1 x1 0 Q m Psi (s_n Q)) as (Q1 & m1 & E1 & X1 & X2 & X3 & X4 & X5 & X6); auto.
    { intros b Hb. split; [|auto]. rewrite N.add_0_r. destruct Hb as [->|Hb]; [lia|]. inversion A1 as [|? ? Y1 Y2]; subst. rewrite Forall_forall in Y2. specialize (Y2 b Hb). lia. }
    rewrite E1. cbn [bind]. assert (SP := sorted_span x1 t1 A1 x2 (fun x X => A3 x x2 X (or_introl eq_refl))). rewrite N.max_r by exact SP.
    destruct (gather_ok (x2 :: t2) q2 x2 0 Q1 m1 Psi (s_n Q)) as (Q' & m' & E2 & Y1 & Y2 & Y3 & Y4 & Y5 & Y6); auto.
    { intros j x b J1 J2. destruct (NT2 j x b J1 J2) as (_ & I2 & ->). apply X6; [apply PB; apply in_or_app; auto|]. right. intros b Hb. apply A3; auto. }
    { intros b Hb. split; [|auto]. rewrite N.add_0_r. destruct Hb as [->|Hb]; [lia|]. inversion A2 as [|? ? W1 W2]; subst. rewrite Forall_forall in W2. specialize (W2 b Hb). lia. }
    rewrite E2. cbn [bind]. exists x1, x2, Q', m'. split; auto. split; auto. split; auto. split; auto. split; [congruence|]. rewrite N.add_0_r in X5, Y5. split; [|split; [exact Y5|split; [rewrite LE1; exact SP|]]].
    - intros j x J. apply Y6; [now apply X5|]. left. assert (JL : (j < length q1)%nat) by (apply nth_error_Some; congruence). rewrite LE1 in JL. cbn [length] in *. lia.
    - destruct (nth_error q2 (length q2 - 1)) as [x|] eqn:EX.
      + specialize (Y5 _ _ EX). apply mfind_In in Y5. assert (Y : (x2 + N.of_nat (length q2 - 1) < s_n Q)%N). { apply (names_in _ _ Y2). apply in_map_iff. now exists (x, (x2 + N.of_nat (length q2 - 1))%N). } rewrite LE2 in *. cbn [length] in *. lia.
      + apply nth_error_None in EX. rewrite LE2 in *. cbn [length] in *. lia.
  Qed.

  Section Call.
    Variables (a : @api K) (sid : N) (ids : list N) (Psi : nstate).
    Hypothesis (HH : holds a sid ids Psi) (HI : forall x, In x ids -> (x < 256)%N).
    (** LDA into a clear register. *)
    Lemma lda_ok qi qv t : qi <> [] -> qv <> [] -> incl (qi ++ qv) ids -> ascending a sid (qi ++ qv) -> (forall v, (v < 2 ^ N.of_nat (length qi))%N -> (t v < 2 ^ N.of_nat (length qv))%N) -> (forall f, value_of qv f <> 0%N -> Psi f = 0) ->
      exists a', api_lda sid qi qv t a = Ret a' /\ holds a' sid ids (fun f => if (value_of qv f =? t (value_of qi f))%N then Psi (write_value qv 0 f) else 0) /\ only_at sid a a'.
    Proof.
      intros NE1 NE2 IN (m0 & M1 & AS) TB CL. destruct qi as [|q0 tq] eqn:EQ; [congruence|]. rewrite <- EQ in *. destruct (open_call a sid ids Psi HH q0) as (s & Q & m & S1 & S2 & HN & HP & HW & HR & EM). { apply IN. rewrite EQ. now left. }
      assert (m0 = m) by congruence. subst m0.
      assert (IN' : incl (qi ++ qv) (map fst m)). { intros x Hx. eapply Permutation_in; [apply Permutation_sym; apply HP|]. auto. }
      destruct (map2_ok qi qv Q m Psi HN HR NE1 NE2 IN') as (s1 & s2 & Q' & m' & E & X1 & X2 & X3 & X4 & X5 & X6 & X7 & X8); auto. assert (N256 : (s_n Q < 256)%N) by apply HN.
      assert (ND : NoDup qv). { apply ascends_nodup in AS. clear - AS. induction qi; auto. inversion AS; auto. }
      set (il := N.of_nat (length qi)) in *. set (vl := N.of_nat (length qv)) in *. set (Psi' := fun f => if (value_of qv f =? t (value_of qi f))%N then Psi (write_value qv 0 f) else 0).
      set (v' := fun x => if (get_reg x s2 vl =? t (get_reg x s1 il))%N then s_v Q' (set_reg s2 vl 0 x) else 0).
      assert (P0 : (2 ^ vl <> 0)%N) by (apply N.pow_nonzero; lia).
      assert (RD : reads_named (mkSim (s_n Q) v') m' Psi').
      { destruct X3 as (ph & P1 & P2). exists ph. split; auto. intros f. cbn [s_v]. unfold v', Psi'. unfold il, vl. rewrite (reg_value (s_n Q) m' s1 qi f X2 X5), (reg_value (s_n Q) m' s2 qv f X2 X6). destruct (value_of qv f =? t (value_of qi f))%N; [|ring].
        change (set_reg s2 (N.of_nat (length qv)) 0 (index_of m' f)) with (put_reg (index_of m' f) s2 (N.of_nat (length qv)) 0). rewrite (reg_write (s_n Q)); auto. apply N.neq_0_lt_0. apply N.pow_nonzero. lia. }
      assert (NW : nweight ids (fun _ => true) Psi' = 1).
      { rewrite <- HW. assert (HP' : Permutation (map fst m') ids) by now rewrite X4. rewrite <- (norm_named (s_n Q) m' ids v' _ X2 HP' (reads_anorm _ _ _ RD)), <- (norm_named (s_n Q) m' ids (s_v Q') Psi X2 HP' (reads_anorm _ _ _ X3)).
        set (g := fun x => put_reg x s2 vl ((get_reg x s2 vl + (2 ^ vl - t (get_reg x s1 il))) mod 2 ^ vl)%N).
        assert (GB : forall x, get_reg (g x) s2 vl = ((get_reg x s2 vl + (2 ^ vl - t (get_reg x s1 il))) mod 2 ^ vl)%N). { intros x. unfold g. apply get_put_same. now apply N.mod_lt. }
        assert (G1 : forall x, get_reg (g x) s1 il = get_reg x s1 il). { intros x. unfold g. apply get_put_other; [now apply N.mod_lt|]. unfold disjoint_regs. lia. }
        assert (TL : forall x, (t (get_reg x s1 il) < 2 ^ vl)%N) by (intros x; apply TB; apply get_reg_lt).
        transitivity (norm2 (s_n Q) (fun x => s_v Q' (g x))).
        - apply asum_ext. intros x Hx. apply basis_In in Hx. f_equal. unfold v'. assert (VL := get_reg_lt x s2 vl). specialize (TL x). destruct (N.eqb_spec (get_reg x s2 vl) (t (get_reg x s1 il))) as [Z|Z].
          + f_equal. unfold g. rewrite Z. replace (t (get_reg x s1 il) + (2 ^ vl - t (get_reg x s1 il)))%N with (2 ^ vl)%N by lia. now rewrite N.mod_same.
          + symmetry. assert (GL : (g x < 2 ^ s_n Q)%N). { unfold g. apply put_reg_lt; auto. now apply N.mod_lt. } destruct (index_onto (s_n Q) m' X2 (g x) GL) as (f & F). destruct X3 as (ph & P1 & P2). rewrite <- F, P2, CL; [ring|]. rewrite <- (reg_value (s_n Q) m' s2 qv f X2 X6), F. fold vl. rewrite GB.
            destruct (N.lt_ge_cases (get_reg x s2 vl) (t (get_reg x s1 il))) as [L|L].
            * rewrite N.mod_small by lia. lia.
            * replace (get_reg x s2 vl + (2 ^ vl - t (get_reg x s1 il)))%N with (get_reg x s2 vl - t (get_reg x s1 il) + 1 * 2 ^ vl)%N by lia. rewrite N.mod_add, N.mod_small by (auto; lia). lia.
        - apply (norm_bij (s_n Q) g).
          + intros x Hx. unfold g. apply put_reg_lt; auto. now apply N.mod_lt.
          + intros x y _ _ GE. assert (E1 : get_reg x s1 il = get_reg y s1 il) by (rewrite <- (G1 x), <- (G1 y); now rewrite GE). assert (VX := get_reg_lt x s2 vl). assert (VY := get_reg_lt y s2 vl).
            apply (upd_inj (fun v => (v + (2 ^ vl - t (get_reg x s1 il))) mod 2 ^ vl)%N s2 vl).
            * intros v _. now apply N.mod_lt.
            * intros v w Hv Hw Z. specialize (TL x). set (d := (2 ^ vl - t (get_reg x s1 il))%N) in *. assert (Z' : (((v + d) mod 2 ^ vl + (2 ^ vl - d)) mod 2 ^ vl = ((w + d) mod 2 ^ vl + (2 ^ vl - d)) mod 2 ^ vl)%N) by now rewrite Z.
              rewrite !N.add_mod_idemp_l in Z' by auto. replace (v + d + (2 ^ vl - d))%N with (v + 1 * 2 ^ vl)%N in Z' by lia. replace (w + d + (2 ^ vl - d))%N with (w + 1 * 2 ^ vl)%N in Z' by lia. rewrite !N.mod_add in Z' by auto. now rewrite !N.mod_small in Z' by auto.
            * unfold g in GE. rewrite <- E1 in GE. exact GE. }
      eexists. split; [unfold api_lda; eapply on_sim_ok; eauto|].
      - rewrite E. cbn [bind]. unfold sim_lda. fold il vl. rewrite X1, !range_ok8 by (auto; lia). cbn [orb bind]. reflexivity.
      - split; rewrite put_eta.
        + eapply holds_put; eauto. now rewrite X4.
        + eapply put_only; eauto.
    Qed.
  End Call.

  (** ** Compose *)
  Lemma name_new_ok q : forall o i m n, n = (o + i)%N -> names n m -> (n + N.of_nat (length q) < 256)%N -> NoDup q -> (forall x, In x q -> ~ In x (map fst m)) ->
    names (n + N.of_nat (length q)) (name_new q o i m) /\ Permutation (map fst (name_new q o i m)) (rev q ++ map fst m) /\ forall f, index_of (name_new q o i m) f = (index_of m f + 2 ^ n * value_of q f)%N.
  Proof.
    induction q as [|x t IH]; intros o i m n E HN HL ND HF; cbn [name_new length rev app value_of].
    - rewrite N.add_0_r. split; auto. split; auto. intros f. lia.
    - cbn [length] in HL. inversion ND as [|? ? D1 D2]; subst. assert (W : w8 (o + i) = (o + i)%N) by (unfold w8; apply N.mod_small; lia). rewrite W.
      assert (F1 : ~ In x (map fst m)) by (apply HF; now left). assert (PN := mset_new x (o + i)%N m F1).
      destruct (IH o (i + 1)%N (mset x (o + i)%N m) (o + i + 1)%N) as (I1 & I2 & I3); auto; try lia.
      { apply names_new; auto. lia. }
      { intros y Hy Z. rewrite (Permutation_map fst PN) in Z. destruct Z as [Z|Z]; [cbn in Z; subst; contradiction|]. apply (HF y); auto. now right. }
      split; [replace (o + i + N.of_nat (S (length t)))%N with (o + i + 1 + N.of_nat (length t))%N by lia; auto|]. split.
      + rewrite I2, (Permutation_map fst PN). cbn [map fst]. now rewrite <- app_assoc.
      + intros f. rewrite I3, index_new by (auto; lia). rewrite N.add_1_r at 1. rewrite N.pow_succ_r'. destruct (f x); [|lia]. rewrite setbit_add by (now apply index_lt). lia.
  Qed.
  Lemma rename_value l1 : forall l2 f, NoDup l1 -> length l1 = length l2 -> value_of l1 (rename l1 l2 f) = value_of l2 f.
  Proof.
    induction l1 as [|a t IH]; intros [|b t2] f ND HL; try discriminate; cbn [rename value_of]; auto. injection HL as HL. inversion ND as [|? ? D1 D2]; subst. rewrite upd_same. f_equal. f_equal.
    rewrite <- (IH t2 f D2 HL). clear - D1. generalize (rename t t2 f). intros g. induction t as [|y t IH]; cbn [value_of]; auto. rewrite IH by (intros Z; apply D1; now right). f_equal. unfold upd. destruct (N.eqb_spec y a); auto. subst. exfalso. apply D1. now left.
  Qed.
  (** The qubits of the second simulator get the names [q], in the order of allocation. *)
  Lemma compose_ok a sid1 sid2 ids1 ids2 Psi1 Psi2 q : holds a sid1 ids1 Psi1 -> holds a sid2 ids2 Psi2 -> ids1 <> [] -> ids2 <> [] -> sid1 <> sid2 -> ordered a sid2 ids2 -> length q = length ids2 -> NoDup q -> (forall x, In x q -> ~ In x ids1) ->
    (N.of_nat (length ids1) + N.of_nat (length ids2) <= ac_max c)%N -> (ac_max c < 256)%N ->
    exists a', api_compose c sid1 sid2 q a = Ret a' /\ holds a' sid1 (rev q ++ ids1) (nboth Psi1 (fun f => Psi2 (rename (rev ids2) q f))) /\ only_at sid1 a a'.
  Proof.
    intros H1 H2 NE1 NE2 DS (mm & M1 & OR) HL ND HF HM HX. destruct ids1 as [|x1 t1] eqn:EI1; [congruence|]. rewrite <- EI1 in *. destruct ids2 as [|x2 t2] eqn:EI2; [congruence|]. rewrite <- EI2 in *.
    destruct (open_call a sid1 ids1 Psi1 H1 x1) as (s1 & Q1 & m1 & A1 & A2 & A3 & A4 & A5 & A6 & _). { rewrite EI1. now left. }
    destruct (open_call a sid2 ids2 Psi2 H2 x2) as (s2 & Q2 & m2 & B1 & B2 & B3 & B4 & B5 & B6 & B7). { rewrite EI2. now left. } assert (mm = m2) by congruence. subst mm.
    assert (L1 := names_length _ _ A3). assert (L2 := names_length _ _ B3). assert (P1 := Permutation_length A4). assert (P2 := Permutation_length B4). rewrite map_length in P1, P2.
    destruct (name_new_ok q (s_n Q1) 0 m1 (s_n Q1)) as (N1 & N2 & N3); auto; try lia.
    { intros x Hx Z. apply (HF x Hx). eapply Permutation_in; eauto. }
    assert (LQ : N.of_nat (length q) = s_n Q2) by lia. rewrite LQ in N1.
    assert (RD : reads_named (mkSim (s_n Q1 + s_n Q2) (tensor (s_n Q1) (s_v Q1) (s_v Q2))) (name_new q (s_n Q1) 0 m1) (nboth Psi1 (fun f => Psi2 (rename (rev ids2) q f)))).
    { destruct A6 as (p1 & U1 & V1). destruct B6 as (p2 & U2 & V2). exists (p1 * p2). split; [rewrite anorm_mul, U1, U2; ring|]. intros f. cbn [s_v]. unfold nboth, tensor. rewrite N3.
      assert (IL := index_lt (s_n Q1) m1 A3 f). assert (P0 : (2 ^ s_n Q1 <> 0)%N) by (apply N.pow_nonzero; lia).
      assert (Z1 : ((index_of m1 f + 2 ^ s_n Q1 * value_of q f) mod 2 ^ s_n Q1 = index_of m1 f)%N) by (rewrite (N.mul_comm (2 ^ s_n Q1)), N.mod_add by auto; now apply N.mod_small).
      assert (Z2 : ((index_of m1 f + 2 ^ s_n Q1 * value_of q f) / 2 ^ s_n Q1 = value_of q f)%N) by (rewrite (N.mul_comm (2 ^ s_n Q1)), N.div_add by auto; now rewrite N.div_small).
      rewrite Z1, Z2.
      assert (DN : NoDup (rev ids2)). { apply NoDup_rev. eapply Permutation_NoDup; [apply B4|]. apply (names_keys _ _ B3). }
      rewrite V1. rewrite <- (rename_value (rev ids2) q f DN) by (rewrite rev_length; lia). rewrite <- (order_value (s_n Q2) m2 ids2) by auto. rewrite V2. ring. }
    exists (put sid1 (mkSlot (sl_res s1) (Some (mkSim (s_n Q1 + s_n Q2) (tensor (s_n Q1) (s_v Q1) (s_v Q2)), name_new q (s_n Q1) 0 m1)) (sl_err s1)) a). split.
    - unfold api_compose. rewrite A1, B1, A2, B2. destruct (N.eqb_spec sid1 sid2); [contradiction|]. unfold sim_compose. destruct (N.ltb_spec (ac_max c) (s_n Q1 + s_n Q2)) as [Z|Z]; [lia|].
      rewrite firstn_all2 by lia. reflexivity.
    - split; rewrite put_eta.
      + eapply holds_put; eauto; cbn [s_n].
        * rewrite N2. now apply Permutation_app_head.
        * assert (PP : Permutation (map fst (name_new q (s_n Q1) 0 m1)) (rev q ++ ids1)) by (rewrite N2; now apply Permutation_app_head).
          rewrite <- (norm_named _ _ _ _ _ N1 PP (reads_anorm _ _ _ RD)). cbn [s_v]. rewrite norm_tensor. rewrite (norm_named _ _ _ _ _ A3 A4 (reads_anorm _ _ _ A6)), A5. rewrite (norm_named _ _ _ _ _ B3 B4 (reads_anorm _ _ _ B6)), B5. ring.
      + eapply put_only; eauto.
  Qed.

  (** ** init_clone *)
  Lemma clone_ok a sid ids Psi n : holds a sid ids Psi -> ids <> [] -> map_of a sid = Some (fill n) -> exists sid' a', init_clone sid a = Ret (sid', a') /\ holds a' sid' ids Psi /\ a_meta a' = a_meta a /\ (forall i, i <> N.to_nat sid' -> nth_error (a_slots a') i = nth_error (a_slots a) i) /\ (forall s, nth_error (a_slots a) (N.to_nat sid') = Some s -> sl_res s = false).
  Proof.
    intros H NE M. destruct ids as [|x t] eqn:E; [congruence|]. rewrite <- E in *. destruct (open_call a sid ids Psi H x) as (s & Q & m & A1 & A2 & A3 & A4 & A5 & A6 & A7). { rewrite E. now left. } assert (m = fill n) by congruence. subst m.
    assert (L := names_length _ _ A3). assert (s_n Q = n). { unfold fill in L. rewrite map_length, iota_length in L. lia. }
    unfold init_clone. rewrite (lookup_in _ _ s) by auto. rewrite A2. pose proof (install_at (K := K) (Some (Q, fill (s_n Q))) a) as I. destruct (install (Some (Q, fill (s_n Q))) a) as [sid' a']. destruct I as (I1 & I2 & I3 & I4). exists sid', a'. split; auto. split; auto.
    exists (mkSlot true (Some (Q, fill (s_n Q))) 0). split; auto. unfold sim_of. cbn [sl_sim fst snd]. rewrite H0 in A3 |- *. split; [exact A3|]. auto.
  Qed.
  (** Programs that do not allocate or release keep the names. *)
  Lemma calls_map l : forall a sid ids Psi rs a', proper c -> holds a sid ids Psi -> (forall q, In q ids -> (q < 256)%N) -> allowed_all 256 (ac_max c) l ids Psi -> forallb (keeps_ids (K := K)) l = true -> api_calls c sid l a = Ret (rs, a') -> map_of a' sid = map_of a sid.
  Proof.
    induction l as [|k t IH]; intros a sid ids Psi rs a' HC HH HI HA HK HR; cbn [api_calls] in HR. { now injection HR as <- <-. }
    cbn [forallb] in HK. apply andb_true_iff in HK. destruct HK as [K1 K2]. cbn [allowed_all] in HA. destruct HA as [A1 A2]. destruct (one_call c a sid ids Psi k HC HH HI A1) as (r & a1 & ids1 & Psi1 & E & NS & H1 & O1 & HI1).
    rewrite E in HR. cbn [bind] in HR. destruct (api_calls c sid t a1) as [[rs2 a2]| |] eqn:E2; cbn [bind] in HR; try discriminate. injection HR as <- <-. rewrite (IH a1 sid ids1 Psi1 rs2 a2); auto. 2:{ eapply A2; eauto. }
    destruct (holds_slot a sid ids Psi HH) as (s & S1). pose proof (map_call c a sid s k r a1 S1 E) as M. destruct k; try discriminate; exact M.
  Qed.
End Arith.
