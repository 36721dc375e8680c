(** Proofs about the C interface, part 11: LDA with the value register below the index register. *)
From Coq Require Import NArith List Bool Lia Permutation Ring Sorted.
From Verif Require Import Bits MFunctions SpecFunctions PFunctions MParFor PParFor MKernel PKernel Amp PAmp SpecState MEngine SpecEngine PLoop PApply PGates PGates2 PGates3 PCompose PProb PEngine PEngine2
  MAlu SpecAlu PAlu PShard2 PQCirc1 PQCirc4 PQCirc6 SpecUnit3 MQCircuit MTensor PUnit4 SpecApi MApi SpecApi2 PApi1 PApi2 PApi3 PApi4 PApi5 PApi6 PApi7.
Import ListNotations.
Local Open Scope N_scope.

Section Arith.
  Context {K : StarRing} (c : @acfg K).
  Local Notation nstate := ((N -> bool) -> K).
  Local Open Scope amp_scope.
  Add Ring KrEO : (sr_ring K).
  Implicit Type Psi : nstate.

  Lemma map2_swap q1 q2 (Q : @sim K) m : names (s_n Q) m -> q1 <> [] -> q2 <> [] -> incl (q1 ++ q2) (map fst m) -> (forall x, In x (q1 ++ q2) -> (x < 256)%N) -> ascends m (q2 ++ q1) ->
    map2 q1 q2 Q m = do (s1, s2, Q', m') <- map2 q2 q1 Q m; Ret (s2, s1, Q', m').
  Proof.
    intros HN NE1 NE2 IN LT AS. unfold map2. unfold ascends in AS. rewrite map_app in AS.
    rewrite (positions (s_n Q) m q1), (positions (s_n Q) m q2); auto; try (intros x Hx; first [apply IN | apply LT]; apply in_or_app; auto; fail).
    set (pos := fun x => match mfind x m with Some v => v | None => 0%N end) in *.
    assert (BL : forall x, In x (q1 ++ q2) -> (pos x < s_n Q)%N). { intros x Hx. destruct (names_pos _ _ HN x) as (v & _ & V & L). { now apply IN. } unfold pos. now rewrite V. }
    assert (N256 : (s_n Q < 256)%N) by apply HN. apply sorted_app in AS. destruct AS as (A2 & A1 & A3).
    assert (L1 : forall b, In b (map pos q1) -> (b < s_n Q)%N). { intros b Hb. apply in_map_iff in Hb. destruct Hb as (x & <- & X). apply BL. apply in_or_app. auto. }
    assert (L2 : forall b, In b (map pos q2) -> (b < s_n Q)%N). { intros b Hb. apply in_map_iff in Hb. destruct Hb as (x & <- & X). apply BL. apply in_or_app. auto. }
    destruct (map pos q1) as [|x1 t1] eqn:EB1. { destruct q1; [congruence|discriminate]. } destruct (map pos q2) as [|x2 t2] eqn:EB2. { destruct q2; [congruence|discriminate]. }
    assert (Z1 := L1 x1 (or_introl eq_refl)). assert (Z2 := L2 x2 (or_introl eq_refl)). assert (Z3 := A3 x2 x1 (or_introl eq_refl) (or_introl eq_refl)).
    rewrite (lowest_sorted x1 t1) by (first [lia | exact A1]). rewrite (lowest_sorted x2 t2) by (first [lia | exact A2]).
    destruct (N.ltb_spec x2 x1) as [G|G]; [|lia]. destruct (N.ltb_spec x1 x2) as [G2|G2]; [lia|]. cbv beta iota. destruct (gather (x2 :: t2) (lowest (x2 :: t2)) 0 Q m) as [[Q1 m1]| |]; cbn [bind]; auto.
    destruct (gather (x1 :: t1) _ 0 Q1 m1) as [[Q2 m2]| |]; reflexivity.
  Qed.
  Lemma map2_low_ok q1 q2 Q m Psi : names (s_n Q) m -> reads_named Q m Psi -> q1 <> [] -> q2 <> [] -> incl (q1 ++ q2) (map fst m) -> (forall x, In x (q1 ++ q2) -> (x < 256)%N) -> ascends m (q2 ++ q1) ->
    exists s1 s2 Q' m', map2 q1 q2 Q m = Ret (s1, s2, Q', m') /\ s_n Q' = s_n Q /\ names (s_n Q) m' /\ reads_named Q' m' Psi /\ map fst m' = map fst m /\ register m' s1 q1 /\ register m' s2 q2 /\
      (s2 + N.of_nat (length q2) <= s1)%N /\ (s1 + N.of_nat (length q1) <= s_n Q)%N.
  Proof.
    intros HN HR NE1 NE2 IN LT AS. assert (SW : forall x, In x (q2 ++ q1) -> In x (q1 ++ q2)) by (intros x Hx; apply in_or_app; apply in_app_or in Hx; tauto).
    rewrite map2_swap by auto. destruct (map2_ok q2 q1 Q m Psi) as (s1 & s2 & Q' & m' & E & X1 & X2 & X3 & X4 & X5 & X6 & X7 & X8); auto. { intros x Hx. apply IN. auto. }
    rewrite E. cbn [bind]. exists s2, s1, Q', m'. auto 10.
  Qed.

  Section Call.
    Variables (a : @api K) (sid : N) (ids : list N) (Psi : nstate).
    Hypothesis (HH : holds a sid ids Psi) (HI : forall x, In x ids -> (x < 256)%N).
    (** LDA into a clear register below the index register. *)
    Lemma lda_low_ok qi qv t : qi <> [] -> qv <> [] -> incl (qi ++ qv) ids -> ascending a sid (qv ++ qi) -> (forall v, (v < 2 ^ N.of_nat (length qi))%N -> (t v < 2 ^ N.of_nat (length qv))%N) -> (forall f, value_of qv f <> 0%N -> Psi f = 0) ->
      exists a', api_lda sid qi qv t a = Ret a' /\ holds a' sid ids (fun f => if (value_of qv f =? t (value_of qi f))%N then Psi (write_value qv 0 f) else 0) /\ only_at sid a a'.
    Proof.
      intros NE1 NE2 IN (m0 & M1 & AS) TB CL. destruct qi as [|q0 tq] eqn:EQ; [congruence|]. rewrite <- EQ in *. destruct (open_call a sid ids Psi HH q0) as (s & Q & m & S1 & S2 & HN & HP & HW & HR & EM). { apply IN. rewrite EQ. now left. }
      assert (m0 = m) by congruence. subst m0.
      assert (IN' : incl (qi ++ qv) (map fst m)). { intros x Hx. eapply Permutation_in; [apply Permutation_sym; apply HP|]. auto. }
      destruct (map2_low_ok qi qv Q m Psi HN HR NE1 NE2 IN') as (s1 & s2 & Q' & m' & E & X1 & X2 & X3 & X4 & X5 & X6 & X7 & X8); auto. assert (N256 : (s_n Q < 256)%N) by apply HN.
      assert (ND : NoDup qv). { apply ascends_nodup in AS. clear - AS. induction qv as [|z tz IH]; [constructor|]. inversion AS as [|? ? D1 D2]; subst. constructor; auto. intros Z. apply D1. apply in_or_app. auto. }
      set (il := N.of_nat (length qi)) in *. set (vl := N.of_nat (length qv)) in *. set (Psi' := fun f => if (value_of qv f =? t (value_of qi f))%N then Psi (write_value qv 0 f) else 0).
      set (v' := fun x => if (get_reg x s2 vl =? t (get_reg x s1 il))%N then s_v Q' (set_reg s2 vl 0 x) else 0).
      assert (P0 : (2 ^ vl <> 0)%N) by (apply N.pow_nonzero; lia). assert (X9 : (s2 + vl <= s_n Q)%N) by lia.
      assert (RD : reads_named (mkSim (s_n Q) v') m' Psi').
      { destruct X3 as (ph & P1 & P2). exists ph. split; auto. intros f. cbn [s_v]. unfold v', Psi'. unfold il, vl. rewrite (reg_value (s_n Q) m' s1 qi f X2 X5), (reg_value (s_n Q) m' s2 qv f X2 X6). destruct (value_of qv f =? t (value_of qi f))%N; [|ring].
        change (set_reg s2 (N.of_nat (length qv)) 0 (index_of m' f)) with (put_reg (index_of m' f) s2 (N.of_nat (length qv)) 0). rewrite (reg_write (s_n Q)); auto. apply N.neq_0_lt_0. apply N.pow_nonzero. lia. }
      assert (NW : nweight ids (fun _ => true) Psi' = 1).
      { rewrite <- HW. assert (HP' : Permutation (map fst m') ids) by now rewrite X4. rewrite <- (norm_named (s_n Q) m' ids v' _ X2 HP' (reads_anorm _ _ _ RD)), <- (norm_named (s_n Q) m' ids (s_v Q') Psi X2 HP' (reads_anorm _ _ _ X3)).
        set (g := fun x => put_reg x s2 vl ((get_reg x s2 vl + (2 ^ vl - t (get_reg x s1 il))) mod 2 ^ vl)%N).
        assert (GB : forall x, get_reg (g x) s2 vl = ((get_reg x s2 vl + (2 ^ vl - t (get_reg x s1 il))) mod 2 ^ vl)%N). { intros x. unfold g. apply get_put_same. now apply N.mod_lt. }
        assert (G1 : forall x, get_reg (g x) s1 il = get_reg x s1 il). { intros x. unfold g. apply get_put_other; [now apply N.mod_lt|]. unfold disjoint_regs. lia. }
        assert (TL : forall x, (t (get_reg x s1 il) < 2 ^ vl)%N) by (intros x; apply TB; apply get_reg_lt).
        transitivity (norm2 (s_n Q) (fun x => s_v Q' (g x))).
        - apply asum_ext. intros x Hx. apply basis_In in Hx. f_equal. unfold v'. assert (VL := get_reg_lt x s2 vl). specialize (TL x). destruct (N.eqb_spec (get_reg x s2 vl) (t (get_reg x s1 il))) as [Z|Z].
          + f_equal. unfold g. rewrite Z. replace (t (get_reg x s1 il) + (2 ^ vl - t (get_reg x s1 il)))%N with (2 ^ vl)%N by lia. now rewrite N.mod_same.
          + symmetry. assert (GL : (g x < 2 ^ s_n Q)%N). { unfold g. apply put_reg_lt; auto. now apply N.mod_lt. } destruct (index_onto (s_n Q) m' X2 (g x) GL) as (f & F). destruct X3 as (ph & P1 & P2). rewrite <- F, P2, CL; [ring|]. rewrite <- (reg_value (s_n Q) m' s2 qv f X2 X6), F. fold vl. rewrite GB.
            destruct (N.lt_ge_cases (get_reg x s2 vl) (t (get_reg x s1 il))) as [L|L].
            * rewrite N.mod_small by lia. lia.
            * replace (get_reg x s2 vl + (2 ^ vl - t (get_reg x s1 il)))%N with (get_reg x s2 vl - t (get_reg x s1 il) + 1 * 2 ^ vl)%N by lia. rewrite N.mod_add, N.mod_small by (auto; lia). lia.
        - apply (norm_bij (s_n Q) g).
          + intros x Hx. unfold g. apply put_reg_lt; auto. now apply N.mod_lt.
          + intros x y _ _ GE. assert (E1 : get_reg x s1 il = get_reg y s1 il) by (rewrite <- (G1 x), <- (G1 y); now rewrite GE). assert (VX := get_reg_lt x s2 vl). assert (VY := get_reg_lt y s2 vl).
            apply (upd_inj (fun v => (v + (2 ^ vl - t (get_reg x s1 il))) mod 2 ^ vl)%N s2 vl).
            * intros v _. now apply N.mod_lt.
            * intros v w Hv Hw Z. specialize (TL x). set (d := (2 ^ vl - t (get_reg x s1 il))%N) in *. assert (Z' : (((v + d) mod 2 ^ vl + (2 ^ vl - d)) mod 2 ^ vl = ((w + d) mod 2 ^ vl + (2 ^ vl - d)) mod 2 ^ vl)%N) by now rewrite Z.
              rewrite !N.add_mod_idemp_l in Z' by auto. replace (v + d + (2 ^ vl - d))%N with (v + 1 * 2 ^ vl)%N in Z' by lia. replace (w + d + (2 ^ vl - d))%N with (w + 1 * 2 ^ vl)%N in Z' by lia. rewrite !N.mod_add in Z' by auto. now rewrite !N.mod_small in Z' by auto.
            * unfold g in GE. rewrite <- E1 in GE. exact GE. }
      eexists. split; [unfold api_lda; eapply on_sim_ok; eauto|].
      - rewrite E. cbn [bind]. unfold sim_lda. fold il vl. rewrite X1, !range_ok8 by (auto; lia). cbn [orb bind]. reflexivity.
      - split; rewrite put_eta.
        + eapply holds_put; eauto. now rewrite X4.
        + eapply put_only; eauto.
    Qed.
  End Call.
End Arith.
