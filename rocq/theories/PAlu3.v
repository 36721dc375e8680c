(** Proofs about the arithmetic kernels (part 3: INCC, DECC, INCSC, DECSC, INCS). *)
From Coq Require Import NArith ZArith List Bool Lia Ring.
From Verif Require Import Bits MFunctions SpecFunctions PFunctions MParFor PParFor MKernel PKernel Amp PAmp MEngine SpecState SpecEngine
  PLoop PApply PGates PGates2 PGates3 PCompose PProb PEngine MAlu SpecAlu PAlu PAlu2.
Import ListNotations.
Local Open Scope N_scope.

Section S.
  Context {K : StarRing}.
  Add Ring KrC : (sr_ring K).
  Variable c : cfg.
  Local Notation V := (mem K).

  Lemma bit_is_true q b x : bit_is q b x = true -> N.testbit x q = b.
  Proof. unfold bit_is. apply eqb_prop. Qed.
  Lemma lxor_put x q : N.testbit x q = true -> N.lxor x (2 ^ q) = put_bit x q false.
  Proof. intros H. now rewrite lxor_clear. Qed.
  Lemma put_bit_put x q a b : put_bit (put_bit x q a) q b = put_bit x q b.
  Proof. apply N.bits_inj. intros j. rewrite !tb_put_bit. bcases; auto. Qed.
  Lemma put_reg_bit x s len v q b : v < 2 ^ len -> outside_reg q s len -> put_reg (put_bit x q b) s len v = put_bit (put_reg x s len v) q b.
  Proof.
    intros Hv Ho. apply N.bits_inj. intros j. rewrite tb_put_bit, !tb_put_reg, !tb_put_bit by auto. unfold outside_reg in Ho. bcases; auto; subst; lia.
  Qed.

  Lemma with_carry_ok rgp (nrm : K) n q (act : bool -> option V -> res (option V) -> Prop) (F : bool -> N -> N) (P : bool -> N -> K) (psi : V) r : fits c n -> q < n ->
    (forall b psi1 r1, supported n (bit_is q false) psi1 -> act b (Some psi1) r1 ->
       exists psi', r1 = Ok (Some psi') /\ basis_map n (bit_is q false) (F b) (P b) psi1 psi') ->
    with_carry c rgp nrm n q act psi r ->
    exists psi' b g, r = Ok (Some psi') /\ measured n (bit_is q b) nrm g psi /\
      basis_map n (bit_is q b) (fun x => F b (put_bit x q false)) (fun x => (P b (put_bit x q false) * g)%amp) psi psi'.
  Proof.
    intros Hf Hq Ha [b [psi1 [HM HR]]]. apply mbit_ok in HM; auto. destruct HM as [g [Hg HB]].
    assert (HC : exists psi2, basis_map n (bit_is q b) (fun x => put_bit x q false) (fun _ => g) psi psi2 /\ act b (Some psi2) r).
    { destruct b.
      - destruct HR as [r1 [HX HR]]. apply x_ok in HX; auto. destruct HX as [psi2 [-> HX]]. exists psi2. split; auto.
        pose proof (basis_map_comp n _ _ _ _ _ _ _ _ _ HB HX (fun _ _ _ => eq_refl)) as HC. cbn beta in HC.
        eapply basis_map_ext; [| |exact HC]; auto. intros x Hx Dx. split; [|ring]. apply bit_is_true in Dx. now apply lxor_put.
      - exists psi1. split; auto. eapply basis_map_ext; [| |exact HB]; auto. intros x Hx Dx. split; auto. apply bit_is_true in Dx. symmetry. now apply put_bit_clear. }
    destruct HC as [psi2 [HC HA]].
    assert (HD : forall x, x < 2 ^ n -> bit_is q b x = true -> bit_is q false (put_bit x q false) = true).
    { intros x _ _. unfold bit_is. rewrite tb_put_bit, N.eqb_refl. reflexivity. }
    apply Ha in HA; [|apply (basis_map_supported n _ _ _ _ _ _ HC HD)]. destruct HA as [psi' [-> HA]]. exists psi', b, g. split; auto. split; auto.
    exact (basis_map_comp n _ _ _ _ _ _ _ _ _ HC HA HD).
  Qed.
  Lemma with_carry_any rgp (nrm : K) n q (act : bool -> option V -> res (option V) -> Prop) (psi : V) : fits c n -> q < n -> nonzero n psi -> (forall b v, exists r, act b v r) ->
    exists r, with_carry c rgp nrm n q act psi r.
  Proof.
    intros Hf Hq Hn Ha. destruct (mbit_any c nrm n q psi Hf Hq Hn) as [b [psi1 HM]]. destruct b.
    - destruct (mtrx_any c rgp n (matX : mat2 K) q (Some psi1) Hf) as [r1 HX]. pose proof HX as H2. apply x_ok in H2; auto.
      destruct H2 as [psi2 [-> _]]. destruct (Ha true (Some psi2)) as [r Hr]. exists r, true, psi1. split; auto. exists (Ok (Some psi2)). auto.
    - destruct (Ha false (Some psi1)) as [r Hr]. exists r, false, psi1. auto.
  Qed.

  (** The register and carry seen by the kernel after the carry has been cleared. *)
  Lemma add_carry_cleared s len q a x b t : outside_reg q s len -> N.testbit x q = b -> a + N.b2n b = t -> t < 2 ^ len ->
    add_carry s len q (t mod 2 ^ len) (put_bit x q false) = add_carry s len q a x.
  Proof.
    intros Ho Hb Ht Hl. unfold add_carry. rewrite get_put_bit, tb_put_bit, N.eqb_refl by auto. cbn [N.b2n]. rewrite N.add_0_r, Hb, <- N.add_assoc, Ht.
    rewrite (N.mod_small t) by auto. rewrite put_reg_bit, put_bit_put by (auto; apply mod_lt_pow2). reflexivity.
  Qed.
  Lemma w128_sum_mod t len : len <= 63 -> w128 t mod 2 ^ len = t mod 2 ^ len.
  Proof.
    intros H. unfold w128. apply N.bits_inj. intros j. rewrite !tb_mod2. bcases; auto; lia.
  Qed.

  Theorem incc_ok rgp (nrm : K) n toAdd s len q (psi : V) r : fits c n -> s + len <= n -> q < n -> outside_reg q s len -> 1 <= len ->
    INCC c rgp nrm n toAdd s len q psi r ->
    exists psi' b g, r = Ok (Some psi') /\ measured n (bit_is q b) nrm g psi /\
      (toAdd + N.b2n b < 2 ^ len -> basis_map n (bit_is q b) (add_carry s len q toAdd) (fun _ => g) psi psi') /\
      (toAdd = 2 ^ len - 1 -> b = true -> basis_map n (bit_is q b) (fun x => put_bit x q false) (fun _ => g) psi psi').
  Proof.
    intros Hf Hs Hq Ho Hl HR. assert (n < 64) by apply Hf. unfold INCC in HR. destruct (N.eqb_spec len 0); [lia|].
    apply (with_carry_ok rgp nrm n q _ (fun b => add_carry s len q ((if b then w128 (toAdd + 1) else toAdd) mod 2 ^ len)) (fun _ _ => 1%amp)) in HR; auto.
    - destruct HR as [psi' [b [g [-> [Hg HB]]]]]. exists psi', b, g. split; auto. split; auto. split.
      + intros Ha. eapply basis_map_ext; [| |exact HB]; auto.
        intros x Hx Dx. cbn beta. split; [|ring]. apply bit_is_true in Dx. destruct b; cbn [N.b2n] in Ha.
        * rewrite w128_sum_mod by lia. now apply (add_carry_cleared s len q toAdd x true).
        * rewrite N.add_0_r in Ha. apply (add_carry_cleared s len q toAdd x false); auto. cbn [N.b2n]. lia.
      + intros Ha ->. eapply basis_map_ext; [| |exact HB]; auto. intros x Hx Dx. cbn beta. split; [|ring].
        rewrite w128_sum_mod by lia. pose proof (pow2_pos len). replace (toAdd + 1) with (2 ^ len) by lia. rewrite N.mod_same by apply pow2_nz.
        unfold add_carry. rewrite get_put_bit, tb_put_bit, N.eqb_refl by auto. cbn [N.b2n]. rewrite !N.add_0_r.
        pose proof (get_reg_lt x s len) as Hg2. rewrite N.mod_small by auto. rewrite put_reg_bit, put_get, put_bit_put by auto.
        destruct (N.leb_spec (2 ^ len) (get_reg x s len)); auto; lia.
    - intros b psi1 r1 Hsup HA. apply incdecc_ok in HA; auto; [|exact I]. destruct HA as [psi' [-> HB]]. exists psi'. split; auto.
      eapply basis_map_ext; [| |exact HB]; auto. intros x Hx Dx. split; auto. unfold carry_ph. cbn [flip_on]. now rewrite andb_false_r.
  Qed.
  Lemma incc_any rgp (nrm : K) n toAdd s len q (psi : V) : fits c n -> q < n -> nonzero n psi -> exists r, INCC c rgp nrm n toAdd s len q psi r.
  Proof.
    intros Hf Hq Hn. unfold INCC. destruct (len =? 0); [eauto|]. apply with_carry_any; auto. intros b v. now apply incdecc_any.
  Qed.

  (** ** DECC *)
  Lemma dec_const_val len a b : len <= 63 -> a < 2 ^ len -> (a = 0 -> b = false) ->
    dec_const len a b mod 2 ^ len = 2 ^ len - a - (1 - N.b2n b).
  Proof.
    intros Hl Ha Hb. pose proof (pow2_pos len) as HP. assert (HL : 2 ^ len <= 2 ^ 63) by (apply N.pow_le_mono_r; lia).
    unfold dec_const, sub128, pow2_128, w128. rewrite N.shiftl_mul_pow2, N.mul_1_l.
    change (2 ^ 63) with 9223372036854775808 in *. change (2 ^ 128) with 340282366920938463463374607431768211456 in *.
    set (M := 2 ^ len) in *. clearbody M.
    rewrite !(N.mod_small M) by lia. rewrite !(N.mod_small a) by lia.
    assert (E1 : (M + (340282366920938463463374607431768211456 - a)) mod 340282366920938463463374607431768211456 = M - a).
    { replace (M + (340282366920938463463374607431768211456 - a)) with ((M - a) + 1 * 340282366920938463463374607431768211456) by lia.
      rewrite N.mod_add, N.mod_small by lia. auto. }
    rewrite E1. destruct b; cbn [N.b2n].
    - rewrite N.sub_diag, N.sub_0_r. apply N.mod_small. destruct (N.eq_dec a 0); [|lia]. discriminate (Hb e).
    - change (1 mod 340282366920938463463374607431768211456) with 1. rewrite N.sub_0_r.
      replace (M - a + (340282366920938463463374607431768211456 - 1)) with ((M - a - 1) + 1 * 340282366920938463463374607431768211456) by lia.
      rewrite N.mod_add, !N.mod_small by (try rewrite N.mod_small; lia). auto.
  Qed.
  Lemma sub_carry_cleared s len q a x b : len <= 63 -> outside_reg q s len -> N.testbit x q = b -> a < 2 ^ len -> (a = 0 -> b = false) ->
    add_carry s len q (dec_const len a b mod 2 ^ len) (put_bit x q false) = sub_carry s len q a x.
  Proof.
    intros Hl Ho Hb Ha Hab. unfold add_carry, sub_carry. rewrite get_put_bit, tb_put_bit, N.eqb_refl by auto. cbn [N.b2n]. rewrite N.add_0_r, Hb.
    rewrite dec_const_val by auto. pose proof (get_reg_lt x s len) as Hg. pose proof (pow2_pos len) as HP.
    rewrite put_reg_bit, put_bit_put by (auto; apply mod_lt_pow2).
    assert (EZ : (2 ^ Z.of_N len = Z.of_N (2 ^ len))%Z) by (rewrite N2Z.inj_pow; reflexivity). set (u := get_reg x s len) in *. clearbody u.
    assert (E : Z.to_N ((Z.of_N u - Z.of_N a - (1 - Z.of_N (N.b2n b))) mod 2 ^ Z.of_N len) = (u + (2 ^ len - a - (1 - N.b2n b))) mod 2 ^ len).
    { rewrite EZ. set (M := 2 ^ len) in *. clearbody M.
      assert (H2 : Z.of_N (u + (M - a - (1 - N.b2n b))) = ((Z.of_N u - Z.of_N a - (1 - Z.of_N (N.b2n b))) + 1 * Z.of_N M)%Z).
      { destruct b; cbn [N.b2n]; lia. }
      rewrite <- (Z.mod_add _ 1) by lia. rewrite <- H2, <- N2Z.inj_mod. apply N2Z.id. }
    rewrite E. f_equal. destruct b; cbn [N.b2n]; [destruct (N.eq_dec a 0) as [e|]; [discriminate (Hab e)|]|].
    all: match goal with |- (?p <=? ?t) = (0 <=? ?d)%Z => destruct (N.leb_spec p t), (Z.leb_spec 0 d); auto; lia end.
  Qed.
  Theorem decc_ok rgp (nrm : K) n toSub s len q (psi : V) r : fits c n -> s + len <= n -> q < n -> outside_reg q s len -> toSub < 2 ^ len ->
    DECC c rgp nrm n toSub s len q psi r ->
    exists psi' b g, r = Ok (Some psi') /\ measured n (bit_is q b) nrm g psi /\
      ((toSub = 0 -> b = false) -> basis_map n (bit_is q b) (sub_carry s len q toSub) (fun _ => g) psi psi') /\
      (toSub = 0 -> b = true -> basis_map n (bit_is q b) (fun x => put_bit x q false) (fun _ => g) psi psi').
  Proof.
    intros Hf Hs Hq Ho Ha HR. assert (n < 64) by apply Hf. unfold DECC in HR.
    apply (with_carry_ok rgp nrm n q _ (fun b => add_carry s len q (dec_const len toSub b mod 2 ^ len)) (fun _ _ => 1%amp)) in HR; auto.
    - destruct HR as [psi' [b [g [-> [Hg HB]]]]]. exists psi', b, g. split; auto. split; auto. split.
      + intros Hb. eapply basis_map_ext; [| |exact HB]; auto.
        intros x Hx Dx. cbn beta. split; [|ring]. apply bit_is_true in Dx. apply sub_carry_cleared; auto. lia.
      + intros -> ->. eapply basis_map_ext; [| |exact HB]; auto. intros x Hx Dx. cbn beta. split; [|ring].
        unfold dec_const. rewrite neg_const by lia. rewrite N.mod_0_l, N.sub_0_r, N.mod_same by apply pow2_nz.
        unfold add_carry. rewrite get_put_bit, tb_put_bit, N.eqb_refl by auto. cbn [N.b2n]. rewrite !N.add_0_r.
        pose proof (get_reg_lt x s len) as Hg2. rewrite N.mod_small by auto. rewrite put_reg_bit, put_get, put_bit_put by auto.
        destruct (N.leb_spec (2 ^ len) (get_reg x s len)); auto; lia.
    - intros b psi1 r1 Hsup HA. apply incdecc_ok in HA; auto; [|exact I]. destruct HA as [psi' [-> HB]]. exists psi'. split; auto.
      eapply basis_map_ext; [| |exact HB]; auto. intros x Hx Dx. split; auto. unfold carry_ph. cbn [flip_on]. now rewrite andb_false_r.
  Qed.
  Lemma decc_any rgp (nrm : K) n toSub s len q (psi : V) : fits c n -> q < n -> nonzero n psi -> exists r, DECC c rgp nrm n toSub s len q psi r.
  Proof. intros Hf Hq Hn. apply with_carry_any; auto. intros b v. now apply incdecc_any. Qed.

  (** ** INCS *)
  Theorem incs_ok n toAdd s len o (psi : V) r : fits c n -> s + len <= n -> o < n -> outside_reg o s len -> 1 <= len <= 62 ->
    INCS c n toAdd s len o (Some psi) r ->
    exists psi', r = Ok (Some psi') /\
      basis_map n always (add_reg s len toAdd) (fun x => sgn (overflows len (get_reg x s len) (toAdd mod 2 ^ len) && N.testbit x o)) psi psi'.
  Proof.
    intros Hf Hr Hq Ho Hl HR. assert (Hn : n < 64) by apply Hf. unfold INCS in HR. rewrite range_ok in HR by auto.
    destruct (N.leb_spec n o); [lia|]. cbn [orb] in HR. destruct (N.eqb_spec len 0); [lia|].
    cbv zeta in HR. change (pow2Ocl len - 1) with (pow2MaskOcl len) in HR. rewrite addend_ok in HR by lia.
    set (a := toAdd mod 2 ^ len) in *. assert (Ha : a < 2 ^ len) by apply mod_lt_pow2.
    assert (HA : forall x, add_reg s len toAdd x = add_reg s len a x) by (intros; unfold a; now rewrite add_reg_mod).
    destruct (N.eqb_spec a 0) as [E|E].
    - subst r. exists psi. split; auto. eapply basis_map_ext; [| |apply basis_map_id]; auto. intros x Hx _. split.
      + symmetry. apply add_reg_0. exact E.
      + rewrite E, no_overflow_0 by (auto; apply get_reg_lt). reflexivity.
    - destruct HR as [m0 [m' [H0 [HL ->]]]]. exists m'. split; auto. rewrite !pow2Ocl_small in HL by lia. fold (rmask s len) in HL.
      refine (scatter_perm c n _ _ _ psi m0 m' Hf _ _ HL).
      + intros x Hx. split. now apply add_reg_lt. rewrite field_ok by lia. pose proof (get_reg_lt x s len) as Hg.
        assert (Hw : w64 (get_reg x s len + a) = get_reg x s len + a).
        { unfold w64. apply N.mod_small. assert (2 * 2 ^ len <= 2 ^ 64); [|lia]. rewrite <- N.pow_succ_r'. apply N.pow_le_mono_r; lia. }
        rewrite Hw.
        assert (HO : (if get_reg x s len + a <? 2 ^ len then N.lor (shl64 (get_reg x s len + a) s) (N.land x (N.lxor (2 ^ n - 1) (rmask s len)))
                      else N.lor (shl64 (get_reg x s len + a - 2 ^ len) s) (N.land x (N.lxor (2 ^ n - 1) (rmask s len)))) = add_reg s len toAdd x).
        { rewrite HA. unfold add_reg. destruct (N.ltb_spec (get_reg x s len + a) (2 ^ len)).
          - rewrite (put_ok x n s len) by (auto; lia). now rewrite N.mod_small.
          - rewrite (put_ok x n s len) by (auto; lia). f_equal.
            replace (get_reg x s len + a) with ((get_reg x s len + a - 2 ^ len) + 1 * 2 ^ len) at 2 by lia. rewrite N.mod_add, N.mod_small by lia. auto. }
        rewrite HO. f_equal. rewrite (flip_val_ok (FlipIf o) len n) by (auto; split; auto). unfold carry_ph, sgn, flip_on.
        replace (N.testbit (add_reg s len toAdd x) o) with (N.testbit x o); auto.
        unfold add_reg. rewrite tb_put_reg by apply mod_lt_pow2. unfold outside_reg in Ho. bcases; auto; lia.
      + intros x y _ _. apply add_reg_inj.
  Qed.
  Lemma incs_any n toAdd s len o (v : option V) : fits c n -> exists r, INCS c n toAdd s len o v r.
  Proof.
    intros Hf. unfold INCS. destruct (_ || _); [eauto|]. destruct v as [psi|]; [|eauto]. destruct (len =? 0); [eauto|]. cbv zeta.
    destruct (_ =? 0); [eauto|]. now apply for_zero.
  Qed.

  (** ** INCSC and DECSC *)
  Lemma flag_out flag n s len q a x : flag_ok flag n s len q -> flip_on (flag_mode flag) (add_carry s len q a x) = flag_set flag x.
  Proof.
    destruct flag as [o|]; auto. intros [Ho [Hr Hq]]. cbn [flag_mode flip_on flag_set]. unfold add_carry, outside_reg in *.
    rewrite tb_put_bit, tb_put_reg by apply mod_lt_pow2. bcases; auto; lia.
  Qed.
  Lemma flag_put flag n s len q x : flag_ok flag n s len q -> flag_set flag (put_bit x q false) = flag_set flag x.
  Proof. destruct flag as [o|]; auto. intros [Ho [Hr Hq]]. cbn [flag_set]. rewrite tb_put_bit. bcases; auto. congruence. Qed.
  Lemma signed_shift len t : 1 <= len -> t < 2 ^ len -> (forall z, (z = Z.of_N t \/ z = Z.of_N t - Z.of_N (2 ^ len))%Z ->
    (- Z.of_N (2 ^ (len - 1)) <= z < Z.of_N (2 ^ (len - 1)))%Z -> signed_value len t = z).
  Proof.
    intros Hl Ht z Hz Hr. unfold signed_value. assert (EZ : (2 ^ Z.of_N len = Z.of_N (2 ^ len))%Z) by (rewrite N2Z.inj_pow; reflexivity).
    rewrite EZ. assert (E : 2 ^ len = 2 * 2 ^ (len - 1)) by (rewrite <- N.pow_succ_r'; f_equal; lia). rewrite E in *.
    set (h := 2 ^ (len - 1)) in *. clearbody h. destruct (N.ltb_spec t h); lia.
  Qed.
  Lemma signed_bounds len t : 1 <= len -> t < 2 ^ len ->
    (signed_value len t = Z.of_N t /\ t < 2 ^ (len - 1) \/ signed_value len t = (Z.of_N t - Z.of_N (2 ^ len))%Z /\ 2 ^ (len - 1) <= t).
  Proof.
    intros Hl Ht. unfold signed_value. assert (EZ : (2 ^ Z.of_N len = Z.of_N (2 ^ len))%Z) by (rewrite N2Z.inj_pow; reflexivity).
    rewrite EZ. destruct (N.ltb_spec t (2 ^ (len - 1))); auto.
  Qed.
  Theorem incsc_ok flag rgp (nrm : K) n toAdd s len q (psi : V) r : fits c n -> s + len <= n -> q < n -> outside_reg q s len -> 1 <= len <= 62 ->
    flag_ok flag n s len q -> toAdd < 2 ^ len ->
    INCSC c (flag_mode flag) rgp nrm n toAdd s len q psi r ->
    exists psi' b g, r = Ok (Some psi') /\ measured n (bit_is q b) nrm g psi /\
      (b = false \/ toAdd <> 2 ^ len - 1 /\ toAdd <> 2 ^ (len - 1) - 1 ->
       basis_map n (bit_is q b) (add_carry s len q toAdd) (fun x => (sgn (adds_over s len q toAdd x && flag_set flag x) * g)%amp) psi psi').
  Proof.
    intros Hf Hs Hq Ho Hl Hfl Ha HR. assert (n < 64) by apply Hf. unfold INCSC in HR.
    set (A := fun b : bool => (if b then w128 (toAdd + 1) else toAdd) mod 2 ^ len) in *.
    apply (with_carry_ok rgp nrm n q _ (fun b => add_carry s len q (A b)) (fun b x => sgn (overflows len (get_reg x s len) (A b) && flag_set flag x))) in HR; auto.
    - destruct HR as [psi' [b [g [-> [Hg HB]]]]]. exists psi', b, g. split; auto. split; auto.
      intros Hb. eapply basis_map_ext; [| |exact HB]; auto.
      intros x Hx Dx. cbn beta. apply bit_is_true in Dx. assert (EA : A b = (toAdd + N.b2n b) mod 2 ^ len).
      { unfold A. destruct b; cbn [N.b2n]. rewrite w128_sum_mod by lia. auto. now rewrite N.add_0_r. }
      pose proof (pow2_pos len).
      assert (HT : toAdd + N.b2n b < 2 ^ len) by (destruct b; cbn [N.b2n]; [destruct Hb as [Hb|[Hb _]]; [discriminate|lia]|lia]).
      rewrite EA. split. now apply (add_carry_cleared s len q toAdd x b).
      rewrite get_put_bit, (flag_put flag n s len q) by auto. f_equal. f_equal. f_equal. unfold overflows, adds_over, overflows_z. rewrite Dx.
      rewrite N.mod_small by auto. replace (signed_value len (toAdd + N.b2n b)) with (signed_value len toAdd + Z.b2z b)%Z. now rewrite Z.add_assoc.
      symmetry. destruct b; cbn [N.b2n Z.b2z]; [|now rewrite N.add_0_r, Z.add_0_r].
      destruct Hb as [Hb|[_ Hb]]; [discriminate|]. cbn [N.b2n] in HT.
      apply signed_shift; auto; try lia; destruct (signed_bounds len toAdd ltac:(lia) Ha) as [[-> H1]|[-> H1]].
      1-2: lia.
      all: assert (E2 : 2 ^ len = 2 * 2 ^ (len - 1)) by (rewrite <- N.pow_succ_r'; f_equal; lia); rewrite E2 in *; set (h := 2 ^ (len - 1)) in *; clearbody h; lia.
    - intros b psi1 r1 Hsup HA. apply incdecc_ok in HA; auto.
      2:{ destruct flag; cbn [flag_mode mode_ok flag_ok] in *; auto. tauto. }
      destruct HA as [psi' [-> HB]]. exists psi'. split; auto. fold (A b) in HB.
      eapply basis_map_ext; [| |exact HB]; auto. intros x Hx Dx. split; auto. unfold carry_ph. rewrite (flag_out flag n) by auto. reflexivity.
  Qed.
  Theorem decsc_ok flag rgp (nrm : K) n toSub s len q (psi : V) r : fits c n -> s + len <= n -> q < n -> outside_reg q s len -> 1 <= len <= 62 ->
    flag_ok flag n s len q -> toSub < 2 ^ len ->
    DECSC c (flag_mode flag) rgp nrm n toSub s len q psi r ->
    exists psi' b g, r = Ok (Some psi') /\ measured n (bit_is q b) nrm g psi /\
      (b = false \/ toSub <> 0 /\ toSub <> 2 ^ (len - 1) ->
       basis_map n (bit_is q b) (sub_carry s len q toSub) (fun x => (sgn (subs_over s len q toSub x && flag_set flag x) * g)%amp) psi psi').
  Proof.
    intros Hf Hs Hq Ho Hl Hfl Ha HR. assert (n < 64) by apply Hf. unfold DECSC in HR.
    set (A := fun b : bool => dec_const len toSub b mod 2 ^ len) in *.
    apply (with_carry_ok rgp nrm n q _ (fun b => add_carry s len q (A b)) (fun b x => sgn (overflows len (get_reg x s len) (A b) && flag_set flag x))) in HR; auto.
    - destruct HR as [psi' [b [g [-> [Hg HB]]]]]. exists psi', b, g. split; auto. split; auto.
      intros Hb. eapply basis_map_ext; [| |exact HB]; auto.
      intros x Hx Dx. cbn beta. apply bit_is_true in Dx.
      assert (H0 : toSub = 0 -> b = false) by (intros E0; destruct Hb as [Hb|[Hb _]]; [auto|contradiction]).
      assert (EA : A b = 2 ^ len - toSub - (1 - N.b2n b)) by (unfold A; apply dec_const_val; auto; lia).
      pose proof (pow2_pos (len - 1)) as HP. assert (E2 : 2 ^ len = 2 * 2 ^ (len - 1)) by (rewrite <- N.pow_succ_r'; f_equal; lia).
      split. unfold A. apply sub_carry_cleared; auto; lia.
      rewrite get_put_bit, (flag_put flag n s len q) by auto. f_equal. f_equal. f_equal. unfold overflows, subs_over, overflows_z. rewrite Dx.
      assert (HA : A b < 2 ^ len) by apply mod_lt_pow2.
      replace (signed_value len (A b)) with (- signed_value len toSub - (1 - Z.b2z b))%Z.
      + replace (signed_value len (get_reg x s len) + (- signed_value len toSub - (1 - Z.b2z b)))%Z with
          (signed_value len (get_reg x s len) - signed_value len toSub - (1 - Z.b2z b))%Z by ring. reflexivity.
      + symmetry. apply signed_shift; auto; try lia; rewrite EA in *; destruct (signed_bounds len toSub ltac:(lia) Ha) as [[-> H1]|[-> H1]].
        all: rewrite E2 in *; set (h := 2 ^ (len - 1)) in *; clearbody h; destruct b; cbn [N.b2n Z.b2z] in *.
        all: try (destruct Hb as [Hb|[Hb Hb2]]; [discriminate|]); lia.
    - intros b psi1 r1 Hsup HA. apply incdecc_ok in HA; auto.
      2:{ destruct flag; cbn [flag_mode mode_ok flag_ok] in *; auto. tauto. }
      destruct HA as [psi' [-> HB]]. exists psi'. split; auto. fold (A b) in HB.
      eapply basis_map_ext; [| |exact HB]; auto. intros x Hx Dx. split; auto. unfold carry_ph. rewrite (flag_out flag n) by auto. reflexivity.
  Qed.
  Lemma incsc_any md rgp (nrm : K) n toAdd s len q (psi : V) : fits c n -> q < n -> nonzero n psi -> exists r, INCSC c md rgp nrm n toAdd s len q psi r.
  Proof. intros Hf Hq Hn. apply with_carry_any; auto. intros b v. now apply incdecc_any. Qed.
  Lemma decsc_any md rgp (nrm : K) n toSub s len q (psi : V) : fits c n -> q < n -> nonzero n psi -> exists r, DECSC c md rgp nrm n toSub s len q psi r.
  Proof. intros Hf Hq Hn. apply with_carry_any; auto. intros b v. now apply incdecc_any. Qed.
End S.
