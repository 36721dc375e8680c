(** Proofs about the arithmetic kernels (part 7: full adder). *)
From Coq Require Import NArith ZArith List Bool Lia Ring.
From Verif Require Import Bits MFunctions SpecFunctions PFunctions MParFor PParFor MKernel PKernel Amp PAmp MEngine SpecState SpecEngine
  PLoop PApply PGates PGates2 PGates3 PCompose PProb PEngine MAlu SpecAlu PAlu PAlu2 PAlu3 PAlu4 PAlu5 PAlu6.
Import ListNotations.
Local Open Scope N_scope.


Section S.
  Context {K : StarRing}.
  Add Ring KrG : (sr_ring K).
  Variable c : cfg.
  Local Notation V := (mem K).

  (** The four members of the group of [i]. *)
  Definition cell (sum carry i : N) (s k : bool) : N := put_bit (put_bit i sum s) carry k.
  Lemma tb_cell sum carry i s k j : N.testbit (cell sum carry i s k) j = if j =? carry then k else if j =? sum then s else N.testbit i j.
  Proof. unfold cell. rewrite !tb_put_bit. rewrite (N.eqb_sym carry), (N.eqb_sym sum). reflexivity. Qed.
  Lemma cell_inj sum carry i s k s2 k2 : sum <> carry -> cell sum carry i s k = cell sum carry i s2 k2 -> s = s2 /\ k = k2.
  Proof.
    intros Hd E. split.
    - pose proof (f_equal (fun z => N.testbit z sum) E) as F. cbn beta in F. rewrite !tb_cell, N.eqb_refl in F. destruct (N.eqb_spec sum carry); congruence.
    - pose proof (f_equal (fun z => N.testbit z carry) E) as F. cbn beta in F. rewrite !tb_cell, N.eqb_refl in F. auto.
  Qed.
  Lemma cell_self sum carry x : cell sum carry x (N.testbit x sum) (N.testbit x carry) = x.
  Proof. apply N.bits_inj. intros j. rewrite tb_cell. bcases; subst; auto. Qed.
  Lemma cell_cell sum carry x a b s k : cell sum carry (cell sum carry x a b) s k = cell sum carry x s k.
  Proof. apply N.bits_inj. intros j. rewrite !tb_cell. bcases; auto. Qed.
  Lemma cell_lt n sum carry i s k : sum < n -> carry < n -> i < 2 ^ n -> cell sum carry i s k < 2 ^ n.
  Proof. intros. unfold cell. now repeat apply put_bit_lt. Qed.
  Lemma full_add_cell in1 in2 sum carry x : sum <> carry -> full_add in1 in2 sum carry x =
    cell sum carry x (xorb (xorb (N.testbit x in1) (N.testbit x in2)) (N.testbit x sum))
      (xorb (N.testbit x carry) ((N.testbit x in1 && N.testbit x in2) || (N.testbit x in1 && N.testbit x sum) || (N.testbit x in2 && N.testbit x sum))).
  Proof. reflexivity. Qed.
  Lemma full_add_lt n in1 in2 sum carry x : adder_ok n in1 in2 sum carry -> x < 2 ^ n -> full_add in1 in2 sum carry x < 2 ^ n.
  Proof. unfold adder_ok. intros H Hx. rewrite full_add_cell by tauto. apply cell_lt; tauto. Qed.
  Lemma full_add_inj n in1 in2 sum carry x y : adder_ok n in1 in2 sum carry -> full_add in1 in2 sum carry x = full_add in1 in2 sum carry y -> x = y.
  Proof.
    unfold adder_ok. intros [_ [_ [_ [_ [H1 [H2 [H3 [H4 H5]]]]]]]] E. rewrite !full_add_cell in E by auto.
    assert (Hb : forall j, j <> sum -> j <> carry -> N.testbit x j = N.testbit y j).
    { intros j A B. pose proof (f_equal (fun z => N.testbit z j) E) as F. cbn beta in F. rewrite !tb_cell in F. destruct (N.eqb_spec j carry), (N.eqb_spec j sum); congruence. }
    rewrite (Hb in1 H1 H2), (Hb in2 H3 H4) in E.
    pose proof (f_equal (fun z => N.testbit z sum) E) as F. pose proof (f_equal (fun z => N.testbit z carry) E) as G. cbn beta in F, G.
    rewrite !tb_cell, N.eqb_refl in F, G. destruct (N.eqb_spec sum carry); [congruence|]. cbv iota in G.
    apply N.bits_inj. intros j. destruct (N.eq_dec j sum) as [->|]; [|destruct (N.eq_dec j carry) as [->|]; auto].
    - destruct (N.testbit x sum), (N.testbit y sum), (N.testbit y in1), (N.testbit y in2); auto; discriminate.
    - destruct (N.testbit x sum), (N.testbit y sum), (N.testbit x carry), (N.testbit y carry), (N.testbit y in1), (N.testbit y in2); auto; discriminate.
  Qed.

  Lemma exec4 (a0 a1 a2 a3 : N) (v0 v1 v2 v3 : K) (m : V) : NoDup [a0; a1; a2; a3] ->
    let m' := exec (Wr a0 v0 (Wr a1 v1 (Wr a2 v2 (Wr a3 v3 Ret)))) m in m' a0 = v0 /\ m' a1 = v1 /\ m' a2 = v2 /\ m' a3 = v3.
  Proof.
    intros ND. inversion ND as [|? ? N0 ND1]; subst. inversion ND1 as [|? ? N1 ND2]; subst. inversion ND2 as [|? ? N2 ND3]; subst. cbn [In] in *. cbn [exec].
    repeat split; repeat first [rewrite mset_eq; reflexivity | rewrite mset_neq by (intros ->; tauto)].
  Qed.

  (** The loop shared by both operations: [vals] gives the four results from the four amplitudes, named by (carry, sum). *)
  Definition adder_body (in1 in2 sum carry : N) (vals : bool -> bool -> K -> K -> K -> K -> bool -> bool -> K) (body : N -> prog K) : Prop :=
    forall i (m : V), zero_at [sum; carry] i -> within (fun a => exists s k, a = cell sum carry i s k) (body i) /\
      forall s k, exec (body i) m (cell sum carry i s k) =
      vals (N.testbit i in1) (N.testbit i in2) (m (cell sum carry i false false)) (m (cell sum carry i true false))
        (m (cell sum carry i false true)) (m (cell sum carry i true true)) s k.
  Lemma adder_loop n in1 in2 sum carry vals (body : N -> prog K) (psi m' : V) : fits c n -> adder_ok n in1 in2 sum carry ->
    adder_body in1 in2 sum carry vals body ->
    loop_mask c (2 ^ n) (nsort [pow2Ocl sum; pow2Ocl carry]) body psi m' ->
    forall x, x < 2 ^ n -> m' x = vals (N.testbit x in1) (N.testbit x in2) (psi (cell sum carry x false false)) (psi (cell sum carry x true false))
        (psi (cell sum carry x false true)) (psi (cell sum carry x true true)) (N.testbit x sum) (N.testbit x carry).
  Proof.
    unfold adder_ok. intros Hf [Hi1 [Hi2 [Hs [Hc [H1 [H2 [H3 [H4 H5]]]]]]]] HB HL x Hx. assert (Hn : n < 64) by apply Hf.
    change [pow2Ocl sum; pow2Ocl carry] with (map pow2Ocl [sum; carry]) in HL. apply loop_ctl in HL; auto.
    2:{ constructor; [cbn; intuition congruence|]. constructor; [cbn; tauto|constructor]. } 2:{ intros q [<-|[<-|[]]]; auto. }
    apply (runs_local _ (fun i a => exists s k, a = cell sum carry i s k)) in HL.
    - destruct HL as [A _]. set (i := cell sum carry x false false).
      assert (Hz : zero_at [sum; carry] i). { intros q [<-|[<-|[]]]; unfold i; rewrite tb_cell; bcases; auto; congruence. }
      assert (E : x = cell sum carry i (N.testbit x sum) (N.testbit x carry)) by (unfold i; now rewrite cell_cell, cell_self).
      rewrite (A i x). 3:{ eauto. } 2:{ split; auto. unfold i. now apply cell_lt. }
      rewrite E at 1. destruct (HB i psi Hz) as [_ HE]. rewrite HE. unfold i. rewrite !(tb_cell sum carry x false false), !cell_cell.
      destruct (N.eqb_spec in1 carry), (N.eqb_spec in1 sum), (N.eqb_spec in2 carry), (N.eqb_spec in2 sum); try congruence.
    - intros i j a [_ Zi] [_ Zj] [s [k ->]] [s2 [k2 E]]. rewrite <- (cell_self sum carry i), <- (cell_self sum carry j).
      rewrite (Zi sum), (Zi carry), (Zj sum), (Zj carry) by (cbn; tauto). rewrite <- (cell_cell sum carry i s k), E. apply cell_cell.
    - intros i [_ Zi]. now apply HB.
  Qed.
  Lemma cells_ok sum carry i : sum < 64 -> carry < 64 -> sum <> carry -> zero_at [sum; carry] i ->
    i = cell sum carry i false false /\ N.lor i (pow2Ocl sum) = cell sum carry i true false /\ N.lor i (pow2Ocl carry) = cell sum carry i false true /\
    N.lor (N.lor i (pow2Ocl sum)) (pow2Ocl carry) = cell sum carry i true true.
  Proof.
    intros Hs Hc Hd Hz. assert (Zs : N.testbit i sum = false) by (apply Hz; now left). assert (Zc : N.testbit i carry = false) by (apply Hz; right; now left).
    rewrite !pow2Ocl_small by auto.
    repeat split; apply N.bits_inj; intros j; rewrite ?N.lor_spec, ?tb_cell, ?N.pow2_bits_eqb, ?(N.eqb_sym sum j), ?(N.eqb_sym carry j); bcases; subst; rewrite ?Zs, ?Zc, ?orb_false_r, ?orb_true_r; auto; congruence.
  Qed.
  Lemma cells_nodup sum carry i (l : list (bool * bool)) : sum <> carry -> NoDup l -> NoDup (map (fun p => cell sum carry i (fst p) (snd p)) l).
  Proof.
    intros Hd ND. apply map_NoDup_in; auto. intros [a b] [a2 b2] _ _ E. cbn [fst snd] in E. apply cell_inj in E; auto. destruct E as [-> ->]. auto.
  Qed.
  Lemma land_bit i q : q < 64 -> negb (N.land i (pow2Ocl q) =? 0) = N.testbit i q.
  Proof. intros Hq. rewrite pow2Ocl_small, land_pow2_testbit by auto. pose proof (pow2_nz q). destruct (N.testbit i q); bcases; auto; congruence. Qed.

  Definition fa_sel (a b : bool) (i00 i01 i10 i11 : K) (s k : bool) : K :=
    let '(o00, o01, o10, o11) := fa_vals a b i00 i01 i10 i11 in if s then if k then o11 else o10 else if k then o01 else o00.
  Definition ifa_sel (a b : bool) (v00 v01 v10 v11 : K) (s k : bool) : K :=
    let '(i00, i01, i10, i11) := ifa_vals a b v00 v10 v01 v11 in if s then if k then i11 else i01 else if k then i10 else i00.

  Theorem fulladd_ok n in1 in2 sum carry (psi : V) r : fits c n -> adder_ok n in1 in2 sum carry -> FullAdd c n in1 in2 sum carry (Some psi) r ->
    exists psi', r = Ok (Some psi') /\ basis_map n always (full_add in1 in2 sum carry) (fun _ => 1%amp) psi psi'.
  Proof.
    intros Hf Ha HR. assert (Hn : n < 64) by apply Hf. pose proof Ha as HA. destruct HA as [Hi1 [Hi2 [Hs [Hc [H1 [H2 [H3 [H4 H5]]]]]]]].
    unfold FullAdd in HR. destruct (N.leb_spec n in1), (N.leb_spec n in2), (N.leb_spec n sum), (N.leb_spec n carry); try lia. cbn [orb] in HR.
    destruct HR as [m' [HL ->]]. exists m'. split; auto. cbv zeta in HL.
    match type of HL with loop_mask _ _ _ ?bd _ _ => assert (HB : adder_body in1 in2 sum carry fa_sel bd) end.
    2:{ specialize (adder_loop n in1 in2 sum carry fa_sel _ _ _ Hf Ha HB HL) as HX. clear HL HB.
      apply basis_map_perm. intros x y _ _. now apply (full_add_inj n). intros x Hx. split. now apply (full_add_lt n). rewrite HX by now apply (full_add_lt n).
      rewrite full_add_cell, !cell_cell, !tb_cell, !N.eqb_refl by auto.
      destruct (N.eqb_spec in1 carry), (N.eqb_spec in1 sum), (N.eqb_spec in2 carry), (N.eqb_spec in2 sum), (N.eqb_spec sum carry); try congruence.
      pose proof (f_equal psi (cell_self sum carry x)) as EX. rewrite <- EX. clear EX. unfold fa_sel, fa_vals.
      destruct (N.testbit x in1), (N.testbit x in2), (N.testbit x sum), (N.testbit x carry); cbn [xorb andb orb]; ring. }
    { intros i m Hz. destruct (cells_ok sum carry i) as [C0 [C1 [C2 C3]]]; auto; try lia. rewrite C3, C1, C2, !land_bit by lia. clear C1 C2 C3.
      set (a := N.testbit i in1). set (b := N.testbit i in2). clearbody a b.
      assert (Hcell : exists s k, i = cell sum carry i s k) by eauto. rewrite <- C0. split.
      + cbn [within within2]. repeat (split; [eauto|intros ?]). unfold fa_vals. destruct a, b; cbn [within2]; repeat (split; [eauto|]); exact I.
      + intros s k. cbn [exec].
        destruct (fa_vals a b (m i) (m (cell sum carry i true false)) (m (cell sum carry i false true)) (m (cell sum carry i true true))) as [[[o00 o01] o10] o11] eqn:E.
        pose proof (exec4 i (cell sum carry i false true) (cell sum carry i true false) (cell sum carry i true true) o00 o01 o10 o11 m) as X.
        cbv zeta in X. destruct X as [X0 [X1 [X2 X3]]].
        { rewrite C0 at 1. apply (cells_nodup sum carry i [(false, false); (false, true); (true, false); (true, true)]); auto. repeat constructor; cbn; intuition congruence. }
        unfold fa_sel. rewrite E. destruct s, k; auto. now rewrite <- C0. }
  Qed.
  Theorem ifulladd_ok n in1 in2 sum carry (psi : V) r : fits c n -> adder_ok n in1 in2 sum carry -> IFullAdd c n in1 in2 sum carry (Some psi) r ->
    exists psi', r = Ok (Some psi') /\ pulled_back n always (full_add in1 in2 sum carry) psi psi'.
  Proof.
    intros Hf Ha HR. assert (Hn : n < 64) by apply Hf. pose proof Ha as HA. destruct HA as [Hi1 [Hi2 [Hs [Hc [H1 [H2 [H3 [H4 H5]]]]]]]].
    unfold IFullAdd in HR. destruct (N.leb_spec n in1), (N.leb_spec n in2), (N.leb_spec n sum), (N.leb_spec n carry); try lia. cbn [orb] in HR.
    destruct HR as [m' [HL ->]]. exists m'. split; auto. cbv zeta in HL.
    match type of HL with loop_mask _ _ _ ?bd _ _ => assert (HB : adder_body in1 in2 sum carry ifa_sel bd) end.
    2:{ specialize (adder_loop n in1 in2 sum carry ifa_sel _ _ _ Hf Ha HB HL) as HX. clear HL HB.
      intros x Hx. rewrite HX by auto. unfold always. rewrite full_add_cell by auto. unfold ifa_sel, ifa_vals.
      destruct (N.testbit x in1), (N.testbit x in2), (N.testbit x sum), (N.testbit x carry); cbn [xorb andb orb]; reflexivity. }
    { intros i m Hz. destruct (cells_ok sum carry i) as [C0 [C1 [C2 C3]]]; auto; try lia. rewrite C3, C1, C2, !land_bit by lia. clear C1 C2 C3.
      set (a := N.testbit i in1). set (b := N.testbit i in2). clearbody a b.
      assert (Hcell : exists s k, i = cell sum carry i s k) by eauto. rewrite <- C0. split.
      + cbn [within within2]. repeat (split; [eauto|intros ?]). unfold ifa_vals. destruct a, b; cbn [within2]; repeat (split; [eauto|]); exact I.
      + intros s k. cbn [exec].
        destruct (ifa_vals a b (m i) (m (cell sum carry i false true)) (m (cell sum carry i true false)) (m (cell sum carry i true true))) as [[[i00 i01] i10] i11] eqn:E.
        pose proof (exec4 i (cell sum carry i true false) (cell sum carry i false true) (cell sum carry i true true) i00 i01 i10 i11 m) as X.
        cbv zeta in X. destruct X as [X0 [X1 [X2 X3]]].
        { rewrite C0 at 1. apply (cells_nodup sum carry i [(false, false); (true, false); (false, true); (true, true)]); auto. repeat constructor; cbn; intuition congruence. }
        unfold ifa_sel. rewrite E. destruct s, k; auto. now rewrite <- C0. }
  Qed.
  Lemma fulladd_any n in1 in2 sum carry (v : option V) : fits c n -> exists r, FullAdd c n in1 in2 sum carry v r.
  Proof.
    intros Hf. unfold FullAdd. destruct (_ || _); [eauto|]. destruct v as [psi|]; [|eauto]. cbv zeta.
    match goal with |- exists r, exists m', loop_mask c (2 ^ n) ?l ?b psi m' /\ _ => destruct (loop_mask_exists c n l b psi Hf) as [m' Hm] end. exists (Ok (Some m')), m'. auto.
  Qed.
  Lemma ifulladd_any n in1 in2 sum carry (v : option V) : fits c n -> exists r, IFullAdd c n in1 in2 sum carry v r.
  Proof.
    intros Hf. unfold IFullAdd. destruct (_ || _); [eauto|]. destruct v as [psi|]; [|eauto]. cbv zeta.
    match goal with |- exists r, exists m', loop_mask c (2 ^ n) ?l ?b psi m' /\ _ => destruct (loop_mask_exists c n l b psi Hf) as [m' Hm] end. exists (Ok (Some m')), m'. auto.
  Qed.
End S.
