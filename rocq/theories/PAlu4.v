(** Proofs about the arithmetic kernels (part 4: multiplication and modular operations). *)
From Coq Require Import NArith ZArith List Bool Lia Ring.
From Verif Require Import Bits MFunctions SpecFunctions PFunctions MParFor PParFor MKernel PKernel Amp PAmp MEngine SpecState SpecEngine
  PLoop PApply PGates PGates2 PGates3 PCompose PProb PEngine MAlu SpecAlu PAlu PAlu2 PAlu3.
Import ListNotations.
Local Open Scope N_scope.

(** ** Arithmetic facts *)
Lemma reg_zero s len x : reg_is s len 0 x = true <-> forall j, s <= j < s + len -> N.testbit x j = false.
Proof.
  unfold reg_is. rewrite N.eqb_eq. split.
  - intros E j Hj. pose proof (tb_get_reg x s len (j - s)) as H. rewrite E, N.bits_0 in H. destruct (N.ltb_spec (j - s) len); [|lia].
    cbn [andb] in H. replace (j - s + s) with j in H by lia. auto.
  - intros H. apply N.bits_inj. intros j. rewrite tb_get_reg, N.bits_0. destruct (N.ltb_spec j len); auto. cbn [andb]. apply H. lia.
Qed.
Lemma put_reg_comm x s1 l1 v1 s2 l2 v2 : v1 < 2 ^ l1 -> v2 < 2 ^ l2 -> disjoint_regs s1 l1 s2 l2 ->
  put_reg (put_reg x s1 l1 v1) s2 l2 v2 = put_reg (put_reg x s2 l2 v2) s1 l1 v1.
Proof.
  intros H1 H2 Hd. apply N.bits_inj. intros j. rewrite !tb_put_reg by auto. unfold disjoint_regs in Hd. bcases; auto; lia.
Qed.
Lemma disjoint_sym s1 l1 s2 l2 : disjoint_regs s1 l1 s2 l2 -> disjoint_regs s2 l2 s1 l1.
Proof. unfold disjoint_regs. tauto. Qed.
Lemma reg_is_true s len v x : reg_is s len v x = true -> get_reg x s len = v.
Proof. apply N.eqb_eq. Qed.

Section S.
  Context {K : StarRing}.
  Add Ring KrD : (sr_ring K).
  Variable c : cfg.
  Local Notation V := (mem K).

  (** A gather loop over the basis states [D] into a zeroed vector. *)
  Lemma gather_map n (P : N -> Prop) (D : N -> bool) (f : N -> N) (body : N -> prog K) (psi m0 m' : V) : fits c n ->
    (forall x, x < 2 ^ n -> m0 x = 0%amp) -> (forall x, P x <-> x < 2 ^ n /\ D x = true) ->
    (forall x, x < 2 ^ n -> D x = true -> body x = Wr x (psi (f x)) Ret) ->
    runs P body m0 m' -> pulled_back n D f psi m'.
  Proof.
    intros Hf Hz HP Hb HR. apply (scatter_of P body (fun x => x) (fun x => psi (f x))) in HR; auto.
    - destruct HR as [A B]. intros x Hx. destruct (D x) eqn:E.
      + apply A. now apply HP.
      + rewrite B. now apply Hz. intros i Hi F. subst i. apply HP in Hi. destruct Hi. congruence.
    - intros i Hi. apply HP in Hi. now apply Hb.
  Qed.
  Lemma pull_undo n D f (g : K) (psi psi1 psi2 : V) : basis_map n D f (fun _ => g) psi psi1 -> pulled_back n D f psi1 psi2 ->
    supported n D psi -> scaled n g psi psi2.
  Proof.
    intros [A [B C]] HP Hs x Hx. rewrite HP by auto. destruct (D x) eqn:E. now apply B. rewrite Hs by auto. ring.
  Qed.

  (** ** MUL and DIV *)
  Lemma prod_bound len u m : u < 2 ^ len -> m <= 2 ^ len -> u * m < 2 ^ (2 * len).
  Proof. intros. replace (2 * len) with (len + len) by lia. rewrite N.pow_add_r. pose proof (pow2_pos len). nia. Qed.
  Lemma mul_res_ok n m s car len extra x : n < 64 -> s + len <= n -> car + len <= n -> disjoint_regs s len car len -> m <= 2 ^ len -> x < 2 ^ n ->
    (forall j, N.testbit extra j = true -> outside_reg j s len /\ outside_reg j car len) ->
    mul_res n m s car len extra x = N.ldiff (mul_regs s car len m x) extra.
  Proof.
    intros Hn Hs Hc Hd Hm Hx He. unfold mul_res, mul_regs. fold (rmask s len) (rmask car len). rewrite field_ok by lia.
    pose proof (get_reg_lt x s len) as Hg. set (u := get_reg x s len) in *. clearbody u.
    assert (H2 : 2 * len < 64) by (unfold disjoint_regs in Hd; lia).
    pose proof (prod_bound len u m Hg Hm) as HP. pose proof (pow2_lt_mono (2 * len) 64 ltac:(lia)) as H64.
    assert (Hm64 : m < 2 ^ 64) by (pose proof (pow2_lt_mono len 64 ltac:(lia)); lia).
    assert (Ew : w64 (u * w64 m) = u * m) by (unfold w64; rewrite !N.mod_small; auto; rewrite N.mod_small; lia).
    rewrite Ew. set (p := u * m) in *. clearbody p. rewrite !lenMask by lia.
    rewrite land_ones.
    assert (EH : N.shiftr (N.land p (shl64 (2 ^ len - 1) len)) len = p / 2 ^ len).
    { rewrite <- lenMask by lia. fold (rmask len len). rewrite field_ok by lia. unfold get_reg. apply N.mod_small. apply N.div_lt_upper_bound. apply pow2_nz.
      rewrite <- N.pow_add_r. replace (len + len) with (2 * len) by lia. auto. }
    rewrite EH.
    assert (HH : p / 2 ^ len < 2 ^ len).
    { apply N.div_lt_upper_bound. apply pow2_nz. rewrite <- N.pow_add_r. replace (len + len) with (2 * len) by lia. auto. }
    pose proof (mod_lt_pow2 p len) as HL. set (lo := p mod 2 ^ len) in *. set (hi := p / 2 ^ len) in *. clearbody lo hi.
    apply N.bits_inj. intros j. rewrite N.ldiff_spec, !N.lor_spec, tb_other, !N.lor_spec, !tb_rmask, (tb_shl64 lo s len), (tb_shl64 hi car len), !tb_put_reg by (auto; lia).
    destruct (N.testbit extra j) eqn:E.
    - apply He in E. unfold outside_reg in E. cbn [negb]. rewrite orb_true_r, !andb_false_r, orb_false_r.
      bcases; try lia; rewrite ?(tb_high lo len), ?(tb_high hi len) by (auto; lia); auto.
    - cbn [negb]. rewrite orb_false_r, andb_true_r. unfold disjoint_regs in Hd.
      bcases; try lia; rewrite ?(tb_high lo len), ?(tb_high hi len) by (auto; lia); rewrite ?andb_false_r, ?andb_true_r, ?orb_false_r; auto.
  Qed.
  Lemma mul_hi len u m : u < 2 ^ len -> m <= 2 ^ len -> u * m / 2 ^ len < 2 ^ len.
  Proof. intros Hu Hm. apply N.div_lt_upper_bound. apply pow2_nz. pose proof (pow2_pos len). nia. Qed.
  Lemma mul_regs_lt n s car len m x : s + len <= n -> car + len <= n -> m <= 2 ^ len -> x < 2 ^ n -> mul_regs s car len m x < 2 ^ n.
  Proof. intros. apply put_reg_lt; auto. apply mul_hi; auto. apply get_reg_lt. apply put_reg_lt; auto. apply mod_lt_pow2. Qed.
  Lemma mul_regs_inj s car len m x y : disjoint_regs s len car len -> 1 <= m <= 2 ^ len -> get_reg x car len = get_reg y car len ->
    mul_regs s car len m x = mul_regs s car len m y -> x = y.
  Proof.
    intros Hd Hm Hc E. unfold mul_regs in E. pose proof (get_reg_lt x s len) as Hx. pose proof (get_reg_lt y s len) as Hy.
    pose proof (mul_hi len _ m Hx (proj2 Hm)) as H1. pose proof (mul_hi len _ m Hy (proj2 Hm)) as H2.
    pose proof (mod_lt_pow2 (get_reg x s len * m) len) as L1. pose proof (mod_lt_pow2 (get_reg y s len * m) len) as L2.
    assert (E1 : get_reg x s len * m / 2 ^ len = get_reg y s len * m / 2 ^ len).
    { pose proof (f_equal (fun z => get_reg z car len) E) as F. cbn beta in F. now rewrite !get_put_same in F by auto. }
    assert (E2 : (get_reg x s len * m) mod 2 ^ len = (get_reg y s len * m) mod 2 ^ len).
    { pose proof (f_equal (fun z => get_reg z s len) E) as F. cbn beta in F.
      rewrite !(get_put_other _ car len _ s len) in F by (auto using disjoint_sym). now rewrite !get_put_same in F by auto. }
    assert (E3 : get_reg x s len = get_reg y s len).
    { pose proof (N.div_mod (get_reg x s len * m) (2 ^ len) (pow2_nz _)) as D1. pose proof (N.div_mod (get_reg y s len * m) (2 ^ len) (pow2_nz _)) as D2.
      rewrite E1, E2, <- D2 in D1. nia. }
    rewrite E3 in E. apply put_reg_inj in E; auto. destruct E as [_ E].
    apply (reg_ext x y car len Hc). intros j Hj. specialize (E j Hj). rewrite !tb_put_reg in E by auto. revert E. bcases; auto. intros _.
    pose proof (f_equal (fun z => N.testbit z (j - s)) E3) as F. cbn beta in F. rewrite !tb_get_reg in F. replace (j - s + s) with j in F by lia.
    revert F. bcases; auto; lia.
  Qed.
  Lemma ldiff_0 x : N.ldiff x 0 = x.
  Proof. apply N.ldiff_0_r. Qed.
  Theorem muldiv_fwd n m s car len (psi : V) r : fits c n -> muldiv_ok n m s car len -> MULDIV c false n m s car len (Some psi) r ->
    exists psi', r = Ok (Some psi') /\ basis_map n (reg_is car len 0) (mul_regs s car len m) (fun _ => 1%amp) psi psi'.
  Proof.
    intros Hf [Hs [Hc [Hd Hm]]] HR. assert (Hn : n < 64) by apply Hf. unfold MULDIV in HR. rewrite !range_ok in HR by auto. cbn [orb] in HR.
    destruct HR as [m0 [m' [H0 [HL ->]]]]. exists m'. split; auto. rewrite !pow2Ocl_small in HL by lia. apply loop_skip_runs in HL; auto.
    refine (scatter_map c n _ _ _ _ _ psi m0 m' Hf (new_zero_ok c n m0 Hf H0) _ _ _ HL).
    - intros x. now rewrite reg_zero.
    - intros x Hx Dx. split. apply mul_regs_lt; auto; lia. cbn zeta. rewrite mul_res_ok, ldiff_0; auto; try lia. f_equal; ring.
      intros j Hj. rewrite N.bits_0 in Hj. discriminate.
    - intros x y Hx Hy Dx Dy. apply mul_regs_inj; auto. apply reg_is_true in Dx. apply reg_is_true in Dy. congruence.
  Qed.
  Theorem muldiv_inv n m s car len (psi : V) r : fits c n -> muldiv_ok n m s car len -> MULDIV c true n m s car len (Some psi) r ->
    exists psi', r = Ok (Some psi') /\ pulled_back n (reg_is car len 0) (mul_regs s car len m) psi psi'.
  Proof.
    intros Hf [Hs [Hc [Hd Hm]]] HR. assert (Hn : n < 64) by apply Hf. unfold MULDIV in HR. rewrite !range_ok in HR by auto. cbn [orb] in HR.
    destruct HR as [m0 [m' [H0 [HL ->]]]]. exists m'. split; auto. rewrite !pow2Ocl_small in HL by lia. apply loop_skip_runs in HL; auto.
    refine (gather_map n _ _ _ _ psi m0 m' Hf (new_zero_ok c n m0 Hf H0) _ _ HL).
    - intros x. now rewrite reg_zero.
    - intros x Hx Dx. cbn zeta. rewrite mul_res_ok, ldiff_0; auto; try lia. intros j Hj. rewrite N.bits_0 in Hj. discriminate.
  Qed.
  Lemma muldiv_any inv n m s car len (v : option V) : fits c n -> exists r, MULDIV c inv n m s car len v r.
  Proof.
    intros Hf. unfold MULDIV. destruct (_ || _) eqn:E; [eauto|]. destruct v as [psi|]; [|eauto]. apply skip_zero; auto.
    apply orb_false_iff in E. destruct E as [_ E]. unfold isBadBitRange in E. apply orb_false_iff in E. destruct E as [E _]. apply N.ltb_ge in E. lia.
  Qed.
  Lemma mul_regs_put s car len m x v : disjoint_regs s len car len -> v < 2 ^ len -> m <= 2 ^ len ->
    mul_regs s car len m (put_reg x car len v) = mul_regs s car len m x.
  Proof.
    intros Hd Hv Hm. unfold mul_regs. pose proof (get_reg_lt x s len) as Hx. rewrite (get_put_other x car len v s len) by (auto using disjoint_sym).
    rewrite (put_reg_comm x car len v s len) by (auto using disjoint_sym, mod_lt_pow2). rewrite put_put; auto. now apply mul_hi.
  Qed.
  Lemma mul_regs_1 s car len x : disjoint_regs s len car len -> mul_regs s car len 1 x = put_reg x car len 0.
  Proof.
    intros Hd. unfold mul_regs. rewrite N.mul_1_r. pose proof (get_reg_lt x s len) as Hx. rewrite N.mod_small, N.div_small, put_get by auto. reflexivity.
  Qed.
  Theorem mul_ok rgp (nrm : K) n m s car len (psi : V) r : fits c n -> muldiv_ok n m s car len -> MUL c rgp nrm n m s car len psi r ->
    exists psi' v g, r = Ok (Some psi') /\ v < 2 ^ len /\ measured n (reg_is car len v) nrm g psi /\
      basis_map n (reg_is car len v) (mul_regs s car len m) (fun _ => g) psi psi'.
  Proof.
    intros Hf Hmd [r1 [HS HR]]. pose proof Hmd as [Hs [Hc [Hd Hm]]]. pose proof (pow2_pos len) as HP.
    apply setreg_ok in HS; auto. destruct HS as [psi1 [v [g [-> [Hv [Hg HB]]]]]].
    destruct (N.eqb_spec m 0); [lia|]. destruct (N.eqb_spec m 1) as [->|Hm1].
    - subst r. exists psi1, v, g. split; auto. split; auto. split; auto. eapply basis_map_ext; [| |exact HB]; auto. intros x Hx Dx. split; auto. now rewrite mul_regs_1.
    - apply muldiv_fwd in HR; auto. destruct HR as [psi' [-> HM]]. exists psi', v, g. split; auto. split; auto. split; auto.
      assert (HD : forall x, x < 2 ^ n -> reg_is car len v x = true -> reg_is car len 0 (put_reg x car len 0) = true).
      { intros x _ _. unfold reg_is. rewrite get_put_same by auto. apply N.eqb_refl. }
      pose proof (basis_map_comp n _ _ _ _ _ _ _ _ _ HB HM HD) as HC. cbn beta in HC. eapply basis_map_ext; [| |exact HC]; auto.
      intros x Hx Dx. cbn beta. split; [|ring]. apply mul_regs_put; auto. lia.
  Qed.
  Lemma mul_any rgp (nrm : K) n m s car len (psi : V) : fits c n -> car + len <= n -> nonzero n psi -> m <> 0 -> exists r, MUL c rgp nrm n m s car len psi r.
  Proof.
    intros Hf Hc Hn Hm. destruct (setreg_any c rgp nrm n car len 0 psi Hf Hc Hn) as [r1 H1].
    destruct r1 as [|v1]; [exists Throw, Throw; auto|].
    assert (HX : exists r, (if m =? 0 then on_vec (SetReg c rgp nrm n s len 0) v1 r else if m =? 1 then r = Ok v1 else MULDIV c false n m s car len v1 r)).
    { destruct (N.eqb_spec m 0); [lia|]. destruct (m =? 1); [eauto|]. now apply muldiv_any. }
    destruct HX as [r Hr]. exists r, (Ok v1). auto.
  Qed.
  (** DIV of any vector: amplitudes are pulled back along the multiplication. *)
  Theorem div_ok n m s car len (psi : V) r : fits c n -> muldiv_ok n m s car len -> (m = 1 -> supported n (reg_is car len 0) psi) -> DIV c n m s car len (Some psi) r ->
    exists psi', r = Ok (Some psi') /\ pulled_back n (reg_is car len 0) (mul_regs s car len m) psi psi'.
  Proof.
    intros Hf Hmd H1 HR. pose proof Hmd as [Hs [Hc [Hd Hm]]]. unfold DIV in HR. destruct (N.eqb_spec m 0); [lia|]. destruct (N.eqb_spec m 1) as [->|Hm1].
    - subst r. exists psi. split; auto. intros x Hx. rewrite mul_regs_1 by auto. destruct (reg_is car len 0 x) eqn:E.
      + apply reg_is_true in E. rewrite <- E at 1. now rewrite put_get.
      + now apply H1.
    - now apply muldiv_inv.
  Qed.
  Lemma div_any n m s car len (v : option V) : fits c n -> exists r, DIV c n m s car len v r.
  Proof. intros Hf. unfold DIV. destruct (_ =? 0); [eauto|]. destruct (_ =? 1); [eauto|]. now apply muldiv_any. Qed.

  (** ** Modular operations *)
  Lemma mod_mask_lt N0 len : len < 64 -> 1 <= N0 <= 2 ^ len -> mod_mask N0 < 2 ^ len.
  Proof.
    intros Hl HN. pose proof (pow2_lt_mono len 64 Hl) as H64. unfold mod_mask, w64. rewrite N.mod_small by lia.
    destruct (isPowerOfTwoOcl N0) eqn:E; [lia|]. rewrite log2Ocl_ok by lia.
    assert (N0 < 2 ^ len).
    { assert (N0 <> 2 ^ len); [|lia]. intros F. assert (isPowerOfTwoOcl N0 = true) by (apply isPowerOfTwo_ok; eauto). congruence. }
    assert (HL : N.log2 N0 < len) by (apply N.log2_lt_pow2; lia).
    rewrite pow2Ocl_small by lia. assert (2 ^ (N.log2 N0 + 1) <= 2 ^ len) by (apply N.pow_le_mono_r; lia). pose proof (pow2_pos (N.log2 N0 + 1)). lia.
  Qed.
  Lemma out_ok n s o len k v extra x : n < 64 -> s + len <= n -> o + len <= n -> disjoint_regs s len o len -> x < 2 ^ n -> v < 2 ^ len -> k < 2 ^ len ->
    reg_is o len 0 x = true -> (forall j, N.testbit extra j = true -> outside_reg j s len /\ outside_reg j o len) ->
    N.lor (N.lor (N.land x (rmask s len)) (shl64 v o)) (N.land x (N.lxor (2 ^ n - 1) (N.lor (N.lor (rmask s len) (shl64 k o)) extra))) = N.ldiff (put_reg x o len v) extra.
  Proof.
    intros Hn Hs Ho Hd Hx Hv Hk H0 He. apply N.bits_inj. intros j.
    rewrite N.ldiff_spec, !N.lor_spec, N.land_spec, tb_other, !N.lor_spec, !tb_rmask, (tb_shl64 v o len), (tb_shl64 k o len), tb_put_reg by (auto; lia).
    assert (HZ : o <= j < o + len -> N.testbit x j = false) by (now apply reg_zero).
    unfold disjoint_regs in Hd. destruct (N.testbit extra j) eqn:E.
    - apply He in E. unfold outside_reg in E. cbn [negb]. rewrite orb_true_r, !andb_false_r.
      bcases; try lia; rewrite ?(tb_high v len), ?(tb_high k len) by (auto; lia); rewrite ?andb_false_r; auto.
    - cbn [negb]. rewrite orb_false_r, andb_true_r.
      bcases; try lia; try (rewrite HZ by lia); rewrite ?(tb_high v len), ?(tb_high k len) by (auto; lia);
        rewrite ?andb_false_r, ?andb_true_r, ?orb_false_r; cbn [andb orb negb]; rewrite ?andb_false_r, ?andb_true_r, ?orb_false_r; auto.
      all: destruct (N.testbit x j); auto.
  Qed.
  Lemma out_reg_lt n s o len h x : o + len <= n -> (forall u, u < 2 ^ len -> h u < 2 ^ len) -> x < 2 ^ n -> out_reg s o len h x < 2 ^ n.
  Proof. intros. apply put_reg_lt; auto. apply H0, get_reg_lt. Qed.
  Lemma out_reg_inj s o len h x y : disjoint_regs s len o len -> (forall u, u < 2 ^ len -> h u < 2 ^ len) -> get_reg x o len = get_reg y o len ->
    out_reg s o len h x = out_reg s o len h y -> x = y.
  Proof.
    intros Hd Hh Hc E. apply put_reg_inj in E; try (apply Hh; apply get_reg_lt). destruct E as [_ E]. now apply (reg_ext x y o len).
  Qed.
  Lemma mod_lt_len u N0 len : 1 <= N0 <= 2 ^ len -> u mod N0 < 2 ^ len.
  Proof. intros H. pose proof (N.mod_lt u N0 ltac:(lia)). lia. Qed.
  Theorem modnout_fwd (kf : N -> N) n N0 s o len (psi : V) r : fits c n -> mod_ok n N0 s o len -> ModNOut c kf n N0 s o len false (Some psi) r ->
    exists psi', r = Ok (Some psi') /\ basis_map n (reg_is o len 0) (out_reg s o len (fun u => kf u mod N0)) (fun _ => 1%amp) psi psi'.
  Proof.
    intros Hf [Hs [Ho [Hd HN]]] HR. assert (Hn : n < 64) by apply Hf. unfold ModNOut in HR. rewrite !range_ok in HR by auto. cbn [orb] in HR.
    destruct HR as [m0 [m' [H0 [HL ->]]]]. exists m'. split; auto. rewrite !pow2Ocl_small in HL by lia. apply loop_skip_runs in HL; auto.
    assert (HW : w64 N0 = N0) by (unfold w64; apply N.mod_small; pose proof (pow2_lt_mono len 64 ltac:(lia)); lia).
    assert (HB : forall x, x < 2 ^ n -> reg_is o len 0 x = true ->
      N.lor (N.lor (N.land x (rmask s len)) (shl64 (kf (get_reg x s len) mod N0) o)) (N.land x (N.lxor (2 ^ n - 1) (N.lor (rmask s len) (shl64 (mod_mask N0) o))))
      = out_reg s o len (fun u => kf u mod N0) x).
    { intros x Hx Dx. rewrite <- (N.lor_0_r (N.lor (rmask s len) (shl64 (mod_mask N0) o))).
      rewrite (out_ok n s o len), ldiff_0; auto. now apply mod_lt_len. apply mod_mask_lt; auto; lia. intros j Hj. rewrite N.bits_0 in Hj. discriminate. }
    refine (scatter_map c n _ _ _ _ _ psi m0 m' Hf (new_zero_ok c n m0 Hf H0) _ _ _ HL).
    - intros x. now rewrite reg_zero.
    - intros x Hx Dx. split. apply out_reg_lt; auto. intros; now apply mod_lt_len. cbn zeta. fold (rmask s len). rewrite field_ok by lia.
      rewrite HW, HB by auto. f_equal; ring.
    - intros x y Hx Hy Dx Dy. apply out_reg_inj; auto. intros; now apply mod_lt_len. apply reg_is_true in Dx. apply reg_is_true in Dy. congruence.
  Qed.
  Theorem modnout_inv (kf : N -> N) n N0 s o len (psi : V) r : fits c n -> mod_ok n N0 s o len -> ModNOut c kf n N0 s o len true (Some psi) r ->
    exists psi', r = Ok (Some psi') /\ pulled_back n (reg_is o len 0) (out_reg s o len (fun u => kf u mod N0)) psi psi'.
  Proof.
    intros Hf [Hs [Ho [Hd HN]]] HR. assert (Hn : n < 64) by apply Hf. unfold ModNOut in HR. rewrite !range_ok in HR by auto. cbn [orb] in HR.
    destruct HR as [m0 [m' [H0 [HL ->]]]]. exists m'. split; auto. rewrite !pow2Ocl_small in HL by lia. apply loop_skip_runs in HL; auto.
    assert (HW : w64 N0 = N0) by (unfold w64; apply N.mod_small; pose proof (pow2_lt_mono len 64 ltac:(lia)); lia).
    refine (gather_map n _ _ _ _ psi m0 m' Hf (new_zero_ok c n m0 Hf H0) _ _ HL).
    - intros x. now rewrite reg_zero.
    - intros x Hx Dx. cbn zeta. fold (rmask s len). rewrite field_ok by lia. rewrite HW.
      rewrite <- (N.lor_0_r (N.lor (rmask s len) (shl64 (mod_mask N0) o))).
      rewrite (out_ok n s o len), ldiff_0; auto. now apply mod_lt_len. apply mod_mask_lt; auto; lia. intros j Hj. rewrite N.bits_0 in Hj. discriminate.
  Qed.
  Lemma modnout_any kf inv n N0 s o len (v : option V) : fits c n -> exists r, ModNOut c kf n N0 s o len inv v r.
  Proof.
    intros Hf. unfold ModNOut. destruct (_ || _) eqn:E; [eauto|]. destruct v as [psi|]; [|eauto]. apply skip_zero; auto.
    apply orb_false_iff in E. destruct E as [_ E]. unfold isBadBitRange in E. apply orb_false_iff in E. destruct E as [E _]. apply N.ltb_ge in E. lia.
  Qed.
  Lemma out_reg_ext s o len h h' x : (forall u, u < 2 ^ len -> h u = h' u) -> out_reg s o len h x = out_reg s o len h' x.
  Proof. intros H. unfold out_reg. now rewrite H by apply get_reg_lt. Qed.
  Lemma out_reg_put s o len h x v : disjoint_regs s len o len -> v < 2 ^ len -> (forall u, u < 2 ^ len -> h u < 2 ^ len) ->
    out_reg s o len h (put_reg x o len v) = out_reg s o len h x.
  Proof. intros Hd Hv Hh. unfold out_reg. rewrite (get_put_other x o len v s len) by (auto using disjoint_sym). apply put_put; auto. apply Hh, get_reg_lt. Qed.
  Lemma mul_fn_ok m u len : u < 2 ^ len -> m * 2 ^ len <= 2 ^ 64 -> mul_fn m u = u * m.
  Proof.
    intros Hu Hm. pose proof (pow2_pos len) as HP. assert (H : u * m < 2 ^ 64) by nia. unfold mul_fn, w64.
    destruct (N.eq_dec u 0) as [->|]. now rewrite !N.mul_0_l, N.mod_0_l by apply pow2_nz.
    rewrite (N.mod_small m) by nia. now apply N.mod_small.
  Qed.
  Theorem mulmodnout_ok rgp (nrm : K) n m N0 s o len (psi : V) r : fits c n -> mod_ok n N0 s o len -> m * 2 ^ len <= 2 ^ 64 ->
    MULModNOut c rgp nrm n m N0 s o len psi r ->
    exists psi' v g, r = Ok (Some psi') /\ v < 2 ^ len /\ measured n (reg_is o len v) nrm g psi /\
      basis_map n (reg_is o len v) (out_reg s o len (fun u => (u * m) mod N0)) (fun _ => g) psi psi'.
  Proof.
    intros Hf Hmd Hm [r1 [HS HR]]. pose proof Hmd as [Hs [Ho [Hd HN]]]. pose proof (pow2_pos len) as HP.
    apply setreg_ok in HS; auto. destruct HS as [psi1 [v [g [-> [Hv [Hg HB]]]]]].
    destruct (N.eqb_spec m 0) as [->|Hm0].
    - subst r. exists psi1, v, g. split; auto. split; auto. split; auto. eapply basis_map_ext; [| |exact HB]; auto. intros x Hx Dx. split; auto.
      unfold out_reg. now rewrite N.mul_0_r, N.mod_0_l by lia.
    - apply modnout_fwd in HR; auto. destruct HR as [psi' [-> HM]]. exists psi', v, g. split; auto. split; auto. split; auto.
      assert (HD : forall x, x < 2 ^ n -> reg_is o len v x = true -> reg_is o len 0 (put_reg x o len 0) = true).
      { intros x _ _. unfold reg_is. rewrite get_put_same by auto. apply N.eqb_refl. }
      pose proof (basis_map_comp n _ _ _ _ _ _ _ _ _ HB HM HD) as HC. cbn beta in HC. eapply basis_map_ext; [| |exact HC]; auto.
      intros x Hx Dx. cbn beta. split; [|ring]. rewrite out_reg_put; auto; [|intros; now apply mod_lt_len].
      apply out_reg_ext. intros u Hu. now rewrite (mul_fn_ok m u len).
  Qed.
  Lemma mulmodnout_any rgp (nrm : K) n m N0 s o len (psi : V) : fits c n -> o + len <= n -> nonzero n psi -> exists r, MULModNOut c rgp nrm n m N0 s o len psi r.
  Proof.
    intros Hf Hc Hn. destruct (setreg_any c rgp nrm n o len 0 psi Hf Hc Hn) as [r1 H1].
    destruct r1 as [|v1]; [exists Throw, Throw; auto|].
    assert (HX : exists r, (if m =? 0 then r = Ok v1 else ModNOut c (mul_fn m) n N0 s o len false v1 r)).
    { destruct (N.eqb_spec m 0); [eauto|]. now apply modnout_any. }
    destruct HX as [r Hr]. exists r, (Ok v1). auto.
  Qed.
  Theorem imulmodnout_ok n m N0 s o len (psi : V) r : fits c n -> mod_ok n N0 s o len -> m * 2 ^ len <= 2 ^ 64 -> (m = 0 -> supported n (reg_is o len 0) psi) ->
    IMULModNOut c n m N0 s o len (Some psi) r ->
    exists psi', r = Ok (Some psi') /\ pulled_back n (reg_is o len 0) (out_reg s o len (fun u => (u * m) mod N0)) psi psi'.
  Proof.
    intros Hf Hmd Hm H1 HR. pose proof Hmd as [Hs [Ho [Hd HN]]]. unfold IMULModNOut in HR. destruct (N.eqb_spec m 0) as [->|Hm0].
    - subst r. exists psi. split; auto. intros x Hx. unfold out_reg. rewrite N.mul_0_r, N.mod_0_l by lia. destruct (reg_is o len 0 x) eqn:E.
      + apply reg_is_true in E. rewrite <- E at 1. now rewrite put_get.
      + now apply H1.
    - apply modnout_inv in HR; auto. destruct HR as [psi' [-> HM]]. exists psi'. split; auto. intros x Hx. rewrite HM by auto.
      destruct (reg_is o len 0 x); auto. f_equal. apply out_reg_ext. intros u Hu. now rewrite (mul_fn_ok m u len).
  Qed.
  Lemma imulmodnout_any n m N0 s o len (v : option V) : fits c n -> exists r, IMULModNOut c n m N0 s o len v r.
  Proof. intros Hf. unfold IMULModNOut. destruct (_ =? 0); [eauto|]. now apply modnout_any. Qed.

  Lemma pow_fn_ok b u : b < 2 ^ 64 -> b ^ u < 2 ^ 64 -> pow_fn b u = b ^ u.
  Proof. intros Hb H. unfold pow_fn. replace (w64 b) with b by (symmetry; apply N.mod_small; auto). rewrite intPowOcl_ok by auto. now apply N.mod_small. Qed.
  Lemma measured_zero n P (nrm g : K) v (psi : V) (Q : N -> N -> bool) : (forall x a b, Q a x = true -> Q b x = true -> a = b) -> P = Q v -> supported n (Q 0) psi ->
    measured n P nrm g psi -> v = 0.
  Proof.
    intros HQ -> Hs [[x [Hx [Px Nx]]] _]. destruct (Q 0 x) eqn:E. apply (HQ x); auto. exfalso. apply Nx. now apply Hs.
  Qed.
  Lemma measured_reg0 n s len v (nrm g : K) (psi : V) : supported n (reg_is s len 0) psi -> measured n (reg_is s len v) nrm g psi -> v = 0.
  Proof.
    intros Hs. apply (measured_zero n _ nrm g v psi (fun v => reg_is s len v)); auto. intros x a b Ha Hb. apply reg_is_true in Ha. apply reg_is_true in Hb. congruence.
  Qed.
  Theorem powmodnout_ok rgp (nrm : K) n b N0 s o len (psi : V) r : fits c n -> mod_ok n N0 s o len -> 2 <= N0 -> b < 2 ^ 64 -> b ^ (2 ^ len - 1) < 2 ^ 64 ->
    supported n (reg_is o len 0) psi -> POWModNOut c rgp nrm n b N0 s o len psi r ->
    exists psi' g, r = Ok (Some psi') /\ (g = 1%amp \/ g = nrm) /\
      basis_map n (reg_is o len 0) (out_reg s o len (fun u => (b ^ u) mod N0)) (fun _ => g) psi psi'.
  Proof.
    intros Hf Hmd HN2 Hb Hp Hs HR. pose proof Hmd as [Hsn [Ho [Hd HN]]]. unfold POWModNOut in HR. destruct (N.eqb_spec b 1) as [->|Hb1].
    - apply setreg_ok in HR; auto; [|lia]. destruct HR as [psi' [v [g [-> [Hv [Hg HB]]]]]]. exists psi', g. split; auto. split. destruct Hg as [_ [[-> _]| ->]]; auto.
      pose proof (measured_reg0 n o len v nrm g psi Hs Hg). subst v. eapply basis_map_ext; [| |exact HB]; auto. intros x Hx Dx. split; auto.
      unfold out_reg. rewrite N.pow_1_l, N.mod_small by lia. auto.
    - apply modnout_fwd in HR; auto. destruct HR as [psi' [-> HB]]. exists psi', 1%amp. split; auto. split; auto.
      eapply basis_map_ext; [| |exact HB]; auto. intros x Hx Dx. split; auto. apply out_reg_ext. intros u Hu. rewrite pow_fn_ok; auto.
      destruct (N.eq_dec b 0) as [->|]. destruct u. reflexivity. rewrite N.pow_0_l by lia. reflexivity.
      assert (b ^ u <= b ^ (2 ^ len - 1)) by (apply N.pow_le_mono_r; lia). lia.
  Qed.
  Lemma powmodnout_any rgp (nrm : K) n b N0 s o len (psi : V) : fits c n -> o + len <= n -> nonzero n psi -> exists r, POWModNOut c rgp nrm n b N0 s o len psi r.
  Proof. intros Hf Ho Hn. unfold POWModNOut. destruct (b =? 1). now apply setreg_any. now apply modnout_any. Qed.
End S.
