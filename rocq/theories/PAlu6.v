(** Proofs about the arithmetic kernels (part 6: controlled forms, tables, full adder, comparison). *)
From Coq Require Import NArith ZArith List Bool Lia Ring.
From Verif Require Import Bits MFunctions SpecFunctions PFunctions MParFor PParFor MKernel PKernel Amp PAmp MEngine SpecState SpecEngine
  PLoop PApply PGates PGates2 PGates3 PCompose PProb PEngine MAlu SpecAlu PAlu PAlu2 PAlu3 PAlu4 PAlu5.
Import ListNotations.
Local Open Scope N_scope.

Section S.
  Context {K : StarRing}.
  Add Ring KrF : (sr_ring K).
  Variable c : cfg.
  Local Notation V := (mem K).

  (** ** Controlled multiplication *)
  Lemma setreg_zero rgp (nrm : K) n o len (psi : V) r : fits c n -> o + len <= n -> supported n (reg_is o len 0) psi -> SetReg c rgp nrm n o len 0 psi r ->
    exists psi' g, r = Ok (Some psi') /\ (g = 1%amp \/ g = nrm) /\ basis_map n (reg_is o len 0) (fun x => x) (fun _ => g) psi psi'.
  Proof.
    intros Hf Ho Hs HS. apply setreg_ok in HS; auto; [|apply pow2_pos]. destruct HS as [psi' [v [g [-> [Hv [Hg HB]]]]]]. exists psi', g. split; auto.
    split. destruct Hg as [_ [[-> _]| ->]]; auto. pose proof (measured_reg0 n o len v nrm g psi Hs Hg). subst v.
    eapply basis_map_ext; [| |exact HB]; auto. intros x Hx Dx. split; auto. apply reg_is_true in Dx. rewrite <- Dx. apply put_get.
  Qed.
  Theorem cmul_ok rgp (nrm : K) n m s car len cs (psi : V) r : fits c n -> muldiv_ok n m s car len -> ctl_regs n cs s car len ->
    supported n (reg_is car len 0) psi -> CMUL c rgp nrm n m s car len cs psi r ->
    exists psi' g, r = Ok (Some psi') /\ (g = 1%amp \/ g = nrm) /\
      basis_map n (reg_is car len 0) (controlled cs (mul_regs s car len m)) (fun _ => g) psi psi'.
  Proof.
    intros Hf Hmd Hc Hs HR. pose proof Hmd as [Hsn [Hcn [Hd Hm]]]. unfold CMUL in HR. destruct cs as [|c0 cs0]; [now destruct Hc|].
    set (cs := c0 :: cs0) in *. destruct HR as [r1 [HS HR]]. apply setreg_zero in HS; auto. destruct HS as [psi1 [g [-> [Hg HB]]]].
    destruct (N.eqb_spec m 0); [lia|]. destruct (N.eqb_spec m 1) as [->|Hm1].
    - subst r. exists psi1, g. split; auto. split; auto. eapply basis_map_ext; [| |exact HB]; auto. intros x Hx Dx. split; auto.
      unfold controlled. destruct (all_set cs x); auto. rewrite mul_regs_1 by auto. apply reg_is_true in Dx. rewrite <- Dx at 1. now rewrite put_get.
    - apply cmuldiv_fwd in HR; auto. destruct HR as [psi' [-> HM]]. exists psi', g. split; auto. split; auto.
      pose proof (basis_map_comp n _ _ _ _ _ _ _ _ _ HB HM (fun x _ H => H)) as HC. cbn beta in HC. eapply basis_map_ext; [| |exact HC]; auto.
      intros x Hx Dx. cbn beta. split; auto. ring.
  Qed.
  Lemma cmul_any rgp (nrm : K) n m s car len cs (psi : V) : fits c n -> car + len <= n -> nonzero n psi -> m <> 0 -> exists r, CMUL c rgp nrm n m s car len cs psi r.
  Proof.
    intros Hf Hc Hn Hm. unfold CMUL. destruct cs as [|c0 cs0]. now apply mul_any. destruct (setreg_any c rgp nrm n car len 0 psi Hf Hc Hn) as [r1 H1].
    destruct r1 as [|v1]; [exists Throw, Throw; auto|].
    assert (HX : exists r, (if m =? 0 then on_vec (SetReg c rgp nrm n s len 0) v1 r else if m =? 1 then r = Ok v1 else CMULDIV c false n m s car len (c0 :: cs0) v1 r)).
    { destruct (N.eqb_spec m 0); [lia|]. destruct (m =? 1); [eauto|]. now apply cmuldiv_any. }
    destruct HX as [r Hr]. exists r, (Ok v1). auto.
  Qed.
  Theorem cdiv_ok n m s car len cs (psi : V) r : fits c n -> muldiv_ok n m s car len -> ctl_regs n cs s car len ->
    (m = 1 -> supported n (reg_is car len 0) psi) -> CDIV c n m s car len cs (Some psi) r ->
    exists psi', r = Ok (Some psi') /\ pulled_back n (reg_is car len 0) (controlled cs (mul_regs s car len m)) psi psi'.
  Proof.
    intros Hf Hmd Hc Hs HR. pose proof Hmd as [Hsn [Hcn [Hd Hm]]]. unfold CDIV in HR. destruct cs as [|c0 cs0]; [now destruct Hc|].
    set (cs := c0 :: cs0) in *. destruct (N.eqb_spec m 0); [lia|]. destruct (N.eqb_spec m 1) as [->|Hm1].
    - subst r. exists psi. split; auto. intros x Hx. unfold controlled. rewrite mul_regs_1 by auto. destruct (reg_is car len 0 x) eqn:E.
      + apply reg_is_true in E. rewrite <- E at 1. rewrite put_get. now destruct (all_set cs x).
      + now apply Hs.
    - now apply (cmuldiv_inv c).
  Qed.
  Lemma cdiv_any n m s car len cs (v : option V) : fits c n -> exists r, CDIV c n m s car len cs v r.
  Proof. intros Hf. unfold CDIV. destruct cs. now apply div_any. destruct (_ =? 0); [eauto|]. destruct (_ =? 1); [eauto|]. now apply cmuldiv_any. Qed.
  Theorem cmulmodnout_ok rgp (nrm : K) n m N0 s o len cs (psi : V) r : fits c n -> mod_ok n N0 s o len -> ctl_regs n cs s o len -> m * 2 ^ len <= 2 ^ 64 ->
    supported n (reg_is o len 0) psi -> CMULModNOut c rgp nrm n m N0 s o len cs psi r ->
    exists psi' g, r = Ok (Some psi') /\ (g = 1%amp \/ g = nrm) /\
      basis_map n (reg_is o len 0) (controlled cs (out_reg s o len (fun u => (u * m) mod N0))) (fun _ => g) psi psi'.
  Proof.
    intros Hf Hmd Hc Hm Hs HR. pose proof Hmd as [Hsn [Hcn [Hd HN]]]. unfold CMULModNOut in HR. destruct cs as [|c0 cs0]; [now destruct Hc|].
    set (cs := c0 :: cs0) in *. destruct HR as [r1 [HS HR]]. apply setreg_zero in HS; auto. destruct HS as [psi1 [g [-> [Hg HB]]]].
    apply cmodnout_fwd in HR; auto. destruct HR as [psi' [-> HM]]. exists psi', g. split; auto. split; auto.
    pose proof (basis_map_comp n _ _ _ _ _ _ _ _ _ HB HM (fun x _ H => H)) as HC. cbn beta in HC. eapply basis_map_ext; [| |exact HC]; auto.
    intros x Hx Dx. cbn beta. split; [|ring]. unfold controlled. destruct (all_set cs x); auto. apply out_reg_ext. intros u Hu. now rewrite (mul_fn_ok m u len).
  Qed.
  Lemma cmulmodnout_any rgp (nrm : K) n m N0 s o len cs (psi : V) : fits c n -> o + len <= n -> nonzero n psi -> exists r, CMULModNOut c rgp nrm n m N0 s o len cs psi r.
  Proof.
    intros Hf Hc Hn. unfold CMULModNOut. destruct cs as [|c0 cs0]. now apply mulmodnout_any. destruct (setreg_any c rgp nrm n o len 0 psi Hf Hc Hn) as [r1 H1].
    destruct r1 as [|v1]; [exists Throw, Throw; auto|]. destruct (cmodnout_any c (mul_fn m) false n N0 s o len (c0 :: cs0) v1 Hf) as [r Hr]. exists r, (Ok v1). auto.
  Qed.
  Theorem cimulmodnout_ok n m N0 s o len cs (psi : V) r : fits c n -> mod_ok n N0 s o len -> ctl_regs n cs s o len -> m * 2 ^ len <= 2 ^ 64 ->
    CIMULModNOut c n m N0 s o len cs (Some psi) r ->
    exists psi', r = Ok (Some psi') /\ pulled_back n (reg_is o len 0) (controlled cs (out_reg s o len (fun u => (u * m) mod N0))) psi psi'.
  Proof.
    intros Hf Hmd Hc Hm HR. unfold CIMULModNOut in HR. destruct cs as [|c0 cs0]; [now destruct Hc|].
    set (cs := c0 :: cs0) in *. apply cmodnout_inv in HR; auto. destruct HR as [psi' [-> HM]]. exists psi'. split; auto. intros x Hx. rewrite HM by auto.
    destruct (reg_is o len 0 x); auto. f_equal. unfold controlled. destruct (all_set cs x); auto. apply out_reg_ext. intros u Hu. now rewrite (mul_fn_ok m u len).
  Qed.
  Lemma cimulmodnout_any n m N0 s o len cs (v : option V) : fits c n -> exists r, CIMULModNOut c n m N0 s o len cs v r.
  Proof. intros Hf. unfold CIMULModNOut. destruct cs. now apply imulmodnout_any. now apply cmodnout_any. Qed.
  Theorem cpowmodnout_ok rgp (nrm : K) n b N0 s o len cs (psi : V) r : fits c n -> mod_ok n N0 s o len -> ctl_regs n cs s o len -> b < 2 ^ 64 -> b ^ (2 ^ len - 1) < 2 ^ 64 ->
    CPOWModNOut c rgp nrm n b N0 s o len cs psi r ->
    exists psi', r = Ok (Some psi') /\
      basis_map n (reg_is o len 0) (controlled cs (out_reg s o len (fun u => (b ^ u) mod N0))) (fun _ => 1%amp) psi psi'.
  Proof.
    intros Hf Hmd Hc Hb Hp HR. unfold CPOWModNOut in HR. destruct cs as [|c0 cs0]; [now destruct Hc|].
    set (cs := c0 :: cs0) in *. apply cmodnout_fwd in HR; auto. destruct HR as [psi' [-> HM]]. exists psi'. split; auto. eapply basis_map_ext; [| |exact HM]; auto.
    intros x Hx Dx. cbn beta. split; auto. unfold controlled. destruct (all_set cs x); auto. apply out_reg_ext. intros u Hu. rewrite pow_fn_ok; auto.
    destruct (N.eq_dec b 0) as [->|]. destruct u. reflexivity. rewrite N.pow_0_l by lia. reflexivity.
    assert (b ^ u <= b ^ (2 ^ len - 1)) by (apply N.pow_le_mono_r; lia). lia.
  Qed.
  Lemma cpowmodnout_any rgp (nrm : K) n b N0 s o len cs (psi : V) : fits c n -> o + len <= n -> nonzero n psi -> exists r, CPOWModNOut c rgp nrm n b N0 s o len cs psi r.
  Proof. intros Hf Ho Hn. unfold CPOWModNOut. destruct cs. now apply powmodnout_any. now apply cmodnout_any. Qed.

  (** ** Tables *)
  Lemma bytes_ok len : len < 64 -> value_bytes len = bytes_for len.
  Proof. intros H. unfold value_bytes, bytes_for. rewrite (w64_small _ 63), N.shiftr_div_pow2; auto; try lia. Qed.
  Lemma bytes_le8 len : len < 64 -> bytes_for len <= 8.
  Proof. intros H. unfold bytes_for. change 8 with (71 / 8) at 2. apply N.div_le_mono; lia. Qed.
  Lemma bytes_le_pow len : bytes_for len <= 2 ^ len.
  Proof.
    unfold bytes_for. pose proof (N.pow_gt_lin_r 2 len ltac:(lia)). apply N.div_le_upper_bound; lia.
  Qed.
  Lemma iota_snoc k j : iota j (S k) = iota j k ++ [j + N.of_nat k].
  Proof.
    revert j. induction k as [|k IH]; intros j. cbn [iota app]. f_equal. lia. change (iota j (S (S k))) with (j :: iota (j + 1) (S k)). rewrite IH. cbn [iota app].
    f_equal. f_equal. f_equal. lia.
  Qed.
  Lemma le_bytes_lt tab base k : (forall a, tab a < 256) -> le_bytes tab base k < 256 ^ N.of_nat k.
  Proof.
    intros Ht. induction k as [|k IH]; cbn [le_bytes]. reflexivity. rewrite Nat2N.inj_succ, N.pow_succ_r'. specialize (Ht (base + N.of_nat k)).
    set (M := 256 ^ N.of_nat k) in *. clearbody M. nia.
  Qed.
  Lemma lor_shl a b k : a < 2 ^ k -> N.lor a (N.shiftl b k) = a + b * 2 ^ k.
  Proof.
    intros Ha. rewrite N.shiftl_mul_pow2. symmetry. apply add_lor. apply N.bits_inj. intros j. rewrite N.land_spec, N.bits_0, <- N.shiftl_mul_pow2, tb_shiftl.
    destruct (N.leb_spec k j); [|apply andb_false_r]. now rewrite (tb_high a k).
  Qed.
  Lemma load_ok tab len i : (forall a, tab a < 256) -> len < 64 -> (i + 1) * bytes_for len <= 2 ^ 64 -> load tab (value_bytes len) i = table_entry tab len i.
  Proof.
    intros Ht Hl Hi. rewrite bytes_ok by auto. unfold load, table_entry. pose proof (bytes_le8 len Hl) as H8. set (B := bytes_for len) in *. clearbody B.
    assert (G : forall k, (k <= N.to_nat B)%nat ->
      fold_left (fun a j => N.lor a (shl64 (tab (w64 (w64 (i * B) + j))) (8 * j))) (iota 0 k) 0 = le_bytes tab (i * B) k).
    { induction k as [|k IH]; intros Hk. reflexivity. rewrite iota_snoc, fold_left_app, IH by lia. cbn [fold_left le_bytes]. rewrite N.add_0_l.
      pose proof (le_bytes_lt tab (i * B) k Ht) as HL. change 256 with (2 ^ 8) in HL |- *. rewrite <- N.pow_mul_r in HL |- *.
      assert (E1 : w64 (w64 (i * B) + N.of_nat k) = i * B + N.of_nat k).
      { unfold w64. rewrite N.add_mod_idemp_l by apply pow2_nz. apply N.mod_small. nia. }
      rewrite E1. rewrite <- lor_shl by auto. f_equal. unfold shl64, w64. apply N.mod_small.
      specialize (Ht (i * B + N.of_nat k)). apply lt_pow2_bits. intros j Hj. rewrite tb_shiftl. change 256 with (2 ^ 8) in Ht.
      destruct (N.leb_spec (8 * N.of_nat k) j); auto. rewrite (tb_high _ 8); auto. lia. }
    apply G. lia.
  Qed.
  Lemma index_bound n is il vs vl x : n < 64 -> is + il <= n -> vs + vl <= n -> disjoint_regs is il vs vl -> (get_reg x is il + 1) * bytes_for vl <= 2 ^ 64.
  Proof.
    intros Hn Hi Hv Hd. pose proof (get_reg_lt x is il) as Hg. pose proof (bytes_le_pow vl) as Hb.
    assert (2 ^ il * 2 ^ vl <= 2 ^ 64) by (rewrite <- N.pow_add_r; apply N.pow_le_mono_r; unfold disjoint_regs in Hd; lia).
    set (a := 2 ^ il) in *. set (b := 2 ^ vl) in *. set (g := get_reg x is il) in *. set (B := bytes_for vl) in *. clearbody a b g B. nia.
  Qed.

  Lemma lda_core_ok n is il vs vl tab (psi : V) r : fits c n -> idx_ok n is il vs vl -> good_table tab il vl ->
    IndexedLDA_core c n is il vs vl tab psi r ->
    exists psi', r = Ok (Some psi') /\ basis_map n (reg_is vs vl 0) (lookup tab is il vs vl) (fun _ => 1%amp) psi psi'.
  Proof.
    intros Hf [Hi [Hv Hd]] [Ht He] HR. assert (Hn : n < 64) by apply Hf. unfold IndexedLDA_core in HR.
    destruct HR as [m0 [m' [H0 [HL ->]]]]. exists m'. split; auto. rewrite !pow2Ocl_small in HL by lia. apply loop_skip_runs in HL; auto.
    refine (scatter_map c n _ _ _ _ _ psi m0 m' Hf (new_zero_ok c n m0 Hf H0) _ _ _ HL).
    - intros x. now rewrite reg_zero.
    - intros x Hx Dx. pose proof (He _ (get_reg_lt x is il)) as HE. split. now apply put_reg_lt. cbn zeta. rewrite rmask_reg, field_ok by lia.
      rewrite load_ok by (auto; try lia; now apply (index_bound n is il vs vl)). f_equal; [|ring].
      unfold lookup. apply N.bits_inj. intros j. rewrite N.lor_spec, (tb_shl64 _ vs vl), tb_put_reg by (auto; lia). rewrite reg_zero in Dx.
      bcases; try lia; rewrite ?orb_false_r; auto.
      all: first [now rewrite Dx by lia | rewrite (tb_high (table_entry _ _ _) vl) by (auto; lia); apply orb_false_r].
    - intros x y Hx Hy Dx Dy E. unfold lookup in E. apply put_reg_inj in E; try (apply He; apply get_reg_lt). destruct E as [_ E].
      apply (reg_ext x y vs vl); auto. apply reg_is_true in Dx. apply reg_is_true in Dy. congruence.
  Qed.
  Lemma lda_core_any n is il vs vl tab (psi : V) : fits c n -> vs + vl <= n -> exists r, IndexedLDA_core c n is il vs vl tab psi r.
  Proof. intros Hf Hv. unfold IndexedLDA_core. cbv zeta. apply skip_zero; auto. lia. Qed.
  Theorem lda_ok rgp (nrm : K) n is il vs vl tab rst (psi : V) r : fits c n -> idx_ok n is il vs vl -> good_table tab il vl ->
    supported n (reg_is vs vl 0) psi -> IndexedLDA c rgp nrm n is il vs vl tab rst (Some psi) r ->
    exists psi' g, r = Ok (Some psi') /\ (g = 1%amp \/ rst = true /\ g = nrm) /\ basis_map n (reg_is vs vl 0) (lookup tab is il vs vl) (fun _ => g) psi psi'.
  Proof.
    intros Hf Hi Hg Hs HR. pose proof Hi as [Hi1 [Hv Hd]]. assert (Hn : n < 64) by apply Hf. unfold IndexedLDA in HR. rewrite !range_ok in HR by auto. cbn [orb] in HR. destruct rst.
    - destruct HR as [r1 [HS HR]]. apply setreg_zero in HS; auto. destruct HS as [psi1 [g [-> [Hgg HB]]]]. cbn [on_vec] in HR.
      apply lda_core_ok in HR; auto. destruct HR as [psi' [-> HM]]. exists psi', g. split; auto. split. tauto.
      pose proof (basis_map_comp n _ _ _ _ _ _ _ _ _ HB HM (fun x _ H => H)) as HC. cbn beta in HC. eapply basis_map_ext; [| |exact HC]; auto.
      intros x Hx Dx. split; auto. ring.
    - apply lda_core_ok in HR; auto. destruct HR as [psi' [-> HM]]. exists psi', 1%amp. auto.
  Qed.
  Lemma lda_any rgp (nrm : K) n is il vs vl tab rst (psi : V) : fits c n -> vs + vl <= n -> nonzero n psi -> exists r, IndexedLDA c rgp nrm n is il vs vl tab rst (Some psi) r.
  Proof.
    intros Hf Hv Hn. unfold IndexedLDA. destruct (_ || _); [eauto|]. destruct rst; [|now apply lda_core_any].
    destruct (setreg_any c rgp nrm n vs vl 0 psi Hf Hv Hn) as [r1 H1]. destruct r1 as [|[v1|]]; [exists Throw, Throw; auto| |exists (Ok None), (Ok None); split; auto; reflexivity].
    destruct (lda_core_any n is il vs vl tab v1 Hf Hv) as [r Hr]. exists r, (Ok (Some v1)). auto.
  Qed.

  (** *** IndexedADC and IndexedSBC *)
  Lemma put_idx_ok n is il vs vl q v x b : n < 64 -> adc_ok n is il vs vl q -> x < 2 ^ n -> v < 2 ^ vl -> N.testbit x q = false ->
    N.lor (N.lor (N.lor (shl64 v vs) (N.land x (rmask is il))) (N.land x (N.land (2 ^ n - 1) (not64 (N.lor (N.lor (rmask is il) (rmask vs vl)) (2 ^ q)))))) (if b : bool then 2 ^ q else 0)
    = put_bit (put_reg x vs vl v) q b.
  Proof.
    intros Hn [[Hi [Hv Hd]] [Hq [Ho1 [Ho2 Hvl]]]] Hx Hvv Hc. apply N.bits_inj. intros j.
    rewrite !N.lor_spec, !N.land_spec, tb_ones, tb_put_bit, tb_put_reg, (tb_shl64 v vs vl), !tb_rmask by (auto; lia).
    unfold disjoint_regs, outside_reg in *.
    assert (Eb : N.testbit (if b then 2 ^ q else 0) j = b && (q =? j)) by (destruct b; [apply N.pow2_bits_eqb|apply N.bits_0]).
    rewrite Eb. destruct (N.ltb_spec j n) as [Hj|Hj].
    - rewrite not64_bit, !N.lor_spec, !tb_rmask, N.pow2_bits_eqb by lia.
      bcases; subst; try lia; rewrite ?Hc, ?andb_false_r, ?andb_true_r, ?orb_false_r; cbn [orb andb]; auto.
      all: try (rewrite (tb_high v vl) by (auto; lia)); cbn [orb andb]; rewrite ?andb_true_r; auto.
      all: destruct b, (N.testbit x j); auto.
    - rewrite (tb_high x n) by auto. cbn [andb]. bcases; subst; try lia; rewrite ?andb_false_r, ?orb_false_r; auto.
      all: try (rewrite (tb_high v vl) by (auto; lia)); auto.
  Qed.
  Lemma idx_carry_inj n is il vs vl q (e : N -> N) (h : N -> N -> N) (k : N -> N -> bool) x y : adc_ok n is il vs vl q -> N.testbit x q = N.testbit y q ->
    (forall a u, u < 2 ^ vl -> h a u < 2 ^ vl) -> (forall a u w, u < 2 ^ vl -> w < 2 ^ vl -> h a u = h a w -> u = w) ->
    put_bit (put_reg x vs vl (h (e (get_reg x is il)) (get_reg x vs vl))) q (k x vl) = put_bit (put_reg y vs vl (h (e (get_reg y is il)) (get_reg y vs vl))) q (k y vl) -> x = y.
  Proof.
    intros [[Hi [Hv Hd]] [Hq [Ho1 [Ho2 Hvl]]]] Hb Hh Hinj E. apply put_bit_agree in E.
    - pose proof (get_reg_lt x vs vl) as Gx. pose proof (get_reg_lt y vs vl) as Gy.
      assert (EI : get_reg x is il = get_reg y is il).
      { pose proof (f_equal (fun z => get_reg z is il) E) as F. cbn beta in F. now rewrite !(get_put_other _ vs vl _ is il) in F by (auto using disjoint_sym). }
      rewrite EI in E. apply put_reg_inj in E; auto. destruct E as [E1 E2]. apply Hinj in E1; auto. apply (reg_ext x y vs vl); auto.
    - rewrite !tb_put_reg by (apply Hh; apply get_reg_lt). unfold outside_reg in Ho2. bcases; auto; lia.
  Qed.
  Lemma idx_loop_ok sub n is il vs vl q tab b (psi : V) r : fits c n -> adc_ok n is il vs vl q -> (sub = true -> vl = 1) -> good_table tab il vl ->
    idx_loop c sub (if Bool.eqb b sub then 0 else 1) n is il vs vl q tab psi r ->
    exists psi', r = Ok (Some psi') /\
      basis_map n (bit_is q false) (fun x => (if sub then lookup_sub else lookup_add) tab is il vs vl q (put_bit x q b)) (fun _ => 1%amp) psi psi'.
  Proof.
    intros Hf Hok Hsub [Ht He] HR. assert (Hn : n < 64) by apply Hf. pose proof Hok as [[Hi [Hv Hd]] [Hq [Ho1 [Ho2 Hvl]]]]. unfold idx_loop in HR.
    destruct HR as [m0 [m' [H0 [HL ->]]]]. exists m'. split; auto. rewrite !pow2Ocl_small in HL by lia.
    assert (Ew : (if sub then vl else 1) = 1) by (destruct sub; auto).
    rewrite Ew in HL. apply loop_skip_runs in HL; auto; [|lia].
    pose proof (pow2_pos vl) as HP. assert (H2 : 2 * 2 ^ vl <= 2 ^ 64) by (rewrite <- N.pow_succ_r'; apply N.pow_le_mono_r; lia).
    set (cin := if Bool.eqb b sub then 0 else 1) in *. assert (Hcin : cin = if sub then 1 - N.b2n b else N.b2n b) by (unfold cin; destruct b, sub; reflexivity).
    set (tot := fun e u => if sub then u + (2 ^ vl - (e + cin)) else e + u + cin).
    assert (Hf2 : forall x, (if sub then lookup_sub else lookup_add) tab is il vs vl q (put_bit x q b)
       = put_bit (put_reg x vs vl (tot (table_entry tab vl (get_reg x is il)) (get_reg x vs vl) mod 2 ^ vl)) q
           (2 ^ vl <=? tot (table_entry tab vl (get_reg x is il)) (get_reg x vs vl))).
    { intros x. pose proof (He _ (get_reg_lt x is il)) as HE. pose proof (get_reg_lt x vs vl) as HG. unfold tot, lookup_sub, lookup_add, sub_carry, add_carry. destruct sub.
      - rewrite !get_put_bit, tb_put_bit, N.eqb_refl by auto. rewrite put_reg_bit, put_bit_put.
        2:{ assert (0 <= 2 ^ Z.of_N vl)%Z by (apply Z.pow_nonneg; lia). apply N2Z.inj_lt. rewrite Z2N.id by (apply Z.mod_pos_bound; apply Z.pow_pos_nonneg; lia).
            rewrite N2Z.inj_pow. apply Z.mod_pos_bound. apply Z.pow_pos_nonneg; lia. } 2:{ auto. }
        set (e := table_entry tab vl (get_reg x is il)) in *. set (u := get_reg x vs vl) in *. clearbody e u.
        assert (EZ : (2 ^ Z.of_N vl = Z.of_N (2 ^ vl))%Z) by (rewrite N2Z.inj_pow; reflexivity). rewrite EZ. rewrite Hcin. set (M := 2 ^ vl) in *. clearbody M. clear EZ.
        assert (HZ : Z.of_N (u + (M - (e + (1 - N.b2n b)))) = ((Z.of_N u - Z.of_N e - (1 - Z.of_N (N.b2n b))) + 1 * Z.of_N M)%Z) by (destruct b; cbn [N.b2n]; lia).
        f_equal.
        + f_equal. rewrite <- (Z.mod_add _ 1) by lia. rewrite <- HZ, <- N2Z.inj_mod. apply N2Z.id.
        + match goal with |- (0 <=? ?d)%Z = (?p <=? ?t) => destruct (N.leb_spec p t), (Z.leb_spec 0 d); auto; lia end.
      - rewrite !get_put_bit, tb_put_bit, N.eqb_refl by auto. rewrite put_reg_bit, put_bit_put by (auto; apply mod_lt_pow2).
        rewrite Hcin. rewrite (N.add_comm (get_reg x vs vl)). reflexivity. }
    assert (Ht1 : forall e u, e < 2 ^ vl -> u < 2 ^ vl -> tot e u < 2 * 2 ^ vl).
    { intros e u Hee Hu. unfold tot. rewrite Hcin. set (M := 2 ^ vl) in *. clearbody M. destruct sub, b; cbn [N.b2n]; lia. }
    assert (Ht2 : forall e u, e < 2 ^ vl -> u < 2 ^ vl -> (if sub then w64 (u + sub64 (2 ^ vl) (w64 (e + cin))) else w64 (e + w64 (u + cin))) = tot e u).
    { intros e u Hee Hu. pose proof (Ht1 e u Hee Hu) as HT. unfold tot in *. rewrite Hcin in *. set (M := 2 ^ vl) in *. clearbody M. unfold sub64, w64.
      change (2 ^ 64) with 18446744073709551616 in *. destruct sub.
      - rewrite !(N.mod_small (e + _)) by (destruct b; cbn [N.b2n]; lia).
        replace (M + (18446744073709551616 - (e + (1 - N.b2n b)))) with ((M - (e + (1 - N.b2n b))) + 1 * 18446744073709551616) by (destruct b; cbn [N.b2n]; lia).
        rewrite N.mod_add by lia. rewrite (N.mod_small (M - _)) by (destruct b; cbn [N.b2n]; lia). apply N.mod_small. lia.
      - rewrite (N.mod_small (u + _)) by (destruct b; cbn [N.b2n]; lia). rewrite N.mod_small by lia. lia. }
    assert (Hred : forall t, t < 2 * 2 ^ vl -> (if 2 ^ vl <=? t then t - 2 ^ vl else t) = t mod 2 ^ vl).
    { intros t Htt. destruct (N.leb_spec (2 ^ vl) t); [|now rewrite N.mod_small].
      replace t with ((t - 2 ^ vl) + 1 * 2 ^ vl) at 2 by lia. rewrite N.mod_add, N.mod_small by lia. auto. }
    refine (scatter_map c n _ _ _ _ _ psi m0 m' Hf (new_zero_ok c n m0 Hf H0) _ _ _ HL).
    - intros x. unfold bit_is. split; intros [Hx Hb]; split; auto.
      + rewrite Hb by lia. reflexivity.
      + intros j Hj. replace j with q by lia. destruct (N.testbit x q); auto; discriminate.
    - intros x Hx Dx. apply bit_is_true in Dx. rewrite Hf2. split. apply put_bit_lt; auto. apply put_reg_lt; auto. apply mod_lt_pow2.
      cbn zeta. rewrite !rmask_reg, !field_ok by lia. pose proof (He _ (get_reg_lt x is il)) as HE. pose proof (get_reg_lt x vs vl) as HG.
      rewrite load_ok by (auto; try lia; now apply (index_bound n is il vs vl)). rewrite Ht2, Hred by auto.
      f_equal; [|ring]. apply put_idx_ok; auto. apply mod_lt_pow2.
    - intros x y Hx Hy Dx Dy E. cbn beta in E. rewrite !Hf2 in E. apply bit_is_true in Dx. apply bit_is_true in Dy.
      apply (idx_carry_inj n is il vs vl q (table_entry tab vl) (fun e u => tot e u mod 2 ^ vl) (fun x vl => 2 ^ vl <=? tot (table_entry tab vl (get_reg x is il)) (get_reg x vs vl)) x y) in E; auto.
      + congruence.
      + intros. apply mod_lt_pow2.
      + intros a u w Hu Hw EE. unfold tot in EE. destruct sub; [|rewrite !(N.add_comm a), <- !N.add_assoc in EE]; now apply mod_add_cancel in EE.
  Qed.
  Theorem indexed_ok sub rgp (nrm : K) n is il vs vl q tab (psi : V) r : fits c n -> adc_ok n is il vs vl q -> (sub = true -> vl = 1) -> good_table tab il vl ->
    IndexedAS c sub rgp nrm n is il vs vl q tab (Some psi) r ->
    exists psi' b g, r = Ok (Some psi') /\ measured n (bit_is q b) nrm g psi /\
      basis_map n (bit_is q b) ((if sub then lookup_sub else lookup_add) tab is il vs vl q) (fun _ => g) psi psi'.
  Proof.
    intros Hf Hok Hsub Hg HR. assert (Hn : n < 64) by apply Hf. pose proof Hok as [[Hi [Hv Hd]] [Hq _]]. unfold IndexedAS in HR. rewrite !range_ok in HR by auto.
    destruct (N.leb_spec n q); [lia|]. cbn [orb] in HR.
    apply (with_carry_ok c rgp nrm n q _ (fun b x => (if sub then lookup_sub else lookup_add) tab is il vs vl q (put_bit x q b)) (fun _ _ => 1%amp)) in HR; auto.
    - destruct HR as [psi' [b [g [-> [Hgg HB]]]]]. exists psi', b, g. split; auto. split; auto. eapply basis_map_ext; [| |exact HB]; auto.
      intros x Hx Dx. cbn beta. split; [|ring]. apply bit_is_true in Dx. rewrite put_bit_put, <- Dx, put_bit_same. reflexivity.
    - intros b psi1 r1 _ HA. cbn [on_vec] in HA. now apply idx_loop_ok in HA.
  Qed.
  Lemma indexed_any sub rgp (nrm : K) n is il vs vl q tab (psi : V) : fits c n -> nonzero n psi -> exists r, IndexedAS c sub rgp nrm n is il vs vl q tab (Some psi) r.
  Proof.
    intros Hf Hn. unfold IndexedAS. destruct (_ || _) eqn:E; [eauto|]. apply orb_false_iff in E. destruct E as [_ E]. apply N.leb_gt in E.
    apply with_carry_any; auto. intros b [v|]; cbn [on_vec]; [|eauto]. unfold idx_loop. cbv zeta. apply skip_zero; auto. lia.
  Qed.

  (** *** Hash *)
  Lemma hash_val_ok n s len v x : n < 64 -> s + len <= n -> x < 2 ^ n -> v < 2 ^ len ->
    N.lor (shl64 v s) (N.land x (not64 (N.land x (rmask s len)))) = put_reg x s len v.
  Proof.
    intros Hn Hs Hx Hv. apply N.bits_inj. intros j. rewrite N.lor_spec, N.land_spec, (tb_shl64 v s len), tb_put_reg by (auto; lia).
    destruct (N.lt_ge_cases j n) as [Hj|Hj].
    - rewrite not64_bit, N.land_spec, tb_rmask by lia. bcases; try lia; rewrite ?andb_true_r, ?andb_false_r; auto.
      + now rewrite andb_true_r.
      + destruct (N.testbit x j); now rewrite orb_false_r.
      + rewrite (tb_high v len) by (auto; lia). now rewrite andb_true_r.
    - rewrite (tb_high x n) by auto. bcases; try lia; auto. rewrite (tb_high v len) by (auto; lia). auto.
  Qed.
  Theorem hash_ok n s len tab (psi : V) r : fits c n -> s + len <= n -> good_table tab len len -> (len + 3 <= 64) ->
    (forall i j, i < 2 ^ len -> j < 2 ^ len -> table_entry tab len i = table_entry tab len j -> i = j) ->
    Hash c n s len tab (Some psi) r ->
    exists psi', r = Ok (Some psi') /\ basis_map n always (hashed tab s len) (fun _ => 1%amp) psi psi'.
  Proof.
    intros Hf Hs [Ht He] Hl3 Hinj HR. assert (Hn : n < 64) by apply Hf. unfold Hash in HR. rewrite !range_ok in HR by auto.
    destruct HR as [m0 [m' [H0 [HL ->]]]]. exists m'. split; auto.
    refine (scatter_perm c n _ _ _ psi m0 m' Hf _ _ HL).
    - intros x Hx. pose proof (He _ (get_reg_lt x s len)) as HE. split. now apply put_reg_lt. cbn zeta. rewrite rmask_reg, field_ok by lia.
      assert (HB : (get_reg x s len + 1) * bytes_for len <= 2 ^ 64).
      { pose proof (get_reg_lt x s len) as Hg. pose proof (bytes_le8 len ltac:(lia)) as H8. assert (2 ^ len * 8 <= 2 ^ 64).
        { change 8 with (2 ^ 3). rewrite <- N.pow_add_r. apply N.pow_le_mono_r; lia. }
        set (M := 2 ^ len) in *. set (g := get_reg x s len) in *. set (B := bytes_for len) in *. clearbody M g B. nia. }
      rewrite load_ok by (auto; lia). rewrite (hash_val_ok n) by auto. f_equal; ring.
    - intros x y _ _ E. unfold hashed in E. apply put_reg_inj in E; try (apply He; apply get_reg_lt). destruct E as [E1 E2].
      apply (reg_ext x y s len); auto. apply Hinj; auto using get_reg_lt.
  Qed.
  Lemma hash_any n s len tab (v : option V) : fits c n -> exists r, Hash c n s len tab v r.
  Proof. intros Hf. unfold Hash. destruct (isBadBitRange s len n); [eauto|]. destruct v; [|eauto]. cbv zeta. now apply for_zero. Qed.

  (** ** PhaseFlipIfLess *)
  Lemma pfil_gen n g s len flag (psi : V) r : fits c n -> s + len <= n -> match flag with Some q => q < n | None => True end ->
    PhaseFlipIfLess c n g s len flag (Some psi) r ->
    exists psi', r = Ok (Some psi') /\ forall x, x < 2 ^ n -> psi' x = (if (get_reg x s len <? w64 g) && flag_set flag x then - psi x else psi x)%amp.
  Proof.
    intros Hf Hs Hfl HR. assert (Hn : n < 64) by apply Hf. unfold PhaseFlipIfLess in HR. rewrite !range_ok in HR by auto.
    replace (match flag with Some q => n <=? q | None => false end) with false in HR.
    2:{ destruct flag; auto. symmetry. now apply N.leb_gt. }
    cbn [orb] in HR. destruct HR as [m' [HL ->]]. exists m'. split; auto. intros x Hx.
    assert (HC : forall i, ((N.shiftr (N.land i (bitRegMaskOcl s len)) s <? w64 g) && match flag with Some q => N.land i (pow2Ocl q) =? pow2Ocl q | None => true end)
                  = (get_reg i s len <? w64 g) && flag_set flag i).
    { intros i. rewrite rmask_reg, field_ok by lia. f_equal. destruct flag as [q|]; auto. cbn [flag_set].
      rewrite pow2Ocl_small by lia. rewrite (bit_mask i q true). unfold bit_is. now destruct (N.testbit i q). }
    cbv zeta in HL.
    apply (cellwise_ok c n (2 ^ n) _ (fun x y => if (get_reg x s len <? w64 g) && flag_set flag x then (- y)%amp else y) psi m' Hf (N.le_refl _)) with (2 := HL); auto.
    intros i _. rewrite HC. destruct (_ && _).
    - split. split; auto. cbn [within2]; auto. intros m. cbn [exec]. apply mset_eq.
    - split. exact I. intros m. reflexivity.
  Qed.
  Theorem pfil_ok n g s len flag (psi : V) r : fits c n -> s + len <= n -> g < 2 ^ 64 -> match flag with Some q => q < n | None => True end ->
    PhaseFlipIfLess c n g s len flag (Some psi) r ->
    exists psi', r = Ok (Some psi') /\ forall x, x < 2 ^ n -> psi' x = (if (get_reg x s len <? g) && flag_set flag x then - psi x else psi x)%amp.
  Proof.
    intros Hf Hs Hg Hfl HR. apply pfil_gen in HR; auto. destruct HR as [psi' [-> H]]. exists psi'. split; auto. intros x Hx. rewrite H by auto. unfold w64.
    now rewrite N.mod_small by auto.
  Qed.
  Lemma pfil_any n g s len flag (psi : V) : fits c n -> exists r, PhaseFlipIfLess c n g s len flag (Some psi) r.
  Proof. intros Hf. unfold PhaseFlipIfLess. destruct (_ || _); [eauto|]. cbv zeta. now apply for_any. Qed.
End S.
