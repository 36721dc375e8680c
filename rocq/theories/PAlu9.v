(** Proofs about the arithmetic kernels (part 9: statements over all runs, used by PropAlu.v). *)
From Coq Require Import NArith ZArith List Bool Lia Ring.
From Verif Require Import Bits MFunctions SpecFunctions PFunctions MParFor PParFor MKernel PKernel Amp PAmp MEngine SpecState SpecEngine
  PLoop PApply PGates PGates2 PGates3 PCompose PProb PEngine PEngine2 MAlu SpecAlu PAlu PAlu2 PAlu3 PAlu4 PAlu5 PAlu6 PAlu7.
Import ListNotations.
Local Open Scope N_scope.

Section R.
  Variable K : StarRing.
  Add Ring KrJ : (sr_ring K).
  Lemma Radd_0_l_one : (1 * 1 = 1 :> K)%amp.
  Proof. ring. Qed.
  Lemma Rone_l (x : K) : (1 * x = x)%amp.
  Proof. ring. Qed.
End R.
Lemma cdec_ok {K : StarRing} (c : cfg) n toSub s len cs (psi : mem K) r : fits c n -> s + len <= n -> NoDup cs -> (forall q, In q cs -> q < n /\ outside_reg q s len) ->
  CDEC c n toSub s len cs (Some psi) r ->
  exists psi', r = Ok (Some psi') /\ basis_map n always (controlled cs (sub_reg s len toSub)) (fun _ => 1%amp) psi psi'.
Proof.
  intros Hf Hs ND Hc HR. unfold CDEC in HR. apply (cinc_ok c) in HR; auto. destruct HR as [psi' [-> HB]]. exists psi'. split; auto.
  eapply basis_map_ext; [| |exact HB]; auto. intros x Hx _. split; auto. unfold controlled. destruct (all_set cs x); auto.
  assert (Hn : n < 64) by apply Hf. apply dec_const_ok. lia.
Qed.
Lemma len62 c n s len o : fits c n -> s + len <= n -> o < n -> outside_reg o s len -> len <= 62.
Proof. intros Hf ? ? Ho. assert (n < 64) by apply Hf. unfold outside_reg in Ho. lia. Qed.
Lemma add_reg_ctl n s len a cs x : s + len <= n -> (forall q, In q cs -> q < n /\ outside_reg q s len) -> all_set cs (add_reg s len a x) = all_set cs x.
Proof. intros Hs Hc. unfold add_reg. apply all_set_put. apply mod_lt_pow2. intros q Hq. now apply Hc. Qed.

Lemma l_c28_inc : forall (K : StarRing) (c : cfg) n toAdd s len (psi : mem K), fits c n -> s + len <= n ->
  every_run (INC c n toAdd s len (Some psi)) (fun r => exists psi', r = Ok (Some psi') /\ basis_map n always (add_reg s len toAdd) (fun _ => 1%amp) psi psi').
Proof. intros. split. now apply inc_any. intros r HR. now apply (inc_ok c) in HR. Qed.

Lemma l_c28_dec : forall (K : StarRing) (c : cfg) n toSub s len (psi : mem K), fits c n -> s + len <= n ->
  every_run (DEC c n toSub s len (Some psi)) (fun r => exists psi', r = Ok (Some psi') /\ basis_map n always (sub_reg s len toSub) (fun _ => 1%amp) psi psi').
Proof. intros. split. now apply inc_any. intros r HR. now apply (dec_ok c) in HR. Qed.

Lemma l_c28_dec_undoes_inc : forall (K : StarRing) (c : cfg) n a s len (psi : mem K), fits c n -> s + len <= n ->
  every_run (INC c n a s len (Some psi)) (fun r => exists psi1, r = Ok (Some psi1) /\
    every_run (DEC c n a s len (Some psi1)) (fun r2 => exists psi2, r2 = Ok (Some psi2) /\ eqv n psi2 psi)).
Proof. intros K c n a s len psi Hf Hs. split. now apply inc_any. intros r HR. apply (inc_ok c) in HR; auto. destruct HR as [psi1 [-> HB]]. exists psi1. split; auto.
  split. now apply inc_any. intros r2 HR. apply (dec_ok c) in HR; auto. destruct HR as [psi2 [-> HB2]]. exists psi2. split; auto.
  eapply (basis_map_undo n always (add_reg s len a) (sub_reg s len a) 1%amp 1%amp psi psi1 psi2); auto. intros x _ _. now apply sub_add.
  rewrite (Radd_0_l_one K). reflexivity. intros x Hx Dx. discriminate Dx. Qed.

Lemma l_c29_cinc : forall (K : StarRing) (c : cfg) n toAdd s len cs (psi : mem K), fits c n -> s + len <= n -> NoDup cs ->
  (forall q, In q cs -> q < n /\ outside_reg q s len) ->
  every_run (CINC c n toAdd s len cs (Some psi)) (fun r => exists psi', r = Ok (Some psi') /\ basis_map n always (controlled cs (add_reg s len toAdd)) (fun _ => 1%amp) psi psi').
Proof. intros. split. now apply cinc_any. intros r HR. now apply (cinc_ok c) in HR. Qed.

Lemma l_c29_cdec_undoes_cinc : forall (K : StarRing) (c : cfg) n a s len cs (psi : mem K), fits c n -> s + len <= n -> NoDup cs ->
  (forall q, In q cs -> q < n /\ outside_reg q s len) ->
  every_run (CINC c n a s len cs (Some psi)) (fun r => exists psi1, r = Ok (Some psi1) /\
    every_run (CDEC c n a s len cs (Some psi1)) (fun r2 => exists psi2, r2 = Ok (Some psi2) /\ eqv n psi2 psi)).
Proof. intros K c n a s len cs psi Hf Hs ND Hc. split. now apply cinc_any. intros r HR. apply (cinc_ok c) in HR; auto. destruct HR as [psi1 [-> HB]]. exists psi1. split; auto.
  split. now apply cinc_any. intros r2 HR. apply (cdec_ok c) in HR; auto. destruct HR as [psi2 [-> HB2]]. exists psi2. split; auto.
  eapply (basis_map_undo n always _ _ 1%amp 1%amp psi psi1 psi2); [|apply (Radd_0_l_one K)| |exact HB|exact HB2]; [|intros x Hx Dx; discriminate Dx].
  intros x _ _. unfold controlled. destruct (all_set cs x) eqn:E.
  - rewrite (add_reg_ctl n s len a cs x), E by auto. now apply sub_add.
  - now rewrite E. Qed.

Lemma l_c30_incc_partial : forall (K : StarRing) (c : cfg) rgp (nrm : K) n toAdd s len q (psi : mem K), fits c n -> s + len <= n -> q < n -> outside_reg q s len -> 1 <= len ->
  nonzero n psi ->
  every_run (INCC c rgp nrm n toAdd s len q psi) (fun r => exists psi' b g, r = Ok (Some psi') /\ measured n (bit_is q b) nrm g psi /\
    (toAdd + N.b2n b < 2 ^ len -> basis_map n (bit_is q b) (add_carry s len q toAdd) (fun _ => g) psi psi') /\
    (toAdd = 2 ^ len - 1 -> b = true -> basis_map n (bit_is q b) (fun x => put_bit x q false) (fun _ => g) psi psi')).
Proof. intros. split. now apply incc_any. intros r HR. now apply (incc_ok c) in HR. Qed.

Lemma l_c30_decc_partial : forall (K : StarRing) (c : cfg) rgp (nrm : K) n toSub s len q (psi : mem K), fits c n -> s + len <= n -> q < n -> outside_reg q s len -> toSub < 2 ^ len ->
  nonzero n psi ->
  every_run (DECC c rgp nrm n toSub s len q psi) (fun r => exists psi' b g, r = Ok (Some psi') /\ measured n (bit_is q b) nrm g psi /\
    ((toSub = 0 -> b = false) -> basis_map n (bit_is q b) (sub_carry s len q toSub) (fun _ => g) psi psi') /\
    (toSub = 0 -> b = true -> basis_map n (bit_is q b) (fun x => put_bit x q false) (fun _ => g) psi psi')).
Proof. intros. split. now apply decc_any. intros r HR. now apply (decc_ok c) in HR. Qed.

Lemma l_c31_incs : forall (K : StarRing) (c : cfg) n toAdd s len o (psi : mem K), fits c n -> s + len <= n -> o < n -> outside_reg o s len -> 1 <= len ->
  every_run (INCS c n toAdd s len o (Some psi)) (fun r => exists psi', r = Ok (Some psi') /\
    basis_map n always (add_reg s len toAdd) (fun x => sgn (overflows len (get_reg x s len) (toAdd mod 2 ^ len) && N.testbit x o)) psi psi').
Proof. intros K c n toAdd s len o psi Hf Hs Ho Hq Hl. pose proof (len62 c n s len o Hf Hs Ho Hq). split. now apply incs_any. intros r HR. apply (incs_ok c) in HR; auto. Qed.

Lemma l_c31_decs : forall (K : StarRing) (c : cfg) n toSub s len o (psi : mem K), fits c n -> s + len <= n -> o < n -> outside_reg o s len -> 1 <= len ->
  every_run (DECS c n toSub s len o (Some psi)) (fun r => exists psi', r = Ok (Some psi') /\
    basis_map n always (sub_reg s len toSub)
      (fun x => sgn (overflows len (get_reg x s len) ((2 ^ len - toSub mod 2 ^ len) mod 2 ^ len) && N.testbit x o)) psi psi').
Proof. intros K c n toSub s len o psi Hf Hs Ho Hq Hl. pose proof (len62 c n s len o Hf Hs Ho Hq). split. now apply incs_any. intros r HR. apply (incs_ok c) in HR; auto.
  destruct HR as [psi' [-> HB]]. exists psi'. split; auto. eapply basis_map_ext; [| |exact HB]; auto. intros x _ _. split.
  apply dec_const_ok. lia. now rewrite neg_const by lia. Qed.

Lemma l_c32_rol : forall (K : StarRing) (c : cfg) n shift s len (psi : mem K), fits c n -> s + len <= n ->
  every_run (ROL c n shift s len (Some psi)) (fun r => exists psi' f, r = Ok (Some psi') /\
    basis_map n always f (fun _ => 1%amp) psi psi' /\ forall x, x < 2 ^ n -> rotated s len shift x (f x)).
Proof. intros. split. now apply rol_any. intros r HR. now apply (rol_ok c) in HR. Qed.

Lemma l_c33_mul : forall (K : StarRing) (c : cfg) rgp (nrm : K) n m s car len (psi : mem K), fits c n -> muldiv_ok n m s car len -> nonzero n psi ->
  every_run (MUL c rgp nrm n m s car len psi) (fun r => exists psi' v g, r = Ok (Some psi') /\ v < 2 ^ len /\ measured n (reg_is car len v) nrm g psi /\
    basis_map n (reg_is car len v) (mul_regs s car len m) (fun _ => g) psi psi').
Proof. intros K c rgp nrm n m s car len psi Hf Hm Hn. split. apply mul_any; auto; destruct Hm as [? [? [? ?]]]; lia. intros r HR. now apply (mul_ok c) in HR. Qed.

Lemma l_c33_div_undoes_mul : forall (K : StarRing) (c : cfg) rgp (nrm : K) n m s car len (psi : mem K), fits c n -> muldiv_ok n m s car len -> nonzero n psi ->
  supported n (reg_is car len 0) psi ->
  every_run (MUL c rgp nrm n m s car len psi) (fun r => exists psi1 g, r = Ok (Some psi1) /\ (g = 1%amp \/ g = nrm) /\
    every_run (DIV c n m s car len (Some psi1)) (fun r2 => exists psi2, r2 = Ok (Some psi2) /\ scaled n g psi psi2)).
Proof. intros K c rgp nrm n m s car len psi Hf Hm Hn Hs. split. apply mul_any; auto; destruct Hm as [? [? [? ?]]]; lia. intros r HR. apply (mul_ok c) in HR; auto.
  destruct HR as [psi1 [v [g [-> [Hv [Hg HB]]]]]]. exists psi1, g. split; auto. split. destruct Hg as [_ [[-> _]| ->]]; auto.
  pose proof (measured_reg0 n car len v nrm g psi Hs Hg). subst v. split. now apply div_any. intros r2 HR.
  apply (div_ok c) in HR; auto. destruct HR as [psi2 [-> HP]]. exists psi2. split; auto. eapply pull_undo; eauto.
  intros ->. intros x Hx Dx. destruct HB as [_ [_ HC]]. apply HC; auto. intros y Hy Dy E. pose proof Hm as [H1 [H2 [H3 _]]].
  rewrite mul_regs_1 in E by auto. apply reg_is_true in Dy. assert (y = x) by (rewrite <- E, <- Dy; symmetry; apply put_get). subst y. unfold reg_is in Dx. rewrite Dy in Dx. discriminate. Qed.

Lemma l_c34_mulmodnout_partial : forall (K : StarRing) (c : cfg) rgp (nrm : K) n m N0 s o len (psi : mem K), fits c n -> mod_ok n N0 s o len -> m * 2 ^ len <= 2 ^ 64 -> nonzero n psi ->
  every_run (MULModNOut c rgp nrm n m N0 s o len psi) (fun r => exists psi' v g, r = Ok (Some psi') /\ v < 2 ^ len /\ measured n (reg_is o len v) nrm g psi /\
    basis_map n (reg_is o len v) (out_reg s o len (fun u => (u * m) mod N0)) (fun _ => g) psi psi').
Proof. intros K c rgp nrm n m N0 s o len psi Hf Hm Hb Hn. split. apply mulmodnout_any; auto; destruct Hm as [? [? [? ?]]]; lia. intros r HR. now apply (mulmodnout_ok c) in HR. Qed.

Lemma l_c34_imulmodnout_undoes_partial : forall (K : StarRing) (c : cfg) rgp (nrm : K) n m N0 s o len (psi : mem K), fits c n -> mod_ok n N0 s o len -> m * 2 ^ len <= 2 ^ 64 -> nonzero n psi ->
  supported n (reg_is o len 0) psi ->
  every_run (MULModNOut c rgp nrm n m N0 s o len psi) (fun r => exists psi1 g, r = Ok (Some psi1) /\ (g = 1%amp \/ g = nrm) /\
    every_run (IMULModNOut c n m N0 s o len (Some psi1)) (fun r2 => exists psi2, r2 = Ok (Some psi2) /\ scaled n g psi psi2)).
Proof. intros K c rgp nrm n m N0 s o len psi Hf Hm Hb Hn Hs. split. apply mulmodnout_any; auto; destruct Hm as [? [? [? ?]]]; lia. intros r HR. apply (mulmodnout_ok c) in HR; auto.
  destruct HR as [psi1 [v [g [-> [Hv [Hg HB]]]]]]. exists psi1, g. split; auto. split. destruct Hg as [_ [[-> _]| ->]]; auto.
  pose proof (measured_reg0 n o len v nrm g psi Hs Hg). subst v. split. now apply imulmodnout_any. intros r2 HR.
  apply (imulmodnout_ok c) in HR; auto. destruct HR as [psi2 [-> HP]]. exists psi2. split; auto. eapply pull_undo; eauto.
  intros ->. intros x Hx Dx. destruct HB as [_ [_ HC]]. apply HC; auto. intros y Hy Dy E. pose proof Hm as [H1 [H2 [H3 H4]]].
  apply reg_is_true in Dy. unfold out_reg in E. rewrite N.mul_0_r, N.mod_0_l in E by lia.
  assert (y = x) by (rewrite <- E, <- Dy; symmetry; apply put_get). subst y. unfold reg_is in Dx. rewrite Dy in Dx. discriminate. Qed.

Lemma l_c35_powmodnout_partial : forall (K : StarRing) (c : cfg) rgp (nrm : K) n b N0 s o len (psi : mem K), fits c n -> mod_ok n N0 s o len -> 2 <= N0 -> b < 2 ^ 64 ->
  b ^ (2 ^ len - 1) < 2 ^ 64 -> nonzero n psi -> supported n (reg_is o len 0) psi ->
  every_run (POWModNOut c rgp nrm n b N0 s o len psi) (fun r => exists psi' g, r = Ok (Some psi') /\ (g = 1%amp \/ g = nrm) /\
    basis_map n (reg_is o len 0) (out_reg s o len (fun u => (b ^ u) mod N0)) (fun _ => g) psi psi').
Proof. intros K c rgp nrm n b N0 s o len psi Hf Hm H2 Hb Hp Hn Hs. split. apply powmodnout_any; auto; destruct Hm as [? [? [? ?]]]; lia. intros r HR. now apply (powmodnout_ok c) in HR. Qed.

Lemma l_c36_cmul_partial : forall (K : StarRing) (c : cfg) rgp (nrm : K) n m s car len cs (psi : mem K), fits c n -> muldiv_ok n m s car len -> ctl_regs n cs s car len ->
  nonzero n psi -> supported n (reg_is car len 0) psi ->
  every_run (CMUL c rgp nrm n m s car len cs psi) (fun r => exists psi' g, r = Ok (Some psi') /\ (g = 1%amp \/ g = nrm) /\
    basis_map n (reg_is car len 0) (controlled cs (mul_regs s car len m)) (fun _ => g) psi psi').
Proof. intros K c rgp nrm n m s car len cs psi Hf Hm Hc Hn Hs. split. apply cmul_any; auto; destruct Hm as [? [? [? ?]]]; lia. intros r HR. now apply (cmul_ok c) in HR. Qed.

Lemma l_c36_cdiv_partial : forall (K : StarRing) (c : cfg) n m s car len cs (psi : mem K), fits c n -> muldiv_ok n m s car len -> ctl_regs n cs s car len ->
  (m = 1 -> supported n (reg_is car len 0) psi) ->
  every_run (CDIV c n m s car len cs (Some psi)) (fun r => exists psi', r = Ok (Some psi') /\
    pulled_back n (reg_is car len 0) (controlled cs (mul_regs s car len m)) psi psi').
Proof. intros. split. now apply cdiv_any. intros r HR. now apply (cdiv_ok c) in HR. Qed.

Lemma l_c36_cmulmodnout_partial : forall (K : StarRing) (c : cfg) rgp (nrm : K) n m N0 s o len cs (psi : mem K), fits c n -> mod_ok n N0 s o len -> ctl_regs n cs s o len ->
  m * 2 ^ len <= 2 ^ 64 -> nonzero n psi -> supported n (reg_is o len 0) psi ->
  every_run (CMULModNOut c rgp nrm n m N0 s o len cs psi) (fun r => exists psi' g, r = Ok (Some psi') /\ (g = 1%amp \/ g = nrm) /\
    basis_map n (reg_is o len 0) (controlled cs (out_reg s o len (fun u => (u * m) mod N0))) (fun _ => g) psi psi').
Proof. intros K c rgp nrm n m N0 s o len cs psi Hf Hm Hc Hb Hn Hs. split. apply cmulmodnout_any; auto; destruct Hm as [? [? [? ?]]]; lia. intros r HR. now apply (cmulmodnout_ok c) in HR. Qed.

Lemma l_c36_cimulmodnout_partial : forall (K : StarRing) (c : cfg) n m N0 s o len cs (psi : mem K), fits c n -> mod_ok n N0 s o len -> ctl_regs n cs s o len -> m * 2 ^ len <= 2 ^ 64 ->
  every_run (CIMULModNOut c n m N0 s o len cs (Some psi)) (fun r => exists psi', r = Ok (Some psi') /\
    pulled_back n (reg_is o len 0) (controlled cs (out_reg s o len (fun u => (u * m) mod N0))) psi psi').
Proof. intros. split. now apply cimulmodnout_any. intros r HR. now apply (cimulmodnout_ok c) in HR. Qed.

Lemma l_c36_cpowmodnout_partial : forall (K : StarRing) (c : cfg) rgp (nrm : K) n b N0 s o len cs (psi : mem K), fits c n -> mod_ok n N0 s o len -> ctl_regs n cs s o len ->
  b < 2 ^ 64 -> b ^ (2 ^ len - 1) < 2 ^ 64 -> nonzero n psi ->
  every_run (CPOWModNOut c rgp nrm n b N0 s o len cs psi) (fun r => exists psi', r = Ok (Some psi') /\
    basis_map n (reg_is o len 0) (controlled cs (out_reg s o len (fun u => (b ^ u) mod N0))) (fun _ => 1%amp) psi psi').
Proof. intros K c rgp nrm n b N0 s o len cs psi Hf Hm Hc Hb Hp Hn. split. apply cpowmodnout_any; auto; destruct Hm as [? [? [? ?]]]; lia. intros r HR. now apply (cpowmodnout_ok c) in HR. Qed.

Lemma l_c37_indexed_lda_partial : forall (K : StarRing) (c : cfg) rgp (nrm : K) n is il vs vl tab rst (psi : mem K), fits c n -> idx_ok n is il vs vl -> good_table tab il vl -> nonzero n psi ->
  supported n (reg_is vs vl 0) psi ->
  every_run (IndexedLDA c rgp nrm n is il vs vl tab rst (Some psi)) (fun r => exists psi' g, r = Ok (Some psi') /\ (g = 1%amp \/ rst = true /\ g = nrm) /\
    basis_map n (reg_is vs vl 0) (lookup tab is il vs vl) (fun _ => g) psi psi').
Proof. intros K c rgp nrm n is il vs vl tab rst psi Hf Hi Ht Hn Hs. split. apply lda_any; auto; apply Hi. intros r HR. now apply (lda_ok c) in HR. Qed.

Lemma l_c37_indexed_adc_partial : forall (K : StarRing) (c : cfg) rgp (nrm : K) n is il vs vl q tab (psi : mem K), fits c n -> adc_ok n is il vs vl q -> good_table tab il vl -> nonzero n psi ->
  every_run (IndexedADC c rgp nrm n is il vs vl q tab (Some psi)) (fun r => exists psi' b g, r = Ok (Some psi') /\ measured n (bit_is q b) nrm g psi /\
    basis_map n (bit_is q b) (lookup_add tab is il vs vl q) (fun _ => g) psi psi').
Proof. intros K c rgp nrm n is il vs vl q tab psi Hf Hi Ht Hn. split. now apply indexed_any. intros r HR. apply (indexed_ok c false) in HR; auto. discriminate. Qed.

Lemma l_c37_indexed_sbc_partial : forall (K : StarRing) (c : cfg) rgp (nrm : K) n is il vs q tab (psi : mem K), fits c n -> adc_ok n is il vs 1 q -> good_table tab il 1 -> nonzero n psi ->
  every_run (IndexedSBC c rgp nrm n is il vs 1 q tab (Some psi)) (fun r => exists psi' b g, r = Ok (Some psi') /\ measured n (bit_is q b) nrm g psi /\
    basis_map n (bit_is q b) (lookup_sub tab is il vs 1 q) (fun _ => g) psi psi').
Proof. intros K c rgp nrm n is il vs q tab psi Hf Hi Ht Hn. split. now apply indexed_any. intros r HR. apply (indexed_ok c true) in HR; auto. Qed.

Lemma l_c37_hash : forall (K : StarRing) (c : cfg) n s len tab (psi : mem K), fits c n -> s + len <= n -> good_table tab len len -> len + 3 <= 64 ->
  (forall i j, i < 2 ^ len -> j < 2 ^ len -> table_entry tab len i = table_entry tab len j -> i = j) ->
  every_run (Hash c n s len tab (Some psi)) (fun r => exists psi', r = Ok (Some psi') /\ basis_map n always (hashed tab s len) (fun _ => 1%amp) psi psi').
Proof. intros. split. now apply hash_any. intros r HR. now apply (hash_ok c) in HR. Qed.

Lemma l_c38_phase_flip_if_less_partial : forall (K : StarRing) (c : cfg) n g s len flag (psi : mem K), fits c n -> s + len <= n -> g < 2 ^ 64 -> match flag with Some q => q < n | None => True end ->
  every_run (PhaseFlipIfLess c n g s len flag (Some psi)) (fun r => exists psi', r = Ok (Some psi') /\
    forall x, x < 2 ^ n -> psi' x = (if (get_reg x s len <? g) && flag_set flag x then - psi x else psi x)%amp).
Proof. intros. split. now apply pfil_any. intros r HR. now apply (pfil_ok c) in HR. Qed.

Lemma l_c73_incsc_partial : forall (K : StarRing) (c : cfg) flag rgp (nrm : K) n k s len q (psi : mem K), fits c n -> s + len <= n -> q < n -> outside_reg q s len -> 1 <= len ->
  flag_ok flag n s len q -> k < 2 ^ len -> nonzero n psi ->
  every_run (INCSC c (flag_mode flag) rgp nrm n k s len q psi) (fun r => exists psi' b g, r = Ok (Some psi') /\ measured n (bit_is q b) nrm g psi /\
    (b = false \/ k <> 2 ^ len - 1 /\ k <> 2 ^ (len - 1) - 1 ->
     basis_map n (bit_is q b) (add_carry s len q k) (fun x => (sgn (adds_over s len q k x && flag_set flag x) * g)%amp) psi psi')).
Proof. intros K c flag rgp nrm n k s len q psi Hf Hs Hq Ho Hl Hg Hk Hn. pose proof (len62 c n s len q Hf Hs Hq Ho). split. now apply incsc_any. intros r HR. apply (incsc_ok c) in HR; auto. Qed.

Lemma l_c73_decsc_partial : forall (K : StarRing) (c : cfg) flag rgp (nrm : K) n k s len q (psi : mem K), fits c n -> s + len <= n -> q < n -> outside_reg q s len -> 1 <= len ->
  flag_ok flag n s len q -> k < 2 ^ len -> nonzero n psi ->
  every_run (DECSC c (flag_mode flag) rgp nrm n k s len q psi) (fun r => exists psi' b g, r = Ok (Some psi') /\ measured n (bit_is q b) nrm g psi /\
    (b = false \/ k <> 0 /\ k <> 2 ^ (len - 1) ->
     basis_map n (bit_is q b) (sub_carry s len q k) (fun x => (sgn (subs_over s len q k x && flag_set flag x) * g)%amp) psi psi')).
Proof. intros K c flag rgp nrm n k s len q psi Hf Hs Hq Ho Hl Hg Hk Hn. pose proof (len62 c n s len q Hf Hs Hq Ho). split. now apply decsc_any. intros r HR. apply (decsc_ok c) in HR; auto. Qed.

Lemma l_c74_setreg : forall (K : StarRing) (c : cfg) rgp (nrm : K) n s len value (psi : mem K), fits c n -> s + len <= n -> value < 2 ^ len -> nonzero n psi ->
  every_run (SetReg c rgp nrm n s len value psi) (fun r => exists psi' v g, r = Ok (Some psi') /\ v < 2 ^ len /\ measured n (reg_is s len v) nrm g psi /\
    basis_map n (reg_is s len v) (fun x => put_reg x s len value) (fun _ => g) psi psi').
Proof. intros. split. now apply setreg_any. intros r HR. now apply (setreg_ok c) in HR. Qed.

Lemma l_c75_full_add : forall (K : StarRing) (c : cfg) n in1 in2 sum carry (psi : mem K), fits c n -> adder_ok n in1 in2 sum carry ->
  every_run (FullAdd c n in1 in2 sum carry (Some psi)) (fun r => exists psi', r = Ok (Some psi') /\ basis_map n always (full_add in1 in2 sum carry) (fun _ => 1%amp) psi psi').
Proof. intros. split. now apply fulladd_any. intros r HR. now apply (fulladd_ok c) in HR. Qed.

Lemma l_c75_ifull_add_undoes : forall (K : StarRing) (c : cfg) n in1 in2 sum carry (psi : mem K), fits c n -> adder_ok n in1 in2 sum carry ->
  every_run (FullAdd c n in1 in2 sum carry (Some psi)) (fun r => exists psi1, r = Ok (Some psi1) /\
    every_run (IFullAdd c n in1 in2 sum carry (Some psi1)) (fun r2 => exists psi2, r2 = Ok (Some psi2) /\ eqv n psi2 psi)).
Proof. intros K c n in1 in2 sum carry psi Hf Ha. split. now apply fulladd_any. intros r HR. apply (fulladd_ok c) in HR; auto. destruct HR as [psi1 [-> HB]]. exists psi1. split; auto.
  split. now apply ifulladd_any. intros r2 HR. apply (ifulladd_ok c) in HR; auto. destruct HR as [psi2 [-> HP]]. exists psi2. split; auto.
  intros x Hx. rewrite HP by auto. unfold always. destruct HB as [_ [B _]]. destruct (B x Hx eq_refl) as [_ ->]. apply (Rone_l K). Qed.
