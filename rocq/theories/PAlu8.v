(** Proofs about the arithmetic kernels (part 8: inputs on which the code departs from the arithmetic). *)
From Coq Require Import NArith ZArith List Bool Lia Ring.
From Verif Require Import Bits MFunctions SpecFunctions PFunctions MParFor PParFor MKernel PKernel Amp PAmp MEngine SpecState SpecEngine
  PLoop PApply PGates PGates2 PGates3 PCompose PProb PEngine PEngine2 MAlu SpecAlu PAlu PAlu2 PAlu3 PAlu4 PAlu5 PAlu6 PAlu7.
Import ListNotations.
Local Open Scope N_scope.

Section S.
  Context {K : StarRing}.
  Add Ring KrH : (sr_ring K).
  Local Notation V := (mem K).
  Hypothesis one_nz : (1 : K)%amp <> 0%amp.

  Lemma ket_eq x : (ket x : V) x = 1%amp.
  Proof. unfold ket. now rewrite N.eqb_refl. Qed.
  Lemma ket_neq x y : y <> x -> (ket x : V) y = 0%amp.
  Proof. intros H. unfold ket. destruct (N.eqb_spec y x); congruence. Qed.
  Lemma ket_nz x y : (ket x : V) y <> 0%amp -> y = x.
  Proof. intros H. destruct (N.eq_dec y x); auto. now rewrite ket_neq in H. Qed.
  Lemma ket_nonzero n x : x < 2 ^ n -> nonzero n (ket x : V).
  Proof. intros H. exists x. split; auto. now rewrite ket_eq. Qed.
  Lemma ket_measured n P (nrm g : K) x : measured n P nrm g (ket x) -> P x = true.
  Proof. intros [[y [Hy [Py Ny]]] _]. apply ket_nz in Ny. now subst. Qed.
  Lemma ket_supported n D x : D x = true -> supported n D (ket x : V).
  Proof. intros H y Hy Dy. apply ket_neq. congruence. Qed.
  (** A basis state goes to one basis state. *)
  Lemma ket_image n D f (ph : N -> K) x psi' y : basis_map n D f ph (ket x) psi' -> x < 2 ^ n -> D x = true -> y < 2 ^ n ->
    psi' y = if y =? f x then ph x else 0%amp.
  Proof.
    intros [A [B C]] Hx Dx Hy. destruct (N.eqb_spec y (f x)) as [->|E].
    - destruct (B x Hx Dx) as [_ ->]. rewrite ket_eq. ring.
    - destruct (find_basis n (fun z => D z && (f z =? y))) as [[z [Hz Dz]]|Hn].
      + apply andb_true_iff in Dz. destruct Dz as [Dz Ez]. apply N.eqb_eq in Ez. destruct (B z Hz Dz) as [_ Bz]. rewrite Ez in Bz. rewrite Bz, ket_neq; [ring|]. intros ->. congruence.
      + apply C; auto. intros z Hz Dz Ez. specialize (Hn z Hz). cbn beta in Hn. rewrite Dz, Ez, N.eqb_refl in Hn. discriminate.
  Qed.
  Lemma clash n D f ph D2 f2 ph2 x (psi' : V) : basis_map n D f ph (ket x) psi' -> basis_map n D2 f2 ph2 (ket x) psi' -> x < 2 ^ n -> D x = true -> D2 x = true ->
    f x <> f2 x -> ph x = 0%amp.
  Proof.
    intros H1 H2 Hx Dx D2x Hf. pose proof H1 as [_ [B _]]. destruct (B x Hx Dx) as [Hl _].
    pose proof (ket_image _ _ _ _ _ _ _ H1 Hx Dx Hl) as E1. pose proof (ket_image _ _ _ _ _ _ _ H2 Hx D2x Hl) as E2. rewrite N.eqb_refl in E1.
    destruct (N.eqb_spec (f x) (f2 x)); congruence.
  Qed.
  Lemma clash_phase n D f ph D2 ph2 x (psi' : V) : basis_map n D f ph (ket x) psi' -> basis_map n D2 f ph2 (ket x) psi' -> x < 2 ^ n -> D x = true -> D2 x = true ->
    ph x = ph2 x.
  Proof.
    intros H1 H2 Hx Dx D2x. pose proof H1 as [_ [B _]]. destruct (B x Hx Dx) as [Hl _].
    pose proof (ket_image _ _ _ _ _ _ _ H1 Hx Dx Hl) as E1. pose proof (ket_image _ _ _ _ _ _ _ H2 Hx D2x Hl) as E2. rewrite N.eqb_refl in E1, E2. congruence.
  Qed.
End S.

Local Notation one := ((1, 0)%Z : GI).
Definition c4 : cfg := mkCfg 4 4096.
Lemma c4_fits n : n <= 40 -> fits c4 n.
Proof. intros H. unfold fits, c4; cbn [cf_cores cf_stride]. pose proof (pow2_le_mono n 40 H). change (2 ^ 64) with 18446744073709551616. change (2 ^ 40) with 1099511627776 in *. lia. Qed.
Lemma gi_one_nz : (1 : GI)%amp <> 0%amp.
Proof. discriminate. Qed.
Lemma measured_one n P (g : GI) x : measured n P 1%amp g (ket x) -> P x = true /\ g = 1%amp.
Proof. intros H. split. now apply (ket_measured n P 1%amp g). destruct H as [_ [[-> _]| ->]]; auto. Qed.

(** ** The carry is lost when the constant plus the carry is a multiple of the register size *)
Lemma incc_wrong : ~ every_run (INCC c4 false 1%amp 2 1 0 1 1 (ket 2 : mem GI)) (fun r => exists psi' b g, r = Ok (Some psi') /\
  measured 2 (bit_is 1 b) 1%amp g (ket 2) /\ basis_map 2 (bit_is 1 b) (add_carry 0 1 1 1) (fun _ => g) (ket 2) psi').
Proof.
  intros [[r HR] H]. pose proof (H r HR) as [psi2 [b2 [g2 [-> [M2 B2]]]]].
  apply incc_ok in HR; try lia; [|apply c4_fits; lia|right; lia]. destruct HR as [psi' [b [g [E [M [_ HB]]]]]]. injection E as <-.
  apply measured_one in M. apply measured_one in M2. destruct M as [Pb ->], M2 as [Pb2 ->].
  assert (b = true) by (destruct b; auto; discriminate Pb). assert (b2 = true) by (destruct b2; auto; discriminate Pb2). subst b b2.
  specialize (HB eq_refl eq_refl). apply gi_one_nz. apply (clash _ _ _ _ _ _ _ _ _ HB B2); vm_compute; auto; discriminate.
Qed.
Lemma decc_wrong : ~ every_run (DECC c4 false 1%amp 2 0 0 1 1 (ket 2 : mem GI)) (fun r => exists psi' b g, r = Ok (Some psi') /\
  measured 2 (bit_is 1 b) 1%amp g (ket 2) /\ basis_map 2 (bit_is 1 b) (sub_carry 0 1 1 0) (fun _ => g) (ket 2) psi').
Proof.
  intros [[r HR] H]. pose proof (H r HR) as [psi2 [b2 [g2 [-> [M2 B2]]]]].
  apply decc_ok in HR; try lia; [|apply c4_fits; lia|right; lia]. destruct HR as [psi' [b [g [E [M [_ HB]]]]]]. injection E as <-.
  apply measured_one in M. apply measured_one in M2. destruct M as [Pb ->], M2 as [Pb2 ->].
  assert (b = true) by (destruct b; auto; discriminate Pb). assert (b2 = true) by (destruct b2; auto; discriminate Pb2). subst b b2.
  specialize (HB eq_refl eq_refl). apply gi_one_nz. apply (clash _ _ _ _ _ _ _ _ _ HB B2); vm_compute; auto; discriminate.
Qed.

(** ** Signed addition with carry: the carry is added to the constant before its sign is taken *)
Section Gen.
  Context {K : StarRing}.
  Add Ring KrI : (sr_ring K).
  Variable c : cfg.
  Local Notation V := (mem K).
  Lemma signed_gen flag (k : bool -> N) rgp (nrm : K) n s len q (psi : V) r : fits c n -> s + len <= n -> q < n -> outside_reg q s len -> 1 <= len <= 62 ->
    flag_ok flag n s len q ->
    with_carry c rgp nrm n q (fun b => IncDecC c (flag_mode flag) n (k b) s len q) psi r ->
    exists psi' b g, r = Ok (Some psi') /\ measured n (bit_is q b) nrm g psi /\
      basis_map n (bit_is q b) (fun x => add_carry s len q (k b mod 2 ^ len) (put_bit x q false))
        (fun x => (carry_ph (flag_mode flag) len (k b mod 2 ^ len) (get_reg (put_bit x q false) s len) (add_carry s len q (k b mod 2 ^ len) (put_bit x q false)) * g)%amp) psi psi'.
  Proof.
    intros Hf Hs Hq Ho Hl Hfl HR.
    apply (with_carry_ok c rgp nrm n q _ (fun b => add_carry s len q (k b mod 2 ^ len))
      (fun b x => carry_ph (flag_mode flag) len (k b mod 2 ^ len) (get_reg x s len) (add_carry s len q (k b mod 2 ^ len) x))) in HR; auto.
    intros b psi1 r1 Hsup HA. apply incdecc_ok in HA; auto. destruct flag; cbn [flag_mode mode_ok flag_ok] in *; tauto.
  Qed.
End Gen.
Lemma incsc_wrong : ~ every_run (INCSC c4 (flag_mode None) false 1%amp 3 1 0 2 2 (ket 4 : mem GI)) (fun r => exists psi' b g, r = Ok (Some psi') /\
  measured 3 (bit_is 2 b) 1%amp g (ket 4) /\
  basis_map 3 (bit_is 2 b) (add_carry 0 2 2 1) (fun x => sgn (adds_over 0 2 2 1 x) * g)%amp (ket 4) psi').
Proof.
  intros [[r HR] H]. pose proof (H r HR) as [psi2 [b2 [g2 [-> [M2 B2]]]]].
  unfold INCSC in HR. apply signed_gen in HR; try lia; [|apply c4_fits; lia|right; lia|exact I]. destruct HR as [psi' [b [g [E [M HB]]]]]. injection E as <-.
  apply measured_one in M. apply measured_one in M2. destruct M as [Pb ->], M2 as [Pb2 ->].
  assert (b = true) by (destruct b; auto; discriminate Pb). assert (b2 = true) by (destruct b2; auto; discriminate Pb2). subst b b2.
  pose proof (ket_image _ _ _ _ _ _ 2 HB) as E1. pose proof (ket_image _ _ _ _ _ _ 2 B2) as E2.
  rewrite E1 in E2; try reflexivity. specialize (E2 eq_refl eq_refl eq_refl). vm_compute in E2. discriminate.
Qed.
Lemma decsc_wrong : ~ every_run (DECSC c4 (flag_mode None) false 1%amp 3 2 0 2 2 (ket 4 : mem GI)) (fun r => exists psi' b g, r = Ok (Some psi') /\
  measured 3 (bit_is 2 b) 1%amp g (ket 4) /\
  basis_map 3 (bit_is 2 b) (sub_carry 0 2 2 2) (fun x => sgn (subs_over 0 2 2 2 x) * g)%amp (ket 4) psi').
Proof.
  intros [[r HR] H]. pose proof (H r HR) as [psi2 [b2 [g2 [-> [M2 B2]]]]].
  unfold DECSC in HR. apply signed_gen in HR; try lia; [|apply c4_fits; lia|right; lia|exact I]. destruct HR as [psi' [b [g [E [M HB]]]]]. injection E as <-.
  apply measured_one in M. apply measured_one in M2. destruct M as [Pb ->], M2 as [Pb2 ->].
  assert (b = true) by (destruct b; auto; discriminate Pb). assert (b2 = true) by (destruct b2; auto; discriminate Pb2). subst b b2.
  pose proof (ket_image _ _ _ _ _ _ 2 HB) as E1. pose proof (ket_image _ _ _ _ _ _ 2 B2) as E2.
  rewrite E1 in E2; try reflexivity. specialize (E2 eq_refl eq_refl eq_refl). vm_compute in E2. discriminate.
Qed.

(** ** Multiplier too large for the register: different values are written to the same place *)
Definition c1 : cfg := mkCfg 1 4096.
Lemma fill_c1 n (v : N -> GI) : n <= 5 -> exists m, fill c1 (2 ^ n) v (fun _ => 0%amp) m /\ forall x, x < 2 ^ n -> m x = v x.
Proof.
  intros Hn. assert (Hf : fits c1 n).
  { unfold fits, c1; cbn [cf_cores cf_stride]. pose proof (pow2_le_mono n 5 Hn). change (2 ^ 64) with 18446744073709551616. change (2 ^ 5) with 32 in *. lia. }
  destruct (loop_for_exists c1 n (2 ^ n) (fun lcv => Wr lcv (v lcv) Ret) (fun _ => 0%amp) Hf (N.le_refl _)) as [m Hm]. exists m. split. exact Hm.
  apply (cellwise_ok c1 n (2 ^ n) _ (fun x _ => v x) _ m Hf (N.le_refl _)) with (2 := Hm). intros i _. split. split; auto. exact I. intros m2. cbn [exec]. apply mset_eq.
Qed.
Lemma mul_wrong : ~ every_run (MUL c1 false 1%amp 2 4 0 1 1 (ket 0 : mem GI)) (fun r => exists psi' g, r = Ok (Some psi') /\ (g = 1)%amp /\
  basis_map 2 (reg_is 1 1 0) (mul_regs 0 1 1 4) (fun _ => g) (ket 0) psi').
Proof.
  intros [_ H]. destruct (fill_c1 2 (fun _ => 0%amp) ltac:(lia)) as [m0 [Hm0 Z0]].
  set (body := fun lcv : N => Wr (mul_res 2 4 0 1 1 0 lcv) ((ket 0 : mem GI) lcv) Ret).
  set (m' := fold_left (fun mm p => exec p mm) (map body [0; 1]) m0).
  assert (HR : MUL c1 false 1%amp 2 4 0 1 1 (ket 0 : mem GI) (Ok (Some m'))).
  { unfold MUL. exists (Ok (Some (ket 0))). split.
    - exists 0, (ket 0). split; [|reflexivity]. unfold MReg. cbn [N.eqb Pos.eqb]. exists false. split; auto. split.
      + exists 0. split; [reflexivity|]. split; [reflexivity|discriminate].
      + left. split; auto. intros x Hx Hb. unfold ket. destruct (N.eqb_spec x 0) as [->|]; auto. now destruct Hb.
    - cbn [N.eqb]. unfold MULDIV. cbn [orb]. exists m0, m'. split; [exists (fun _ => 0%amp); exact Hm0|]. split; auto.
      exists [(0, O); (1, O)]. split. reflexivity. apply (kernel_seq (map body [0; 1]) m0). }
  apply H in HR. destruct HR as [psi' [g [E [-> HB]]]]. injection E as <-.
  pose proof (ket_image _ _ _ _ _ _ 0 HB) as E1. specialize (E1 eq_refl eq_refl eq_refl). vm_compute in E1.
  discriminate.
Qed.

(** ** Products and powers are reduced after wrapping around at 64 bits *)
Lemma mulmod_wrong : ~ every_run (MULModNOut c4 false 1%amp 6 (2 ^ 63 + 1) 5 0 3 3 (ket 2 : mem GI)) (fun r => exists psi' g, r = Ok (Some psi') /\ (g = 1)%amp /\
  basis_map 6 (reg_is 3 3 0) (out_reg 0 3 3 (fun u => (u * (2 ^ 63 + 1)) mod 5)) (fun _ => g) (ket 2) psi').
Proof.
  intros [[r HR] H]. pose proof (H r HR) as [psi2 [g2 [-> [-> B2]]]].
  assert (Hf : fits c4 6) by (apply c4_fits; lia). unfold MULModNOut in HR. destruct HR as [r1 [HS HR]].
  apply setreg_zero in HS; auto; [|lia|now apply ket_supported]. destruct HS as [psi1 [g [-> [Hg HB]]]].
  assert (g = 1)%amp by (destruct Hg; auto). subst g. cbn [N.eqb] in HR. apply modnout_fwd in HR; auto.
  2:{ repeat split; try (vm_compute; discriminate). left. lia. }
  destruct HR as [psi' [E HM]]. injection E as <-.
  pose proof (basis_map_comp 6 _ _ _ _ _ _ _ _ _ HB HM (fun x _ H => H)) as HC. cbn beta in HC.
  pose proof (ket_image _ _ _ _ _ _ 26 HC eq_refl eq_refl eq_refl) as E1.
  pose proof (ket_image _ _ _ _ _ _ 26 B2 eq_refl eq_refl eq_refl) as E2. rewrite E1 in E2. vm_compute in E2. discriminate.
Qed.
Lemma powmod_wrong : ~ every_run (POWModNOut c4 false 1%amp 12 3 5 0 6 6 (ket 41 : mem GI)) (fun r => exists psi' g, r = Ok (Some psi') /\ (g = 1)%amp /\
  basis_map 12 (reg_is 6 6 0) (out_reg 0 6 6 (fun u => (3 ^ u) mod 5)) (fun _ => g) (ket 41) psi').
Proof.
  intros [[r HR] H]. pose proof (H r HR) as [psi2 [g2 [-> [-> B2]]]].
  assert (Hf : fits c4 12) by (apply c4_fits; lia). unfold POWModNOut in HR. cbn [N.eqb Pos.eqb] in HR. apply modnout_fwd in HR; auto.
  2:{ repeat split; try (vm_compute; discriminate). left. lia. }
  destruct HR as [psi' [E HM]]. injection E as <-.
  pose proof (ket_image _ _ _ _ _ _ (41 + 3 * 64) HM eq_refl eq_refl eq_refl) as E1.
  pose proof (ket_image _ _ _ _ _ _ (41 + 3 * 64) B2 eq_refl eq_refl eq_refl) as E2. rewrite E1 in E2. vm_compute in E2. discriminate.
Qed.
Lemma powmod_one_wrong : ~ every_run (POWModNOut c4 false 1%amp 2 1 1 0 1 1 (ket 0 : mem GI)) (fun r => exists psi' g, r = Ok (Some psi') /\ (g = 1)%amp /\
  basis_map 2 (reg_is 1 1 0) (out_reg 0 1 1 (fun u => (1 ^ u) mod 1)) (fun _ => g) (ket 0) psi').
Proof.
  intros [[r HR] H]. pose proof (H r HR) as [psi2 [g2 [-> [-> B2]]]].
  assert (Hf : fits c4 2) by (apply c4_fits; lia). unfold POWModNOut in HR. cbn [N.eqb Pos.eqb] in HR. apply setreg_ok in HR; auto; try lia.
  destruct HR as [psi' [v [g [E [Hv [Hm HB]]]]]]. injection E as <-. apply measured_one in Hm. destruct Hm as [Hv0 ->].
  pose proof (ket_image _ _ _ _ _ _ 0 HB eq_refl Hv0 eq_refl) as E1.
  pose proof (ket_image _ _ _ _ _ _ 0 B2 eq_refl eq_refl eq_refl) as E2. rewrite E1 in E2. vm_compute in E2. discriminate.
Qed.

(** ** Controlled forms that act where a control is unset *)
Lemma cmul0_wrong : ~ every_run (CMUL c4 false 1%amp 3 0 0 1 1 [2] (ket 1 : mem GI)) (fun r => exists psi', r = Ok (Some psi') /\
  forall x, x < 2 ^ 3 -> all_set [2] x = false -> psi' x = (ket 1 : mem GI) x).
Proof.
  intros [[r HR] H]. pose proof (H r HR) as [psi2 [-> HX]]. assert (Hf : fits c4 3) by (apply c4_fits; lia). unfold CMUL in HR.
  destruct HR as [r1 [HS HR]]. apply setreg_ok in HS; auto; try lia. destruct HS as [psi1 [v [g [-> [Hv [Hm HB]]]]]].
  apply measured_one in Hm. destruct Hm as [Hv0 ->]. cbn [N.eqb on_vec] in HR. apply setreg_ok in HR; auto; try lia.
  destruct HR as [psi' [v2 [g2 [E [Hv2 [Hm2 HB2]]]]]]. injection E as <-.
  specialize (HX 1 eq_refl eq_refl). destruct HB2 as [_ [_ HC]]. rewrite HC in HX; try reflexivity. discriminate HX.
  intros x Hx Dx E. pose proof (f_equal (fun z => N.testbit z 0) E) as F. cbn beta in F. rewrite tb_put_reg in F by reflexivity. discriminate F.
Qed.
Lemma cdiv_wrong : ~ every_run (CDIV c4 3 2 0 1 1 [2] (Some (ket 2 : mem GI))) (fun r => exists psi', r = Ok (Some psi') /\
  forall x, x < 2 ^ 3 -> all_set [2] x = false -> psi' x = (ket 2 : mem GI) x).
Proof.
  intros [[r HR] H]. pose proof (H r HR) as [psi2 [-> HX]]. assert (Hf : fits c4 3) by (apply c4_fits; lia). apply cdiv_ok in HR; auto; try lia.
  - destruct HR as [psi' [E HP]]. injection E as <-. specialize (HX 2 eq_refl eq_refl). rewrite HP in HX by reflexivity. discriminate HX.
  - repeat split; try (vm_compute; discriminate). left. lia.
  - split; [discriminate|]. split. repeat constructor; cbn; tauto. intros q [<-|[]]. split; [lia|]. split; right; lia.
Qed.
Lemma cimul_wrong : ~ every_run (CIMULModNOut c4 3 1 2 0 1 1 [2] (Some (ket 2 : mem GI))) (fun r => exists psi', r = Ok (Some psi') /\
  forall x, x < 2 ^ 3 -> all_set [2] x = false -> psi' x = (ket 2 : mem GI) x).
Proof.
  intros [[r HR] H]. pose proof (H r HR) as [psi2 [-> HX]]. assert (Hf : fits c4 3) by (apply c4_fits; lia). apply cimulmodnout_ok in HR; auto.
  - destruct HR as [psi' [E HP]]. injection E as <-. specialize (HX 2 eq_refl eq_refl). rewrite HP in HX by reflexivity. discriminate HX.
  - repeat split; try (vm_compute; discriminate). left. lia.
  - split; [discriminate|]. split. repeat constructor; cbn; tauto. intros q [<-|[]]. split; [lia|]. split; right; lia.
  - vm_compute. discriminate.
Qed.
Lemma cpow_wrong : ~ every_run (CPOWModNOut c4 false 1%amp 3 1 2 0 1 1 [2] (ket 2 : mem GI)) (fun r => exists psi', r = Ok (Some psi') /\
  forall x, x < 2 ^ 3 -> all_set [2] x = false -> psi' x = (ket 2 : mem GI) x).
Proof.
  intros [[r HR] H]. pose proof (H r HR) as [psi2 [-> HX]]. assert (Hf : fits c4 3) by (apply c4_fits; lia). apply cpowmodnout_ok in HR; auto.
  - destruct HR as [psi' [E [_ [_ HP]]]]. injection E as <-. specialize (HX 2 eq_refl eq_refl). rewrite HP in HX; try reflexivity. discriminate HX.
    intros x Hx Dx E. assert (H0 : false = N.testbit x 2).
    { pose proof (f_equal (fun z => N.testbit z 2) E) as F. cbn beta in F. change (N.testbit 2 2) with false in F. rewrite <- F. unfold controlled. destruct (all_set [2] x); auto. unfold out_reg. rewrite tb_put_reg by (apply N.mod_lt; lia). reflexivity. }
    unfold controlled, all_set in E. cbn [forallb] in E. rewrite <- H0 in E. cbn in E. subst x. discriminate Dx.
  - repeat split; try (vm_compute; discriminate). left. lia.
  - split; [discriminate|]. split. repeat constructor; cbn; tauto. intros q [<-|[]]. split; [lia|]. split; right; lia.
  - reflexivity.
  - reflexivity.
Qed.

(** ** IndexedSBC skips as many qubits from the carry on as the value register has *)
Lemma sbc_wrong : ~ every_run (IndexedSBC c1 false 1%amp 4 3 1 0 2 2 (fun _ => 0) (Some (ket 8 : mem GI))) (fun r => exists psi' b g, r = Ok (Some psi') /\
  measured 4 (bit_is 2 b) 1%amp g (ket 8) /\ basis_map 4 (bit_is 2 b) (lookup_sub (fun _ => 0) 3 1 0 2 2) (fun _ => g) (ket 8) psi').
Proof.
  intros [_ H]. destruct (fill_c1 4 (fun _ => 0%amp) ltac:(lia)) as [m0 [Hm0 Z0]].
  assert (HR : exists r, IndexedSBC c1 false 1%amp 4 3 1 0 2 2 (fun _ => 0) (Some (ket 8 : mem GI)) r /\ exists m', r = Ok (Some m') /\ m' 11 = 0%amp).
  { unfold IndexedSBC, IndexedAS. change (isBadBitRange 3 1 4 || isBadBitRange 0 2 4 || (4 <=? 2)) with false. cbv iota. eexists. split.
    - exists false, (ket 8). split.
      + split. exists 8. split; [reflexivity|]. split; [reflexivity|discriminate]. left. split; auto. intros x Hx Hb. unfold ket. destruct (N.eqb_spec x 8) as [->|]; auto. now destruct Hb.
      + cbv iota. cbn [on_vec Bool.eqb]. unfold idx_loop. cbv zeta. exists m0. eexists. split; [exists (fun _ => 0%amp); exact Hm0|]. split; [|reflexivity].
        exists [(0, O); (1, O); (2, O); (3, O)]. split. reflexivity. apply kernel_seq.
    - eexists. split. reflexivity. vm_compute. apply (Z0 11). reflexivity. }
  destruct HR as [r [HR [m' [-> E0]]]]. apply H in HR. destruct HR as [psi' [b [g [E [Hm HB]]]]]. injection E as <-. apply measured_one in Hm. destruct Hm as [Hb ->].
  pose proof (ket_image _ _ _ _ _ _ 11 HB eq_refl Hb eq_refl) as E1. rewrite E0 in E1. vm_compute in E1. discriminate.
Qed.

(** ** PhaseFlipIfLess looks at the low 64 bits of the bound *)
Lemma pfil_wrong : ~ every_run (PhaseFlipIfLess c4 2 (2 ^ 64) 0 2 None (Some (ket 1 : mem GI))) (fun r => exists psi', r = Ok (Some psi') /\
  forall x, x < 2 ^ 2 -> psi' x = (if (get_reg x 0 2 <? 2 ^ 64) && flag_set None x then - ket 1 x else ket 1 x)%amp).
Proof.
  intros [[r HR] H]. pose proof (H r HR) as [psi2 [-> HX]]. apply pfil_gen in HR; try lia; auto; [|apply c4_fits; lia].
  destruct HR as [psi' [E HY]]. injection E as <-. specialize (HX 1 eq_refl). rewrite HY in HX by reflexivity. vm_compute in HX. discriminate.
Qed.
