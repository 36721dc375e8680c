(** The lemmas behind PropCircuits.v. *)
From Coq Require Import NArith ZArith Arith List Bool Lia Ring.
From Verif Require Import Bits MFunctions PFunctions MParFor PParFor MKernel Amp PAmp MEngine SpecState SpecEngine SpecParFor PApply PKernel PLoop PProb
  PGates PGates2 PGates3 PEngine PEngine2 PCompose MAlu SpecAlu PAlu PAlu2 PAlu3 PAlu4 PAlu5 PAlu6 PAlu8 PAlu9 MCircuit SpecCircuit PCircuit PCircuit2 PCircuit3 PCircuit4 PCircuit5
  PCircuit6 PCircuit7 PCircuit8 PCircuit9 PCircuit10 PCircuit11 PCircuit12.
Import ListNotations.
Local Open Scope N_scope.

Lemma rotated_inj s len k x y z : rotated s len k x y -> rotated s len k z y -> x = z.
Proof.
  intros [A B] [A2 B2]. apply N.bits_inj. intros q. assert (O : outside_reg q s len \/ exists j, q = s + j /\ j < len).
  { destruct (N.lt_ge_cases q s); [left; unfold outside_reg; lia|]. destruct (N.lt_ge_cases q (s + len)); [right; exists (q - s); lia|left; unfold outside_reg; lia]. }
  destruct O as [O|[j [-> Hj]]]. now rewrite <- B, <- B2. now rewrite <- A, <- A2.
Qed.
Lemma put_bit_id x q : put_bit x q (N.testbit x q) = x.
Proof. unfold put_bit. destruct (N.testbit x q) eqn:E; apply N.bits_inj; intros k; [rewrite N.setbit_eqb|rewrite N.clearbit_eqb]; destruct (N.eqb_spec q k); subst; cbn; rewrite ?andb_true_r, ?andb_false_r; auto. Qed.
Lemma flip_put1 q x : flip true q x = put_bit x q (negb (N.testbit x q)).
Proof. now rewrite flip_put. Qed.

Lemma l_c32_generic_rol : forall (K : StarRing) (c : cfg) rgp n shift s len (psi : mem K), fits c n -> s + len <= n ->
  every_run (crun c rgp n (qi_ROL shift s len) (Some psi)) (fun r => exists psi' f, r = Ok (Some psi') /\
    basis_map n always f (fun _ => 1%amp) psi psi' /\ forall x, x < 2 ^ n -> rotated s len shift x (f x)).
Proof. intros K c rgp n shift s len psi Hf Hs. destruct (perm_run c rgp n (qi_ROL shift s len) (cact (qi_ROL shift s len : circ K)) psi Hf) as [He Ha]; auto. now apply wf_ROL.
  split; auto. intros r HR. destruct (Ha r HR) as [psi' [-> HB]]. exists psi', (cact (qi_ROL shift s len : circ K)). split; auto. split; auto. intros x _. apply rol_act. Qed.

Lemma l_c32_generic_ror : forall (K : StarRing) (c : cfg) rgp n shift s len (psi : mem K), fits c n -> s + len <= n ->
  every_run (crun c rgp n (qi_ROR shift s len) (Some psi)) (fun r => exists psi' f, r = Ok (Some psi') /\
    basis_map n always f (fun _ => 1%amp) psi psi' /\ forall x, x < 2 ^ n -> rotated s len shift (f x) x).
Proof. intros K c rgp n shift s len psi Hf Hs. destruct (perm_run c rgp n (qi_ROR shift s len) (cact (qi_ROR shift s len : circ K)) psi Hf) as [He Ha]; auto. now apply wf_ROR.
  split; auto. intros r HR. destruct (Ha r HR) as [psi' [-> HB]]. exists psi', (cact (qi_ROR shift s len : circ K)). split; auto. split; auto. intros x _. apply ror_act. Qed.

Lemma l_c32_generic_ror_undoes_rol : forall (K : StarRing) (c : cfg) rgp n shift s len (psi : mem K), fits c n -> s + len <= n ->
  every_run (crun c rgp n (qi_ROL shift s len) (Some psi)) (fun r => exists psi1, r = Ok (Some psi1) /\
    every_run (crun c rgp n (qi_ROR shift s len) (Some psi1)) (fun r2 => exists psi2, r2 = Ok (Some psi2) /\ eqv n psi2 psi)).
Proof. intros K c rgp n shift s len psi Hf Hs. apply inv_run; auto. split; [now apply wf_ROL|]. split; [now apply wf_ROR|]. intros x Hx.
  eapply rotated_inj; [apply ror_act|apply rol_act]. Qed.

Lemma l_c32_ror_undoes_engine_rol : forall (K : StarRing) (c : cfg) rgp n shift s len (psi : mem K), fits c n -> s + len <= n ->
  every_run (ROL c n shift s len (Some psi)) (fun r => exists psi1, r = Ok (Some psi1) /\
    every_run (crun c rgp n (qi_ROR shift s len) (Some psi1)) (fun r2 => exists psi2, r2 = Ok (Some psi2) /\ eqv n psi2 psi)).
Proof. intros K c rgp n shift s len psi Hf Hs. split. now apply rol_any. intros r HR. apply (rol_ok c) in HR; auto. destruct HR as [psi1 [f [-> [HB HF]]]]. exists psi1. split; auto.
  destruct (perm_run c rgp n (qi_ROR shift s len) (cact (qi_ROR shift s len : circ K)) psi1 Hf) as [He Ha]; auto. now apply wf_ROR. split; auto. intros r2 HR. destruct (Ha r2 HR) as [psi2 [-> HB2]].
  exists psi2. split; auto. eapply (basis_map_undo n always f _ 1%amp 1%amp psi psi1 psi2); [|apply (Radd_0_l_one K)| |exact HB|exact HB2]; [|intros x Hx Dx; discriminate Dx].
  intros x Hx _. eapply rotated_inj; [apply ror_act|now apply HF]. Qed.

Lemma l_c39_inc : forall (K : StarRing) (c : cfg) rgp n a s len (psi : mem K), fits c n -> s + len <= n ->
  every_run (crun c rgp n (qi_INC a s len) (Some psi)) (fun r => exists psi', r = Ok (Some psi') /\ basis_map n always (add_reg s len a) (fun _ => 1%amp) psi psi').
Proof. intros. apply perm_run; auto. now apply wf_INC. intros. apply inc_act. Qed.

Lemma l_c39_dec : forall (K : StarRing) (c : cfg) rgp n a s len (psi : mem K), fits c n -> s + len <= n ->
  every_run (crun c rgp n (qi_DEC a s len) (Some psi)) (fun r => exists psi', r = Ok (Some psi') /\ basis_map n always (sub_reg s len a) (fun _ => 1%amp) psi psi').
Proof. intros K c rgp n a s len psi Hf Hs. assert (n < 64) by apply Hf. apply perm_run; auto. now apply wf_INC. intros. apply dec_act. lia. Qed.

Lemma l_c39_cinc : forall (K : StarRing) (c : cfg) rgp n a s len cs (psi : mem K), fits c n -> s + len <= n -> NoDup cs -> (forall q, In q cs -> q < n /\ outside_reg q s len) ->
  every_run (crun c rgp n (qi_CINC a s len cs) (Some psi)) (fun r => exists psi', r = Ok (Some psi') /\ basis_map n always (controlled cs (add_reg s len a)) (fun _ => 1%amp) psi psi').
Proof. intros K c rgp n a s len cs psi Hf Hs ND Hc. apply perm_run; auto. now apply wf_CINC. intros. apply cinc_act; auto. intros q Hq. now apply Hc. Qed.

Lemma l_c39_cdec : forall (K : StarRing) (c : cfg) rgp n a s len cs (psi : mem K), fits c n -> s + len <= n -> NoDup cs -> (forall q, In q cs -> q < n /\ outside_reg q s len) ->
  every_run (crun c rgp n (qi_CDEC a s len cs) (Some psi)) (fun r => exists psi', r = Ok (Some psi') /\ basis_map n always (controlled cs (sub_reg s len a)) (fun _ => 1%amp) psi psi').
Proof. intros K c rgp n a s len cs psi Hf Hs ND Hc. assert (n < 64) by apply Hf. apply perm_run; auto. now apply wf_CINC. intros. apply cdec_act; auto. lia. intros q Hq. now apply Hc. Qed.

Lemma l_c39_cdec_undoes_cinc : forall (K : StarRing) (c : cfg) rgp n a s len cs (psi : mem K), fits c n -> s + len <= n -> NoDup cs -> (forall q, In q cs -> q < n /\ outside_reg q s len) ->
  every_run (crun c rgp n (qi_CINC a s len cs) (Some psi)) (fun r => exists psi1, r = Ok (Some psi1) /\
    every_run (crun c rgp n (qi_CDEC a s len cs) (Some psi1)) (fun r2 => exists psi2, r2 = Ok (Some psi2) /\ eqv n psi2 psi)).
Proof. intros K c rgp n a s len cs psi Hf Hs ND Hc. assert (n < 64) by apply Hf. apply inv_run; auto. apply inv_CINC; auto. lia. Qed.

Lemma l_c40_incdecc_partial : forall (K : StarRing) (c : cfg) rgp n a len carry (psi : mem K), fits c n -> len <= n -> carry < n -> outside_reg carry 0 len ->
  every_run (crun c rgp n (qi_INCDECC a 0 len carry) (Some psi)) (fun r => exists psi', r = Ok (Some psi') /\ basis_map n always (add_toggle 0 len carry a) (fun _ => 1%amp) psi psi').
Proof. intros K c rgp n a len ci psi Hf Hs Hc Ho. assert (n < 64) by apply Hf. assert (E : (0 + ci) mod 256 = ci) by (apply N.mod_small; lia).
  apply perm_run; auto. apply wf_INCDECC; rewrite ?E; auto; lia. intros x Hx. rewrite incdecc_act; rewrite ?E; auto; lia. Qed.

Lemma l_c40_incdecc_any : forall (K : StarRing) (c : cfg) rgp n a s len carryIndex (psi : mem K), fits c n -> s + len <= n -> (s + carryIndex) mod 256 < n -> outside_reg ((s + carryIndex) mod 256) s len ->
  every_run (crun c rgp n (qi_INCDECC a s len carryIndex) (Some psi)) (fun r => exists psi', r = Ok (Some psi') /\ basis_map n always (add_toggle s len ((s + carryIndex) mod 256) a) (fun _ => 1%amp) psi psi').
Proof. intros K c rgp n a s len ci psi Hf Hs Hc Ho. assert (n < 64) by apply Hf.
  apply perm_run; auto. apply wf_INCDECC; auto; lia. intros x Hx. apply incdecc_act; auto; lia. Qed.

Lemma l_c40_incdecc_refuted : exists (c : cfg) n a s len carry (psi : mem GI), fits c n /\ s + len <= n /\ carry < n /\ outside_reg carry s len /\
  ~ every_run (crun c false n (qi_INCDECC a s len carry) (Some psi)) (fun r => exists psi', r = Ok (Some psi') /\
    basis_map n always (add_toggle s len carry a) (fun _ => 1%amp) psi psi').
Proof. exists c4, 4, 1, 1, 1, 2, (ket 2). split; [apply c4_fits; lia|]. split; [lia|]. split; [lia|]. split; [right; lia|].
  apply ket_wrong; auto; try lia; try reflexivity. apply wf_INCDECC; try lia; try reflexivity. right. reflexivity || (vm_compute; discriminate). vm_compute. discriminate. Qed.

Lemma l_c41_fulladd : forall (K : StarRing) (c : cfg) rgp n cs in1 in2 sum carry (psi : mem K), fits c n -> in1 <> in2 -> adder_ok n in1 in2 sum carry -> ctl_ok n cs [in1; in2; sum; carry] ->
  every_run (crun c rgp n (qi_CFullAdd cs in1 in2 sum carry) (Some psi)) (fun r => exists psi', r = Ok (Some psi') /\ basis_map n always (controlled cs (full_add in1 in2 sum carry)) (fun _ => 1%amp) psi psi') /\
  qi_FullAdd in1 in2 sum carry = qi_CFullAdd [] in1 in2 sum carry :> circ K.
Proof. intros K c rgp n cs in1 in2 sum carry psi Hf H1 Ha Hc. split; [|reflexivity]. apply perm_run; auto. now apply wf_CFullAdd. intros x Hx.
  destruct Ha as [? [? [? [? [? [? [? [? ?]]]]]]]]. apply cfull_act; auto. intros q Hq. now apply Hc. Qed.

Lemma l_c41_ifulladd_undoes : forall (K : StarRing) (c : cfg) rgp n cs in1 in2 sum carry (psi : mem K), fits c n -> in1 <> in2 -> adder_ok n in1 in2 sum carry -> ctl_ok n cs [in1; in2; sum; carry] ->
  every_run (crun c rgp n (qi_CFullAdd cs in1 in2 sum carry) (Some psi)) (fun r => exists psi1, r = Ok (Some psi1) /\
    every_run (crun c rgp n (qi_CIFullAdd cs in1 in2 sum carry) (Some psi1)) (fun r2 => exists psi2, r2 = Ok (Some psi2) /\ eqv n psi2 psi)) /\
  qi_IFullAdd in1 in2 sum carry = qi_CIFullAdd [] in1 in2 sum carry :> circ K.
Proof. intros K c rgp n cs in1 in2 sum carry psi Hf H1 Ha Hc. split; [|reflexivity]. apply inv_run; auto. rewrite cifull_rev. apply inv_rev. now apply wf_CFullAdd. Qed.

Lemma l_c41_iadc_undoes : forall (K : StarRing) (c : cfg) rgp n cs in1 in2 out len carry (psi : mem K), fits c n -> adc_regs_ok n in1 in2 out len carry -> NoDup cs ->
  (forall q, In q cs -> q < n /\ q <> carry /\ outside_reg q in1 len /\ outside_reg q in2 len /\ outside_reg q out len) ->
  every_run (crun c rgp n (qi_CADC cs in1 in2 out len carry) (Some psi)) (fun r => exists psi1, r = Ok (Some psi1) /\
    every_run (crun c rgp n (qi_CIADC cs in1 in2 out len carry) (Some psi1)) (fun r2 => exists psi2, r2 = Ok (Some psi2) /\ eqv n psi2 psi)) /\
  qi_ADC in1 in2 out len carry = qi_CADC [] in1 in2 out len carry :> circ K /\ qi_IADC in1 in2 out len carry = qi_CIADC [] in1 in2 out len carry :> circ K.
Proof. intros K c rgp n cs in1 in2 out len carry psi Hf Ha ND Hc. split; [|split; reflexivity]. apply inv_run; auto. rewrite iadc_rev. apply inv_rev. now apply wf_CADC. Qed.

Lemma l_c41_adc_partial : forall (K : StarRing) (c : cfg) rgp n cs in1 in2 out carry (psi : mem K), fits c n -> in1 <> in2 -> adder_ok n in1 in2 out carry -> ctl_ok n cs [in1; in2; out; carry] ->
  supported n (bit_is out false) psi ->
  every_run (crun c rgp n (qi_CADC cs in1 in2 out 1 carry) (Some psi)) (fun r => exists psi', r = Ok (Some psi') /\ basis_map n (bit_is out false) (controlled cs (add_regs in1 in2 out 1 carry)) (fun _ => 1%amp) psi psi').
Proof. intros K c rgp n cs in1 in2 out carry psi Hf H1 Ha Hc Hs. destruct Ha as [? [? [? [? [? [? [? [? ?]]]]]]]]. apply perm_run_on; auto.
  - apply wf_CADC. unfold adc_regs_ok, disjoint_regs, outside_reg. lia. apply Hc. intros q Hq. apply Hc in Hq. destruct Hq as [Hq Hn]. cbn in Hn. unfold outside_reg. split; auto. lia.
  - intros x Hx HD. apply adc1_act; auto. intros q Hq. now apply Hc. unfold bit_is in HD. now destruct (N.testbit x out). Qed.

Lemma l_c41_adc_refuted : exists (c : cfg) n in1 in2 out len carry (psi : mem GI), fits c n /\ adc_regs_ok n in1 in2 out len carry /\ supported n (reg_is out len 0) psi /\
  ~ every_run (crun c false n (qi_ADC in1 in2 out len carry) (Some psi)) (fun r => exists psi', r = Ok (Some psi') /\
    basis_map n (reg_is out len 0) (add_regs in1 in2 out len carry) (fun _ => 1%amp) psi psi').
Proof. exists c4, 7, 0, 2, 4, 2, 6, (ket 5). split; [apply c4_fits; lia|]. assert (A : adc_regs_ok 7 0 2 4 2 6) by (unfold adc_regs_ok, disjoint_regs, outside_reg; lia). split; auto. split; [now apply ket_supported|].
  apply ket_wrong; auto; try lia; try reflexivity. rewrite adc_cadc. apply wf_CADC; auto. constructor. intros q []. vm_compute. discriminate. Qed.

Lemma l_c42_mul_pow2 : forall (K : StarRing) (c : cfg) rgp n m k s o len cs (psi : mem K), fits c n -> mulmod_ok n cs s len o k -> k < 64 ->
  every_run (crun c rgp n (qi_CMULModNOut m (2 ^ k) s o len cs) (Some psi)) (fun r => exists psi', r = Ok (Some psi') /\ basis_map n always (controlled cs (mul_mod_add m (2 ^ k) s len o k)) (fun _ => 1%amp) psi psi') /\
  qi_MULModNOut m (2 ^ k) s o len = qi_CMULModNOut m (2 ^ k) s o len [] :> circ K.
Proof. intros K c rgp n m k s o len cs psi Hf Hm Hk. split; [|reflexivity]. assert (n < 64) by apply Hf. assert (EO : mod_olen (2 ^ k) = k). { rewrite mod_olen_up by apply pow2_nz. apply N.log2_up_pow2. lia. }
  apply perm_run; auto. apply wf_MUL; rewrite ?EO; auto. lia. apply pow2_nz. intros x Hx. pose proof (@mul_act_pow2 K n m (2 ^ k) s o len cs x) as A. rewrite EO in A. apply A; auto. lia. apply isPowerOfTwo_ok; eauto. Qed.

Lemma l_c42_mul_small : forall (K : StarRing) (c : cfg) rgp n m N0 s o len cs (psi : mem K), fits c n -> mulmod_ok n cs s len o (N.log2_up N0) -> 1 <= m -> m * (2 ^ len - 1) < N0 ->
  supported n (reg_is o (N.log2_up N0) 0) psi ->
  every_run (crun c rgp n (qi_CMULModNOut m N0 s o len cs) (Some psi)) (fun r => exists psi', r = Ok (Some psi') /\ basis_map n (reg_is o (N.log2_up N0) 0) (controlled cs (mul_mod_out m N0 s len o (N.log2_up N0))) (fun _ => 1%amp) psi psi').
Proof. intros K c rgp n m N0 s o len cs psi Hf Hm H1 HN Hs. assert (n < 64) by apply Hf. assert (HN0 : N0 <> 0) by (intros ->; now apply N.nlt_0_r in HN). rewrite <- mod_olen_up in * by auto.
  apply perm_run_on; auto. apply wf_MUL; auto. lia. intros x Hx HD. apply (mul_act_small n); auto. lia. unfold reg_is in HD. now apply N.eqb_eq in HD. Qed.

Lemma l_c42_imul_undoes : forall (K : StarRing) (c : cfg) rgp n m N0 s o len cs (psi : mem K), fits c n -> mulmod_ok n cs s len o (N.log2_up N0) -> N0 <> 0 ->
  every_run (crun c rgp n (qi_CMULModNOut m N0 s o len cs) (Some psi)) (fun r => exists psi1, r = Ok (Some psi1) /\
    every_run (crun c rgp n (qi_CIMULModNOut m N0 s o len cs) (Some psi1)) (fun r2 => exists psi2, r2 = Ok (Some psi2) /\ eqv n psi2 psi)) /\
  qi_IMULModNOut m N0 s o len = qi_CIMULModNOut m N0 s o len [] :> circ K.
Proof. intros K c rgp n m N0 s o len cs psi Hf Hm H0. split; [|reflexivity]. assert (n < 64) by apply Hf. rewrite <- mod_olen_up in * by auto. apply inv_run; auto. apply inv_MUL; auto. lia. Qed.

Lemma l_c42_mul_refuted : exists (c : cfg) n m N0 s o len (psi : mem GI), fits c n /\ mulmod_ok n [] s len o (N.log2_up N0) /\ 1 <= m /\ N0 <> 0 /\ supported n (reg_is o (N.log2_up N0) 0) psi /\
  ~ every_run (crun c false n (qi_MULModNOut m N0 s o len) (Some psi)) (fun r => exists psi', r = Ok (Some psi') /\
    basis_map n (reg_is o (N.log2_up N0) 0) (mul_mod_out m N0 s len o (N.log2_up N0)) (fun _ => 1%amp) psi psi').
Proof. exists c4, 6, 4, 5, 0, 3, 3, (ket 3). split; [apply c4_fits; lia|]. assert (A : mulmod_ok 6 [] 0 3 3 (N.log2_up 5)). { change (N.log2_up 5) with 3. unfold mulmod_ok, disjoint_regs. split; [lia|]. split; [lia|]. split; [lia|]. split; [constructor|intros q []]. }
  split; auto. split; [lia|]. split; [lia|]. split; [now apply ket_supported|].
  apply ket_wrong; auto; try lia; try reflexivity. rewrite mul_cmul. apply wf_MUL; auto; lia. vm_compute. discriminate. Qed.

Lemma l_c43_toggle_partial : forall (K : StarRing) (c : cfg) rgp (nrm : K) n op F in1 in2 out (psi : mem K), fits c n -> In (op, F) [(qi_AND, f_and); (qi_OR, f_or); (qi_XOR, f_xor); (qi_NAND, f_nand); (qi_NOR, f_nor); (qi_XNOR, f_xnor)] ->
  in1 < n -> in2 < n -> out < n -> in1 <> out -> in2 <> out ->
  every_run (lrun c rgp nrm n out (op in1 in2 out) psi) (fun r => exists psi', r = Ok (Some psi') /\ basis_map n always (toggle out (fun x => F (N.testbit x in1) (N.testbit x in2))) (fun _ => 1%amp) psi psi').
Proof. intros K c rgp nrm n op F in1 in2 out psi Hf HI H1 H2 H3 E1 E2. destruct (logic2_gates n op F in1 in2 out) as [l [-> [W A]]]; auto. cbn [lrun]. now apply perm_run. Qed.

Lemma l_c43_classical_partial : forall (K : StarRing) (c : cfg) rgp n op F inq inc out (psi : mem K), fits c n -> In (op, F) [(qi_CLAND, f_and); (qi_CLOR, f_or); (qi_CLXOR, f_xor); (qi_CLNAND, f_nand); (qi_CLNOR, f_nor); (qi_CLXNOR, f_xnor)] ->
  inq < n -> out < n -> inq <> out ->
  every_run (crun c rgp n (op inq inc out) (Some psi)) (fun r => exists psi', r = Ok (Some psi') /\ basis_map n always (toggle out (fun x => F (N.testbit x inq) inc)) (fun _ => 1%amp) psi psi').
Proof. intros K c rgp n op F inq inc out psi Hf HI H1 H3 E1. destruct (logic1_gates n op F inq inc out) as [W A]; auto. apply perm_run; auto. Qed.

Lemma l_c43_inplace_xor : forall (K : StarRing) (c : cfg) rgp (nrm : K) n op F in1 in2 out (psi : mem K), fits c n -> In (op, F) [(qi_XOR, f_xor); (qi_XNOR, f_xnor)] ->
  in1 < n -> in2 < n -> in1 <> in2 -> out = in1 \/ out = in2 ->
  every_run (lrun c rgp nrm n out (op in1 in2 out) psi) (fun r => exists psi', r = Ok (Some psi') /\ basis_map n always (assign out (fun x => F (N.testbit x in1) (N.testbit x in2))) (fun _ => 1%amp) psi psi').
Proof. intros K c rgp nrm n op F in1 in2 out psi Hf HI H1 H2 E H. destruct HI as [HI|[HI|[]]]; injection HI as <- <-.
  destruct (@xor_inplace K n in1 in2 out) as [l [-> [W A]]]; auto. cbn [lrun]. now apply perm_run.
  destruct (@xnor_inplace K n in1 in2 out) as [l [-> [W A]]]; auto. cbn [lrun]. now apply perm_run. Qed.

Lemma l_c43_inplace_throws : forall (K : StarRing) (c : cfg) rgp (nrm : K) n op in1 in2 out (psi : mem K), In op [qi_AND; qi_OR; qi_NAND; qi_NOR] -> in1 <> in2 -> out = in1 \/ out = in2 ->
  every_run (lrun c rgp nrm n out (op in1 in2 out) psi) (fun r => r = Throw).
Proof. intros K c rgp nrm n op in1 in2 out psi HI E H. assert (T : op in1 in2 out = LThrow).
  { destruct HI as [<-|[<-|[<-|[<-|[]]]]]; unfold qi_NAND, qi_NOR, qi_AND, qi_OR, then_; rewrite (neqb_f in1 in2) by auto; cbn [andb]; destruct H as [->| ->]; rewrite N.eqb_refl, ?orb_true_r; reflexivity. }
  rewrite T. cbn [lrun]. split. now exists Throw. auto. Qed.

Lemma l_c43_one_qubit : forall (K : StarRing) (c : cfg) rgp (nrm : K) n q (psi : mem K), fits c n -> q < n -> nonzero n psi ->
  let out := q in
  every_run (lrun c rgp nrm n out (qi_AND q q q) psi) (fun r => exists psi', r = Ok (Some psi') /\ basis_map n always (assign q (fun x => f_and (N.testbit x q) (N.testbit x q))) (fun _ => 1%amp) psi psi') /\
  every_run (lrun c rgp nrm n out (qi_OR q q q) psi) (fun r => exists psi', r = Ok (Some psi') /\ basis_map n always (assign q (fun x => f_or (N.testbit x q) (N.testbit x q))) (fun _ => 1%amp) psi psi') /\
  every_run (lrun c rgp nrm n out (qi_NAND q q q) psi) (fun r => exists psi', r = Ok (Some psi') /\ basis_map n always (assign q (fun x => f_nand (N.testbit x q) (N.testbit x q))) (fun _ => 1%amp) psi psi') /\
  every_run (lrun c rgp nrm n out (qi_NOR q q q) psi) (fun r => exists psi', r = Ok (Some psi') /\ basis_map n always (assign q (fun x => f_nor (N.testbit x q) (N.testbit x q))) (fun _ => 1%amp) psi psi') /\
  every_run (lrun c rgp nrm n out (qi_XOR q q q) psi) (fun r => exists psi' b g, r = Ok (Some psi') /\ measured n (bit_is q b) nrm g psi /\
    basis_map n (bit_is q b) (assign q (fun x => f_xor (N.testbit x q) (N.testbit x q))) (fun _ => g) psi psi') /\
  every_run (lrun c rgp nrm n out (qi_XNOR q q q) psi) (fun r => exists psi' b g, r = Ok (Some psi') /\ measured n (bit_is q b) nrm g psi /\
    basis_map n (bit_is q b) (assign q (fun x => f_xnor (N.testbit x q) (N.testbit x q))) (fun _ => g) psi psi').
Proof. intros K c rgp nrm n q psi Hf Hq Hn out. subst out.
  assert (PB : forall x b, N.testbit x q = b -> put_bit x q b = x). { intros x b <-. apply put_bit_id. }
  assert (EQ : (q =? q) && (q =? q) = true) by (now rewrite N.eqb_refl).
  split; [|split; [|split; [|split; [|split]]]].
  - unfold qi_AND. rewrite EQ. cbn [lrun]. apply perm_run; auto. intros x Hx. unfold assign, f_and. rewrite andb_diag. symmetry. now apply PB.
  - unfold qi_OR. rewrite EQ. cbn [lrun]. apply perm_run; auto. intros x Hx. unfold assign, f_or. rewrite orb_diag. symmetry. now apply PB.
  - unfold qi_NAND, qi_AND, then_. rewrite EQ. cbn [lrun app]. apply perm_run; auto. now apply wf_X. intros x Hx. rewrite act_X. unfold assign, f_nand. rewrite andb_diag. apply flip_put1.
  - unfold qi_NOR, qi_OR, then_. rewrite EQ. cbn [lrun app]. apply perm_run; auto. now apply wf_X. intros x Hx. rewrite act_X. unfold assign, f_nor. rewrite orb_diag. apply flip_put1.
  - unfold qi_XOR. rewrite EQ. destruct (reset_ok c rgp nrm n q false psi Hf Hq Hn) as [He Ha]. split; auto. intros r HR. destruct (Ha r HR) as [psi' [b [g [-> [M HB]]]]]. exists psi', b, g. split; auto. split; auto.
    eapply basis_map_ext; [| |exact HB]; auto. intros x Hx _. split; auto. unfold assign, f_xor. now rewrite xorb_nilpotent.
  - unfold qi_XNOR, qi_XOR, then_. rewrite EQ. cbn [app]. destruct (reset_ok c rgp nrm n q true psi Hf Hq Hn) as [He Ha]. split; auto. intros r HR. destruct (Ha r HR) as [psi' [b [g [-> [M HB]]]]]. exists psi', b, g. split; auto. split; auto.
    eapply basis_map_ext; [| |exact HB]; auto. intros x Hx _. split; auto. unfold assign, f_xnor. now rewrite xorb_nilpotent. Qed.

Lemma l_c43_toggle_refuted : exists (c : cfg) n q (psi : mem GI), fits c n /\ q < n /\
  ~ every_run (lrun c false 1%amp n q (qi_AND q q q) psi) (fun r => exists psi', r = Ok (Some psi') /\
    basis_map n always (toggle q (fun x => f_and (N.testbit x q) (N.testbit x q))) (fun _ => 1%amp) psi psi').
Proof. exists c4, 1, 0, (ket 1). split; [apply c4_fits; lia|]. split; [lia|]. apply (ket_wrong false 1 []); auto; try lia; try reflexivity. vm_compute. discriminate. Qed.

Lemma l_c43_classical_refuted : exists (c : cfg) n q (psi : mem GI), fits c n /\ q < n /\
  ~ every_run (crun c false n (qi_CLAND q true q) (Some psi)) (fun r => exists psi', r = Ok (Some psi') /\
    basis_map n always (toggle q (fun x => f_and (N.testbit x q) true)) (fun _ => 1%amp) psi psi') /\
  ~ every_run (crun c false n (qi_CLAND q false q) (Some psi)) (fun r => exists psi', r = Ok (Some psi') /\ exists D,
    D 1 = true /\ basis_map n D (assign q (fun x => f_and (N.testbit x q) false)) (fun _ => 1%amp) psi psi').
Proof. exists c4, 1, 0, (ket 1). split; [apply c4_fits; lia|]. split; [lia|]. split. apply (ket_wrong false 1 []); auto; try lia; try reflexivity. vm_compute. discriminate.
  intros [[r HR] Ha]. destruct (Ha r HR) as [psi' [-> [D [HD HB]]]]. cbn [crun qi_CLAND andb] in HR. injection HR as ->.
  pose proof (ket_image _ _ _ _ _ _ 1 HB eq_refl HD eq_refl) as E. cbv in E. discriminate. Qed.

Lemma l_c44_swap : forall (K : StarRing) (c : cfg) rgp n q1 q2 (psi : mem K), fits c n -> q1 < n -> q2 < n ->
  every_run (crun c rgp n (qi_Swap q1 q2) (Some psi)) (fun r => exists psi', r = Ok (Some psi') /\ basis_map n always (swap_bits q1 q2) (fun _ => 1%amp) psi psi') /\
  every_run (crun c rgp n (qi_Swap q1 q2) (Some psi)) (fun r => exists psi1, r = Ok (Some psi1) /\
    every_run (crun c rgp n (qi_Swap q1 q2) (Some psi1)) (fun r2 => exists psi2, r2 = Ok (Some psi2) /\ eqv n psi2 psi)).
Proof. intros K c rgp n q1 q2 psi Hf H1 H2. assert (W : Forall (wfx n) (qi_Swap q1 q2 : circ K)) by now apply wf_Swap. split. apply perm_run; auto. intros. apply swap_act.
  apply inv_run; auto. split; auto. split; auto. intros x Hx. rewrite !swap_act. apply swap_swap. Qed.

Lemma l_c44_iswap : forall (K : StarRing) (c : cfg) rgp n (i : K) q1 q2 (psi : mem K), fits c n -> (i * i = - (1))%amp -> q1 <> q2 -> q1 < n -> q2 < n ->
  every_run (crun c rgp n (qi_ISwap rgp i q1 q2) (Some psi)) (fun r => exists psi', r = Ok (Some psi') /\ eqv n psi' (gate_swap always q1 q2 (iswap_mat i) psi)) /\
  every_run (crun c rgp n (qi_IISwap rgp i q1 q2) (Some psi)) (fun r => exists psi', r = Ok (Some psi') /\ eqv n psi' (gate_swap always q1 q2 (iswap_mat (- i)%amp) psi)).
Proof. intros K c rgp n i q1 q2 psi Hf Hi HE H1 H2. split; apply sem_run; auto. now apply wf_ISwap. intros. now apply (sem_ISwap rgp n). now apply wf_IISwap. intros. now apply (sem_IISwap rgp n). Qed.

Lemma l_c44_iswap_inverse : forall (K : StarRing) (c : cfg) rgp n (i : K) q1 q2 (psi : mem K), fits c n -> (i * i = - (1))%amp -> q1 < n -> q2 < n ->
  every_run (crun c rgp n (qi_ISwap rgp i q1 q2) (Some psi)) (fun r => exists psi1, r = Ok (Some psi1) /\
    every_run (crun c rgp n (qi_IISwap rgp i q1 q2) (Some psi1)) (fun r2 => exists psi2, r2 = Ok (Some psi2) /\ eqv n psi2 psi)) /\
  every_run (crun c rgp n (qi_IISwap rgp i q1 q2) (Some psi)) (fun r => exists psi1, r = Ok (Some psi1) /\
    every_run (crun c rgp n (qi_ISwap rgp i q1 q2) (Some psi1)) (fun r2 => exists psi2, r2 = Ok (Some psi2) /\ eqv n psi2 psi)).
Proof. intros K c rgp n i q1 q2 psi Hf Hi H1 H2. destruct (N.eq_dec q1 q2) as [->|HE].
  { unfold qi_ISwap, qi_IISwap. rewrite N.eqb_refl. split; apply run_inv; auto. }
  split; (apply run_inv; [auto|first [now apply wf_ISwap|now apply wf_IISwap]|first [now apply wf_ISwap|now apply wf_IISwap]|]); intros x.
  - rewrite (sem_IISwap rgp n) by auto. rewrite (gate_swap_fun _ _ _ _ (gate_swap always q1 q2 (iswap_mat i) psi)) by (intros; now apply (sem_ISwap rgp n)). rewrite gate_swap_mul, iswap_iiswap by auto. apply gate_swap_id.
  - rewrite (sem_ISwap rgp n) by auto. rewrite (gate_swap_fun _ _ _ _ (gate_swap always q1 q2 (iswap_mat (- i)%amp) psi)) by (intros; now apply (sem_IISwap rgp n)). rewrite gate_swap_mul, iiswap_iswap by auto. apply gate_swap_id. Qed.

Lemma l_c44_sqrtswap : forall (K : StarRing) (c : cfg) rgp n (h i : K) q1 q2 (psi : mem K), fits c n -> ((1 + 1) * (h * h) = 1)%amp -> (i * i = - (1))%amp -> q1 <> q2 -> q1 < n -> q2 < n ->
  every_run (crun c rgp n (qi_SqrtSwap rgp h i q1 q2) (Some psi)) (fun r => exists psi', r = Ok (Some psi') /\ eqv n psi' (gate_swap always q1 q2 (sqrt_swap_mat h i) psi)) /\
  every_run (crun c rgp n (qi_ISqrtSwap rgp h i q1 q2) (Some psi)) (fun r => exists psi', r = Ok (Some psi') /\ eqv n psi' (gate_swap always q1 q2 (isqrt_swap_mat h i) psi)).
Proof. intros K c rgp n h i q1 q2 psi Hf Hh Hi HE H1 H2. split; apply sem_run; auto. now apply wf_SqrtSwap. intros. now apply (sem_SqrtSwap rgp n). now apply wf_ISqrtSwap. intros. now apply (sem_ISqrtSwap rgp n). Qed.

Lemma l_c44_sqrtswap_inverse : forall (K : StarRing) (c : cfg) rgp n (h i : K) q1 q2 (psi : mem K), fits c n -> ((1 + 1) * (h * h) = 1)%amp -> (i * i = - (1))%amp -> q1 < n -> q2 < n ->
  every_run (crun c rgp n (qi_SqrtSwap rgp h i q1 q2) (Some psi)) (fun r => exists psi1, r = Ok (Some psi1) /\
    every_run (crun c rgp n (qi_ISqrtSwap rgp h i q1 q2) (Some psi1)) (fun r2 => exists psi2, r2 = Ok (Some psi2) /\ eqv n psi2 psi)) /\
  every_run (crun c rgp n (qi_ISqrtSwap rgp h i q1 q2) (Some psi)) (fun r => exists psi1, r = Ok (Some psi1) /\
    every_run (crun c rgp n (qi_SqrtSwap rgp h i q1 q2) (Some psi1)) (fun r2 => exists psi2, r2 = Ok (Some psi2) /\ eqv n psi2 psi)).
Proof. intros K c rgp n h i q1 q2 psi Hf Hh Hi H1 H2. destruct (N.eq_dec q1 q2) as [->|HE].
  { unfold qi_SqrtSwap, qi_ISqrtSwap. rewrite N.eqb_refl. split; apply run_inv; auto. }
  split; (apply run_inv; [auto|first [now apply wf_SqrtSwap|now apply wf_ISqrtSwap]|first [now apply wf_SqrtSwap|now apply wf_ISqrtSwap]|]); intros x.
  - rewrite (sem_ISqrtSwap rgp n) by auto. rewrite (gate_swap_fun _ _ _ _ (gate_swap always q1 q2 (sqrt_swap_mat h i) psi)) by (intros; now apply (sem_SqrtSwap rgp n)). rewrite gate_swap_mul, isqrt_sqrt by auto. apply gate_swap_id.
  - rewrite (sem_SqrtSwap rgp n) by auto. rewrite (gate_swap_fun _ _ _ _ (gate_swap always q1 q2 (isqrt_swap_mat h i) psi)) by (intros; now apply (sem_ISqrtSwap rgp n)). rewrite gate_swap_mul, sqrt_isqrt by auto. apply gate_swap_id. Qed.

Lemma l_c44_sqrtswap_twice : forall (K : StarRing) (c : cfg) rgp n (h i : K) q1 q2 (psi : mem K), fits c n -> ((1 + 1) * (h * h) = 1)%amp -> (i * i = - (1))%amp -> q1 < n -> q2 < n ->
  every_run (crun c rgp n (qi_SqrtSwap rgp h i q1 q2 ++ qi_SqrtSwap rgp h i q1 q2) (Some psi)) (fun r => exists psi', r = Ok (Some psi') /\ eqv n psi' (fun x => psi (swap_bits q1 q2 x))).
Proof. intros K c rgp n h i q1 q2 psi Hf Hh Hi H1 H2. apply sem_run; auto. apply Forall_app; split; now apply wf_SqrtSwap. intros x Hx. rewrite csem_app. destruct (N.eq_dec q1 q2) as [->|HE].
  { unfold qi_SqrtSwap. rewrite N.eqb_refl. cbn [csem fold_left]. f_equal. apply N.bits_inj. intros q. rewrite tb_swap. destruct (N.eqb_spec q2 q); subst; auto. }
  rewrite (sem_SqrtSwap rgp n) by auto. rewrite (gate_swap_fun _ _ _ _ (gate_swap always q1 q2 (sqrt_swap_mat h i) psi)) by (intros; now apply (sem_SqrtSwap rgp n)).
  rewrite gate_swap_mul, sqrt_sq by auto. apply gate_swap_x. Qed.

Lemma l_c45_ucmtrx : forall (K : StarRing) (c : cfg) rgp n cs (m : mat2 K) t perm (psi : mem K), fits c n -> NoDup (cs ++ [t]) -> (forall q, In q (cs ++ [t]) -> q < n) ->
  (cs <> [] \/ forall ph, m = mkMat ph 0%amp 0%amp ph -> ph = 1%amp) ->
  every_run (crun c rgp n (qi_UCMtrx cs m t perm) (Some psi)) (fun r => exists psi', r = Ok (Some psi') /\ eqv n psi' (gate1 (match_perm 0 cs perm) t m psi)).
Proof. intros K c rgp n cs m t perm psi Hf HN Hq Hm. assert (W : wfc n cs t) by (split; auto). apply sem_run; auto. now apply wf_UCMtrx. intros x Hx. now apply (sem_UCMtrx n). Qed.

Lemma l_c45_uniform : forall (K : StarRing) (c : cfg) rgp n cs t (M : N -> mat2 K) (psi : mem K), fits c n -> NoDup (cs ++ [t]) -> (forall q, In q (cs ++ [t]) -> q < n) ->
  (cs <> [] \/ forall ph, M 0 = mkMat ph 0%amp 0%amp ph -> ph = 1%amp) ->
  every_run (crun c rgp n (qi_UCSB cs t M) (Some psi)) (fun r => exists psi', r = Ok (Some psi') /\ eqv n psi' (fun x => gate1 always t (M (ctrl_value 0 cs x)) psi x)).
Proof. intros K c rgp n cs t M psi Hf HN Hq Hm. assert (W : wfc n cs t) by (split; auto). apply sem_run; auto. now apply wf_UCSB. intros x Hx. now apply (sem_UCSB n). Qed.

Lemma l_c46_iqft_undoes_qft : forall (K : StarRing) (c : cfg) rgp n root iroot (h : K) s len (psi : mem K), fits c n -> (forall k, (root k * iroot k = 1)%amp) -> ((1 + 1) * (h * h) = 1)%amp -> s + len <= n ->
  every_run (crun c rgp n (qi_QFT root h s len) (Some psi)) (fun r => exists psi1, r = Ok (Some psi1) /\
    every_run (crun c rgp n (qi_IQFT iroot h s len) (Some psi1)) (fun r2 => exists psi2, r2 = Ok (Some psi2) /\ eqv n psi2 psi)) /\
  every_run (crun c rgp n (qi_IQFT iroot h s len) (Some psi)) (fun r => exists psi1, r = Ok (Some psi1) /\
    every_run (crun c rgp n (qi_QFT root h s len) (Some psi1)) (fun r2 => exists psi2, r2 = Ok (Some psi2) /\ eqv n psi2 psi)).
Proof. intros K c rgp n root iroot h s len psi Hf HR Hh Hs. destruct (wf_qr n iroot h (fun k => s + k) (N.to_nat len)) as [_ W2]; auto. intros; lia. intros; lia.
  assert (W1 : Forall (wfg n) (qi_QFT root h s len)) by now apply wf_QFT. rewrite <- (iqft_iqr iroot) in W2. split; apply run_inv; auto; intros x; rewrite iqft_iqr.
  - rewrite (csem_ext _ _ (csem (qr root h (fun k => s + k) (N.to_nat len)) psi)). apply qr_inv; auto. intros y. rewrite <- (N2Nat.id len) at 1. apply qft_qr.
  - rewrite <- (N2Nat.id len) at 1. rewrite qft_qr. apply qr_inv'; auto. Qed.

Lemma l_c46_index_lists : forall (K : StarRing) (c : cfg) rgp n root iroot (h : K) qs (psi : mem K), fits c n -> (forall k, (root k * iroot k = 1)%amp) -> ((1 + 1) * (h * h) = 1)%amp -> NoDup qs -> (forall q, In q qs -> q < n) ->
  every_run (crun c rgp n (qi_QFTR root h qs) (Some psi)) (fun r => exists psi1, r = Ok (Some psi1) /\
    every_run (crun c rgp n (qi_IQFTR iroot h qs) (Some psi1)) (fun r2 => exists psi2, r2 = Ok (Some psi2) /\ eqv n psi2 psi)) /\
  every_run (crun c rgp n (qi_IQFTR iroot h qs) (Some psi)) (fun r => exists psi1, r = Ok (Some psi1) /\
    every_run (crun c rgp n (qi_QFTR root h qs) (Some psi1)) (fun r2 => exists psi2, r2 = Ok (Some psi2) /\ eqv n psi2 psi)).
Proof. intros K c rgp n root iroot h qs psi Hf HR Hh ND Hq. rewrite qftr_qr, iqftr_iqr.
  assert (A1 : forall k, k < N.of_nat (length qs) -> nth (N.to_nat k) qs 0 < n). { intros k Hk. apply Hq, nth_In. lia. }
  assert (A2 : forall j k, j < k -> k < N.of_nat (length qs) -> nth (N.to_nat j) qs 0 <> nth (N.to_nat k) qs 0).
  { intros j k Hj Hk E. apply NoDup_nth in E; auto; lia. }
  destruct (wf_qr n root h (fun k => nth (N.to_nat k) qs 0) (length qs)) as [W1 _]; auto. destruct (wf_qr n iroot h (fun k => nth (N.to_nat k) qs 0) (length qs)) as [_ W2]; auto.
  split; apply run_inv; auto; intros x. now apply qr_inv. now apply qr_inv'. Qed.

Lemma l_c76_qft : forall (K : StarRing) (c : cfg) rgp n root (h : K) s len (psi : mem K), fits c n -> ((1 + 1) * (h * h) = 1)%amp -> (root 1%N = - (1))%amp -> (forall k, 1 <= k -> (root (k + 1)%N * root (k + 1)%N = root k)%amp) -> s + len <= n ->
  every_run (crun c rgp n (qi_QFT root h s len) (Some psi)) (fun r => exists psi', r = Ok (Some psi') /\ eqv n psi' (dft_rev (root len) h s len psi)).
Proof. intros K c rgp n root h s len psi Hf Hh R1 R2 Hs. apply sem_run; auto. now apply wf_QFT. intros x Hx. rewrite <- (N2Nat.id len). rewrite qft_qr. now apply qr_dft. Qed.

Lemma l_c47_probreg_partial : forall (K : StarRing) n s len v (psi : mem K), n < 64 -> s + len <= n -> v < 2 ^ len -> v = 0 \/ s = len ->
  qi_ProbReg n s len v (Some psi) = weight_of n (reg_is s len v) psi.
Proof. intros. now apply probreg_generic. Qed.

Lemma l_c47_probreg_refuted : exists n s len v (psi : mem GI), n < 64 /\ s + len <= n /\ v < 2 ^ len /\ weight_of n (reg_is s len v) psi = 0%amp /\
  qi_ProbReg n s len v (Some psi) = (1 + 1)%amp.
Proof. exists 2, 0, 1, 1, (ket 2). split; [lia|]. split; [lia|]. split; [reflexivity|]. split; reflexivity. Qed.

Lemma l_c47_probmask : forall (K : StarRing) n mask v (psi : mem K), mask < 2 ^ n -> v < 2 ^ n ->
  qi_ProbMask n mask v (Some psi) = weight_of n (fun x => N.land x mask =? v) psi.
Proof. intros. now apply probmask_generic. Qed.

Lemma l_c48_compose_at_partial : forall (K : StarRing) (c : cfg) rgp maxQB na nb start (pa pb : mem K), fits c (na + nb) -> 0 < na -> 0 < nb -> na + nb <= maxQB -> start <= na ->
  every_run (qi_ComposeAt c rgp maxQB (mkEng na (Some pa)) (mkEng nb (Some pb)) start) (fun r => exists v, r = Ok (mkEng (na + nb) v, na) /\ eqv (na + nb) (vread v) (tensor_at start nb pa pb)).
Proof. intros. now apply compose_at_generic. Qed.

Lemma l_c48_index_refuted : exists (c : cfg) maxQB na nb start (pa pb : mem GI), fits c (na + nb) /\ 0 < na /\ 0 < nb /\ na + nb <= maxQB /\ start <= na /\
  ~ every_run (qi_ComposeAt c false maxQB (mkEng na (Some pa)) (mkEng nb (Some pb)) start) (fun r => exists v, r = Ok (mkEng (na + nb) v, start)).
Proof. exists c4, 60, 1, 1, 0, (ket 0), (ket 0). split; [apply c4_fits; lia|]. split; [lia|]. split; [lia|]. split; [lia|]. split; [lia|]. intros [[r HR] Ha].
  destruct (compose_at_generic c4 false 60 1 1 0 (ket 0 : mem GI) (ket 0)) as [_ Hb]; try lia. apply c4_fits; lia.
  destruct (Ha r HR) as [v ->]. destruct (Hb _ HR) as [v' [E _]]. discriminate E. Qed.

Lemma l_c77_cswap : forall (K : StarRing) (c : cfg) rgp n cs q1 q2 (psi : mem K), fits c n -> ctl_ok n cs [q1; q2] -> q1 < n -> q2 < n ->
  every_run (crun c rgp n (qi_CSwap cs q1 q2) (Some psi)) (fun r => exists psi', r = Ok (Some psi') /\ basis_map n always (controlled cs (swap_bits q1 q2)) (fun _ => 1%amp) psi psi') /\
  every_run (crun c rgp n (qi_CSwap cs q1 q2) (Some psi)) (fun r => exists psi1, r = Ok (Some psi1) /\
    every_run (crun c rgp n (qi_CSwap cs q1 q2) (Some psi1)) (fun r2 => exists psi2, r2 = Ok (Some psi2) /\ eqv n psi2 psi)).
Proof. intros K c rgp n cs q1 q2 psi Hf Hc H1 H2. assert (W : Forall (wfx n) (qi_CSwap cs q1 q2 : circ K)) by now apply wf_CSwap.
  split. apply perm_run; auto. intros. apply cswap_act; intros HI; apply Hc in HI; cbn in HI; tauto.
  apply inv_run; auto. rewrite cswap_rev at 2. now apply inv_rev. Qed.

Lemma l_c77_anticswap : forall (K : StarRing) (c : cfg) rgp n cs q1 q2 (psi : mem K), fits c n -> ctl_ok n cs [q1; q2] -> q1 < n -> q2 < n ->
  every_run (crun c rgp n (qi_AntiCSwap cs q1 q2) (Some psi)) (fun r => exists psi', r = Ok (Some psi') /\ basis_map n always (fun x => if all_clear cs x then swap_bits q1 q2 x else x) (fun _ => 1%amp) psi psi').
Proof. intros K c rgp n cs q1 q2 psi Hf Hc H1 H2. apply perm_run; auto. now apply wf_AntiCSwap. intros. apply anticswap_act; intros HI; apply Hc in HI; cbn in HI; tauto. Qed.
