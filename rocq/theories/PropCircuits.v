(** Property theorems C32, C39-C48, C76 and C77: the generic circuits of QInterface on the state-vector engine.  [K] is any
    ring of amplitudes, [c] any number of cores and stride, [rgp] whether the global phase is random; [every_run] says that
    the call has an outcome and that every outcome, whatever the thread schedule, satisfies the condition.  A [circ] is
    the list of engine gates a call issues; [h] stands for 1/sqrt 2 and [i] for the imaginary unit, and AmpC.v shows that
    the complex numbers satisfy what is asked of them. *)
From Coq Require Import NArith ZArith List Bool Lia.
From Verif Require Import MFunctions SpecFunctions MParFor SpecParFor MKernel Amp AmpC SpecState MEngine SpecEngine MAlu SpecAlu MCircuit SpecCircuit PCircuit PCircuit13.
Import ListNotations.
Local Open Scope N_scope.

(** * C32: the rotations by reversals (the engine kernel is in PropAlu.v) *)

(** ROL by three reversals moves register bit j to bit (j + shift) mod len, for every shift. *)
Theorem c32_generic_rol : forall (K : StarRing) (c : cfg) rgp n shift s len (psi : mem K), fits c n -> s + len <= n ->
  every_run (crun c rgp n (qi_ROL shift s len) (Some psi)) (fun r => exists psi' f, r = Ok (Some psi') /\
    basis_map n always f (fun _ => 1%amp) psi psi' /\ forall x, x < 2 ^ n -> rotated s len shift x (f x)).
Proof. exact @PCircuit13.l_c32_generic_rol. Qed.
Print Assumptions c32_generic_rol.

Example c32_generic_hyps : fits (mkCfg 4 2) 6 /\ 1 + 4 <= 6.
Proof. split; [vm_compute; repeat split; discriminate|]. repeat split; lia. Qed.
Example c32_generic_example : map (cact (qi_ROL 3 1 4 : circ GI)) [2; 4; 6; 33] = [16; 2; 18; 33].
Proof. reflexivity. Qed.

(** ROR is the opposite rotation. *)
Theorem c32_generic_ror : forall (K : StarRing) (c : cfg) rgp n shift s len (psi : mem K), fits c n -> s + len <= n ->
  every_run (crun c rgp n (qi_ROR shift s len) (Some psi)) (fun r => exists psi' f, r = Ok (Some psi') /\
    basis_map n always f (fun _ => 1%amp) psi psi' /\ forall x, x < 2 ^ n -> rotated s len shift (f x) x).
Proof. exact @PCircuit13.l_c32_generic_ror. Qed.
Print Assumptions c32_generic_ror.

Example c32_generic_ror_example : map (cact (qi_ROR 3 1 4 : circ GI)) [16; 2; 18; 33] = [2; 4; 6; 33].
Proof. reflexivity. Qed.

(** ROR by the same shift restores the state. *)
Theorem c32_generic_ror_undoes_rol : forall (K : StarRing) (c : cfg) rgp n shift s len (psi : mem K), fits c n -> s + len <= n ->
  every_run (crun c rgp n (qi_ROL shift s len) (Some psi)) (fun r => exists psi1, r = Ok (Some psi1) /\
    every_run (crun c rgp n (qi_ROR shift s len) (Some psi1)) (fun r2 => exists psi2, r2 = Ok (Some psi2) /\ eqv n psi2 psi)).
Proof. exact @PCircuit13.l_c32_generic_ror_undoes_rol. Qed.
Print Assumptions c32_generic_ror_undoes_rol.

(** ROR by the same shift undoes the engine's ROL kernel (the engine inherits ROR). *)
Theorem c32_ror_undoes_engine_rol : forall (K : StarRing) (c : cfg) rgp n shift s len (psi : mem K), fits c n -> s + len <= n ->
  every_run (ROL c n shift s len (Some psi)) (fun r => exists psi1, r = Ok (Some psi1) /\
    every_run (crun c rgp n (qi_ROR shift s len) (Some psi1)) (fun r2 => exists psi2, r2 = Ok (Some psi2) /\ eqv n psi2 psi)).
Proof. exact @PCircuit13.l_c32_ror_undoes_engine_rol. Qed.
Print Assumptions c32_ror_undoes_engine_rol.

(** * C39: ripple addition *)

(** INC: addition modulo 2^len for every constant. *)
Theorem c39_inc : forall (K : StarRing) (c : cfg) rgp n a s len (psi : mem K), fits c n -> s + len <= n ->
  every_run (crun c rgp n (qi_INC a s len) (Some psi)) (fun r => exists psi', r = Ok (Some psi') /\ basis_map n always (add_reg s len a) (fun _ => 1%amp) psi psi').
Proof. exact @PCircuit13.l_c39_inc. Qed.
Print Assumptions c39_inc.

Example c39_hyps : fits (mkCfg 4 2) 5 /\ 1 + 3 <= 5.
Proof. split; [vm_compute; repeat split; discriminate|]. repeat split; lia. Qed.
Example c39_example : map (cact (qi_INC 27 1 3 : circ GI)) [0; 10; 15; 31] = [6; 0; 5; 21].
Proof. reflexivity. Qed.

(** DEC: subtraction. *)
Theorem c39_dec : forall (K : StarRing) (c : cfg) rgp n a s len (psi : mem K), fits c n -> s + len <= n ->
  every_run (crun c rgp n (qi_DEC a s len) (Some psi)) (fun r => exists psi', r = Ok (Some psi') /\ basis_map n always (sub_reg s len a) (fun _ => 1%amp) psi psi').
Proof. exact @PCircuit13.l_c39_dec. Qed.
Print Assumptions c39_dec.

Example c39_dec_example : map (cact (qi_DEC 27 1 3 : circ GI)) [6; 0; 5; 21] = [0; 10; 15; 31].
Proof. reflexivity. Qed.

(** CINC: the addition happens exactly where all controls are set. *)
Theorem c39_cinc : forall (K : StarRing) (c : cfg) rgp n a s len cs (psi : mem K), fits c n -> s + len <= n -> NoDup cs -> (forall q, In q cs -> q < n /\ outside_reg q s len) ->
  every_run (crun c rgp n (qi_CINC a s len cs) (Some psi)) (fun r => exists psi', r = Ok (Some psi') /\ basis_map n always (controlled cs (add_reg s len a)) (fun _ => 1%amp) psi psi').
Proof. exact @PCircuit13.l_c39_cinc. Qed.
Print Assumptions c39_cinc.

Example c39_cinc_hyps : fits (mkCfg 4 2) 5 /\ 1 + 2 <= 5 /\ NoDup [4; 0] /\ (forall q, In q [4; 0] -> q < 5 /\ outside_reg q 1 2).
Proof.
  split; [vm_compute; repeat split; discriminate|]. split; [lia|]. split. repeat constructor; cbn; intuition discriminate.
  intros q [<-|[<-|[]]]; split; try lia; unfold outside_reg; lia.
Qed.
Example c39_cinc_example : map (cact (qi_CINC 3 1 2 [4; 0] : circ GI)) [0; 16; 17; 23; 31] = [0; 16; 23; 21; 29].
Proof. reflexivity. Qed.

(** CDEC: likewise for the subtraction. *)
Theorem c39_cdec : forall (K : StarRing) (c : cfg) rgp n a s len cs (psi : mem K), fits c n -> s + len <= n -> NoDup cs -> (forall q, In q cs -> q < n /\ outside_reg q s len) ->
  every_run (crun c rgp n (qi_CDEC a s len cs) (Some psi)) (fun r => exists psi', r = Ok (Some psi') /\ basis_map n always (controlled cs (sub_reg s len a)) (fun _ => 1%amp) psi psi').
Proof. exact @PCircuit13.l_c39_cdec. Qed.
Print Assumptions c39_cdec.

(** CDEC by the same constant restores the state (INC and DEC: no controls). *)
Theorem c39_cdec_undoes_cinc : forall (K : StarRing) (c : cfg) rgp n a s len cs (psi : mem K), fits c n -> s + len <= n -> NoDup cs -> (forall q, In q cs -> q < n /\ outside_reg q s len) ->
  every_run (crun c rgp n (qi_CINC a s len cs) (Some psi)) (fun r => exists psi1, r = Ok (Some psi1) /\
    every_run (crun c rgp n (qi_CDEC a s len cs) (Some psi1)) (fun r2 => exists psi2, r2 = Ok (Some psi2) /\ eqv n psi2 psi)).
Proof. exact @PCircuit13.l_c39_cdec_undoes_cinc. Qed.
Print Assumptions c39_cdec_undoes_cinc.

(** * C40: addition with carry *)

(** INCDECC for registers that start at qubit 0.  Missing: other registers, refuted below. *)
Theorem c40_incdecc_partial : forall (K : StarRing) (c : cfg) rgp n a len carry (psi : mem K), fits c n -> len <= n -> carry < n -> outside_reg carry 0 len ->
  every_run (crun c rgp n (qi_INCDECC a 0 len carry) (Some psi)) (fun r => exists psi', r = Ok (Some psi') /\ basis_map n always (add_toggle 0 len carry a) (fun _ => 1%amp) psi psi').
Proof. exact @PCircuit13.l_c40_incdecc_partial. Qed.
Print Assumptions c40_incdecc_partial.

Example c40_hyps : fits (mkCfg 4 2) 5 /\ 3 <= 5 /\ 4 < 5 /\ outside_reg 4 0 3.
Proof. split; [vm_compute; repeat split; discriminate|]. unfold outside_reg. lia. Qed.
Example c40_example : map (cact (qi_INCDECC 6 0 3 4 : circ GI)) [1; 3; 23; 8] = [7; 17; 5; 14].
Proof. reflexivity. Qed.

(** For a register at [s] the carry goes to qubit [s + carryIndex] (modulo 256). *)
Theorem c40_incdecc_any : forall (K : StarRing) (c : cfg) rgp n a s len carryIndex (psi : mem K), fits c n -> s + len <= n -> (s + carryIndex) mod 256 < n -> outside_reg ((s + carryIndex) mod 256) s len ->
  every_run (crun c rgp n (qi_INCDECC a s len carryIndex) (Some psi)) (fun r => exists psi', r = Ok (Some psi') /\ basis_map n always (add_toggle s len ((s + carryIndex) mod 256) a) (fun _ => 1%amp) psi psi').
Proof. exact @PCircuit13.l_c40_incdecc_any. Qed.
Print Assumptions c40_incdecc_any.

(** The carry misses the given qubit: 1 + 1 in qubit 1 with carry qubit 2 sets qubit 3. *)
Theorem c40_incdecc_refuted : exists (c : cfg) n a s len carry (psi : mem GI), fits c n /\ s + len <= n /\ carry < n /\ outside_reg carry s len /\
  ~ every_run (crun c false n (qi_INCDECC a s len carry) (Some psi)) (fun r => exists psi', r = Ok (Some psi') /\
    basis_map n always (add_toggle s len carry a) (fun _ => 1%amp) psi psi').
Proof. exact @PCircuit13.l_c40_incdecc_refuted. Qed.
Print Assumptions c40_incdecc_refuted.

(** * C41: full adders and ripple adders *)

(** FullAdd (controls empty) and CFullAdd. *)
Theorem c41_fulladd : forall (K : StarRing) (c : cfg) rgp n cs in1 in2 sum carry (psi : mem K), fits c n -> in1 <> in2 -> adder_ok n in1 in2 sum carry -> ctl_ok n cs [in1; in2; sum; carry] ->
  every_run (crun c rgp n (qi_CFullAdd cs in1 in2 sum carry) (Some psi)) (fun r => exists psi', r = Ok (Some psi') /\ basis_map n always (controlled cs (full_add in1 in2 sum carry)) (fun _ => 1%amp) psi psi') /\
  qi_FullAdd in1 in2 sum carry = qi_CFullAdd [] in1 in2 sum carry :> circ K.
Proof. exact @PCircuit13.l_c41_fulladd. Qed.
Print Assumptions c41_fulladd.

Example c41_hyps : fits (mkCfg 4 2) 6 /\ 0 <> 1 /\ adder_ok 6 0 1 2 3 /\ ctl_ok 6 [5; 4] [0; 1; 2; 3].
Proof.
  split; [vm_compute; repeat split; discriminate|]. split; [lia|]. split; [unfold adder_ok; lia|]. split. repeat constructor; cbn; intuition discriminate.
  intros q [<-|[<-|[]]]; split; try lia; cbn; intuition discriminate.
Qed.
Example c41_example : map (cact (qi_CFullAdd [5] 0 1 2 3 : circ GI)) [3; 35; 37; 39; 33] = [3; 43; 41; 47; 37].
Proof. reflexivity. Qed.

(** CIFullAdd undoes CFullAdd. *)
Theorem c41_ifulladd_undoes : forall (K : StarRing) (c : cfg) rgp n cs in1 in2 sum carry (psi : mem K), fits c n -> in1 <> in2 -> adder_ok n in1 in2 sum carry -> ctl_ok n cs [in1; in2; sum; carry] ->
  every_run (crun c rgp n (qi_CFullAdd cs in1 in2 sum carry) (Some psi)) (fun r => exists psi1, r = Ok (Some psi1) /\
    every_run (crun c rgp n (qi_CIFullAdd cs in1 in2 sum carry) (Some psi1)) (fun r2 => exists psi2, r2 = Ok (Some psi2) /\ eqv n psi2 psi)) /\
  qi_IFullAdd in1 in2 sum carry = qi_CIFullAdd [] in1 in2 sum carry :> circ K.
Proof. exact @PCircuit13.l_c41_ifulladd_undoes. Qed.
Print Assumptions c41_ifulladd_undoes.

(** CIADC undoes CADC at every length. *)
Theorem c41_iadc_undoes : forall (K : StarRing) (c : cfg) rgp n cs in1 in2 out len carry (psi : mem K), fits c n -> adc_regs_ok n in1 in2 out len carry -> NoDup cs ->
  (forall q, In q cs -> q < n /\ q <> carry /\ outside_reg q in1 len /\ outside_reg q in2 len /\ outside_reg q out len) ->
  every_run (crun c rgp n (qi_CADC cs in1 in2 out len carry) (Some psi)) (fun r => exists psi1, r = Ok (Some psi1) /\
    every_run (crun c rgp n (qi_CIADC cs in1 in2 out len carry) (Some psi1)) (fun r2 => exists psi2, r2 = Ok (Some psi2) /\ eqv n psi2 psi)) /\
  qi_ADC in1 in2 out len carry = qi_CADC [] in1 in2 out len carry :> circ K /\ qi_IADC in1 in2 out len carry = qi_CIADC [] in1 in2 out len carry :> circ K.
Proof. exact @PCircuit13.l_c41_iadc_undoes. Qed.
Print Assumptions c41_iadc_undoes.

Example c41_adc_hyps : fits (mkCfg 4 2) 8 /\ adc_regs_ok 8 0 2 4 2 6 /\ NoDup [7] /\
  (forall q, In q [7] -> q < 8 /\ q <> 6 /\ outside_reg q 0 2 /\ outside_reg q 2 2 /\ outside_reg q 4 2).
Proof.
  split; [vm_compute; repeat split; discriminate|]. split; [unfold adc_regs_ok, disjoint_regs, outside_reg; lia|]. split. repeat constructor. intros [].
  intros q [<-|[]]. unfold outside_reg. lia.
Qed.

(** ADC and CADC of length 1 into a clear output qubit.  Missing: longer registers, refuted below. *)
Theorem c41_adc_partial : forall (K : StarRing) (c : cfg) rgp n cs in1 in2 out carry (psi : mem K), fits c n -> in1 <> in2 -> adder_ok n in1 in2 out carry -> ctl_ok n cs [in1; in2; out; carry] ->
  supported n (bit_is out false) psi ->
  every_run (crun c rgp n (qi_CADC cs in1 in2 out 1 carry) (Some psi)) (fun r => exists psi', r = Ok (Some psi') /\ basis_map n (bit_is out false) (controlled cs (add_regs in1 in2 out 1 carry)) (fun _ => 1%amp) psi psi').
Proof. exact @PCircuit13.l_c41_adc_partial. Qed.
Print Assumptions c41_adc_partial.

Example c41_adc_example : map (cact (qi_ADC 0 1 2 1 3 : circ GI)) [0; 1; 3; 11] = [0; 5; 11; 15].
Proof. reflexivity. Qed.

(** 1 + 1 on two-qubit registers does not give 2. *)
Theorem c41_adc_refuted : exists (c : cfg) n in1 in2 out len carry (psi : mem GI), fits c n /\ adc_regs_ok n in1 in2 out len carry /\ supported n (reg_is out len 0) psi /\
  ~ every_run (crun c false n (qi_ADC in1 in2 out len carry) (Some psi)) (fun r => exists psi', r = Ok (Some psi') /\
    basis_map n (reg_is out len 0) (add_regs in1 in2 out len carry) (fun _ => 1%amp) psi psi').
Proof. exact @PCircuit13.l_c41_adc_refuted. Qed.
Print Assumptions c41_adc_refuted.

(** * C42: modular multiplication *)

(** Modulus 2^k: the product is added modulo 2^k to the output register (for a clear register: the product modulo 2^k). *)
Theorem c42_mul_pow2 : forall (K : StarRing) (c : cfg) rgp n m k s o len cs (psi : mem K), fits c n -> mulmod_ok n cs s len o k -> k < 64 ->
  every_run (crun c rgp n (qi_CMULModNOut m (2 ^ k) s o len cs) (Some psi)) (fun r => exists psi', r = Ok (Some psi') /\ basis_map n always (controlled cs (mul_mod_add m (2 ^ k) s len o k)) (fun _ => 1%amp) psi psi') /\
  qi_MULModNOut m (2 ^ k) s o len = qi_CMULModNOut m (2 ^ k) s o len [] :> circ K.
Proof. exact @PCircuit13.l_c42_mul_pow2. Qed.
Print Assumptions c42_mul_pow2.

Example c42_hyps : fits (mkCfg 4 2) 8 /\ mulmod_ok 8 [7] 0 3 3 3 /\ 3 < 64.
Proof.
  split; [vm_compute; repeat split; discriminate|]. split; [|lia]. unfold mulmod_ok, disjoint_regs, outside_reg. split; [lia|]. split; [lia|]. split; [lia|]. split. repeat constructor. intros [].
  intros q [<-|[]]. lia.
Qed.
Example c42_example : map (cact (qi_CMULModNOut 5 8 0 3 3 [7] : circ GI)) [3; 131; 135; 159] = [3; 187; 159; 183].
Proof. reflexivity. Qed.

(** Any modulus, when no product reaches it: the product is written to a clear output register. *)
Theorem c42_mul_small : forall (K : StarRing) (c : cfg) rgp n m N0 s o len cs (psi : mem K), fits c n -> mulmod_ok n cs s len o (N.log2_up N0) -> 1 <= m -> m * (2 ^ len - 1) < N0 ->
  supported n (reg_is o (N.log2_up N0) 0) psi ->
  every_run (crun c rgp n (qi_CMULModNOut m N0 s o len cs) (Some psi)) (fun r => exists psi', r = Ok (Some psi') /\ basis_map n (reg_is o (N.log2_up N0) 0) (controlled cs (mul_mod_out m N0 s len o (N.log2_up N0))) (fun _ => 1%amp) psi psi').
Proof. exact @PCircuit13.l_c42_mul_small. Qed.
Print Assumptions c42_mul_small.

Example c42_small_example : map (cact (qi_MULModNOut 2 15 0 3 3 : circ GI)) [3; 7] = [51; 119].
Proof. reflexivity. Qed.

(** IMULModNOut undoes MULModNOut for every multiplier and modulus. *)
Theorem c42_imul_undoes : forall (K : StarRing) (c : cfg) rgp n m N0 s o len cs (psi : mem K), fits c n -> mulmod_ok n cs s len o (N.log2_up N0) -> N0 <> 0 ->
  every_run (crun c rgp n (qi_CMULModNOut m N0 s o len cs) (Some psi)) (fun r => exists psi1, r = Ok (Some psi1) /\
    every_run (crun c rgp n (qi_CIMULModNOut m N0 s o len cs) (Some psi1)) (fun r2 => exists psi2, r2 = Ok (Some psi2) /\ eqv n psi2 psi)) /\
  qi_IMULModNOut m N0 s o len = qi_CIMULModNOut m N0 s o len [] :> circ K.
Proof. exact @PCircuit13.l_c42_imul_undoes. Qed.
Print Assumptions c42_imul_undoes.

(** 3 * 4 mod 5 is 2; the circuit leaves 7. *)
Theorem c42_mul_refuted : exists (c : cfg) n m N0 s o len (psi : mem GI), fits c n /\ mulmod_ok n [] s len o (N.log2_up N0) /\ 1 <= m /\ N0 <> 0 /\ supported n (reg_is o (N.log2_up N0) 0) psi /\
  ~ every_run (crun c false n (qi_MULModNOut m N0 s o len) (Some psi)) (fun r => exists psi', r = Ok (Some psi') /\
    basis_map n (reg_is o (N.log2_up N0) 0) (mul_mod_out m N0 s len o (N.log2_up N0)) (fun _ => 1%amp) psi psi').
Proof. exact @PCircuit13.l_c42_mul_refuted. Qed.
Print Assumptions c42_mul_refuted.

(** * C43: logic gates *)

(** Two-input gates with the output different from both inputs (the inputs may coincide).  Missing: output equal to an input,
    refuted below. *)
Theorem c43_toggle_partial : forall (K : StarRing) (c : cfg) rgp (nrm : K) n op F in1 in2 out (psi : mem K), fits c n -> In (op, F) [(qi_AND, f_and); (qi_OR, f_or); (qi_XOR, f_xor); (qi_NAND, f_nand); (qi_NOR, f_nor); (qi_XNOR, f_xnor)] ->
  in1 < n -> in2 < n -> out < n -> in1 <> out -> in2 <> out ->
  every_run (lrun c rgp nrm n out (op in1 in2 out) psi) (fun r => exists psi', r = Ok (Some psi') /\ basis_map n always (toggle out (fun x => F (N.testbit x in1) (N.testbit x in2))) (fun _ => 1%amp) psi psi').
Proof. exact @PCircuit13.l_c43_toggle_partial. Qed.
Print Assumptions c43_toggle_partial.

Example c43_hyps : fits (mkCfg 4 2) 3 /\ In (qi_NOR, f_nor) [(@qi_AND GI, f_and); (@qi_OR GI, f_or); (@qi_XOR GI, f_xor); (@qi_NAND GI, f_nand); (@qi_NOR GI, f_nor); (@qi_XNOR GI, f_xnor)] /\ 0 <> 2 /\ 1 <> 2.
Proof. split; [vm_compute; repeat split; discriminate|]. split; [cbn; tauto|]. lia. Qed.
Example c43_example : map (toggle 2 (fun x => f_nor (N.testbit x 0) (N.testbit x 1))) [0; 1; 2; 3; 4] = [4; 1; 2; 3; 0].
Proof. reflexivity. Qed.

(** Gates with one classical input. *)
Theorem c43_classical_partial : forall (K : StarRing) (c : cfg) rgp n op F inq inc out (psi : mem K), fits c n -> In (op, F) [(qi_CLAND, f_and); (qi_CLOR, f_or); (qi_CLXOR, f_xor); (qi_CLNAND, f_nand); (qi_CLNOR, f_nor); (qi_CLXNOR, f_xnor)] ->
  inq < n -> out < n -> inq <> out ->
  every_run (crun c rgp n (op inq inc out) (Some psi)) (fun r => exists psi', r = Ok (Some psi') /\ basis_map n always (toggle out (fun x => F (N.testbit x inq) inc)) (fun _ => 1%amp) psi psi').
Proof. exact @PCircuit13.l_c43_classical_partial. Qed.
Print Assumptions c43_classical_partial.

Example c43_classical_example : map (cact (qi_CLNOR 0 false 1 : circ GI)) [0; 1; 2; 3] = [2; 1; 0; 3].
Proof. reflexivity. Qed.

(** XOR and XNOR with the output equal to one of two different inputs overwrite it. *)
Theorem c43_inplace_xor : forall (K : StarRing) (c : cfg) rgp (nrm : K) n op F in1 in2 out (psi : mem K), fits c n -> In (op, F) [(qi_XOR, f_xor); (qi_XNOR, f_xnor)] ->
  in1 < n -> in2 < n -> in1 <> in2 -> out = in1 \/ out = in2 ->
  every_run (lrun c rgp nrm n out (op in1 in2 out) psi) (fun r => exists psi', r = Ok (Some psi') /\ basis_map n always (assign out (fun x => F (N.testbit x in1) (N.testbit x in2))) (fun _ => 1%amp) psi psi').
Proof. exact @PCircuit13.l_c43_inplace_xor. Qed.
Print Assumptions c43_inplace_xor.

Example c43_inplace_example : map (assign 0 (fun x => f_xor (N.testbit x 0) (N.testbit x 1))) [0; 1; 2; 3] = [0; 1; 3; 2].
Proof. reflexivity. Qed.

(** AND, OR, NAND and NOR throw when the output is exactly one of the inputs. *)
Theorem c43_inplace_throws : forall (K : StarRing) (c : cfg) rgp (nrm : K) n op in1 in2 out (psi : mem K), In op [qi_AND; qi_OR; qi_NAND; qi_NOR] -> in1 <> in2 -> out = in1 \/ out = in2 ->
  every_run (lrun c rgp nrm n out (op in1 in2 out) psi) (fun r => r = Throw).
Proof. exact @PCircuit13.l_c43_inplace_throws. Qed.
Print Assumptions c43_inplace_throws.

(** All three operands the same qubit: it is overwritten by the function of its own value; XOR and XNOR do so by measuring it
    first. *)
Theorem c43_one_qubit : forall (K : StarRing) (c : cfg) rgp (nrm : K) n q (psi : mem K), fits c n -> q < n -> nonzero n psi ->
  let out := q in
  every_run (lrun c rgp nrm n out (qi_AND q q q) psi) (fun r => exists psi', r = Ok (Some psi') /\ basis_map n always (assign q (fun x => f_and (N.testbit x q) (N.testbit x q))) (fun _ => 1%amp) psi psi') /\
  every_run (lrun c rgp nrm n out (qi_OR q q q) psi) (fun r => exists psi', r = Ok (Some psi') /\ basis_map n always (assign q (fun x => f_or (N.testbit x q) (N.testbit x q))) (fun _ => 1%amp) psi psi') /\
  every_run (lrun c rgp nrm n out (qi_NAND q q q) psi) (fun r => exists psi', r = Ok (Some psi') /\ basis_map n always (assign q (fun x => f_nand (N.testbit x q) (N.testbit x q))) (fun _ => 1%amp) psi psi') /\
  every_run (lrun c rgp nrm n out (qi_NOR q q q) psi) (fun r => exists psi', r = Ok (Some psi') /\ basis_map n always (assign q (fun x => f_nor (N.testbit x q) (N.testbit x q))) (fun _ => 1%amp) psi psi') /\
  every_run (lrun c rgp nrm n out (qi_XOR q q q) psi) (fun r => exists psi' b g, r = Ok (Some psi') /\ measured n (bit_is q b) nrm g psi /\
    basis_map n (bit_is q b) (assign q (fun x => f_xor (N.testbit x q) (N.testbit x q))) (fun _ => g) psi psi') /\
  every_run (lrun c rgp nrm n out (qi_XNOR q q q) psi) (fun r => exists psi' b g, r = Ok (Some psi') /\ measured n (bit_is q b) nrm g psi /\
    basis_map n (bit_is q b) (assign q (fun x => f_xnor (N.testbit x q) (N.testbit x q))) (fun _ => g) psi psi').
Proof. exact @PCircuit13.l_c43_one_qubit. Qed.
Print Assumptions c43_one_qubit.

Example c43_one_qubit_hyps : fits (mkCfg 4 2) 3 /\ 1 < 3 /\ nonzero 3 (ket 2 : mem GI).
Proof. split; [vm_compute; repeat split; discriminate|]. split; [lia|]. exists 2. split; [reflexivity|discriminate]. Qed.

(** AND(q, q, q) does not toggle q: |1> stays. *)
Theorem c43_toggle_refuted : exists (c : cfg) n q (psi : mem GI), fits c n /\ q < n /\
  ~ every_run (lrun c false 1%amp n q (qi_AND q q q) psi) (fun r => exists psi', r = Ok (Some psi') /\
    basis_map n always (toggle q (fun x => f_and (N.testbit x q) (N.testbit x q))) (fun _ => 1%amp) psi psi').
Proof. exact @PCircuit13.l_c43_toggle_refuted. Qed.
Print Assumptions c43_toggle_refuted.

(** With output and quantum input the same qubit, CLAND follows neither reading: (q AND true) is not toggled into q, and
    q is not replaced by (q AND false). *)
Theorem c43_classical_refuted : exists (c : cfg) n q (psi : mem GI), fits c n /\ q < n /\
  ~ every_run (crun c false n (qi_CLAND q true q) (Some psi)) (fun r => exists psi', r = Ok (Some psi') /\
    basis_map n always (toggle q (fun x => f_and (N.testbit x q) true)) (fun _ => 1%amp) psi psi') /\
  ~ every_run (crun c false n (qi_CLAND q false q) (Some psi)) (fun r => exists psi', r = Ok (Some psi') /\ exists D,
    D 1 = true /\ basis_map n D (assign q (fun x => f_and (N.testbit x q) false)) (fun _ => 1%amp) psi psi').
Proof. exact @PCircuit13.l_c43_classical_refuted. Qed.
Print Assumptions c43_classical_refuted.

(** * C44: the swap family *)

(** Swap exchanges two qubits (the same qubit twice: nothing happens). *)
Theorem c44_swap : forall (K : StarRing) (c : cfg) rgp n q1 q2 (psi : mem K), fits c n -> q1 < n -> q2 < n ->
  every_run (crun c rgp n (qi_Swap q1 q2) (Some psi)) (fun r => exists psi', r = Ok (Some psi') /\ basis_map n always (swap_bits q1 q2) (fun _ => 1%amp) psi psi') /\
  every_run (crun c rgp n (qi_Swap q1 q2) (Some psi)) (fun r => exists psi1, r = Ok (Some psi1) /\
    every_run (crun c rgp n (qi_Swap q1 q2) (Some psi1)) (fun r2 => exists psi2, r2 = Ok (Some psi2) /\ eqv n psi2 psi)).
Proof. exact @PCircuit13.l_c44_swap. Qed.
Print Assumptions c44_swap.

Example c44_hyps : fits (mkCfg 4 2) 4 /\ 3 < 4 /\ 1 < 4.
Proof. split; [vm_compute; repeat split; discriminate|]. repeat split; lia. Qed.
Example c44_example : map (cact (qi_Swap 3 1 : circ GI)) [0; 2; 8; 11] = [0; 8; 2; 11].
Proof. reflexivity. Qed.

(** ISwap and IISwap: i (resp. -i) on the exchanged pair, nothing on |00> and |11>. *)
Theorem c44_iswap : forall (K : StarRing) (c : cfg) rgp n (i : K) q1 q2 (psi : mem K), fits c n -> (i * i = - (1))%amp -> q1 <> q2 -> q1 < n -> q2 < n ->
  every_run (crun c rgp n (qi_ISwap rgp i q1 q2) (Some psi)) (fun r => exists psi', r = Ok (Some psi') /\ eqv n psi' (gate_swap always q1 q2 (iswap_mat i) psi)) /\
  every_run (crun c rgp n (qi_IISwap rgp i q1 q2) (Some psi)) (fun r => exists psi', r = Ok (Some psi') /\ eqv n psi' (gate_swap always q1 q2 (iswap_mat (- i)%amp) psi)).
Proof. exact @PCircuit13.l_c44_iswap. Qed.
Print Assumptions c44_iswap.

Example c44_amplitudes : ((1 + 1) * (cc_h * cc_h) = 1)%amp /\ (cc_i * cc_i = - (1))%amp.
Proof. split; [exact cc_h_ok|exact cc_i_ok]. Qed.

(** They undo each other. *)
Theorem c44_iswap_inverse : forall (K : StarRing) (c : cfg) rgp n (i : K) q1 q2 (psi : mem K), fits c n -> (i * i = - (1))%amp -> q1 < n -> q2 < n ->
  every_run (crun c rgp n (qi_ISwap rgp i q1 q2) (Some psi)) (fun r => exists psi1, r = Ok (Some psi1) /\
    every_run (crun c rgp n (qi_IISwap rgp i q1 q2) (Some psi1)) (fun r2 => exists psi2, r2 = Ok (Some psi2) /\ eqv n psi2 psi)) /\
  every_run (crun c rgp n (qi_IISwap rgp i q1 q2) (Some psi)) (fun r => exists psi1, r = Ok (Some psi1) /\
    every_run (crun c rgp n (qi_ISwap rgp i q1 q2) (Some psi1)) (fun r2 => exists psi2, r2 = Ok (Some psi2) /\ eqv n psi2 psi)).
Proof. exact @PCircuit13.l_c44_iswap_inverse. Qed.
Print Assumptions c44_iswap_inverse.

(** SqrtSwap and its inverse act by the square root of the exchange. *)
Theorem c44_sqrtswap : forall (K : StarRing) (c : cfg) rgp n (h i : K) q1 q2 (psi : mem K), fits c n -> ((1 + 1) * (h * h) = 1)%amp -> (i * i = - (1))%amp -> q1 <> q2 -> q1 < n -> q2 < n ->
  every_run (crun c rgp n (qi_SqrtSwap rgp h i q1 q2) (Some psi)) (fun r => exists psi', r = Ok (Some psi') /\ eqv n psi' (gate_swap always q1 q2 (sqrt_swap_mat h i) psi)) /\
  every_run (crun c rgp n (qi_ISqrtSwap rgp h i q1 q2) (Some psi)) (fun r => exists psi', r = Ok (Some psi') /\ eqv n psi' (gate_swap always q1 q2 (isqrt_swap_mat h i) psi)).
Proof. exact @PCircuit13.l_c44_sqrtswap. Qed.
Print Assumptions c44_sqrtswap.

(** They undo each other. *)
Theorem c44_sqrtswap_inverse : forall (K : StarRing) (c : cfg) rgp n (h i : K) q1 q2 (psi : mem K), fits c n -> ((1 + 1) * (h * h) = 1)%amp -> (i * i = - (1))%amp -> q1 < n -> q2 < n ->
  every_run (crun c rgp n (qi_SqrtSwap rgp h i q1 q2) (Some psi)) (fun r => exists psi1, r = Ok (Some psi1) /\
    every_run (crun c rgp n (qi_ISqrtSwap rgp h i q1 q2) (Some psi1)) (fun r2 => exists psi2, r2 = Ok (Some psi2) /\ eqv n psi2 psi)) /\
  every_run (crun c rgp n (qi_ISqrtSwap rgp h i q1 q2) (Some psi)) (fun r => exists psi1, r = Ok (Some psi1) /\
    every_run (crun c rgp n (qi_SqrtSwap rgp h i q1 q2) (Some psi1)) (fun r2 => exists psi2, r2 = Ok (Some psi2) /\ eqv n psi2 psi)).
Proof. exact @PCircuit13.l_c44_sqrtswap_inverse. Qed.
Print Assumptions c44_sqrtswap_inverse.

(** SqrtSwap twice is Swap. *)
Theorem c44_sqrtswap_twice : forall (K : StarRing) (c : cfg) rgp n (h i : K) q1 q2 (psi : mem K), fits c n -> ((1 + 1) * (h * h) = 1)%amp -> (i * i = - (1))%amp -> q1 < n -> q2 < n ->
  every_run (crun c rgp n (qi_SqrtSwap rgp h i q1 q2 ++ qi_SqrtSwap rgp h i q1 q2) (Some psi)) (fun r => exists psi', r = Ok (Some psi') /\ eqv n psi' (fun x => psi (swap_bits q1 q2 x))).
Proof. exact @PCircuit13.l_c44_sqrtswap_twice. Qed.
Print Assumptions c44_sqrtswap_twice.

(** * C45: control values *)

(** UCMtrx acts exactly where control k equals bit k of the permutation. *)
Theorem c45_ucmtrx : forall (K : StarRing) (c : cfg) rgp n cs (m : mat2 K) t perm (psi : mem K), fits c n -> NoDup (cs ++ [t]) -> (forall q, In q (cs ++ [t]) -> q < n) ->
  (cs <> [] \/ forall ph, m = mkMat ph 0%amp 0%amp ph -> ph = 1%amp) ->
  every_run (crun c rgp n (qi_UCMtrx cs m t perm) (Some psi)) (fun r => exists psi', r = Ok (Some psi') /\ eqv n psi' (gate1 (match_perm 0 cs perm) t m psi)).
Proof. exact @PCircuit13.l_c45_ucmtrx. Qed.
Print Assumptions c45_ucmtrx.

Example c45_hyps : fits (mkCfg 4 2) 4 /\ NoDup ([3; 0] ++ [1]) /\ (forall q, In q ([3; 0] ++ [1]) -> q < 4) /\ [3; 0] <> [].
Proof.
  split; [vm_compute; repeat split; discriminate|]. split. repeat constructor; cbn; intuition discriminate. split; [|discriminate].
  intros q [<-|[<-|[<-|[]]]]; lia.
Qed.
Example c45_example : map (fun x => match_perm 0 [3; 0] 1 x) [0; 1; 8; 9] = [false; false; true; false].
Proof. reflexivity. Qed.

(** UniformlyControlledSingleBit applies to every basis state the matrix selected by the value of its controls. *)
Theorem c45_uniform : forall (K : StarRing) (c : cfg) rgp n cs t (M : N -> mat2 K) (psi : mem K), fits c n -> NoDup (cs ++ [t]) -> (forall q, In q (cs ++ [t]) -> q < n) ->
  (cs <> [] \/ forall ph, M 0 = mkMat ph 0%amp 0%amp ph -> ph = 1%amp) ->
  every_run (crun c rgp n (qi_UCSB cs t M) (Some psi)) (fun r => exists psi', r = Ok (Some psi') /\ eqv n psi' (fun x => gate1 always t (M (ctrl_value 0 cs x)) psi x)).
Proof. exact @PCircuit13.l_c45_uniform. Qed.
Print Assumptions c45_uniform.

Example c45_uniform_example : map (ctrl_value 0 [3; 0]) [0; 1; 8; 9] = [0; 2; 1; 3].
Proof. reflexivity. Qed.

(** * C46: the Fourier transform and its inverse *)

(** IQFT undoes QFT and QFT undoes IQFT; [root k] is the phase of CPhaseRootN and [iroot k] that of CIPhaseRootN. *)
Theorem c46_iqft_undoes_qft : forall (K : StarRing) (c : cfg) rgp n root iroot (h : K) s len (psi : mem K), fits c n -> (forall k, (root k * iroot k = 1)%amp) -> ((1 + 1) * (h * h) = 1)%amp -> s + len <= n ->
  every_run (crun c rgp n (qi_QFT root h s len) (Some psi)) (fun r => exists psi1, r = Ok (Some psi1) /\
    every_run (crun c rgp n (qi_IQFT iroot h s len) (Some psi1)) (fun r2 => exists psi2, r2 = Ok (Some psi2) /\ eqv n psi2 psi)) /\
  every_run (crun c rgp n (qi_IQFT iroot h s len) (Some psi)) (fun r => exists psi1, r = Ok (Some psi1) /\
    every_run (crun c rgp n (qi_QFT root h s len) (Some psi1)) (fun r2 => exists psi2, r2 = Ok (Some psi2) /\ eqv n psi2 psi)).
Proof. exact @PCircuit13.l_c46_iqft_undoes_qft. Qed.
Print Assumptions c46_iqft_undoes_qft.

Example c46_hyps : fits (mkCfg 4 2) 5 /\ (forall k, (cc_root k * cc_iroot k = 1)%amp) /\ ((1 + 1) * (cc_h * cc_h) = 1)%amp /\ 1 + 3 <= 5.
Proof. split; [vm_compute; repeat split; discriminate|]. split; [exact cc_root_inv|]. split; [exact cc_h_ok|lia]. Qed.

(** The forms taking a list of distinct qubits. *)
Theorem c46_index_lists : forall (K : StarRing) (c : cfg) rgp n root iroot (h : K) qs (psi : mem K), fits c n -> (forall k, (root k * iroot k = 1)%amp) -> ((1 + 1) * (h * h) = 1)%amp -> NoDup qs -> (forall q, In q qs -> q < n) ->
  every_run (crun c rgp n (qi_QFTR root h qs) (Some psi)) (fun r => exists psi1, r = Ok (Some psi1) /\
    every_run (crun c rgp n (qi_IQFTR iroot h qs) (Some psi1)) (fun r2 => exists psi2, r2 = Ok (Some psi2) /\ eqv n psi2 psi)) /\
  every_run (crun c rgp n (qi_IQFTR iroot h qs) (Some psi)) (fun r => exists psi1, r = Ok (Some psi1) /\
    every_run (crun c rgp n (qi_QFTR root h qs) (Some psi1)) (fun r2 => exists psi2, r2 = Ok (Some psi2) /\ eqv n psi2 psi)).
Proof. exact @PCircuit13.l_c46_index_lists. Qed.
Print Assumptions c46_index_lists.

Example c46_list_hyps : NoDup [4; 0; 2] /\ (forall q, In q [4; 0; 2] -> q < 5).
Proof. split. repeat constructor; cbn; intuition discriminate. intros q [<-|[<-|[<-|[]]]]; lia. Qed.

(** * C76: what QFT computes *)

(** QFT is the discrete Fourier transform of the register with the output index bit-reversed: amplitude y is
    h^len times the sum over x of z^(rev(y) x) times amplitude x, with z the primitive 2^len-th root of unity. *)
Theorem c76_qft : forall (K : StarRing) (c : cfg) rgp n root (h : K) s len (psi : mem K), fits c n -> ((1 + 1) * (h * h) = 1)%amp -> (root 1%N = - (1))%amp -> (forall k, 1 <= k -> (root (k + 1)%N * root (k + 1)%N = root k)%amp) -> s + len <= n ->
  every_run (crun c rgp n (qi_QFT root h s len) (Some psi)) (fun r => exists psi', r = Ok (Some psi') /\ eqv n psi' (dft_rev (root len) h s len psi)).
Proof. exact @PCircuit13.l_c76_qft. Qed.
Print Assumptions c76_qft.

Example c76_hyps : ((1 + 1) * (cc_h * cc_h) = 1)%amp /\ (cc_root 1 = - (1))%amp /\ (forall k, 1 <= k -> (cc_root (k + 1)%N * cc_root (k + 1)%N = cc_root k)%amp).
Proof. split; [exact cc_h_ok|]. split; [exact cc_root_1|]. intros k _. apply cc_root_sq. Qed.
Example c76_example : map (rev_bits 3) [0; 1; 2; 3; 4; 5; 6; 7] = [0; 4; 2; 6; 1; 5; 3; 7].
Proof. reflexivity. Qed.

(** * C47: generic probabilities *)

(** ProbReg when the value is 0 or the register starts at its own length.  Missing: other positions, refuted below. *)
Theorem c47_probreg_partial : forall (K : StarRing) n s len v (psi : mem K), n < 64 -> s + len <= n -> v < 2 ^ len -> v = 0 \/ s = len ->
  qi_ProbReg n s len v (Some psi) = weight_of n (reg_is s len v) psi.
Proof. exact @PCircuit13.l_c47_probreg_partial. Qed.
Print Assumptions c47_probreg_partial.

Example c47_hyps : 5 < 64 /\ 2 + 2 <= 5 /\ 3 < 2 ^ 2 /\ 2 = 2.
Proof. repeat split; lia. Qed.

(** Qubit 0 of |10> is 0, yet the probability of value 1 comes out as two. *)
Theorem c47_probreg_refuted : exists n s len v (psi : mem GI), n < 64 /\ s + len <= n /\ v < 2 ^ len /\ weight_of n (reg_is s len v) psi = 0%amp /\
  qi_ProbReg n s len v (Some psi) = (1 + 1)%amp.
Proof. exact @PCircuit13.l_c47_probreg_refuted. Qed.
Print Assumptions c47_probreg_refuted.

(** ProbMask sums the basis states that agree with the value on the mask. *)
Theorem c47_probmask : forall (K : StarRing) n mask v (psi : mem K), mask < 2 ^ n -> v < 2 ^ n ->
  qi_ProbMask n mask v (Some psi) = weight_of n (fun x => N.land x mask =? v) psi.
Proof. exact @PCircuit13.l_c47_probmask. Qed.
Print Assumptions c47_probmask.

Example c47_probmask_example : 5 < 2 ^ 3 /\ 4 < 2 ^ 3 /\ filter (fun x => N.land x 5 =? 4) (basis 3) = [4; 6].
Proof. repeat split; reflexivity. Qed.

(** * C48: generic Compose at a position *)

(** The state is the product with the new qubits at [start]; the returned index is the number of old qubits.  Missing: the
    returned index when [start] is smaller, refuted below. *)
Theorem c48_compose_at_partial : forall (K : StarRing) (c : cfg) rgp maxQB na nb start (pa pb : mem K), fits c (na + nb) -> 0 < na -> 0 < nb -> na + nb <= maxQB -> start <= na ->
  every_run (qi_ComposeAt c rgp maxQB (mkEng na (Some pa)) (mkEng nb (Some pb)) start) (fun r => exists v, r = Ok (mkEng (na + nb) v, na) /\ eqv (na + nb) (vread v) (tensor_at start nb pa pb)).
Proof. exact @PCircuit13.l_c48_compose_at_partial. Qed.
Print Assumptions c48_compose_at_partial.

Example c48_hyps : fits (mkCfg 4 2) (3 + 2) /\ 0 < 3 /\ 0 < 2 /\ 3 + 2 <= 60 /\ 1 <= 3.
Proof. split; [vm_compute; repeat split; discriminate|]. repeat split; lia. Qed.

(** Composing at position 0 returns 1. *)
Theorem c48_index_refuted : exists (c : cfg) maxQB na nb start (pa pb : mem GI), fits c (na + nb) /\ 0 < na /\ 0 < nb /\ na + nb <= maxQB /\ start <= na /\
  ~ every_run (qi_ComposeAt c false maxQB (mkEng na (Some pa)) (mkEng nb (Some pb)) start) (fun r => exists v, r = Ok (mkEng (na + nb) v, start)).
Proof. exact @PCircuit13.l_c48_index_refuted. Qed.
Print Assumptions c48_index_refuted.

(** * C77: controlled swaps *)

(** CSwap exchanges exactly where all controls are set, and is its own inverse. *)
Theorem c77_cswap : forall (K : StarRing) (c : cfg) rgp n cs q1 q2 (psi : mem K), fits c n -> ctl_ok n cs [q1; q2] -> q1 < n -> q2 < n ->
  every_run (crun c rgp n (qi_CSwap cs q1 q2) (Some psi)) (fun r => exists psi', r = Ok (Some psi') /\ basis_map n always (controlled cs (swap_bits q1 q2)) (fun _ => 1%amp) psi psi') /\
  every_run (crun c rgp n (qi_CSwap cs q1 q2) (Some psi)) (fun r => exists psi1, r = Ok (Some psi1) /\
    every_run (crun c rgp n (qi_CSwap cs q1 q2) (Some psi1)) (fun r2 => exists psi2, r2 = Ok (Some psi2) /\ eqv n psi2 psi)).
Proof. exact @PCircuit13.l_c77_cswap. Qed.
Print Assumptions c77_cswap.

Example c77_hyps : fits (mkCfg 4 2) 5 /\ ctl_ok 5 [4; 0] [3; 1] /\ 3 < 5 /\ 1 < 5.
Proof.
  split; [vm_compute; repeat split; discriminate|]. split; [|lia]. split. repeat constructor; cbn; intuition discriminate. intros q [<-|[<-|[]]]; split; try lia; cbn; intuition discriminate.
Qed.
Example c77_example : map (cact (qi_CSwap [4; 0] 3 1 : circ GI)) [2; 18; 19; 25] = [2; 18; 25; 19].
Proof. reflexivity. Qed.

(** AntiCSwap exchanges exactly where all controls are clear. *)
Theorem c77_anticswap : forall (K : StarRing) (c : cfg) rgp n cs q1 q2 (psi : mem K), fits c n -> ctl_ok n cs [q1; q2] -> q1 < n -> q2 < n ->
  every_run (crun c rgp n (qi_AntiCSwap cs q1 q2) (Some psi)) (fun r => exists psi', r = Ok (Some psi') /\ basis_map n always (fun x => if all_clear cs x then swap_bits q1 q2 x else x) (fun _ => 1%amp) psi psi').
Proof. exact @PCircuit13.l_c77_anticswap. Qed.
Print Assumptions c77_anticswap.

Example c77_anticswap_example : map (cact (qi_AntiCSwap [4; 0] 3 1 : circ GI)) [2; 18; 8; 25] = [8; 18; 2; 25].
Proof. reflexivity. Qed.
