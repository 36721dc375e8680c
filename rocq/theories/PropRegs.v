(** Property theorems C188 to C191: the register forms of the logic gates and of Swap of QInterface. *)
From Coq Require Import NArith ZArith Arith List Bool Lia.
From Verif Require Import Amp PAmp MKernel MEngine SpecState SpecEngine SpecAlu MCircuit MRegs SpecRegs PRegsProp.
Import ListNotations.
Local Open Scope N_scope.

(** * C188: controlled NOT gates on registers *)

(** CNOT of registers adds the control register to the target register, bit by bit. *)
Theorem c188_cnot : forall (K : StarRing) (c : cfg) rgp n a t len (psi : mem K), fits c n -> a + len <= n -> t + len <= n -> disjoint_regs a len t len ->
  every_run (crun c rgp n (reg_c1 qi_CNOT a t len) (Some psi)) (fun r => exists psi', r = Ok (Some psi') /\ basis_map n always (fun x => xor_into t len (get_reg x a len) x) (fun _ => 1%amp) psi psi').
Proof. exact @PRegsProp.l_c188_cnot. Qed.
Print Assumptions c188_cnot.

Example c188_cnot_hyps : fits (mkCfg 4 2) 5 /\ 3 + 2 <= 5 /\ 1 + 2 <= 5 /\ disjoint_regs 3 2 1 2 /\ xor_into 1 2 (get_reg 26 3 2) 26 = 28.
Proof. split; [unfold fits; cbn; repeat split; lia|]. unfold disjoint_regs. split; [lia|]. split; [lia|]. split; [lia|reflexivity]. Qed.


(** AntiCNOT adds the complement of the control register. *)
Theorem c188_anticnot : forall (K : StarRing) (c : cfg) rgp n a t len (psi : mem K), fits c n -> a + len <= n -> t + len <= n -> disjoint_regs a len t len ->
  every_run (crun c rgp n (reg_c1 qi_AntiCNOT a t len) (Some psi)) (fun r => exists psi', r = Ok (Some psi') /\ basis_map n always (fun x => xor_into t len (N.lnot (get_reg x a len) len) x) (fun _ => 1%amp) psi psi').
Proof. exact @PRegsProp.l_c188_anticnot. Qed.
Print Assumptions c188_anticnot.

Example c188_anticnot_hyps : fits (mkCfg 4 2) 5 /\ 3 + 2 <= 5 /\ 1 + 2 <= 5 /\ disjoint_regs 3 2 1 2 /\ xor_into 1 2 (N.lnot (get_reg 26 3 2) 2) 26 = 26.
Proof. split; [unfold fits; cbn; repeat split; lia|]. unfold disjoint_regs. split; [lia|]. split; [lia|]. split; [lia|reflexivity]. Qed.


(** CCNOT adds the conjunction of the control registers, which may overlap, but must not start at the same qubit. *)
Theorem c188_ccnot : forall (K : StarRing) (c : cfg) rgp n a b t len (psi : mem K), fits c n -> a + len <= n -> b + len <= n -> t + len <= n -> a <> b ->
  disjoint_regs a len t len -> disjoint_regs b len t len ->
  every_run (crun c rgp n (reg_c2 qi_CCNOT a b t len) (Some psi)) (fun r => exists psi', r = Ok (Some psi') /\ basis_map n always (fun x => xor_into t len (N.land (get_reg x a len) (get_reg x b len)) x) (fun _ => 1%amp) psi psi').
Proof. exact @PRegsProp.l_c188_ccnot. Qed.
Print Assumptions c188_ccnot.

Example c188_ccnot_hyps : fits (mkCfg 4 2) 6 /\ 3 + 2 <= 6 /\ 4 + 2 <= 6 /\ 1 + 2 <= 6 /\ 3 <> 4 /\ disjoint_regs 3 2 1 2 /\ disjoint_regs 4 2 1 2 /\ xor_into 1 2 (N.land (get_reg 58 3 2) (get_reg 58 4 2)) 58 = 60.
Proof. split; [unfold fits; cbn; repeat split; lia|]. unfold disjoint_regs. repeat (split; [lia|]). reflexivity. Qed.


(** AntiCCNOT adds the conjunction of their complements. *)
Theorem c188_anticcnot : forall (K : StarRing) (c : cfg) rgp n a b t len (psi : mem K), fits c n -> a + len <= n -> b + len <= n -> t + len <= n -> a <> b ->
  disjoint_regs a len t len -> disjoint_regs b len t len ->
  every_run (crun c rgp n (reg_c2 qi_AntiCCNOT a b t len) (Some psi)) (fun r => exists psi', r = Ok (Some psi') /\ basis_map n always (fun x => xor_into t len (N.land (N.lnot (get_reg x a len) len) (N.lnot (get_reg x b len) len)) x) (fun _ => 1%amp) psi psi').
Proof. exact @PRegsProp.l_c188_anticcnot. Qed.
Print Assumptions c188_anticcnot.

Example c188_anticcnot_hyps : fits (mkCfg 4 2) 6 /\ 3 + 2 <= 6 /\ 4 + 2 <= 6 /\ 1 + 2 <= 6 /\ 3 <> 4 /\ disjoint_regs 3 2 1 2 /\ disjoint_regs 4 2 1 2 /\ xor_into 1 2 (N.land (N.lnot (get_reg 58 3 2) 2) (N.lnot (get_reg 58 4 2) 2)) 58 = 58.
Proof. split; [unfold fits; cbn; repeat split; lia|]. unfold disjoint_regs. repeat (split; [lia|]). reflexivity. Qed.


(** * C189: logic gates on registers *)

(** The register forms of AND, OR, XOR, NAND, NOR and XNOR add the bitwise function of the two input registers to the output register, which has no qubit in common with them; the input registers may overlap or be the same. *)
Theorem c189_two : forall (K : StarRing) (c : cfg) rgp (nrm : K) n op W a b o len (psi : mem K), fits c n -> In (op, W) [(qi_AND, w_and); (qi_OR, w_or); (qi_XOR, w_xor); (qi_NAND, w_nand); (qi_NOR, w_nor); (qi_XNOR, w_xnor)] ->
  a + len <= n -> b + len <= n -> o + len <= n -> disjoint_regs a len o len -> disjoint_regs b len o len ->
  every_run (reg_3 c rgp nrm n op a b o len psi) (fun r => exists psi', r = Ok (Some psi') /\ basis_map n always (fun x => xor_into o len (W len (get_reg x a len) (get_reg x b len)) x) (fun _ => 1%amp) psi psi').
Proof. exact @PRegsProp.l_c189_two. Qed.
Print Assumptions c189_two.

Example c189_two_hyps : fits (mkCfg 4 2) 6 /\ In (@qi_NOR GI, w_nor) [(qi_AND, w_and); (qi_OR, w_or); (qi_XOR, w_xor); (qi_NAND, w_nand); (qi_NOR, w_nor); (qi_XNOR, w_xnor)] /\ 2 + 2 <= 6 /\ 4 + 2 <= 6 /\ 0 + 2 <= 6 /\ disjoint_regs 2 2 0 2 /\ disjoint_regs 4 2 0 2 /\
  xor_into 0 2 (w_nor 2 (get_reg 20 2 2) (get_reg 20 4 2)) 20 = 22 /\ xor_into 0 2 (w_and 2 (get_reg 61 2 2) (get_reg 61 4 2)) 61 = 62.
Proof. split; [unfold fits; cbn; repeat split; lia|]. split; [cbn; tauto|]. unfold disjoint_regs. repeat (split; [lia|]). split; reflexivity. Qed.


(** The forms with a classical input (CLAND to CLXNOR) use the lowest bits of the classical number in place of the second register. *)
Theorem c189_classical : forall (K : StarRing) (c : cfg) rgp n op W a v o len (psi : mem K), fits c n -> In (op, W) [(qi_CLAND, w_and); (qi_CLOR, w_or); (qi_CLXOR, w_xor); (qi_CLNAND, w_nand); (qi_CLNOR, w_nor); (qi_CLXNOR, w_xnor)] ->
  a + len <= n -> o + len <= n -> disjoint_regs a len o len ->
  every_run (crun c rgp n (reg_3b op a v o len) (Some psi)) (fun r => exists psi', r = Ok (Some psi') /\ basis_map n always (fun x => xor_into o len (W len (get_reg x a len) (v mod 2 ^ len)) x) (fun _ => 1%amp) psi psi').
Proof. exact @PRegsProp.l_c189_classical. Qed.
Print Assumptions c189_classical.

Example c189_classical_hyps : fits (mkCfg 4 2) 5 /\ In (@qi_CLXNOR GI, w_xnor) [(qi_CLAND, w_and); (qi_CLOR, w_or); (qi_CLXOR, w_xor); (qi_CLNAND, w_nand); (qi_CLNOR, w_nor); (qi_CLXNOR, w_xnor)] /\ 0 + 2 <= 5 /\ 3 + 2 <= 5 /\ disjoint_regs 0 2 3 2 /\
  xor_into 3 2 (w_xnor 2 (get_reg 1 0 2) (7 mod 2 ^ 2)) 1 = 9 /\ xor_into 3 2 (w_or 2 (get_reg 17 0 2) (6 mod 2 ^ 2)) 17 = 9.
Proof. split; [unfold fits; cbn; repeat split; lia|]. split; [cbn; tauto|]. unfold disjoint_regs. repeat (split; [lia|]). split; reflexivity. Qed.


(** XOR and XNOR with the output register equal to one of the two input registers, which are disjoint, replace it by the function of both. *)
Theorem c189_inplace_xor : forall (K : StarRing) (c : cfg) rgp (nrm : K) n op W a b o len (psi : mem K), fits c n -> In (op, W) [(qi_XOR, w_xor); (qi_XNOR, w_xnor)] ->
  a + len <= n -> b + len <= n -> disjoint_regs a len b len -> o = a \/ o = b ->
  every_run (reg_3 c rgp nrm n op a b o len psi) (fun r => exists psi', r = Ok (Some psi') /\
    basis_map n always (fun x => put_reg x o len (W len (get_reg x a len) (get_reg x b len))) (fun _ => 1%amp) psi psi').
Proof. exact @PRegsProp.l_c189_inplace_xor. Qed.
Print Assumptions c189_inplace_xor.

Example c189_inplace_hyps : fits (mkCfg 4 2) 5 /\ In (@qi_XNOR GI, w_xnor) [(qi_XOR, w_xor); (qi_XNOR, w_xnor)] /\ 0 + 2 <= 5 /\ 3 + 2 <= 5 /\ disjoint_regs 0 2 3 2 /\ put_reg 17 3 2 (w_xnor 2 (get_reg 17 0 2) (get_reg 17 3 2)) = 1.
Proof. split; [unfold fits; cbn; repeat split; lia|]. split; [cbn; tauto|]. unfold disjoint_regs. repeat (split; [lia|]). reflexivity. Qed.


(** AND, OR, NAND and NOR with the output register equal to one of two different input registers throw. *)
Theorem c189_throws : forall (K : StarRing) (c : cfg) rgp (nrm : K) n op a b o len (psi : mem K), In op [qi_AND; qi_OR; qi_NAND; qi_NOR] -> 0 < len -> a <> b -> o = a \/ o = b ->
  every_run (reg_3 c rgp nrm n op a b o len psi) (fun r => r = Throw).
Proof. exact @PRegsProp.l_c189_throws. Qed.
Print Assumptions c189_throws.

Example c189_throws_hyps : In (@qi_NOR GI) [qi_AND; qi_OR; qi_NAND; qi_NOR] /\ 0 < 2 /\ 0 <> 3 /\ (3 = 0 \/ 3 = 3).
Proof. split; [cbn; tauto|]. lia. Qed.


(** * C190: Swap on registers *)

(** Swap of registers exchanges the values of two registers, which have no common qubit or are the same; the other qubits do not change. *)
Theorem c190_swap : forall (K : StarRing) (c : cfg) rgp n a b len (psi : mem K), fits c n -> a + len <= n -> b + len <= n -> disjoint_regs a len b len \/ a = b ->
  every_run (crun c rgp n (reg_2 qi_Swap a b len) (Some psi)) (fun r => exists psi', r = Ok (Some psi') /\ basis_map n always (exchange a b len) (fun _ => 1%amp) psi psi').
Proof. exact @PRegsProp.l_c190_swap. Qed.
Print Assumptions c190_swap.

Example c190_swap_hyps : fits (mkCfg 4 2) 6 /\ 1 + 2 <= 6 /\ 4 + 2 <= 6 /\ (disjoint_regs 1 2 4 2 \/ 1 = 4) /\ exchange 1 4 2 21 = 35.
Proof. split; [unfold fits; cbn; repeat split; lia|]. unfold disjoint_regs. split; [lia|]. split; [lia|]. split; [left; lia|]. reflexivity. Qed.


(** * C191: classical numbers of more than 64 bits *)

(** Up to a length of 64, call number i has bit i of the classical number.  Missing for the full statement: longer registers (the capacity is 128 qubits by default), for which it fails. *)
Theorem c191_bits_partial : forall (K : StarRing) (gate : N -> bool -> N -> circ K) a v o len, len <= 64 ->
  reg_3b gate a v o len = flat_map (fun i => gate (a + i) (N.testbit v i) (o + i)) (map N.of_nat (seq 0 (N.to_nat len))).
Proof. exact @PRegsProp.l_c191_bits_partial. Qed.
Print Assumptions c191_bits_partial.

Example c191_example : 3 <= 64 /\ reg_3b (@qi_CLAND GI) 0 5 3 3 = qi_CNOT 0 3 ++ qi_CNOT 2 5.
Proof. split. lia. reflexivity. Qed.


(** Within 128 qubits, CLAND of 65 qubits with the number 2^64, which has bit 64 set, calls no gate, although the gate for bit 64 is a CNOT. *)
Theorem c191_bits_refuted : exists a v o len, a + len <= 128 /\ o + len <= 128 /\ v < 2 ^ len /\ reg_3b (@qi_CLAND GI) a v o len = [] /\
  flat_map (fun i => @qi_CLAND GI (a + i) (N.testbit v i) (o + i)) (map N.of_nat (seq 0 (N.to_nat len))) = qi_CNOT 64 127.
Proof. exact @PRegsProp.l_c191_bits_refuted. Qed.
Print Assumptions c191_bits_refuted.
