(** Property theorems C28-C38 and C73-C75: the arithmetic kernels of the state-vector engine.  [K] is any ring of amplitudes,
    [c] any number of cores and stride; [every_run] says that the call has an outcome and that every outcome, whatever the
    thread schedule and the measurement outcomes, satisfies the condition. *)
From Coq Require Import NArith ZArith List Bool Lia.
From Verif Require Import MFunctions SpecFunctions MParFor SpecParFor MKernel Amp SpecState MEngine SpecEngine MAlu SpecAlu PEngine2 PAlu8 PAlu9.
Import ListNotations.
Local Open Scope N_scope.

(** * C28 *)

(** INC for every constant, including constants larger than the register. *)
Theorem c28_inc : forall (K : StarRing) (c : cfg) n toAdd s len (psi : mem K), fits c n -> s + len <= n ->
  every_run (INC c n toAdd s len (Some psi)) (fun r => exists psi', r = Ok (Some psi') /\ basis_map n always (add_reg s len toAdd) (fun _ => 1%amp) psi psi').
Proof. exact @PAlu9.l_c28_inc. Qed.
Print Assumptions c28_inc.

Example c28_hyps : fits (mkCfg 4 2) 5 /\ 1 + 3 <= 5.
Proof. vm_compute; repeat split; discriminate. Qed.
Example c28_example : map (add_reg 1 3 27) [0; 10; 15; 31] = [6; 0; 5; 21].
Proof. reflexivity. Qed.

(** DEC subtracts. *)
Theorem c28_dec : forall (K : StarRing) (c : cfg) n toSub s len (psi : mem K), fits c n -> s + len <= n ->
  every_run (DEC c n toSub s len (Some psi)) (fun r => exists psi', r = Ok (Some psi') /\ basis_map n always (sub_reg s len toSub) (fun _ => 1%amp) psi psi').
Proof. exact @PAlu9.l_c28_dec. Qed.
Print Assumptions c28_dec.

Example c28_dec_example : map (sub_reg 1 3 27) [6; 0; 5; 21] = [0; 10; 15; 31].
Proof. reflexivity. Qed.

(** DEC with the same constant restores the state. *)
Theorem c28_dec_undoes_inc : forall (K : StarRing) (c : cfg) n a s len (psi : mem K), fits c n -> s + len <= n ->
  every_run (INC c n a s len (Some psi)) (fun r => exists psi1, r = Ok (Some psi1) /\
    every_run (DEC c n a s len (Some psi1)) (fun r2 => exists psi2, r2 = Ok (Some psi2) /\ eqv n psi2 psi)).
Proof. exact @PAlu9.l_c28_dec_undoes_inc. Qed.
Print Assumptions c28_dec_undoes_inc.

(** * C29 *)

(** CINC adds exactly where all controls are set. *)
Theorem c29_cinc : forall (K : StarRing) (c : cfg) n toAdd s len cs (psi : mem K), fits c n -> s + len <= n -> NoDup cs ->
  (forall q, In q cs -> q < n /\ outside_reg q s len) ->
  every_run (CINC c n toAdd s len cs (Some psi)) (fun r => exists psi', r = Ok (Some psi') /\ basis_map n always (controlled cs (add_reg s len toAdd)) (fun _ => 1%amp) psi psi').
Proof. exact @PAlu9.l_c29_cinc. Qed.
Print Assumptions c29_cinc.

Example c29_hyps : fits (mkCfg 4 2) 5 /\ 1 + 2 <= 5 /\ NoDup [4; 0] /\ (forall q, In q [4; 0] -> q < 5 /\ outside_reg q 1 2).
Proof.
  split; [vm_compute; repeat split; discriminate|]. split; [lia|]. split. repeat constructor; cbn; intuition discriminate.
  intros q [<-|[<-|[]]]; split; try lia; unfold outside_reg; lia.
Qed.
Example c29_example : map (controlled [4; 0] (add_reg 1 2 3)) [0; 16; 17; 23; 31] = [0; 16; 23; 21; 29].
Proof. reflexivity. Qed.

(** CDEC with the same constant restores the state. *)
Theorem c29_cdec_undoes_cinc : forall (K : StarRing) (c : cfg) n a s len cs (psi : mem K), fits c n -> s + len <= n -> NoDup cs ->
  (forall q, In q cs -> q < n /\ outside_reg q s len) ->
  every_run (CINC c n a s len cs (Some psi)) (fun r => exists psi1, r = Ok (Some psi1) /\
    every_run (CDEC c n a s len cs (Some psi1)) (fun r2 => exists psi2, r2 = Ok (Some psi2) /\ eqv n psi2 psi)).
Proof. exact @PAlu9.l_c29_cdec_undoes_cinc. Qed.
Print Assumptions c29_cdec_undoes_cinc.

(** * C30 *)

(** INCC: the carry is measured with outcome [b]; the sum of register, constant and carry is complete, with outgoing
    carry, unless constant plus carry exceeds the register.  Missing from the property: the constant 2^len - 1 with carry set
    (refuted below), and constants of 2^len and more. *)
Theorem c30_incc_partial : forall (K : StarRing) (c : cfg) rgp (nrm : K) n toAdd s len q (psi : mem K), fits c n -> s + len <= n -> q < n -> outside_reg q s len -> 1 <= len ->
  nonzero n psi ->
  every_run (INCC c rgp nrm n toAdd s len q psi) (fun r => exists psi' b g, r = Ok (Some psi') /\ measured n (bit_is q b) nrm g psi /\
    (toAdd + N.b2n b < 2 ^ len -> basis_map n (bit_is q b) (add_carry s len q toAdd) (fun _ => g) psi psi') /\
    (toAdd = 2 ^ len - 1 -> b = true -> basis_map n (bit_is q b) (fun x => put_bit x q false) (fun _ => g) psi psi')).
Proof. exact @PAlu9.l_c30_incc_partial. Qed.
Print Assumptions c30_incc_partial.

Example c30_hyps : fits (mkCfg 4 2) 5 /\ 1 + 3 <= 5 /\ 4 < 5 /\ outside_reg 4 1 3 /\ 1 <= 3 /\ nonzero 5 (ket 16 : mem GI) /\ 6 + 1 < 2 ^ 3.
Proof.
  split; [vm_compute; repeat split; discriminate|]. unfold outside_reg. repeat split; try lia; try reflexivity.
  exists 16. split; [reflexivity|]. discriminate.
Qed.
Example c30_example : map (add_carry 1 3 4 6) [2; 18; 20; 14] = [14; 16; 18; 26].
Proof. reflexivity. Qed.

(** DECC: register minus constant minus borrow (the complement of the carry), unless the constant is zero and the carry is
    set (refuted below). *)
Theorem c30_decc_partial : forall (K : StarRing) (c : cfg) rgp (nrm : K) n toSub s len q (psi : mem K), fits c n -> s + len <= n -> q < n -> outside_reg q s len -> toSub < 2 ^ len ->
  nonzero n psi ->
  every_run (DECC c rgp nrm n toSub s len q psi) (fun r => exists psi' b g, r = Ok (Some psi') /\ measured n (bit_is q b) nrm g psi /\
    ((toSub = 0 -> b = false) -> basis_map n (bit_is q b) (sub_carry s len q toSub) (fun _ => g) psi psi') /\
    (toSub = 0 -> b = true -> basis_map n (bit_is q b) (fun x => put_bit x q false) (fun _ => g) psi psi')).
Proof. exact @PAlu9.l_c30_decc_partial. Qed.
Print Assumptions c30_decc_partial.

Example c30_decc_example : map (sub_carry 1 3 4 6) [14; 30; 2; 18] = [16; 18; 4; 6].
Proof. reflexivity. Qed.

(** The carry is lost: 0 + 1 + carry on a one-qubit register must give 0 with carry set, and gives 0 with carry clear. *)
Theorem c30_incc_refuted : exists (c : cfg) n k s len q (psi : mem GI), fits c n /\ s + len <= n /\ q < n /\ outside_reg q s len /\ 1 <= len /\
  k < 2 ^ len /\ nonzero n psi /\ ~ every_run (INCC c false 1%amp n k s len q psi) (fun r => exists psi' b g, r = Ok (Some psi') /\
  measured n (bit_is q b) 1%amp g psi /\ basis_map n (bit_is q b) (add_carry s len q k) (fun _ => g) psi psi').
Proof. 
  exists c4, 2, 1, 0, 1, 1, (ket 2). split; [apply c4_fits; lia|]. split; [lia|]. split; [lia|]. split; [right; lia|]. split; [lia|]. split; [reflexivity|].
  split; [exists 2; split; [reflexivity|discriminate]|]. exact incc_wrong.
 Qed.
Print Assumptions c30_incc_refuted.

(** 0 - 0 without borrow must leave the carry set, and clears it. *)
Theorem c30_decc_refuted : exists (c : cfg) n k s len q (psi : mem GI), fits c n /\ s + len <= n /\ q < n /\ outside_reg q s len /\ 1 <= len /\
  k < 2 ^ len /\ nonzero n psi /\ ~ every_run (DECC c false 1%amp n k s len q psi) (fun r => exists psi' b g, r = Ok (Some psi') /\
  measured n (bit_is q b) 1%amp g psi /\ basis_map n (bit_is q b) (sub_carry s len q k) (fun _ => g) psi psi').
Proof. 
  exists c4, 2, 0, 0, 1, 1, (ket 2). split; [apply c4_fits; lia|]. split; [lia|]. split; [lia|]. split; [right; lia|]. split; [lia|]. split; [reflexivity|].
  split; [exists 2; split; [reflexivity|discriminate]|]. exact decc_wrong.
 Qed.
Print Assumptions c30_decc_refuted.

(** * C31 *)

(** INCS: sum modulo 2^len, and sign flipped exactly on signed overflow with the overflow qubit set. *)
Theorem c31_incs : forall (K : StarRing) (c : cfg) n toAdd s len o (psi : mem K), fits c n -> s + len <= n -> o < n -> outside_reg o s len -> 1 <= len ->
  every_run (INCS c n toAdd s len o (Some psi)) (fun r => exists psi', r = Ok (Some psi') /\
    basis_map n always (add_reg s len toAdd) (fun x => sgn (overflows len (get_reg x s len) (toAdd mod 2 ^ len) && N.testbit x o)) psi psi').
Proof. exact @PAlu9.l_c31_incs. Qed.
Print Assumptions c31_incs.

Example c31_hyps : fits (mkCfg 4 2) 5 /\ 1 + 3 <= 5 /\ 4 < 5 /\ outside_reg 4 1 3 /\ 1 <= 3.
Proof. split; [vm_compute; repeat split; discriminate|]. unfold outside_reg. lia. Qed.
Example c31_example : map (fun x => overflows 3 (get_reg x 1 3) 2) [0; 4; 6; 8; 14] = [false; true; true; false; false].
Proof. reflexivity. Qed.

(** DECS: INCS of the two's complement of the constant. *)
Theorem c31_decs : forall (K : StarRing) (c : cfg) n toSub s len o (psi : mem K), fits c n -> s + len <= n -> o < n -> outside_reg o s len -> 1 <= len ->
  every_run (DECS c n toSub s len o (Some psi)) (fun r => exists psi', r = Ok (Some psi') /\
    basis_map n always (sub_reg s len toSub)
      (fun x => sgn (overflows len (get_reg x s len) ((2 ^ len - toSub mod 2 ^ len) mod 2 ^ len) && N.testbit x o)) psi psi').
Proof. exact @PAlu9.l_c31_decs. Qed.
Print Assumptions c31_decs.

(** * C32 *)

(** The engine's ROL.  (ROR and the generic ROL are in PropCircuits.v.) *)
Theorem c32_rol : forall (K : StarRing) (c : cfg) n shift s len (psi : mem K), fits c n -> s + len <= n ->
  every_run (ROL c n shift s len (Some psi)) (fun r => exists psi' f, r = Ok (Some psi') /\
    basis_map n always f (fun _ => 1%amp) psi psi' /\ forall x, x < 2 ^ n -> rotated s len shift x (f x)).
Proof. exact @PAlu9.l_c32_rol. Qed.
Print Assumptions c32_rol.

Example c32_hyps : fits (mkCfg 4 2) 5 /\ 1 + 3 <= 5.
Proof. vm_compute; repeat split; discriminate. Qed.
Example c32_example : rotated 1 3 2 22 26.
Proof.
  split.
  - intros j Hj. assert (HJ : j = 0 \/ j = 1 \/ j = 2) by lia. destruct HJ as [->|[->| ->]]; reflexivity.
  - intros q Hq. assert (HQ : q = 0 \/ q = 4 \/ 5 <= q) by (unfold outside_reg in Hq; lia). destruct HQ as [->|[->|HQ]]; try reflexivity.
    rewrite !(N.bits_above_log2) by (cbn; lia). reflexivity.
Qed.

(** * C33 *)

(** MUL with a multiplier of at most 2^len: the carry register is measured and cleared, and the exact product appears in the
    two registers. *)
Theorem c33_mul : forall (K : StarRing) (c : cfg) rgp (nrm : K) n m s car len (psi : mem K), fits c n -> muldiv_ok n m s car len -> nonzero n psi ->
  every_run (MUL c rgp nrm n m s car len psi) (fun r => exists psi' v g, r = Ok (Some psi') /\ v < 2 ^ len /\ measured n (reg_is car len v) nrm g psi /\
    basis_map n (reg_is car len v) (mul_regs s car len m) (fun _ => g) psi psi').
Proof. exact @PAlu9.l_c33_mul. Qed.
Print Assumptions c33_mul.

Example c33_hyps : fits (mkCfg 4 2) 5 /\ muldiv_ok 5 3 0 3 2 /\ nonzero 5 (ket 4 : mem GI).
Proof.
  split; [vm_compute; repeat split; discriminate|]. split. repeat split; try (vm_compute; discriminate). left. lia.
  exists 4. split; [reflexivity|]. discriminate.
Qed.
Example c33_example : map (mul_regs 0 3 2 3) [0; 1; 2; 7] = [0; 3; 10; 21].
Proof. reflexivity. Qed.

(** DIV afterwards restores the state (times the normalisation factor of the measurement of the cleared register). *)
Theorem c33_div_undoes_mul : forall (K : StarRing) (c : cfg) rgp (nrm : K) n m s car len (psi : mem K), fits c n -> muldiv_ok n m s car len -> nonzero n psi ->
  supported n (reg_is car len 0) psi ->
  every_run (MUL c rgp nrm n m s car len psi) (fun r => exists psi1 g, r = Ok (Some psi1) /\ (g = 1%amp \/ g = nrm) /\
    every_run (DIV c n m s car len (Some psi1)) (fun r2 => exists psi2, r2 = Ok (Some psi2) /\ scaled n g psi psi2)).
Proof. exact @PAlu9.l_c33_div_undoes_mul. Qed.
Print Assumptions c33_div_undoes_mul.

(** With a multiplier above 2^len several basis states are written to the same place: here |0> is erased. *)
Theorem c33_mul_refuted : exists (c : cfg) n m s car len (psi : mem GI), fits c n /\ s + len <= n /\ car + len <= n /\ disjoint_regs s len car len /\
  supported n (reg_is car len 0) psi /\ nonzero n psi /\ ~ every_run (MUL c false 1%amp n m s car len psi) (fun r => exists psi' g, r = Ok (Some psi') /\ (g = 1)%amp /\
  basis_map n (reg_is car len 0) (mul_regs s car len m) (fun _ => g) psi psi').
Proof. 
  exists c1, 2, 4, 0, 1, 1, (ket 0). split; [vm_compute; repeat split; discriminate|]. split; [lia|]. split; [lia|]. split; [left; lia|].
  split; [now apply ket_supported|]. split; [exists 0; split; [reflexivity|discriminate]|]. exact mul_wrong.
 Qed.
Print Assumptions c33_mul_refuted.

(** * C34 *)

(** MULModNOut, when multiplier times 2^len fits in 64 bits and the modulus in the output register. *)
Theorem c34_mulmodnout_partial : forall (K : StarRing) (c : cfg) rgp (nrm : K) n m N0 s o len (psi : mem K), fits c n -> mod_ok n N0 s o len -> m * 2 ^ len <= 2 ^ 64 -> nonzero n psi ->
  every_run (MULModNOut c rgp nrm n m N0 s o len psi) (fun r => exists psi' v g, r = Ok (Some psi') /\ v < 2 ^ len /\ measured n (reg_is o len v) nrm g psi /\
    basis_map n (reg_is o len v) (out_reg s o len (fun u => (u * m) mod N0)) (fun _ => g) psi psi').
Proof. exact @PAlu9.l_c34_mulmodnout_partial. Qed.
Print Assumptions c34_mulmodnout_partial.

Example c34_hyps : fits (mkCfg 4 2) 7 /\ mod_ok 7 5 0 3 3 /\ 12 * 2 ^ 3 <= 2 ^ 64 /\ nonzero 7 (ket 4 : mem GI).
Proof.
  split; [vm_compute; repeat split; discriminate|]. split. repeat split; try (vm_compute; discriminate). left. lia. split. vm_compute; discriminate.
  exists 4. split; [reflexivity|]. discriminate.
Qed.
Example c34_example : map (out_reg 0 3 3 (fun u => (u * 12) mod 5)) [0; 1; 2; 7; 70] = [0; 17; 34; 39; 86].
Proof. reflexivity. Qed.

(** IMULModNOut afterwards restores the state (times the normalisation factor). *)
Theorem c34_imulmodnout_undoes_partial : forall (K : StarRing) (c : cfg) rgp (nrm : K) n m N0 s o len (psi : mem K), fits c n -> mod_ok n N0 s o len -> m * 2 ^ len <= 2 ^ 64 -> nonzero n psi ->
  supported n (reg_is o len 0) psi ->
  every_run (MULModNOut c rgp nrm n m N0 s o len psi) (fun r => exists psi1 g, r = Ok (Some psi1) /\ (g = 1%amp \/ g = nrm) /\
    every_run (IMULModNOut c n m N0 s o len (Some psi1)) (fun r2 => exists psi2, r2 = Ok (Some psi2) /\ scaled n g psi psi2)).
Proof. exact @PAlu9.l_c34_imulmodnout_undoes_partial. Qed.
Print Assumptions c34_imulmodnout_undoes_partial.

(** The product wraps around at 64 bits before the reduction: 2 * (2^63 + 1) mod 5 is 3, and 2 is written. *)
Theorem c34_mulmodnout_refuted : exists (c : cfg) n m N0 s o len (psi : mem GI), fits c n /\ mod_ok n N0 s o len /\ m < 2 ^ 64 /\ supported n (reg_is o len 0) psi /\ nonzero n psi /\ ~ every_run (MULModNOut c false 1%amp n m N0 s o len psi) (fun r => exists psi' g, r = Ok (Some psi') /\ (g = 1)%amp /\
  basis_map n (reg_is o len 0) (out_reg s o len (fun u => (u * m) mod N0)) (fun _ => g) psi psi').
Proof. 
  exists c4, 6, (2 ^ 63 + 1), 5, 0, 3, 3, (ket 2). split; [apply c4_fits; lia|].
  split; [repeat split; try (vm_compute; discriminate); left; lia|]. split; [reflexivity|].
  split; [now apply ket_supported|]. split; [exists 2; split; [reflexivity|discriminate]|]. exact mulmod_wrong.
 Qed.
Print Assumptions c34_mulmodnout_refuted.

(** * C35 *)

(** POWModNOut, when the largest power fits in 64 bits and the modulus is at least two. *)
Theorem c35_powmodnout_partial : forall (K : StarRing) (c : cfg) rgp (nrm : K) n b N0 s o len (psi : mem K), fits c n -> mod_ok n N0 s o len -> 2 <= N0 -> b < 2 ^ 64 ->
  b ^ (2 ^ len - 1) < 2 ^ 64 -> nonzero n psi -> supported n (reg_is o len 0) psi ->
  every_run (POWModNOut c rgp nrm n b N0 s o len psi) (fun r => exists psi' g, r = Ok (Some psi') /\ (g = 1%amp \/ g = nrm) /\
    basis_map n (reg_is o len 0) (out_reg s o len (fun u => (b ^ u) mod N0)) (fun _ => g) psi psi').
Proof. exact @PAlu9.l_c35_powmodnout_partial. Qed.
Print Assumptions c35_powmodnout_partial.

Example c35_hyps : fits (mkCfg 4 2) 7 /\ mod_ok 7 5 0 3 3 /\ 2 <= 5 /\ 3 < 2 ^ 64 /\ 3 ^ (2 ^ 3 - 1) < 2 ^ 64 /\ nonzero 7 (ket 4 : mem GI) /\
  supported 7 (reg_is 3 3 0) (ket 4 : mem GI).
Proof.
  split; [vm_compute; repeat split; discriminate|]. split. repeat split; try (vm_compute; discriminate). left. lia. split. lia. split. reflexivity. split. reflexivity.
  split. exists 4. split; [reflexivity|]. discriminate. now apply ket_supported.
Qed.
Example c35_example : map (out_reg 0 3 3 (fun u => (3 ^ u) mod 5)) [0; 1; 2; 7; 70] = [8; 25; 34; 23; 102].
Proof. reflexivity. Qed.

(** The power wraps around at 64 bits: 3^41 mod 5 is 3, and another value is written. *)
Theorem c35_powmodnout_refuted : exists (c : cfg) n b N0 s o len (psi : mem GI), fits c n /\ mod_ok n N0 s o len /\ 2 <= N0 /\ b < 2 ^ 64 /\ supported n (reg_is o len 0) psi /\ nonzero n psi /\ ~ every_run (POWModNOut c false 1%amp n b N0 s o len psi) (fun r => exists psi' g, r = Ok (Some psi') /\ (g = 1)%amp /\
  basis_map n (reg_is o len 0) (out_reg s o len (fun u => (b ^ u) mod N0)) (fun _ => g) psi psi').
Proof. 
  exists c4, 12, 3, 5, 0, 6, 6, (ket 41). split; [apply c4_fits; lia|].
  split; [repeat split; try (vm_compute; discriminate); left; lia|]. split; [lia|]. split; [reflexivity|].
  split; [now apply ket_supported|]. split; [exists 41; split; [reflexivity|discriminate]|]. exact powmod_wrong.
 Qed.
Print Assumptions c35_powmodnout_refuted.

(** Base one is a special case that writes 1 even when the modulus is one. *)
Theorem c35_powmodnout_one_refuted : exists (c : cfg) n N0 s o len (psi : mem GI), fits c n /\ mod_ok n N0 s o len /\ supported n (reg_is o len 0) psi /\ nonzero n psi /\ ~ every_run (POWModNOut c false 1%amp n 1 N0 s o len psi) (fun r => exists psi' g, r = Ok (Some psi') /\ (g = 1)%amp /\
  basis_map n (reg_is o len 0) (out_reg s o len (fun u => (1 ^ u) mod N0)) (fun _ => g) psi psi').
Proof. 
  exists c4, 2, 1, 0, 1, 1, (ket 0). split; [apply c4_fits; lia|].
  split; [repeat split; try (vm_compute; discriminate); left; lia|].
  split; [now apply ket_supported|]. split; [exists 0; split; [reflexivity|discriminate]|]. exact powmod_one_wrong.
 Qed.
Print Assumptions c35_powmodnout_one_refuted.

(** * C36 *)

(** CMUL with a nonzero multiplier, carry register clear: the product where all controls are set, nothing elsewhere. *)
Theorem c36_cmul_partial : forall (K : StarRing) (c : cfg) rgp (nrm : K) n m s car len cs (psi : mem K), fits c n -> muldiv_ok n m s car len -> ctl_regs n cs s car len ->
  nonzero n psi -> supported n (reg_is car len 0) psi ->
  every_run (CMUL c rgp nrm n m s car len cs psi) (fun r => exists psi' g, r = Ok (Some psi') /\ (g = 1%amp \/ g = nrm) /\
    basis_map n (reg_is car len 0) (controlled cs (mul_regs s car len m)) (fun _ => g) psi psi').
Proof. exact @PAlu9.l_c36_cmul_partial. Qed.
Print Assumptions c36_cmul_partial.

Example c36_hyps : fits (mkCfg 4 2) 6 /\ muldiv_ok 6 3 0 3 2 /\ ctl_regs 6 [5; 2] 0 3 2 /\ nonzero 6 (ket 4 : mem GI) /\ supported 6 (reg_is 3 2 0) (ket 4 : mem GI).
Proof.
  split; [vm_compute; repeat split; discriminate|]. split. repeat split; try (vm_compute; discriminate). left. lia.
  split. split; [discriminate|]. split. repeat constructor; cbn; intuition discriminate. intros q [<-|[<-|[]]]; unfold outside_reg; lia.
  split. exists 4. split; [reflexivity|]. discriminate. now apply ket_supported.
Qed.
Example c36_example : map (controlled [5; 2] (mul_regs 0 3 2 3)) [1; 5; 37; 38] = [1; 5; 39; 46].
Proof. reflexivity. Qed.

(** CDIV is the inverse map; amplitudes with nonzero carry register are dropped, also where a control is unset. *)
Theorem c36_cdiv_partial : forall (K : StarRing) (c : cfg) n m s car len cs (psi : mem K), fits c n -> muldiv_ok n m s car len -> ctl_regs n cs s car len ->
  (m = 1 -> supported n (reg_is car len 0) psi) ->
  every_run (CDIV c n m s car len cs (Some psi)) (fun r => exists psi', r = Ok (Some psi') /\
    pulled_back n (reg_is car len 0) (controlled cs (mul_regs s car len m)) psi psi').
Proof. exact @PAlu9.l_c36_cdiv_partial. Qed.
Print Assumptions c36_cdiv_partial.

(** CMULModNOut. *)
Theorem c36_cmulmodnout_partial : forall (K : StarRing) (c : cfg) rgp (nrm : K) n m N0 s o len cs (psi : mem K), fits c n -> mod_ok n N0 s o len -> ctl_regs n cs s o len ->
  m * 2 ^ len <= 2 ^ 64 -> nonzero n psi -> supported n (reg_is o len 0) psi ->
  every_run (CMULModNOut c rgp nrm n m N0 s o len cs psi) (fun r => exists psi' g, r = Ok (Some psi') /\ (g = 1%amp \/ g = nrm) /\
    basis_map n (reg_is o len 0) (controlled cs (out_reg s o len (fun u => (u * m) mod N0))) (fun _ => g) psi psi').
Proof. exact @PAlu9.l_c36_cmulmodnout_partial. Qed.
Print Assumptions c36_cmulmodnout_partial.

Example c36_mod_example : map (controlled [6] (out_reg 0 3 3 (fun u => (u * 3) mod 5))) [1; 65; 66; 7] = [1; 89; 74; 7].
Proof. reflexivity. Qed.

(** CIMULModNOut. *)
Theorem c36_cimulmodnout_partial : forall (K : StarRing) (c : cfg) n m N0 s o len cs (psi : mem K), fits c n -> mod_ok n N0 s o len -> ctl_regs n cs s o len -> m * 2 ^ len <= 2 ^ 64 ->
  every_run (CIMULModNOut c n m N0 s o len cs (Some psi)) (fun r => exists psi', r = Ok (Some psi') /\
    pulled_back n (reg_is o len 0) (controlled cs (out_reg s o len (fun u => (u * m) mod N0))) psi psi').
Proof. exact @PAlu9.l_c36_cimulmodnout_partial. Qed.
Print Assumptions c36_cimulmodnout_partial.

(** CPOWModNOut. *)
Theorem c36_cpowmodnout_partial : forall (K : StarRing) (c : cfg) rgp (nrm : K) n b N0 s o len cs (psi : mem K), fits c n -> mod_ok n N0 s o len -> ctl_regs n cs s o len ->
  b < 2 ^ 64 -> b ^ (2 ^ len - 1) < 2 ^ 64 -> nonzero n psi ->
  every_run (CPOWModNOut c rgp nrm n b N0 s o len cs psi) (fun r => exists psi', r = Ok (Some psi') /\
    basis_map n (reg_is o len 0) (controlled cs (out_reg s o len (fun u => (b ^ u) mod N0))) (fun _ => 1%amp) psi psi').
Proof. exact @PAlu9.l_c36_cpowmodnout_partial. Qed.
Print Assumptions c36_cpowmodnout_partial.

(** CMUL by zero clears the register whatever the controls. *)
Theorem c36_cmul_zero_refuted : exists (c : cfg) n s car len cs (psi : mem GI), fits c n /\ s + len <= n /\ car + len <= n /\ ctl_regs n cs s car len /\ nonzero n psi /\ ~ every_run (CMUL c false 1%amp n 0 s car len cs psi) (fun r => exists psi', r = Ok (Some psi') /\
  forall x, x < 2 ^ n -> all_set cs x = false -> psi' x = psi x).
Proof. 
  exists c4, 3, 0, 1, 1, [2], (ket 1). split; [apply c4_fits; lia|]. split; [lia|]. split; [lia|].
  split; [split; [discriminate|]; split; [repeat constructor; cbn; tauto|]; intros q [<-|[]]; unfold outside_reg; lia|].
  split; [exists 1; split; [reflexivity|discriminate]|]. exact cmul0_wrong.
 Qed.
Print Assumptions c36_cmul_zero_refuted.

(** CDIV drops amplitudes with nonzero carry register although the control is unset. *)
Theorem c36_cdiv_refuted : exists (c : cfg) n s car len cs (psi : mem GI), fits c n /\ s + len <= n /\ car + len <= n /\ ctl_regs n cs s car len /\ nonzero n psi /\ ~ every_run (CDIV c n 2 s car len cs (Some psi)) (fun r => exists psi', r = Ok (Some psi') /\
  forall x, x < 2 ^ n -> all_set cs x = false -> psi' x = psi x).
Proof. 
  exists c4, 3, 0, 1, 1, [2], (ket 2). split; [apply c4_fits; lia|]. split; [lia|]. split; [lia|].
  split; [split; [discriminate|]; split; [repeat constructor; cbn; tauto|]; intros q [<-|[]]; unfold outside_reg; lia|].
  split; [exists 2; split; [reflexivity|discriminate]|]. exact cdiv_wrong.
 Qed.
Print Assumptions c36_cdiv_refuted.

(** CIMULModNOut likewise. *)
Theorem c36_cimulmodnout_refuted : exists (c : cfg) n s car len cs (psi : mem GI), fits c n /\ s + len <= n /\ car + len <= n /\ ctl_regs n cs s car len /\ nonzero n psi /\ ~ every_run (CIMULModNOut c n 1 2 s car len cs (Some psi)) (fun r => exists psi', r = Ok (Some psi') /\
  forall x, x < 2 ^ n -> all_set cs x = false -> psi' x = psi x).
Proof. 
  exists c4, 3, 0, 1, 1, [2], (ket 2). split; [apply c4_fits; lia|]. split; [lia|]. split; [lia|].
  split; [split; [discriminate|]; split; [repeat constructor; cbn; tauto|]; intros q [<-|[]]; unfold outside_reg; lia|].
  split; [exists 2; split; [reflexivity|discriminate]|]. exact cimul_wrong.
 Qed.
Print Assumptions c36_cimulmodnout_refuted.

(** CPOWModNOut likewise (it does not clear the output register first). *)
Theorem c36_cpowmodnout_refuted : exists (c : cfg) n s car len cs (psi : mem GI), fits c n /\ s + len <= n /\ car + len <= n /\ ctl_regs n cs s car len /\ nonzero n psi /\ ~ every_run (CPOWModNOut c false 1%amp n 1 2 s car len cs psi) (fun r => exists psi', r = Ok (Some psi') /\
  forall x, x < 2 ^ n -> all_set cs x = false -> psi' x = psi x).
Proof. 
  exists c4, 3, 0, 1, 1, [2], (ket 2). split; [apply c4_fits; lia|]. split; [lia|]. split; [lia|].
  split; [split; [discriminate|]; split; [repeat constructor; cbn; tauto|]; intros q [<-|[]]; unfold outside_reg; lia|].
  split; [exists 2; split; [reflexivity|discriminate]|]. exact cpow_wrong.
 Qed.
Print Assumptions c36_cpowmodnout_refuted.

(** * C37 *)

(** IndexedLDA into a clear value register ([rst]: clear it first). *)
Theorem c37_indexed_lda_partial : forall (K : StarRing) (c : cfg) rgp (nrm : K) n is il vs vl tab rst (psi : mem K), fits c n -> idx_ok n is il vs vl -> good_table tab il vl -> nonzero n psi ->
  supported n (reg_is vs vl 0) psi ->
  every_run (IndexedLDA c rgp nrm n is il vs vl tab rst (Some psi)) (fun r => exists psi' g, r = Ok (Some psi') /\ (g = 1%amp \/ rst = true /\ g = nrm) /\
    basis_map n (reg_is vs vl 0) (lookup tab is il vs vl) (fun _ => g) psi psi').
Proof. exact @PAlu9.l_c37_indexed_lda_partial. Qed.
Print Assumptions c37_indexed_lda_partial.

Example c37_hyps : fits (mkCfg 4 2) 6 /\ adc_ok 6 0 2 2 3 5 /\ good_table (fun i => (i * i + 1) mod 8) 2 3.
Proof.
  split; [vm_compute; repeat split; discriminate|]. split. unfold adc_ok, idx_ok, disjoint_regs, outside_reg. lia. split.
  - intros a. apply N.lt_trans with 8; [apply N.mod_lt; discriminate|reflexivity].
  - intros i Hi. change (2 ^ 2) with 4 in Hi. assert (HI : i = 0 \/ i = 1 \/ i = 2 \/ i = 3) by lia. destruct HI as [->|[->|[->| ->]]]; reflexivity.
Qed.
Example c37_example : map (lookup (fun i => (i * i + 1) mod 8) 0 2 2 3) [0; 1; 2; 35] = [4; 9; 22; 43].
Proof. reflexivity. Qed.

(** IndexedADC, the carry measured first with outcome [b]. *)
Theorem c37_indexed_adc_partial : forall (K : StarRing) (c : cfg) rgp (nrm : K) n is il vs vl q tab (psi : mem K), fits c n -> adc_ok n is il vs vl q -> good_table tab il vl -> nonzero n psi ->
  every_run (IndexedADC c rgp nrm n is il vs vl q tab (Some psi)) (fun r => exists psi' b g, r = Ok (Some psi') /\ measured n (bit_is q b) nrm g psi /\
    basis_map n (bit_is q b) (lookup_add tab is il vs vl q) (fun _ => g) psi psi').
Proof. exact @PAlu9.l_c37_indexed_adc_partial. Qed.
Print Assumptions c37_indexed_adc_partial.

Example c37_adc_example : map (lookup_add (fun i => (i * i + 1) mod 8) 0 2 2 3 5) [33; 6; 62] = [13; 26; 54].
Proof. reflexivity. Qed.

(** IndexedSBC, for one-qubit value registers only (refuted below for others). *)
Theorem c37_indexed_sbc_partial : forall (K : StarRing) (c : cfg) rgp (nrm : K) n is il vs q tab (psi : mem K), fits c n -> adc_ok n is il vs 1 q -> good_table tab il 1 -> nonzero n psi ->
  every_run (IndexedSBC c rgp nrm n is il vs 1 q tab (Some psi)) (fun r => exists psi' b g, r = Ok (Some psi') /\ measured n (bit_is q b) nrm g psi /\
    basis_map n (bit_is q b) (lookup_sub tab is il vs 1 q) (fun _ => g) psi psi').
Proof. exact @PAlu9.l_c37_indexed_sbc_partial. Qed.
Print Assumptions c37_indexed_sbc_partial.

(** IndexedSBC skips as many qubits from the carry on as the value register has; basis states with one of them set are erased. *)
Theorem c37_indexed_sbc_refuted : exists (c : cfg) n is il vs vl q tab (psi : mem GI), fits c n /\ adc_ok n is il vs vl q /\ good_table tab il vl /\ nonzero n psi /\ ~ every_run (IndexedSBC c false 1%amp n is il vs vl q tab (Some psi)) (fun r => exists psi' b g, r = Ok (Some psi') /\
  measured n (bit_is q b) 1%amp g psi /\ basis_map n (bit_is q b) (lookup_sub tab is il vs vl q) (fun _ => g) psi psi').
Proof. 
  exists c1, 4, 3, 1, 0, 2, 2, (fun _ => 0), (ket 8). split; [vm_compute; repeat split; discriminate|]. split; [unfold adc_ok, idx_ok, disjoint_regs, outside_reg; lia|].
  split; [split; intros; vm_compute; reflexivity|]. split; [exists 8; split; [reflexivity|discriminate]|]. exact sbc_wrong.
 Qed.
Print Assumptions c37_indexed_sbc_refuted.

(** Hash by a one-to-one table. *)
Theorem c37_hash : forall (K : StarRing) (c : cfg) n s len tab (psi : mem K), fits c n -> s + len <= n -> good_table tab len len -> len + 3 <= 64 ->
  (forall i j, i < 2 ^ len -> j < 2 ^ len -> table_entry tab len i = table_entry tab len j -> i = j) ->
  every_run (Hash c n s len tab (Some psi)) (fun r => exists psi', r = Ok (Some psi') /\ basis_map n always (hashed tab s len) (fun _ => 1%amp) psi psi').
Proof. exact @PAlu9.l_c37_hash. Qed.
Print Assumptions c37_hash.

Example c37_hash_hyps : good_table (fun i => (i * 3 + 1) mod 4) 2 2 /\ 2 + 3 <= 64 /\
  (forall i j, i < 2 ^ 2 -> j < 2 ^ 2 -> table_entry (fun i => (i * 3 + 1) mod 4) 2 i = table_entry (fun i => (i * 3 + 1) mod 4) 2 j -> i = j).
Proof.
  assert (HI : forall i, i < 2 ^ 2 -> i = 0 \/ i = 1 \/ i = 2 \/ i = 3) by (intros i Hi; change (2 ^ 2) with 4 in Hi; lia).
  split; [split|split; [lia|]].
  - intros a. apply N.lt_trans with 4; [apply N.mod_lt; discriminate|reflexivity].
  - intros i Hi. destruct (HI i Hi) as [->|[->|[->| ->]]]; reflexivity.
  - intros i j Hi Hj. destruct (HI i Hi) as [->|[->|[->| ->]]]; destruct (HI j Hj) as [->|[->|[->| ->]]]; vm_compute; congruence.
Qed.

(** * C38 *)

(** PhaseFlipIfLess ([flag] absent) and CPhaseFlipIfLess, for bounds below 2^64. *)
Theorem c38_phase_flip_if_less_partial : forall (K : StarRing) (c : cfg) n g s len flag (psi : mem K), fits c n -> s + len <= n -> g < 2 ^ 64 -> match flag with Some q => q < n | None => True end ->
  every_run (PhaseFlipIfLess c n g s len flag (Some psi)) (fun r => exists psi', r = Ok (Some psi') /\
    forall x, x < 2 ^ n -> psi' x = (if (get_reg x s len <? g) && flag_set flag x then - psi x else psi x)%amp).
Proof. exact @PAlu9.l_c38_phase_flip_if_less_partial. Qed.
Print Assumptions c38_phase_flip_if_less_partial.

Example c38_hyps : fits (mkCfg 4 2) 5 /\ 1 + 3 <= 5 /\ 6 < 2 ^ 64 /\ 4 < 5.
Proof. vm_compute; repeat split; discriminate. Qed.

(** A bound of 2^64 is truncated to zero and flips nothing. *)
Theorem c38_phase_flip_if_less_refuted : exists (c : cfg) n g s len (psi : mem GI), fits c n /\ s + len <= n /\ g < 2 ^ 128 /\ ~ every_run (PhaseFlipIfLess c n g s len None (Some psi)) (fun r => exists psi', r = Ok (Some psi') /\
  forall x, x < 2 ^ n -> psi' x = (if (get_reg x s len <? g) && flag_set None x then - psi x else psi x)%amp).
Proof. 
  exists c4, 2, (2 ^ 64), 0, 2, (ket 1). split; [apply c4_fits; lia|]. split; [lia|]. split; [reflexivity|]. exact pfil_wrong.
 Qed.
Print Assumptions c38_phase_flip_if_less_refuted.

(** * C73 *)

(** INCSC: result and carry as for unsigned numbers, and the sign flipped on signed overflow, except for the two constants
    named (refuted below) when the carry is set. *)
Theorem c73_incsc_partial : forall (K : StarRing) (c : cfg) flag rgp (nrm : K) n k s len q (psi : mem K), fits c n -> s + len <= n -> q < n -> outside_reg q s len -> 1 <= len ->
  flag_ok flag n s len q -> k < 2 ^ len -> nonzero n psi ->
  every_run (INCSC c (flag_mode flag) rgp nrm n k s len q psi) (fun r => exists psi' b g, r = Ok (Some psi') /\ measured n (bit_is q b) nrm g psi /\
    (b = false \/ k <> 2 ^ len - 1 /\ k <> 2 ^ (len - 1) - 1 ->
     basis_map n (bit_is q b) (add_carry s len q k) (fun x => (sgn (adds_over s len q k x && flag_set flag x) * g)%amp) psi psi')).
Proof. exact @PAlu9.l_c73_incsc_partial. Qed.
Print Assumptions c73_incsc_partial.

Example c73_incsc_hyps : fits (mkCfg 4 2) 6 /\ 1 + 3 <= 6 /\ 4 < 6 /\ outside_reg 4 1 3 /\ 1 <= 3 /\ flag_ok (Some 5) 6 1 3 4 /\ 5 < 2 ^ 3 /\ nonzero 6 (ket 16 : mem GI).
Proof.
  split; [vm_compute; repeat split; discriminate|]. unfold flag_ok, outside_reg. repeat split; try lia; try reflexivity.
  exists 16. split; [reflexivity|]. discriminate.
Qed.

(** The carry is added to the constant before the overflow test, which then sees a constant of the wrong sign. *)
Theorem c73_incsc_refuted : exists (c : cfg) n k s len q (psi : mem GI), fits c n /\ s + len <= n /\ q < n /\ outside_reg q s len /\ 1 <= len /\
  k < 2 ^ len /\ nonzero n psi /\ ~ every_run (INCSC c (flag_mode None) false 1%amp n k s len q psi) (fun r => exists psi' b g, r = Ok (Some psi') /\
  measured n (bit_is q b) 1%amp g psi /\ basis_map n (bit_is q b) (add_carry s len q k) (fun x => sgn (adds_over s len q k x) * g)%amp psi psi').
Proof. 
  exists c4, 3, 1, 0, 2, 2, (ket 4). split; [apply c4_fits; lia|]. split; [lia|]. split; [lia|]. split; [right; lia|]. split; [lia|]. split; [reflexivity|].
  split; [exists 4; split; [reflexivity|discriminate]|]. exact incsc_wrong.
 Qed.
Print Assumptions c73_incsc_refuted.

(** DECSC: result and carry as for unsigned numbers, and the sign flipped on signed overflow, except for the two constants
    named (refuted below) when the carry is set. *)
Theorem c73_decsc_partial : forall (K : StarRing) (c : cfg) flag rgp (nrm : K) n k s len q (psi : mem K), fits c n -> s + len <= n -> q < n -> outside_reg q s len -> 1 <= len ->
  flag_ok flag n s len q -> k < 2 ^ len -> nonzero n psi ->
  every_run (DECSC c (flag_mode flag) rgp nrm n k s len q psi) (fun r => exists psi' b g, r = Ok (Some psi') /\ measured n (bit_is q b) nrm g psi /\
    (b = false \/ k <> 0 /\ k <> 2 ^ (len - 1) ->
     basis_map n (bit_is q b) (sub_carry s len q k) (fun x => (sgn (subs_over s len q k x && flag_set flag x) * g)%amp) psi psi')).
Proof. exact @PAlu9.l_c73_decsc_partial. Qed.
Print Assumptions c73_decsc_partial.

Example c73_decsc_hyps : fits (mkCfg 4 2) 6 /\ 1 + 3 <= 6 /\ 4 < 6 /\ outside_reg 4 1 3 /\ 1 <= 3 /\ flag_ok (Some 5) 6 1 3 4 /\ 5 < 2 ^ 3 /\ nonzero 6 (ket 16 : mem GI).
Proof.
  split; [vm_compute; repeat split; discriminate|]. unfold flag_ok, outside_reg. repeat split; try lia; try reflexivity.
  exists 16. split; [reflexivity|]. discriminate.
Qed.

(** The carry is added to the constant before the overflow test, which then sees a constant of the wrong sign. *)
Theorem c73_decsc_refuted : exists (c : cfg) n k s len q (psi : mem GI), fits c n /\ s + len <= n /\ q < n /\ outside_reg q s len /\ 1 <= len /\
  k < 2 ^ len /\ nonzero n psi /\ ~ every_run (DECSC c (flag_mode None) false 1%amp n k s len q psi) (fun r => exists psi' b g, r = Ok (Some psi') /\
  measured n (bit_is q b) 1%amp g psi /\ basis_map n (bit_is q b) (sub_carry s len q k) (fun x => sgn (subs_over s len q k x) * g)%amp psi psi').
Proof. 
  exists c4, 3, 2, 0, 2, 2, (ket 4). split; [apply c4_fits; lia|]. split; [lia|]. split; [lia|]. split; [right; lia|]. split; [lia|]. split; [reflexivity|].
  split; [exists 4; split; [reflexivity|discriminate]|]. exact decsc_wrong.
 Qed.
Print Assumptions c73_decsc_refuted.

(** * C74 *)

(** SetReg: the register is measured with outcome [v] and set to the value; nothing else changes. *)
Theorem c74_setreg : forall (K : StarRing) (c : cfg) rgp (nrm : K) n s len value (psi : mem K), fits c n -> s + len <= n -> value < 2 ^ len -> nonzero n psi ->
  every_run (SetReg c rgp nrm n s len value psi) (fun r => exists psi' v g, r = Ok (Some psi') /\ v < 2 ^ len /\ measured n (reg_is s len v) nrm g psi /\
    basis_map n (reg_is s len v) (fun x => put_reg x s len value) (fun _ => g) psi psi').
Proof. exact @PAlu9.l_c74_setreg. Qed.
Print Assumptions c74_setreg.

Example c74_hyps : fits (mkCfg 4 2) 5 /\ 1 + 3 <= 5 /\ 5 < 2 ^ 3 /\ nonzero 5 (ket 16 : mem GI).
Proof. split; [vm_compute; repeat split; discriminate|]. repeat split; try lia; try reflexivity. exists 16. split; [reflexivity|]. discriminate. Qed.
Example c74_example : map (fun x => put_reg x 1 3 5) [0; 31; 14] = [10; 27; 10].
Proof. reflexivity. Qed.

(** * C75 *)

(** The engine's FullAdd kernel. *)
Theorem c75_full_add : forall (K : StarRing) (c : cfg) n in1 in2 sum carry (psi : mem K), fits c n -> adder_ok n in1 in2 sum carry ->
  every_run (FullAdd c n in1 in2 sum carry (Some psi)) (fun r => exists psi', r = Ok (Some psi') /\ basis_map n always (full_add in1 in2 sum carry) (fun _ => 1%amp) psi psi').
Proof. exact @PAlu9.l_c75_full_add. Qed.
Print Assumptions c75_full_add.

Example c75_hyps : fits (mkCfg 4 2) 5 /\ adder_ok 5 0 1 2 3.
Proof. split; [vm_compute; repeat split; discriminate|]. unfold adder_ok. lia. Qed.
Example c75_example : map (full_add 0 1 2 3) [0; 1; 2; 3; 4; 5; 6; 7; 15] = [0; 5; 6; 11; 4; 9; 10; 15; 7].
Proof. reflexivity. Qed.

(** IFullAdd afterwards restores the state. *)
Theorem c75_ifull_add_undoes : forall (K : StarRing) (c : cfg) n in1 in2 sum carry (psi : mem K), fits c n -> adder_ok n in1 in2 sum carry ->
  every_run (FullAdd c n in1 in2 sum carry (Some psi)) (fun r => exists psi1, r = Ok (Some psi1) /\
    every_run (IFullAdd c n in1 in2 sum carry (Some psi1)) (fun r2 => exists psi2, r2 = Ok (Some psi2) /\ eqv n psi2 psi)).
Proof. exact @PAlu9.l_c75_ifull_add_undoes. Qed.
Print Assumptions c75_ifull_add_undoes.
