(** Property theorems C181 and C182: the shifts of QInterface. *)
From Coq Require Import NArith ZArith Arith List Bool Lia.
From Verif Require Import Amp PAmp MKernel MEngine SpecState SpecEngine SpecAlu MCircuit MShift SpecShift PShiftProp.
Import ListNotations.
Local Open Scope N_scope.

(** * C181: logical shifts *)

(** LSL multiplies the register by 2^k and drops the bits above its end: the highest min(k, length) bits are measured, with some outcome v of non-zero amplitude, and the basis states with that outcome are mapped; zeros enter at the low end and the other qubits do not change. *)
Theorem c181_left : forall (K : StarRing) (c : cfg) rgp (nrm : K) n k s len (psi : mem K), fits c n -> s + len <= n -> (k < len \/ len < n) -> nonzero n psi ->
  let m := N.min k len in
  every_run (LSL c rgp nrm n k s len psi) (fun r => exists psi' v g, r = Ok (Some psi') /\ v < 2 ^ m /\
    measured n (reg_is (s + len - m) m v) nrm g psi /\ basis_map n (reg_is (s + len - m) m v) (shl_reg s len k) (fun _ => g) psi psi').
Proof. exact @PShiftProp.l_c181_left. Qed.
Print Assumptions c181_left.

Example c181_left_hyps : fits (mkCfg 4 2) 5 /\ 1 + 3 <= 5 /\ (1 < 3 \/ 3 < 5) /\ nonzero 5 (ket 23 : mem GI) /\ shl_reg 1 3 1 23 = 29 /\ reg_is (1 + 3 - 1) 1 0 23 = true.
Proof. split; [|split; [|split; [|split; [|split]]]]; try reflexivity; try lia. { unfold fits. cbn. repeat split; lia. } exists 23. split. reflexivity. discriminate. Qed.


(** LSR divides the register by 2^k: the lowest min(k, length) bits are measured, and zeros enter at the high end. *)
Theorem c181_right : forall (K : StarRing) (c : cfg) rgp (nrm : K) n k s len (psi : mem K), fits c n -> s + len <= n -> (k < len \/ len < n) -> nonzero n psi ->
  let m := N.min k len in
  every_run (LSR c rgp nrm n k s len psi) (fun r => exists psi' v g, r = Ok (Some psi') /\ v < 2 ^ m /\
    measured n (reg_is s m v) nrm g psi /\ basis_map n (reg_is s m v) (shr_reg s len k) (fun _ => g) psi psi').
Proof. exact @PShiftProp.l_c181_right. Qed.
Print Assumptions c181_right.

Example c181_right_hyps : fits (mkCfg 4 2) 5 /\ 1 + 3 <= 5 /\ (5 < 3 \/ 3 < 5) /\ nonzero 5 (ket 23 : mem GI) /\ shr_reg 1 3 1 23 = 19 /\ shr_reg 1 3 5 23 = 17.
Proof. split; [|split; [|split; [|split; [|split]]]]; try reflexivity; try lia. { unfold fits. cbn. repeat split; lia. } exists 23. split. reflexivity. discriminate. Qed.


(** * C182: arithmetic shifts *)

(** What ASL does instead, for shifts by less than the length: the logical shift, with the last two bits exchanged before and after.  Missing for the full statement: that the sign is kept, which fails. *)
Theorem c182_left_partial : forall (K : StarRing) (c : cfg) rgp (nrm : K) n k s len (psi : mem K), fits c n -> s + len <= n -> k < len -> 0 < k -> nonzero n psi ->
  let sw := swap_bits (s + len - 1) (s + len - 2) in
  every_run (ASL c rgp nrm n k s len psi) (fun r => exists psi' v g, r = Ok (Some psi') /\ measured n (fun x => reg_is (s + len - k) k v (sw x)) nrm g psi /\
    basis_map n (fun x => reg_is (s + len - k) k v (sw x)) (fun x => sw (shl_reg s len k (sw x))) (fun _ => g) psi psi').
Proof. exact @PShiftProp.l_c182_left_partial. Qed.
Print Assumptions c182_left_partial.

Example c182_left_hyps : fits (mkCfg 4 2) 5 /\ 0 + 4 <= 5 /\ 1 < 4 /\ nonzero 5 (ket 9 : mem GI) /\ (let sw := swap_bits 3 2 in sw (shl_reg 0 4 1 (sw 9)) = 6).
Proof. split; [|split; [|split; [|split]]]; try reflexivity; try lia. { unfold fits. cbn. repeat split; lia. } exists 9. split. reflexivity. discriminate. Qed.


(** What ASR does, for shifts by less than the length: the last two bits are exchanged, the register is rotated, the k bits below its last bit are measured and cleared, and the last two bits are exchanged again. *)
Theorem c182_right_partial : forall (K : StarRing) (c : cfg) rgp (nrm : K) n k s len (psi : mem K), fits c n -> s + len <= n -> k < len -> 0 < k -> nonzero n psi ->
  let sw := swap_bits (s + len - 1) (s + len - 2) in
  exists f, (forall x, rotated s len k (f x) (sw x)) /\
  every_run (ASR c rgp nrm n k s len psi) (fun r => exists psi' v g, r = Ok (Some psi') /\ measured n (fun x => reg_is (s + len - k - 1) k v (f x)) nrm g psi /\
    basis_map n (fun x => reg_is (s + len - k - 1) k v (f x)) (fun x => sw (put_reg (f x) (s + len - k - 1) k 0)) (fun _ => g) psi psi').
Proof. exact @PShiftProp.l_c182_right_partial. Qed.
Print Assumptions c182_right_partial.

Example c182_right_hyps : fits (mkCfg 4 2) 5 /\ 0 + 4 <= 5 /\ 1 < 4 /\ nonzero 5 (ket 12 : mem GI).
Proof. split; [|split; [|split]]; try reflexivity; try lia. { unfold fits. cbn. repeat split; lia. } exists 12. split. reflexivity. discriminate. Qed.


(** ASL of a register of four qubits by 1 takes basis state 8 (last two bits 0 and 1) to basis state 4 (last two bits 1 and 0): both bits change, so whichever of them is the sign is not kept. *)
Theorem c182_left_refuted : forall (K : StarRing) (c : cfg) rgp (nrm : K), (1 : K)%amp <> 0%amp -> fits c 5 ->
  every_run (ASL c rgp nrm 5 1 0 4 (ket 8)) (fun r => exists psi', r = Ok (Some psi') /\ (psi' 4 = 1%amp \/ psi' 4 = nrm) /\ forall y, y < 2 ^ 5 -> y <> 4 -> psi' y = 0%amp).
Proof. exact @PShiftProp.l_c182_left_refuted. Qed.
Print Assumptions c182_left_refuted.

Example c182_left_refuted_hyps : (1 : GI)%amp <> 0%amp /\ fits (mkCfg 4 2) 5.
Proof. split. discriminate. unfold fits. cbn. repeat split; lia. Qed.


(** ASR of a register of four qubits by 1 takes basis state 12 (last two bits both 1) to basis state 2 (both 0): whichever of them is the sign is not kept. *)
Theorem c182_right_refuted : forall (K : StarRing) (c : cfg) rgp (nrm : K), (1 : K)%amp <> 0%amp -> fits c 5 ->
  every_run (ASR c rgp nrm 5 1 0 4 (ket 12)) (fun r => exists psi', r = Ok (Some psi') /\ (psi' 2 = 1%amp \/ psi' 2 = nrm) /\ forall y, y < 2 ^ 5 -> y <> 2 -> psi' y = 0%amp).
Proof. exact @PShiftProp.l_c182_right_refuted. Qed.
Print Assumptions c182_right_refuted.

Example c182_right_refuted_hyps : (1 : GI)%amp <> 0%amp /\ fits (mkCfg 4 2) 5.
Proof. split. discriminate. unfold fits. cbn. repeat split; lia. Qed.

