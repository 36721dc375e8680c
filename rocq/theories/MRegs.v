(** The register forms of the logic gates, of Swap and of the controlled NOT gates of QInterface
    (/repo/src/qinterface/qinterface.cpp:864-1091, compiled with ENABLE_REG_GATES): one gate for each index below the length.

    - The indices do not wrap (bitLenInt; the theorems have start + length <= n).
    - The single gates are those of MCircuit.v. *)
From Coq Require Import NArith List Bool.
From Verif Require Import Bits MFunctions MParFor Amp MKernel MEngine MAlu MCircuit.
Import ListNotations.
Local Open Scope N_scope.

Section Regs.
  Context {K : StarRing}.
  Variable c : cfg.
  Local Notation V := (mem K).
  Local Notation circ := (circ K).

  (** REG_GATE_2, 866-872 (Swap, 940). *)
  Definition reg_2 (gate : N -> N -> circ) (qubit1 qubit2 length : N) : circ :=
    flat_map (fun bit => gate (qubit1 + bit) (qubit2 + bit)) (iota 0 (N.to_nat length)).
  (** REG_GATE_C1_1, 907-913 (CNOT, 983; AntiCNOT, 980). *)
  Definition reg_c1 (gate : N -> N -> circ) (control target length : N) : circ :=
    flat_map (fun bit => gate (control + bit) (target + bit)) (iota 0 (N.to_nat length)).
  (** REG_GATE_C2_1, 915-921 (CCNOT, 977; AntiCCNOT, 974). *)
  Definition reg_c2 (gate : N -> N -> N -> circ) (control1 control2 target length : N) : circ :=
    flat_map (fun bit => gate (control1 + bit) (control2 + bit) (target + bit)) (iota 0 (N.to_nat length)).
  (** bitSlice, include/common/qrack_functions.hpp:145, cast to 64 bits and then converted to bool (the parameter of the gate). *)
  Definition slice_bool (bit source : N) : bool := negb ((N.land (N.shiftl 1 bit) source) mod 2 ^ 64 =? 0).
  (** REG_GATE_3B, 882-889 (CLAND to CLXNOR, 1071-1091). *)
  Definition reg_3b (gate : N -> bool -> N -> circ) (qInputStart classicalInput outputStart length : N) : circ :=
    flat_map (fun i => gate (qInputStart + i) (slice_bool i classicalInput) (outputStart + i)) (iota 0 (N.to_nat length)).
  (** REG_GATE_3, 874-880 (AND to XNOR, 1052-1067): the calls in order; one that throws ends the loop. *)
  Fixpoint loop_3 (rgp : bool) (nrm : K) (n : N) (gate : N -> N -> N -> lprog K) (qubit1 qubit2 qubit3 : N) (bits : list N) (psi : V) (r : res (option V)) : Prop :=
    match bits with
    | [] => r = Ok (Some psi)
    | bit :: t => and_then (lrun c rgp nrm n (qubit3 + bit) (gate (qubit1 + bit) (qubit2 + bit) (qubit3 + bit)) psi)
        (on_vec (loop_3 rgp nrm n gate qubit1 qubit2 qubit3 t)) r
    end.
  Definition reg_3 (rgp : bool) (nrm : K) (n : N) (gate : N -> N -> N -> lprog K) (qubit1 qubit2 qubit3 length : N) : V -> res (option V) -> Prop :=
    loop_3 rgp nrm n gate qubit1 qubit2 qubit3 (iota 0 (N.to_nat length)).
End Regs.
