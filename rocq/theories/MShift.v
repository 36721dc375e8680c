(** The shifts of QInterface (/repo/src/qinterface/qinterface.cpp:333-396): ASL, ASR, LSL and LSR.

    - ROL, ROR and Swap are the bodies of QInterface (MCircuit.v); the CPU engine has its own ROL kernel, with the same effect
      (C32).
    - SetReg is that of MAlu.v: a register of one qubit is measured and flipped (SetBit), a longer one is measured with MReg.
      SetReg of the whole engine, which calls SetPermutation (200-202), is not modelled; it is called only for shifts by at
      least the length of a register that is the whole engine.
    - [nrm] is the renormalisation factor of the measurement.
    - The indices do not wrap (bitLenInt has 8 bits; the theorems have start + length <= n). *)
From Coq Require Import NArith List Bool.
From Verif Require Import Amp MKernel MEngine MAlu MCircuit.
Import ListNotations.
Local Open Scope N_scope.

Section Shift.
  Context {K : StarRing}.
  Variable c : cfg.
  Local Notation V := (mem K).

  (** LSL, 369-381. *)
  Definition LSL (rgp : bool) (nrm : K) (n shift start length : N) (psi : V) (r : res (option V)) : Prop :=
    if (length =? 0) || (shift =? 0) then r = Ok (Some psi)
    else if length <=? shift then SetReg c rgp nrm n start length 0 psi r
    else and_then (crun c rgp n (qi_ROL shift start length) (Some psi)) (on_vec (SetReg c rgp nrm n start shift 0)) r.
  (** LSR, 384-396. *)
  Definition LSR (rgp : bool) (nrm : K) (n shift start length : N) (psi : V) (r : res (option V)) : Prop :=
    if (length =? 0) || (shift =? 0) then r = Ok (Some psi)
    else if length <=? shift then SetReg c rgp nrm n start length 0 psi r
    else and_then (SetReg c rgp nrm n start shift 0 psi) (crun c rgp n (qi_ROR shift start length)) r.
  (** ASL, 333-348. *)
  Definition ASL (rgp : bool) (nrm : K) (n shift start length : N) (psi : V) (r : res (option V)) : Prop :=
    if (length =? 0) || (shift =? 0) then r = Ok (Some psi)
    else if length <=? shift then SetReg c rgp nrm n start length 0 psi r
    else let end_ := start + length in
      and_then (and_then (crun c rgp n (qi_Swap (end_ - 1) (end_ - 2) ++ qi_ROL shift start length) (Some psi)) (on_vec (SetReg c rgp nrm n start shift 0)))
        (crun c rgp n (qi_Swap (end_ - 1) (end_ - 2))) r.
  (** ASR, 351-366. *)
  Definition ASR (rgp : bool) (nrm : K) (n shift start length : N) (psi : V) (r : res (option V)) : Prop :=
    if (length =? 0) || (shift =? 0) then r = Ok (Some psi)
    else if length <=? shift then SetReg c rgp nrm n start length 0 psi r
    else let end_ := start + length in
      and_then (and_then (crun c rgp n (qi_Swap (end_ - 1) (end_ - 2) ++ qi_ROR shift start length) (Some psi)) (on_vec (SetReg c rgp nrm n (end_ - shift - 1) shift 0)))
        (crun c rgp n (qi_Swap (end_ - 1) (end_ - 2))) r.
End Shift.
