(** Model of the arithmetic kernels of the CPU engine, /repo/src/qengine/arithmetic.cpp, and of the QAlu wrappers,
    /repo/src/qalu.cpp.

    - Every kernel writes into a newly allocated vector and reads the old one, so a body is a list of writes whose values
      come from the old vector [psi].
    - [nrm] is the factor GetNonunitaryPhase() / sqrt(probability) with which a measurement rescales the state; it is a
      parameter of every operation that measures.
    - The debug return value (ENABLE_VM6502Q_DEBUG) of the Indexed* operations is not modelled; they return zero.
    - The BCD operations (ENABLE_BCD, off by default) are not modelled. *)
From Coq Require Import NArith List Bool.
From Verif Require Import MFunctions MParFor MKernel Amp MEngine.
Import ListNotations.
Local Open Scope N_scope.

(** [a << s] and [a - b] on 64-bit words, [a - b] on 128-bit words. *)
Definition shl64 (a s : N) : N := w64 (N.shiftl a s).
Definition sub64 (a b : N) : N := w64 (a + (2 ^ 64 - w64 b)).
Definition sub128 (a b : N) : N := w128 (a + (2 ^ 128 - w128 b)).
(** pow2, qrack_functions.hpp:136 (128-bit form). *)
Definition pow2_128 (p : N) : N := w128 (N.shiftl 1 p).

Section Alu.
  Context {K : StarRing}.
  Variable c : cfg.
  Local Notation V := (mem K).

  Fixpoint wrs (l : list (N * K)) : prog K :=
    match l with
    | [] => Ret
    | (a, y) :: t => Wr a y (wrs t)
    end.
  (** AllocStateVec followed by clear() or copy(), statevector.hpp:138-141, 189-193. *)
  Definition new_zero (n : N) (m : V) : Prop := exists fresh, fill c (2 ^ n) (fun _ => 0%amp) fresh m.
  Definition new_copy (n : N) (psi m : V) : Prop := exists fresh, fill c (2 ^ n) psi fresh m.

  (** ** Measurement and preparation used by the arithmetic *)

  (** M(qubit), qinterface.hpp:1013 and qengine.cpp:78-106: an outcome that has probability; the state is projected unless
      the outcome is certain (line 100, exact comparison here). *)
  Definition MBit (nrm : K) (n q : N) (psi : V) (b : bool) (psi' : V) : Prop :=
    (exists x, x < 2 ^ n /\ N.testbit x q = b /\ psi x <> 0%amp) /\
    ((forall x, x < 2 ^ n -> N.testbit x q <> b -> psi x = 0%amp) /\ psi' = psi \/
     (exists x, x < 2 ^ n /\ N.testbit x q <> b /\ psi x <> 0%amp) /\
     ApplyM c n (pow2Ocl q) (if b then pow2Ocl q else 0) nrm (Some psi) (Some psi')).
  (** MReg, qinterface.hpp:2347 and qengine.cpp:490-541 (draws above zero, see C27): an outcome that has probability, and
      a projection even when it is certain. *)
  Definition MReg (nrm : K) (n start length : N) (psi : V) (v : N) (psi' : V) : Prop :=
    if length =? 1 then exists b, MBit nrm n start psi b psi' /\ v = (if b then 1 else 0)
    else v < 2 ^ length /\ (exists x, x < 2 ^ n /\ N.land x (shl64 (pow2MaskOcl length) start) = shl64 v start /\ psi x <> 0%amp) /\
         ApplyM c n (shl64 (pow2Ocl length - 1) start) (shl64 v start) nrm (Some psi) (Some psi').
  (** X on the listed bits of the register where the two values differ, qinterface.cpp:205-209. *)
  Fixpoint flip_bits (rgp : bool) (n start : N) (bits : list N) (v value : N) (psi : V) (r : res (option V)) : Prop :=
    match bits with
    | [] => r = Ok (Some psi)
    | i :: t =>
        if Bool.eqb (N.testbit v i) (N.testbit value i) then flip_bits rgp n start t v value psi r
        else exists r1, Mtrx c rgp n matX (start + i) (Some psi) r1 /\
             match r1 with
             | Ok (Some psi1) => flip_bits rgp n start t v value psi1 r
             | _ => r = r1
             end
    end.
  (** SetReg, qinterface.cpp:193-210, when the register is not the whole engine (otherwise SetPermutation is called, line
      200-202; not modelled here). *)
  Definition SetReg (rgp : bool) (nrm : K) (n start length value : N) (psi : V) (r : res (option V)) : Prop :=
    exists v psi1, MReg nrm n start length psi v psi1 /\ flip_bits rgp n start (iota 0 (N.to_nat length)) v value psi1 r.

  (** ** ROL, arithmetic.cpp:23-58 *)
  Definition ROL (n shift start length : N) (v : option V) (r : res (option V)) : Prop :=
    if isBadBitRange start length n then r = Throw
    else match v with
    | None => r = Ok None
    | Some psi =>
      if length =? 0 then r = Ok v
      else let shift := shift mod length in
      if shift =? 0 then r = Ok v
      else
        let lengthMask := pow2Ocl length - 1 in
        let regMask := shl64 lengthMask start in
        let otherMask := N.lxor (2 ^ n - 1) regMask in
        exists fresh m', loop_for c (2 ^ n) (fun lcv =>
            let otherRes := N.land lcv otherMask in
            let regInt := N.shiftr (N.land lcv regMask) start in
            let outInt := N.lor (N.shiftr regInt (length - shift)) (N.land (shl64 regInt shift) lengthMask) in
            Wr (N.lor (shl64 outInt start) otherRes) (psi lcv) Ret) fresh m' /\ r = Ok (Some m')
    end.

  (** ** INC and CINC, arithmetic.cpp:61-150 *)
  Definition INC (n toAdd start length : N) (v : option V) (r : res (option V)) : Prop :=
    if isBadBitRange start length n then r = Throw
    else match v with
    | None => r = Ok None
    | Some psi =>
      if length =? 0 then r = Ok v
      else
        let lengthMask := pow2MaskOcl length in
        let toAddOcl := N.land (w64 toAdd) lengthMask in
        if toAddOcl =? 0 then r = Ok v
        else
          let inOutMask := shl64 lengthMask start in
          let otherMask := N.lxor (2 ^ n - 1) inOutMask in
          exists fresh m', loop_for c (2 ^ n) (fun lcv =>
            let otherRes := N.land lcv otherMask in
            let inOutInt := N.shiftr (N.land lcv inOutMask) start in
            let outInt := N.land (w64 (inOutInt + toAddOcl)) lengthMask in
            Wr (N.lor (shl64 outInt start) otherRes) (psi lcv) Ret) fresh m' /\ r = Ok (Some m')
    end.
  Definition CINC (n toAdd start length : N) (controls : list N) (v : option V) (r : res (option V)) : Prop :=
    match v with
    | None => r = Ok None
    | Some psi =>
      match controls with
      | [] => INC n toAdd start length v r
      | _ =>
        if isBadBitRange start length n || throwIfQbIdArrayIsBad controls n then r = Throw
        else if length =? 0 then r = Ok v
        else
          let lengthMask := pow2Ocl length - 1 in
          let toAddOcl := N.land (w64 toAdd) lengthMask in
          if toAddOcl =? 0 then r = Ok v
          else
            let controlMask := or_pows controls in
            let inOutMask := shl64 lengthMask start in
            let otherMask := N.lxor (2 ^ n - 1) (N.lor inOutMask controlMask) in
            exists m0 m', new_copy n psi m0 /\
              loop_mask c (2 ^ n) (nsort (map pow2Ocl controls)) (fun lcv =>
                let otherRes := N.land lcv otherMask in
                let inOutInt := N.shiftr (N.land lcv inOutMask) start in
                let outInt := N.land (w64 (inOutInt + toAddOcl)) lengthMask in
                Wr (N.lor (N.lor (shl64 outInt start) otherRes) controlMask) (psi (N.lor lcv controlMask)) Ret) m0 m' /\
              r = Ok (Some m')
      end
    end.
  (** DEC and CDEC, qalu.cpp:22-33. *)
  Definition DEC (n toSub start length : N) := INC n (sub128 (pow2_128 length) toSub) start length.
  Definition CDEC (n toSub start length : N) := CINC n (sub128 (pow2_128 length) toSub) start length.

  (** ** Addition with carry and signed addition, arithmetic.cpp:152-364.
      [ovf] selects the phase: INCDECC flips none, INCS (no carry) and the five-argument INCDECSC flip on overflow when the
      overflow qubit is set in the result, the four-argument INCDECSC on every overflow. *)
  Inductive phase_mode := NoFlip | FlipAlways | FlipIf (overflowIndex : N).
  Definition flip_val (md : phase_mode) (isOverflow : bool) (outRes : N) (y : K) : K :=
    match md with
    | NoFlip => y
    | FlipAlways => if isOverflow then (- y)%amp else y
    | FlipIf q => if isOverflow && (N.land outRes (pow2Ocl q) =? pow2Ocl q) then (- y)%amp else y
    end.
  Definition mode_bad (md : phase_mode) (n : N) : bool := match md with FlipIf q => n <=? q | _ => false end.
  (** INCDECC (lines 152-196) and the two forms of INCDECSC (256-364). *)
  Definition IncDecC (md : phase_mode) (n toMod start length carryIndex : N) (v : option V) (r : res (option V)) : Prop :=
    if isBadBitRange start length n || (n <=? carryIndex) || mode_bad md n then r = Throw
    else match v with
    | None => r = Ok None
    | Some psi =>
      if length =? 0 then r = Ok v
      else
        let lengthPower := pow2Ocl length in
        let lengthMask := lengthPower - 1 in
        let toModOcl := N.land (w64 toMod) lengthMask in
        if toModOcl =? 0 then r = Ok v
        else
          let signMask := pow2Ocl (length - 1) in
          let carryMask := pow2Ocl carryIndex in
          let inOutMask := shl64 lengthMask start in
          let otherMask := N.lxor (2 ^ n - 1) (N.lor inOutMask carryMask) in
          exists m0 m', new_zero n m0 /\
            loop_skip c (2 ^ n) (pow2Ocl carryIndex) 1 (fun lcv =>
              let otherRes := N.land lcv otherMask in
              let inOutInt := N.shiftr (N.land lcv inOutMask) start in
              let outInt := w64 (inOutInt + toModOcl) in
              let outRes := if outInt <? lengthPower then N.lor (shl64 outInt start) otherRes
                            else N.lor (N.lor (shl64 (outInt - lengthPower) start) otherRes) carryMask in
              Wr outRes (flip_val md (isOverflowAdd inOutInt toModOcl signMask lengthPower) outRes (psi lcv)) Ret) m0 m' /\
            r = Ok (Some m')
    end.
  Definition INCDECC := IncDecC NoFlip.
  Definition INCDECSC4 := IncDecC FlipAlways.
  Definition INCDECSC5 (n toMod start length overflowIndex carryIndex : N) := IncDecC (FlipIf overflowIndex) n toMod start length carryIndex.
  (** INCS, lines 198-254. *)
  Definition INCS (n toAdd start length overflowIndex : N) (v : option V) (r : res (option V)) : Prop :=
    if isBadBitRange start length n || (n <=? overflowIndex) then r = Throw
    else match v with
    | None => r = Ok None
    | Some psi =>
      if length =? 0 then r = Ok v
      else
        let lengthPower := pow2Ocl length in
        let lengthMask := lengthPower - 1 in
        let toAddOcl := N.land (w64 toAdd) lengthMask in
        if toAddOcl =? 0 then r = Ok v
        else
          let signMask := pow2Ocl (length - 1) in
          let inOutMask := shl64 lengthMask start in
          let otherMask := N.lxor (2 ^ n - 1) inOutMask in
          exists m0 m', new_zero n m0 /\
            loop_for c (2 ^ n) (fun lcv =>
              let otherRes := N.land lcv otherMask in
              let inOutInt := N.shiftr (N.land lcv inOutMask) start in
              let outInt := w64 (inOutInt + toAddOcl) in
              let outRes := if outInt <? lengthPower then N.lor (shl64 outInt start) otherRes
                            else N.lor (shl64 (outInt - lengthPower) start) otherRes in
              Wr outRes (flip_val (FlipIf overflowIndex) (isOverflowAdd inOutInt toAddOcl signMask lengthPower) outRes (psi lcv)) Ret) m0 m' /\
            r = Ok (Some m')
    end.
  (** DECS, qalu.cpp:40-44. *)
  Definition DECS (n toSub start length overflowIndex : N) := INCS n (sub128 (pow2_128 length) toSub) start length overflowIndex.

  (** The measured carry is cleared, then [act b] runs, where [b] is the carry that was measured, qalu.cpp:46-142. *)
  Definition with_carry (rgp : bool) (nrm : K) (n carryIndex : N) (act : bool -> option V -> res (option V) -> Prop)
      (psi : V) (r : res (option V)) : Prop :=
    exists b psi1, MBit nrm n carryIndex psi b psi1 /\
      if b then exists r1, Mtrx c rgp n matX carryIndex (Some psi1) r1 /\
             match r1 with
             | Ok v1 => act true v1 r
             | Throw => r = Throw
             end
      else act false (Some psi1) r.
  (** INCC, qalu.cpp:46-59. *)
  Definition INCC (rgp : bool) (nrm : K) (n toAdd start length carryIndex : N) (psi : V) (r : res (option V)) : Prop :=
    if length =? 0 then r = Ok (Some psi)
    else with_carry rgp nrm n carryIndex (fun b => INCDECC n (if b then w128 (toAdd + 1) else toAdd) start length carryIndex) psi r.
  (** DECC, qalu.cpp:62-73. *)
  Definition dec_const (length toSub : N) (b : bool) : N :=
    let inv := sub128 (pow2_128 length) toSub in if b then inv else sub128 inv 1.
  Definition DECC (rgp : bool) (nrm : K) (n toSub start length carryIndex : N) (psi : V) (r : res (option V)) : Prop :=
    with_carry rgp nrm n carryIndex (fun b => INCDECC n (dec_const length toSub b) start length carryIndex) psi r.
  (** The phase rule of the form without (line 81) and with (line 112) an overflow qubit. *)
  Definition flag_mode (flag : option N) : phase_mode := match flag with None => FlipAlways | Some o => FlipIf o end.
  (** INCSC and DECSC, qalu.cpp:81-142; [md] selects the form with or without overflow qubit. *)
  Definition INCSC (md : phase_mode) (rgp : bool) (nrm : K) (n toAdd start length carryIndex : N) (psi : V) (r : res (option V)) : Prop :=
    with_carry rgp nrm n carryIndex (fun b => IncDecC md n (if b then w128 (toAdd + 1) else toAdd) start length carryIndex) psi r.
  Definition DECSC (md : phase_mode) (rgp : bool) (nrm : K) (n toSub start length carryIndex : N) (psi : V) (r : res (option V)) : Prop :=
    with_carry rgp nrm n carryIndex (fun b => IncDecC md n (dec_const length toSub b) start length carryIndex) psi r.

  (** ** Multiplication, arithmetic.cpp:366-537 *)
  (** [mulRes] without the control mask, lines 392-395 and 474-477. *)
  Definition mul_res (n toMul inOutStart carryStart length extra lcv : N) : N :=
    let lowMask := pow2MaskOcl length in
    let highMask := shl64 lowMask length in
    let inOutMask := shl64 lowMask inOutStart in
    let carryMask := shl64 lowMask carryStart in
    let otherMask := N.lxor (2 ^ n - 1) (N.lor (N.lor inOutMask carryMask) extra) in
    let otherRes := N.land lcv otherMask in
    let mulInt := w64 (N.shiftr (N.land lcv inOutMask) inOutStart * w64 toMul) in
    N.lor (N.lor (shl64 (N.land mulInt lowMask) inOutStart) (shl64 (N.shiftr (N.land mulInt highMask) length) carryStart)) otherRes.
  (** MULDIV, lines 366-400; [inverse] selects the functions passed by DIV (lines 428-429) instead of MUL (414-415). *)
  Definition MULDIV (inverse : bool) (n toMul inOutStart carryStart length : N) (v : option V) (r : res (option V)) : Prop :=
    if isBadBitRange inOutStart length n || isBadBitRange carryStart length n then r = Throw
    else match v with
    | None => r = Ok None
    | Some psi =>
        exists m0 m', new_zero n m0 /\
          loop_skip c (2 ^ n) (pow2Ocl carryStart) length (fun lcv =>
            let mulRes := mul_res n toMul inOutStart carryStart length 0 lcv in
            if inverse then Wr lcv (psi mulRes) Ret else Wr mulRes (psi lcv) Ret) m0 m' /\ r = Ok (Some m')
    end.
  (** Running an operation on the vector a previous one left behind. *)
  Definition and_then (R1 : res (option V) -> Prop) (R2 : option V -> res (option V) -> Prop) (r : res (option V)) : Prop :=
    exists r1, R1 r1 /\ match r1 with Throw => r = Throw | Ok v1 => R2 v1 r end.
  Definition on_vec (R : V -> res (option V) -> Prop) (v : option V) (r : res (option V)) : Prop :=
    match v with None => r = Ok None | Some psi => R psi r end.
  (** MUL, lines 402-416. *)
  Definition MUL (rgp : bool) (nrm : K) (n toMul inOutStart carryStart length : N) (psi : V) (r : res (option V)) : Prop :=
    and_then (SetReg rgp nrm n carryStart length 0 psi) (fun v1 r =>
      if toMul =? 0 then on_vec (SetReg rgp nrm n inOutStart length 0) v1 r
      else if toMul =? 1 then r = Ok v1
      else MULDIV false n toMul inOutStart carryStart length v1 r) r.
  (** DIV, lines 418-430. *)
  Definition DIV (n toDiv inOutStart carryStart length : N) (v : option V) (r : res (option V)) : Prop :=
    if toDiv =? 0 then r = Throw
    else if toDiv =? 1 then r = Ok v
    else MULDIV true n toDiv inOutStart carryStart length v r.

  (** The control mask selected by the bits of [j], lines 482-489 and 667-674. *)
  Fixpoint part_mask (j : N) (controls : list N) : N :=
    match controls with
    | [] => 0
    | q :: t => N.lor (if N.testbit j 0 then pow2Ocl q else 0) (part_mask (N.shiftr j 1) t)
    end.
  (** The untouched basis states copied by the body, lines 481-491 and 665-675: the controls all clear, and every proper
      non-empty subset set. *)
  Definition untouched (controls : list N) (psi : V) (lcv : N) : list (N * K) :=
    (lcv, psi lcv) ::
    map (fun j => (N.lor lcv (part_mask j controls), psi (N.lor lcv (part_mask j controls))))
        (iota 1 (N.to_nat (pow2MaskOcl (N.of_nat (length controls)) - 1))).
  Definition skip_powers (controls : list N) (start length : N) : list N :=
    nsort (map pow2Ocl controls ++ map (fun i => pow2Ocl (start + i)) (iota 0 (N.to_nat length))).
  (** CMULDIV, lines 432-495. *)
  Definition CMULDIV (inverse : bool) (n toMul inOutStart carryStart length : N) (controls : list N) (v : option V) (r : res (option V)) : Prop :=
    if isBadBitRange inOutStart length n || isBadBitRange carryStart length n || throwIfQbIdArrayIsBad controls n then r = Throw
    else match v with
    | None => r = Ok None
    | Some psi =>
        let controlMask := or_pows controls in
        exists m0 m', new_zero n m0 /\
          loop_mask c (2 ^ n) (skip_powers controls carryStart length) (fun lcv =>
            let mulRes := N.lor (mul_res n toMul inOutStart carryStart length controlMask lcv) controlMask in
            let origRes := N.lor lcv controlMask in
            wrs ((if inverse then (origRes, psi mulRes) else (mulRes, psi origRes)) :: untouched controls psi lcv)) m0 m' /\
          r = Ok (Some m')
    end.
  (** CMUL and CDIV, lines 497-537. *)
  Definition CMUL (rgp : bool) (nrm : K) (n toMul inOutStart carryStart length : N) (controls : list N) (psi : V) (r : res (option V)) : Prop :=
    match controls with
    | [] => MUL rgp nrm n toMul inOutStart carryStart length psi r
    | _ =>
      and_then (SetReg rgp nrm n carryStart length 0 psi) (fun v1 r =>
        if toMul =? 0 then on_vec (SetReg rgp nrm n inOutStart length 0) v1 r
        else if toMul =? 1 then r = Ok v1
        else CMULDIV false n toMul inOutStart carryStart length controls v1 r) r
    end.
  Definition CDIV (n toDiv inOutStart carryStart length : N) (controls : list N) (v : option V) (r : res (option V)) : Prop :=
    match controls with
    | [] => DIV n toDiv inOutStart carryStart length v r
    | _ => if toDiv =? 0 then r = Throw
           else if toDiv =? 1 then r = Ok v
           else CMULDIV true n toDiv inOutStart carryStart length controls v r
    end.

  (** ** Modular operations, arithmetic.cpp:539-718 *)
  (** ModNOut, lines 539-576.  [kernelFn] is the 64-bit function applied to the input register; a zero modulus (division by
      zero, undefined in C++) is excluded by the theorems. *)
  Definition mod_mask (modN : N) : N :=
    (if isPowerOfTwoOcl modN then w64 modN else pow2Ocl (log2Ocl (w64 modN) + 1)) - 1.
  Definition ModNOut (kernelFn : N -> N) (n modN inStart outStart length : N) (inverse : bool) (v : option V) (r : res (option V)) : Prop :=
    if isBadBitRange inStart length n || isBadBitRange outStart length n then r = Throw
    else match v with
    | None => r = Ok None
    | Some psi =>
        let inMask := shl64 (pow2MaskOcl length) inStart in
        let outMask := shl64 (mod_mask modN) outStart in
        let otherMask := N.lxor (2 ^ n - 1) (N.lor inMask outMask) in
        exists m0 m', new_zero n m0 /\
          loop_skip c (2 ^ n) (pow2Ocl outStart) length (fun lcv =>
            let otherRes := N.land lcv otherMask in
            let inRes := N.land lcv inMask in
            let outRes := shl64 (kernelFn (N.shiftr inRes inStart) mod w64 modN) outStart in
            let res := N.lor (N.lor inRes outRes) otherRes in
            if inverse then Wr lcv (psi res) Ret else Wr res (psi lcv) Ret) m0 m' /\ r = Ok (Some m')
    end.
  Definition mul_fn (toMod x : N) : N := w64 (x * w64 toMod).
  Definition pow_fn (toMod x : N) : N := intPowOcl (w64 toMod) x.
  (** MULModNOut, IMULModNOut, POWModNOut, lines 578-612. *)
  Definition MULModNOut (rgp : bool) (nrm : K) (n toMod modN inStart outStart length : N) (psi : V) (r : res (option V)) : Prop :=
    and_then (SetReg rgp nrm n outStart length 0 psi) (fun v1 r =>
      if toMod =? 0 then r = Ok v1 else ModNOut (mul_fn toMod) n modN inStart outStart length false v1 r) r.
  Definition IMULModNOut (n toMod modN inStart outStart length : N) (v : option V) (r : res (option V)) : Prop :=
    if toMod =? 0 then r = Ok v else ModNOut (mul_fn toMod) n modN inStart outStart length true v r.
  Definition POWModNOut (rgp : bool) (nrm : K) (n toMod modN inStart outStart length : N) (psi : V) (r : res (option V)) : Prop :=
    if toMod =? 1 then SetReg rgp nrm n outStart length 1 psi r
    else ModNOut (pow_fn toMod) n modN inStart outStart length false (Some psi) r.
  (** CModNOut, lines 614-679. *)
  Definition CModNOut (kernelFn : N -> N) (n modN inStart outStart length : N) (controls : list N) (inverse : bool)
      (v : option V) (r : res (option V)) : Prop :=
    if isBadBitRange inStart length n || isBadBitRange outStart length n || throwIfQbIdArrayIsBad controls n then r = Throw
    else match v with
    | None => r = Ok None
    | Some psi =>
        let controlMask := or_pows controls in
        let lowMask := pow2Ocl length - 1 in
        let inMask := shl64 lowMask inStart in
        let outMask := shl64 lowMask outStart in
        let otherMask := N.lxor (2 ^ n - 1) (N.lor (N.lor inMask outMask) controlMask) in
        exists m0 m', new_zero n m0 /\
          loop_mask c (2 ^ n) (skip_powers controls outStart length) (fun lcv =>
            let otherRes := N.land lcv otherMask in
            let inRes := N.land lcv inMask in
            let outRes := shl64 (kernelFn (N.shiftr inRes inStart) mod w64 modN) outStart in
            let res := N.lor (N.lor (N.lor inRes outRes) otherRes) controlMask in
            let orig := N.lor lcv controlMask in
            wrs ((if inverse then (orig, psi res) else (res, psi orig)) :: untouched controls psi lcv)) m0 m' /\
          r = Ok (Some m')
    end.
  (** CMULModNOut, CIMULModNOut, CPOWModNOut, lines 681-718. *)
  Definition CMULModNOut (rgp : bool) (nrm : K) (n toMod modN inStart outStart length : N) (controls : list N) (psi : V) (r : res (option V)) : Prop :=
    match controls with
    | [] => MULModNOut rgp nrm n toMod modN inStart outStart length psi r
    | _ => and_then (SetReg rgp nrm n outStart length 0 psi) (CModNOut (mul_fn toMod) n modN inStart outStart length controls false) r
    end.
  Definition CIMULModNOut (n toMod modN inStart outStart length : N) (controls : list N) (v : option V) (r : res (option V)) : Prop :=
    match controls with
    | [] => IMULModNOut n toMod modN inStart outStart length v r
    | _ => CModNOut (mul_fn toMod) n modN inStart outStart length controls true v r
    end.
  Definition CPOWModNOut (rgp : bool) (nrm : K) (n toMod modN inStart outStart length : N) (controls : list N) (psi : V) (r : res (option V)) : Prop :=
    match controls with
    | [] => POWModNOut rgp nrm n toMod modN inStart outStart length psi r
    | _ => CModNOut (pow_fn toMod) n modN inStart outStart length controls false (Some psi) r
    end.

  (** ** Table look-up, arithmetic.cpp:885-1226.  [tab] is the byte array; entries are little-endian integers of
      [valueBytes] bytes (the 16- and 32-bit pointer casts of lines 918-930 read the same bytes on a little-endian host;
      the byte loop of lines 936-938 is the definition). *)
  Definition value_bytes (length : N) : N := N.shiftr (w64 (length + 7)) 3.
  Definition load (tab : N -> N) (bytes i : N) : N :=
    fold_left (fun a j => N.lor a (shl64 (tab (w64 (w64 (i * bytes) + j))) (8 * j))) (iota 0 (N.to_nat bytes)) 0.
  (** IndexedLDA, lines 885-953. *)
  Definition IndexedLDA_core (n indexStart indexLength valueStart valueLength : N) (tab : N -> N) (psi : V) (r : res (option V)) : Prop :=
    let inputMask := bitRegMaskOcl indexStart indexLength in
    exists m0 m', new_zero n m0 /\
      loop_skip c (2 ^ n) (pow2Ocl valueStart) valueLength (fun lcv =>
        let entry := load tab (value_bytes valueLength) (N.shiftr (N.land lcv inputMask) indexStart) in
        Wr (N.lor lcv (shl64 entry valueStart)) (psi lcv) Ret) m0 m' /\ r = Ok (Some m').
  Definition IndexedLDA (rgp : bool) (nrm : K) (n indexStart indexLength valueStart valueLength : N) (tab : N -> N) (resetValue : bool)
      (v : option V) (r : res (option V)) : Prop :=
    if isBadBitRange indexStart indexLength n || isBadBitRange valueStart valueLength n then r = Throw
    else match v with
    | None => r = Ok None
    | Some psi =>
        if resetValue then and_then (SetReg rgp nrm n valueStart valueLength 0 psi)
                             (on_vec (IndexedLDA_core n indexStart indexLength valueStart valueLength tab)) r
        else IndexedLDA_core n indexStart indexLength valueStart valueLength tab psi r
    end.
  (** IndexedADC, lines 955-1068, and IndexedSBC, lines 1070-1187: after measuring and clearing the carry.  The loop of
      IndexedSBC skips [valueLength] qubits from the carry qubit on (line 1125), that of IndexedADC one (line 1010). *)
  Definition idx_loop (sub : bool) (carryIn n indexStart indexLength valueStart valueLength carryIndex : N) (tab : N -> N)
      (psi : V) (r : res (option V)) : Prop :=
    let lengthPower := pow2Ocl valueLength in
    let carryMask := pow2Ocl carryIndex in
    let inputMask := bitRegMaskOcl indexStart indexLength in
    let outputMask := bitRegMaskOcl valueStart valueLength in
    let otherMask := N.land (2 ^ n - 1) (not64 (N.lor (N.lor inputMask outputMask) carryMask)) in
    exists m0 m', new_zero n m0 /\
      loop_skip c (2 ^ n) (pow2Ocl carryIndex) (if sub then valueLength else 1) (fun lcv =>
        let otherRes := N.land lcv otherMask in
        let inputRes := N.land lcv inputMask in
        let entry := load tab (value_bytes valueLength) (N.shiftr inputRes indexStart) in
        let reg := N.shiftr (N.land lcv outputMask) valueStart in
        let outputInt := if sub then w64 (reg + sub64 lengthPower (w64 (entry + carryIn)))
                         else w64 (entry + w64 (reg + carryIn)) in
        let carryRes := if lengthPower <=? outputInt then carryMask else 0 in
        let outputInt := if lengthPower <=? outputInt then outputInt - lengthPower else outputInt in
        Wr (N.lor (N.lor (N.lor (shl64 outputInt valueStart) inputRes) otherRes) carryRes) (psi lcv) Ret) m0 m' /\ r = Ok (Some m').
  Definition IndexedAS (sub : bool) (rgp : bool) (nrm : K) (n indexStart indexLength valueStart valueLength carryIndex : N) (tab : N -> N)
      (v : option V) (r : res (option V)) : Prop :=
    if isBadBitRange indexStart indexLength n || isBadBitRange valueStart valueLength n || (n <=? carryIndex) then r = Throw
    else match v with
    | None => r = Ok None
    | Some psi =>
        with_carry rgp nrm n carryIndex (fun b =>
          on_vec (idx_loop sub (if Bool.eqb b sub then 0 else 1) n indexStart indexLength valueStart valueLength carryIndex tab)) psi r
    end.
  Definition IndexedADC := IndexedAS false.
  Definition IndexedSBC := IndexedAS true.
  (** Hash, lines 1189-1226. *)
  Definition Hash (n start length : N) (tab : N -> N) (v : option V) (r : res (option V)) : Prop :=
    if isBadBitRange start length n then r = Throw
    else match v with
    | None => r = Ok None
    | Some psi =>
        let inputMask := bitRegMaskOcl start length in
        exists m0 m', new_zero n m0 /\
          loop_for c (2 ^ n) (fun lcv =>
            let inputRes := N.land lcv inputMask in
            let outputInt := load tab (value_bytes length) (N.shiftr inputRes start) in
            Wr (N.lor (shl64 outputInt start) (N.land lcv (not64 inputRes))) (psi lcv) Ret) m0 m' /\ r = Ok (Some m')
    end.

  (** ** FullAdd and IFullAdd, arithmetic.cpp:1228-1394 (in place).  The four amplitudes are named by (carry-out qubit,
      carry-in/sum qubit). *)
  Definition fa_vals (a b : bool) (i00 i01 i10 i11 : K) : K * K * K * K :=
    (* outs0c0, outs0c1 (carry set), outs1c0 (sum set), outs1c1; lines 1268-1303 *)
    match a, b with
    | false, false => (i00, i10, i01, i11)
    | false, true => (i11, i01, i00, i10)
    | true, false => (i11, i01, i00, i10)
    | true, true => (i10, i00, i11, i01)
    end.
  Definition FullAdd (n in1 in2 sum carry : N) (v : option V) (r : res (option V)) : Prop :=
    if (n <=? in1) || (n <=? in2) || (n <=? sum) || (n <=? carry) then r = Throw
    else match v with
    | None => r = Ok None
    | Some psi =>
        let sm := pow2Ocl sum in let cm := pow2Ocl carry in
        exists m', loop_mask c (2 ^ n) (nsort [sm; cm]) (fun lcv =>
          Rd lcv (fun i00 => Rd (N.lor lcv sm) (fun i01 => Rd (N.lor lcv cm) (fun i10 => Rd (N.lor (N.lor lcv sm) cm) (fun i11 =>
            let '(o00, o01, o10, o11) := fa_vals (negb (N.land lcv (pow2Ocl in1) =? 0)) (negb (N.land lcv (pow2Ocl in2) =? 0)) i00 i01 i10 i11 in
            Wr lcv o00 (Wr (N.lor lcv cm) o01 (Wr (N.lor lcv sm) o10 (Wr (N.lor (N.lor lcv sm) cm) o11 Ret)))))))) psi m' /\ r = Ok (Some m')
    end.
  Definition ifa_vals (a b : bool) (o00 o01 o10 o11 : K) : K * K * K * K :=
    (* ins0c0, ins0c1 (sum/carry-in set), ins1c0 (carry-out set), ins1c1; lines 1352-1387 *)
    match a, b with
    | false, false => (o00, o10, o01, o11)
    | false, true => (o10, o01, o11, o00)
    | true, false => (o10, o01, o11, o00)
    | true, true => (o01, o11, o00, o10)
    end.
  Definition IFullAdd (n in1 in2 sum carry : N) (v : option V) (r : res (option V)) : Prop :=
    if (n <=? in1) || (n <=? in2) || (n <=? sum) || (n <=? carry) then r = Throw
    else match v with
    | None => r = Ok None
    | Some psi =>
        let sm := pow2Ocl sum in let cm := pow2Ocl carry in
        exists m', loop_mask c (2 ^ n) (nsort [sm; cm]) (fun lcv =>
          Rd lcv (fun o00 => Rd (N.lor lcv cm) (fun o01 => Rd (N.lor lcv sm) (fun o10 => Rd (N.lor (N.lor lcv sm) cm) (fun o11 =>
            let '(i00, i01, i10, i11) := ifa_vals (negb (N.land lcv (pow2Ocl in1) =? 0)) (negb (N.land lcv (pow2Ocl in2) =? 0)) o00 o01 o10 o11 in
            Wr lcv i00 (Wr (N.lor lcv sm) i01 (Wr (N.lor lcv cm) i10 (Wr (N.lor (N.lor lcv sm) cm) i11 Ret)))))))) psi m' /\ r = Ok (Some m')
    end.

  (** ** PhaseFlipIfLess and CPhaseFlipIfLess, arithmetic.cpp:1396-1438 *)
  Definition PhaseFlipIfLess (n greaterPerm start length : N) (flag : option N) (v : option V) (r : res (option V)) : Prop :=
    if isBadBitRange start length n || match flag with Some q => n <=? q | None => false end then r = Throw
    else match v with
    | None => r = Ok None
    | Some psi =>
        let regMask := bitRegMaskOcl start length in
        exists m', loop_for c (2 ^ n) (fun lcv =>
          if (N.shiftr (N.land lcv regMask) start <? w64 greaterPerm) &&
             match flag with Some q => N.land lcv (pow2Ocl q) =? pow2Ocl q | None => true end
          then Rd lcv (fun y => Wr lcv (- y)%amp Ret) else Ret) psi m' /\ r = Ok (Some m')
    end.
End Alu.
