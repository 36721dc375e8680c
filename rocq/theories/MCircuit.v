(** Model of the generic (gate-level) implementations of the base class QInterface:
    /repo/src/qinterface/{arithmetic,logic,gates,qinterface}.cpp and the inline bodies of /repo/include/qinterface.hpp.

    - A generic operation is the list of primitive virtual calls it makes: [GM cs m t] is MCMtrx(cs, m, t) (Mtrx when
      [cs] is empty) and [GXM mask] is XMask(mask).  [crun] executes such a list on the CPU engine.
    - Calls to other virtual functions go to their generic bodies (on an engine that overrides them the override is
      called instead; see the engine theorems for those).
    - Loops over bitLenInt (8-bit) counters are lists of indices; sums of qubit indices are written with their 8-bit wrap
      only where an in-range call can wrap (INCDECC).
    - The entries of the matrices: [h] is SQRT1_2_R1, [i] is I_CMPLX, [root k] is pow(-1, 1/2^(k-1)) and [iroot k] is
      pow(-1, -1/2^(k-1)).
    - trySeparate (a hint to QUnit) is not modelled. *)
From Coq Require Import NArith List Bool.
From Verif Require Import MFunctions MParFor MKernel Amp MEngine MAlu.
Import ListNotations.
Local Open Scope N_scope.

Section Circuit.
  Context {K : StarRing}.
  Local Notation V := (mem K).

  Inductive gop := GM (cs : list N) (m : mat2 K) (t : N) | GXM (mask : N).
  Definition circ := list gop.

  (** Execution on the CPU engine; an exception ends the sequence. *)
  Definition gstep (c : cfg) (rgp : bool) (n : N) (g : gop) (v : option V) (r : res (option V)) : Prop :=
    match g with
    | GM cs m t => EitherMtrx c rgp false n cs m t v r
    | GXM mask => XMask c rgp n mask v r
    end.
  Fixpoint crun (c : cfg) (rgp : bool) (n : N) (l : circ) (v : option V) (r : res (option V)) : Prop :=
    match l with
    | [] => r = Ok v
    | g :: t => exists r1, gstep c rgp n g v r1 /\ match r1 with Throw => r = Throw | Ok v1 => crun c rgp n t v1 r end
    end.

  (** ** Inline gates, qinterface.hpp *)

  (** Invert, 529-533; X, 1084; MCInvert, 553-558. *)
  Definition qi_Invert (tr bl : K) (q : N) : circ := [GM [] (mkMat 0%amp tr bl 0%amp) q].
  Definition qi_X (q : N) : circ := qi_Invert 1%amp 1%amp q.
  Definition qi_MCInvert (cs : list N) (tr bl : K) (t : N) : circ := [GM cs (mkMat 0%amp tr bl 0%amp) t].
  (** Phase, 516-524; MCPhase, 538-547. *)
  Definition qi_Phase (rgp : bool) (tl br : K) (q : N) : circ :=
    if (rgp || sr_eqb (1 - tl)%amp 0%amp) && sr_eqb (tl - br)%amp 0%amp then [] else [GM [] (mkMat tl 0%amp 0%amp br) q].
  Definition qi_MCPhase (cs : list N) (tl br : K) (t : N) : circ :=
    if sr_eqb (1 - tl)%amp 0%amp && sr_eqb (1 - br)%amp 0%amp then [] else [GM cs (mkMat tl 0%amp 0%amp br) t].
  (** MACWrapper, 179-189; MACPhase, 563-573; MACInvert, 579-585; MACMtrx, 494-504. *)
  Definition pow_mask (cs : list N) : N := fold_left (fun a q => N.lor a (2 ^ q)) cs 0.
  Definition qi_MACWrapper (cs : list N) (fn : circ) : circ := [GXM (pow_mask cs)] ++ fn ++ [GXM (pow_mask cs)].
  Definition qi_MACPhase (cs : list N) (tl br : K) (t : N) : circ :=
    if sr_eqb (1 - tl)%amp 0%amp && sr_eqb (1 - br)%amp 0%amp then [] else qi_MACWrapper cs (qi_MCPhase cs tl br t).
  Definition qi_MACInvert (cs : list N) (tr bl : K) (t : N) : circ := qi_MACWrapper cs (qi_MCInvert cs tr bl t).
  Definition qi_MACMtrx (cs : list N) (m : mat2 K) (t : N) : circ :=
    if sr_eqb (m01 m) 0%amp && sr_eqb (m10 m) 0%amp then qi_MACPhase cs (m00 m) (m11 m) t
    else if sr_eqb (m00 m) 0%amp && sr_eqb (m11 m) 0%amp then qi_MACInvert cs (m01 m) (m10 m) t
    else qi_MACWrapper cs [GM cs m t].
  (** CCNOT, AntiCCNOT, CNOT, AntiCNOT, CZ, 686-782. *)
  Definition qi_CCNOT (c1 c2 t : N) : circ := qi_MCInvert [c1; c2] 1%amp 1%amp t.
  Definition qi_AntiCCNOT (c1 c2 t : N) : circ := qi_MACInvert [c1; c2] 1%amp 1%amp t.
  Definition qi_CNOT (c t : N) : circ := qi_MCInvert [c] 1%amp 1%amp t.
  Definition qi_AntiCNOT (c t : N) : circ := qi_MACInvert [c] 1%amp 1%amp t.
  Definition qi_CZ (c t : N) : circ := qi_MCPhase [c] 1%amp (- (1))%amp t.
  (** H, 913-919; S, IS, T, IT, 1027-1048. *)
  Definition matH (h : K) : mat2 K := mkMat h h h (- h)%amp.
  Definition qi_H (h : K) (q : N) : circ := [GM [] (matH h) q].
  Definition qi_S (rgp : bool) (i : K) (q : N) : circ := qi_Phase rgp 1%amp i q.
  Definition qi_IS (rgp : bool) (i : K) (q : N) : circ := qi_Phase rgp 1%amp (- i)%amp q.
  Definition qi_T (rgp : bool) (h i : K) (q : N) : circ := qi_Phase rgp 1%amp (h + i * h)%amp q.
  Definition qi_IT (rgp : bool) (h i : K) (q : N) : circ := qi_Phase rgp 1%amp (h - i * h)%amp q.
  (** CPhaseRootN, 1321-1329; CIPhaseRootN, 1353-1361. *)
  Definition qi_CPhaseRootN (root : N -> K) (k c t : N) : circ := if k =? 0 then [] else qi_MCPhase [c] 1%amp (root k) t.
  Definition qi_CIPhaseRootN (iroot : N -> K) (k c t : N) : circ := if k =? 0 then [] else qi_MCPhase [c] 1%amp (iroot k) t.

  (** ** gates.cpp *)

  (** Indices of the set bits in increasing order: the loop [while (mask) { v = v & (v - 1); f(log2(mask ^ v)); mask = v; }],
      lines 101-110; a 128-bit mask has at most 128 of them. *)
  Fixpoint mask_bits (fuel : nat) (mask : N) : list N :=
    match fuel with
    | O => []
    | S f => if mask =? 0 then [] else let v := N.land mask (mask - 1) in N.log2 (N.lxor mask v) :: mask_bits f v
    end.
  (** The generic XMask, 101-110; Z, qinterface.hpp:1111; ZMask, 144-153. *)
  Definition qi_XMask (mask : N) : circ := flat_map qi_X (mask_bits 128 mask).
  Definition qi_Z (rgp : bool) (q : N) : circ := qi_Phase rgp 1%amp (- (1))%amp q.
  Definition qi_ZMask (rgp : bool) (mask : N) : circ := flat_map (qi_Z rgp) (mask_bits 128 mask).

  (** X on the controls whose wanted value is [v]: bit [i] of [perm] for control [i]. *)
  Fixpoint x_where (i : N) (cs : list N) (perm : N) (v : bool) : circ :=
    match cs with
    | [] => []
    | q :: t => (if Bool.eqb (N.testbit perm i) v then qi_X q else []) ++ x_where (i + 1) t perm v
    end.
  Fixpoint set_count (i : N) (cs : list N) (perm : N) : N :=
    match cs with
    | [] => 0
    | _ :: t => (if N.testbit perm i then 1 else 0) + set_count (i + 1) t perm
    end.
  (** UCMtrx, 23-60. *)
  Definition qi_UCMtrx (cs : list N) (m : mat2 K) (t perm : N) : circ :=
    if N.of_nat (length cs) <? 2 * set_count 0 cs perm
    then x_where 0 cs perm false ++ [GM cs m t] ++ x_where 0 cs perm false
    else x_where 0 cs perm true ++ qi_MACMtrx cs m t ++ x_where 0 cs perm true.
  (** UniformlyControlledSingleBit, 62-82, with no skip powers (the three-argument form, qinterface.hpp:633-637); [M k] is
      the [k]-th matrix of the array.  The last matrix is applied after the loop. *)
  Definition qi_UCSB (cs : list N) (t : N) (M : N -> mat2 K) : circ :=
    let maxI := 2 ^ N.of_nat (length cs) - 1 in
    flat_map qi_X cs ++
    flat_map (fun lcv => GM cs (M lcv) t :: x_where 0 cs (N.lxor lcv (lcv + 1)) true) (iota 0 (N.to_nat maxI)) ++
    [GM cs (M maxI) t].
  (** ZeroPhaseFlip, 84-99. *)
  Definition qi_ZeroPhaseFlip (rgp : bool) (start length : N) : circ :=
    if length =? 0 then []
    else if length =? 1 then qi_Phase rgp (- (1))%amp 1%amp start
    else qi_MACPhase (iota start (N.to_nat (length - 1))) (- (1))%amp 1%amp (start + (length - 1)).

  (** Swap, 166-175; ISwap, 177-187; IISwap, 189-199. *)
  Definition qi_Swap (q1 q2 : N) : circ := if q1 =? q2 then [] else qi_CNOT q1 q2 ++ qi_CNOT q2 q1 ++ qi_CNOT q1 q2.
  Definition qi_ISwap (rgp : bool) (i : K) (q1 q2 : N) : circ :=
    if q1 =? q2 then [] else qi_Swap q1 q2 ++ qi_CZ q1 q2 ++ qi_S rgp i q1 ++ qi_S rgp i q2.
  Definition qi_IISwap (rgp : bool) (i : K) (q1 q2 : N) : circ :=
    if q1 =? q2 then [] else qi_IS rgp i q2 ++ qi_IS rgp i q1 ++ qi_CZ q1 q2 ++ qi_Swap q1 q2.
  (** SqrtSwap, 201-222; ISqrtSwap, 224-245. *)
  Definition qi_SqrtSwap (rgp : bool) (h i : K) (q1 q2 : N) : circ :=
    if q1 =? q2 then [] else
      qi_CNOT q1 q2 ++ qi_H h q1 ++ qi_IT rgp h i q2 ++ qi_T rgp h i q1 ++ qi_H h q2 ++ qi_H h q1 ++ qi_CNOT q1 q2 ++
      qi_H h q1 ++ qi_H h q2 ++ qi_IT rgp h i q1 ++ qi_H h q1 ++ qi_CNOT q1 q2 ++ qi_IS rgp i q1 ++ qi_S rgp i q2.
  Definition qi_ISqrtSwap (rgp : bool) (h i : K) (q1 q2 : N) : circ :=
    if q1 =? q2 then [] else
      qi_IS rgp i q2 ++ qi_S rgp i q1 ++ qi_CNOT q1 q2 ++ qi_H h q1 ++ qi_T rgp h i q1 ++ qi_H h q2 ++ qi_H h q1 ++
      qi_CNOT q1 q2 ++ qi_H h q1 ++ qi_H h q2 ++ qi_IT rgp h i q1 ++ qi_T rgp h i q2 ++ qi_H h q1 ++ qi_CNOT q1 q2.
  (** CSwap, 247-268; AntiCSwap, 270-280. *)
  Definition qi_CSwap (cs : list N) (q1 q2 : N) : circ :=
    match cs with
    | [] => qi_Swap q1 q2
    | _ => if q1 =? q2 then [] else
             qi_MCInvert (cs ++ [q1]) 1%amp 1%amp q2 ++ qi_MCInvert (cs ++ [q2]) 1%amp 1%amp q1 ++
             qi_MCInvert (cs ++ [q1]) 1%amp 1%amp q2
    end.
  Definition qi_AntiCSwap (cs : list N) (q1 q2 : N) : circ := [GXM (pow_mask cs)] ++ qi_CSwap cs q1 q2 ++ [GXM (pow_mask cs)].
  (** PhaseParity, 399-424: [em] is cos(radians/2) - i sin(radians/2) and [ep] cos(radians/2) + i sin(radians/2). *)
  Fixpoint cnot_chain (qs : list N) : circ :=
    match qs with
    | a :: ((b :: _) as t) => qi_CNOT a b ++ cnot_chain t
    | _ => []
    end.
  Fixpoint cnot_chain_back (qs : list N) : circ :=
    match qs with
    | a :: ((b :: _) as t) => cnot_chain_back t ++ qi_CNOT a b
    | _ => []
    end.
  Definition qi_PhaseParity (rgp : bool) (em ep : K) (mask : N) : circ :=
    if mask =? 0 then []
    else let qs := mask_bits 128 mask in
         cnot_chain qs ++ qi_Phase rgp em ep (last qs 0) ++ cnot_chain_back qs.

  (** ** qinterface.cpp and Reverse *)

  (** QFT, 112-131; IQFT, 134-151. *)
  Definition qi_QFT (root : N -> K) (h : K) (start length : N) : circ :=
    if length =? 0 then [] else
    let end_ := start + (length - 1) in
    flat_map (fun k =>
      let hBit := end_ - k in
      flat_map (fun j => qi_CPhaseRootN root (j + 2) hBit (hBit + 1 + j)) (iota 0 (N.to_nat k)) ++ qi_H h hBit)
      (iota 0 (N.to_nat length)).
  Definition qi_IQFT (iroot : N -> K) (h : K) (start length : N) : circ :=
    if length =? 0 then [] else
    flat_map (fun k =>
      flat_map (fun j => qi_CIPhaseRootN iroot (j + 2) ((start + k) - (j + 1)) (start + k)) (iota 0 (N.to_nat k)) ++
      qi_H h (start + k)) (iota 0 (N.to_nat length)).
  (** QFTR, 154-171; IQFTR, 174-190. *)
  Definition qi_QFTR (root : N -> K) (h : K) (qs : list N) : circ :=
    let at_ k := nth (N.to_nat k) qs 0 in
    let end_ := N.of_nat (length qs) - 1 in
    flat_map (fun k =>
      qi_H h (at_ (end_ - k)) ++
      flat_map (fun j => qi_CPhaseRootN root (j + 2) (at_ ((end_ - k) - (j + 1))) (at_ (end_ - k))) (iota 0 (N.to_nat (end_ - k))))
      (iota 0 (length qs)).
  Definition qi_IQFTR (iroot : N -> K) (h : K) (qs : list N) : circ :=
    let at_ k := nth (N.to_nat k) qs 0 in
    flat_map (fun k =>
      flat_map (fun j => qi_CIPhaseRootN iroot (j + 2) (at_ (k - (j + 1))) (at_ k)) (iota 0 (N.to_nat k)) ++ qi_H h (at_ k))
      (iota 0 (length qs)).
  (** Reverse, qinterface.hpp:2431-2438: every turn moves both ends, so (last - first) turns suffice. *)
  Fixpoint reverse_loop (fuel : nat) (first last : N) : circ :=
    match fuel with
    | O => []
    | S f => if (0 <? last) && (first <? last - 1) then qi_Swap first (last - 1) ++ reverse_loop f (first + 1) (last - 1) else []
    end.
  Definition qi_Reverse (first last : N) : circ := reverse_loop (N.to_nat (last - first)) first last.
  (** ROL, 295-311; ROR, 314-330. *)
  Definition qi_ROL (shift start length : N) : circ :=
    if length <? 2 then []
    else let shift := shift mod length in
    if shift =? 0 then []
    else let end_ := start + length in
    qi_Reverse start end_ ++ qi_Reverse start (start + shift) ++ qi_Reverse (start + shift) end_.
  Definition qi_ROR (shift start length : N) : circ :=
    if length <? 2 then []
    else let shift := shift mod length in
    if shift =? 0 then []
    else let end_ := start + length in
    qi_Reverse (start + shift) end_ ++ qi_Reverse start (start + shift) ++ qi_Reverse start end_.

  (** ** arithmetic.cpp *)

  (** INC, 20-51; DEC, qinterface.hpp:2134-2138 (2^length - toSub in 128 bits). *)
  Definition qi_INC (toAdd start length : N) : circ :=
    if length =? 0 then []
    else if length =? 1 then if N.testbit toAdd 0 then qi_X start else []
    else flat_map (fun i =>
      if N.testbit toAdd i then
        qi_X (start + i) ++
        flat_map (fun j => qi_MACInvert (map (fun b => start + b) (iota i (N.to_nat (j + 1)))) 1%amp 1%amp (start + (i + j + 1) mod length))
          (iota 0 (N.to_nat ((length - 1) - i)))
      else []) (iota 0 (N.to_nat length)).
  Definition qi_DEC (toSub start length : N) : circ := qi_INC (sub128 (pow2_128 length) toSub) start length.
  (** INCDECC, 53-76: [start] is also added to the carry index, modulo 256. *)
  Definition qi_INCDECC (toAdd start length carryIndex : N) : circ :=
    flat_map (fun i =>
      if N.testbit toAdd i then
        qi_X (start + i) ++
        flat_map (fun j =>
            let target := (start + (if i + j + 1 =? length then carryIndex else (i + j + 1) mod length)) mod 256 in
            qi_MACInvert (map (fun b => start + b) (iota i (N.to_nat (j + 1)))) 1%amp 1%amp target)
          (iota 0 (N.to_nat (length - i)))
      else []) (iota 0 (N.to_nat length)).
  (** CINC, 79-122; CDEC, qinterface.hpp:2174-2179. *)
  Definition qi_CINC (toAdd start length : N) (cs : list N) : circ :=
    match cs with
    | [] => qi_INC toAdd start length
    | _ =>
      if length =? 0 then []
      else if length =? 1 then if N.testbit toAdd 0 then qi_MCInvert cs 1%amp 1%amp start else []
      else flat_map qi_X cs ++
        flat_map (fun i =>
          if N.testbit toAdd i then
            qi_MACInvert cs 1%amp 1%amp (start + i) ++
            flat_map (fun j => qi_MACInvert (cs ++ map (fun b => start + b) (iota i (N.to_nat (j + 1)))) 1%amp 1%amp
                                 (start + (i + j + 1) mod length))
              (iota 0 (N.to_nat ((length - 1) - i)))
          else []) (iota 0 (N.to_nat length)) ++
        flat_map qi_X cs
    end.
  Definition qi_CDEC (toSub start length : N) (cs : list N) : circ := qi_CINC (sub128 (pow2_128 length) toSub) start length cs.

  Fixpoint times (k : nat) (l : circ) : circ := match k with O => [] | S j => l ++ times j l end.
  (** isPowerOfTwo and log2 of the modulus (log2 of zero does not matter: the loop is then empty). *)
  Definition mod_olen (modN : N) : N := if isPowerOfTwoOcl modN then N.log2 modN else N.log2 modN + 1.
  Definition part_mul (toMul modN i : N) : N := w128 (toMul * pow2_128 i) mod modN.
  (** MULModNOut, 127-160; IMULModNOut, 165-196.  A zero modulus (division by zero) is outside the model. *)
  Definition qi_MULModNOut (toMul modN inStart outStart length : N) : circ :=
    let oLength := mod_olen modN in
    flat_map (fun i => let p := part_mul toMul modN i in if p =? 0 then [] else qi_CINC p outStart oLength [inStart + i])
      (iota 0 (N.to_nat length)) ++
    if isPowerOfTwoOcl modN then []
    else
      let diffPow := pow2_128 length / modN in
      let ctl := inStart + length - (N.log2 diffPow + 1) in
      times (N.to_nat diffPow) (qi_DEC modN inStart length ++ qi_X ctl ++ qi_CDEC modN outStart oLength [ctl] ++ qi_X ctl) ++
      times (N.to_nat diffPow) (qi_INC modN inStart length).
  Definition qi_IMULModNOut (toMul modN inStart outStart length : N) : circ :=
    let oLength := mod_olen modN in
    let diffPow := pow2_128 length / modN in
    let ctl := inStart + length - (N.log2 diffPow + 1) in
    (if isPowerOfTwoOcl modN then []
     else times (N.to_nat diffPow) (qi_DEC modN inStart length) ++
          times (N.to_nat diffPow) (qi_X ctl ++ qi_CINC modN outStart oLength [ctl] ++ qi_X ctl ++ qi_INC modN inStart length)) ++
    flat_map (fun i => let p := part_mul toMul modN i in if p =? 0 then [] else qi_CDEC p outStart oLength [inStart + i])
      (iota 0 (N.to_nat length)).
  (** CMULModNOut, 201-235; CIMULModNOut, 240-273. *)
  Definition qi_CMULModNOut (toMul modN inStart outStart length : N) (cs : list N) : circ :=
    let oLength := mod_olen modN in
    flat_map (fun i => let p := part_mul toMul modN i in if p =? 0 then [] else qi_CINC p outStart oLength (cs ++ [inStart + i]))
      (iota 0 (N.to_nat length)) ++
    if isPowerOfTwoOcl modN then []
    else
      let diffPow := pow2_128 length / modN in
      let ctl := inStart + length - (N.log2 diffPow + 1) in
      times (N.to_nat diffPow) (qi_CDEC modN inStart length cs ++ qi_X ctl ++ qi_CDEC modN outStart oLength (cs ++ [ctl]) ++ qi_X ctl) ++
      times (N.to_nat diffPow) (qi_CINC modN inStart length cs).
  Definition qi_CIMULModNOut (toMul modN inStart outStart length : N) (cs : list N) : circ :=
    let oLength := mod_olen modN in
    let diffPow := pow2_128 length / modN in
    let ctl := inStart + length - (N.log2 diffPow + 1) in
    (if isPowerOfTwoOcl modN then []
     else times (N.to_nat diffPow) (qi_CDEC modN inStart length cs) ++
          times (N.to_nat diffPow) (qi_X ctl ++ qi_CINC modN outStart oLength (cs ++ [ctl]) ++ qi_X ctl ++ qi_CINC modN inStart length cs)) ++
    flat_map (fun i => let p := part_mul toMul modN i in if p =? 0 then [] else qi_CDEC p outStart oLength (cs ++ [inStart + i]))
      (iota 0 (N.to_nat length)).

  (** FullAdd and IFullAdd, qinterface.hpp:2220-2252; CFullAdd, 276-299; CIFullAdd, 302-328. *)
  Definition qi_FullAdd (in1 in2 sum carry : N) : circ :=
    qi_CCNOT in1 in2 carry ++ qi_CNOT in1 in2 ++ qi_CCNOT in2 sum carry ++ qi_CNOT in2 sum ++ qi_CNOT in1 in2.
  Definition qi_IFullAdd (in1 in2 sum carry : N) : circ :=
    qi_CNOT in1 in2 ++ qi_CNOT in2 sum ++ qi_CCNOT in2 sum carry ++ qi_CNOT in1 in2 ++ qi_CCNOT in1 in2 carry.
  Definition qi_CFullAdd (cs : list N) (in1 in2 sum carry : N) : circ :=
    qi_MCInvert (cs ++ [in1; in2]) 1%amp 1%amp carry ++ qi_MCInvert (cs ++ [in1]) 1%amp 1%amp in2 ++
    qi_MCInvert (cs ++ [in2; sum]) 1%amp 1%amp carry ++ qi_MCInvert (cs ++ [in2]) 1%amp 1%amp sum ++
    qi_MCInvert (cs ++ [in1]) 1%amp 1%amp in2.
  Definition qi_CIFullAdd (cs : list N) (in1 in2 sum carry : N) : circ :=
    qi_MCInvert (cs ++ [in1]) 1%amp 1%amp in2 ++ qi_MCInvert (cs ++ [in2]) 1%amp 1%amp sum ++
    qi_MCInvert (cs ++ [in2; sum]) 1%amp 1%amp carry ++ qi_MCInvert (cs ++ [in1]) 1%amp 1%amp in2 ++
    qi_MCInvert (cs ++ [in1; in2]) 1%amp 1%amp carry.
  (** ADC, 330-348; IADC, 350-369. *)
  Definition qi_ADC (input1 input2 output length carry : N) : circ :=
    if length =? 0 then []
    else qi_FullAdd input1 input2 carry output ++
      if length =? 1 then qi_Swap carry output
      else let end_ := length - 1 in
        flat_map (fun i => qi_FullAdd (input1 + i) (input2 + i) (output + i) (output + i + 1)) (iota 1 (N.to_nat (end_ - 1))) ++
        qi_FullAdd (input1 + end_) (input2 + end_) (output + end_) carry.
  Definition qi_IADC (input1 input2 output length carry : N) : circ :=
    if length =? 0 then []
    else if length =? 1 then qi_Swap carry output ++ qi_IFullAdd input1 input2 carry output
    else let end_ := length - 1 in
      qi_IFullAdd (input1 + end_) (input2 + end_) (output + end_) carry ++
      flat_map (fun i => qi_IFullAdd (input1 + i) (input2 + i) (output + i) (output + i + 1)) (rev (iota 1 (N.to_nat (end_ - 1)))) ++
      qi_IFullAdd input1 input2 carry output.
  (** CADC, 371-390; CIADC, 392-412. *)
  Definition qi_CADC (cs : list N) (input1 input2 output length carry : N) : circ :=
    if length =? 0 then []
    else qi_CFullAdd cs input1 input2 carry output ++
      if length =? 1 then qi_CSwap cs carry output
      else let end_ := length - 1 in
        flat_map (fun i => qi_CFullAdd cs (input1 + i) (input2 + i) (output + i) (output + i + 1)) (iota 1 (N.to_nat (end_ - 1))) ++
        qi_CFullAdd cs (input1 + end_) (input2 + end_) (output + end_) carry.
  Definition qi_CIADC (cs : list N) (input1 input2 output length carry : N) : circ :=
    if length =? 0 then []
    else if length =? 1 then qi_CSwap cs carry output ++ qi_CIFullAdd cs input1 input2 carry output
    else let end_ := length - 1 in
      qi_CIFullAdd cs (input1 + end_) (input2 + end_) (output + end_) carry ++
      flat_map (fun i => qi_CIFullAdd cs (input1 + i) (input2 + i) (output + i) (output + i + 1)) (rev (iota 1 (N.to_nat (end_ - 1)))) ++
      qi_CIFullAdd cs input1 input2 carry output.

  (** ** logic.cpp *)

  (** A call throws, resets the output to |0> by measurement (SetBit, qinterface.hpp:2823-2828) before the gates, or is a
      list of gates. *)
  Inductive lprog := LThrow | LReset (after : circ) | LGates (l : circ).
  Definition then_ (p : lprog) (l : circ) : lprog :=
    match p with LThrow => LThrow | LReset a => LReset (a ++ l) | LGates g => LGates (g ++ l) end.
  (** AND, 18-34; OR, 36-53; XOR, 55-69. *)
  Definition qi_AND (in1 in2 out : N) : lprog :=
    if (in1 =? in2) && (in2 =? out) then LGates []
    else if (in1 =? out) || (in2 =? out) then LThrow
    else LGates (if in1 =? in2 then qi_CNOT in1 out else qi_CCNOT in1 in2 out).
  Definition qi_OR (in1 in2 out : N) : lprog :=
    if (in1 =? in2) && (in2 =? out) then LGates []
    else if (in1 =? out) || (in2 =? out) then LThrow
    else LGates (qi_X out ++ if in1 =? in2 then qi_AntiCNOT in1 out else qi_AntiCCNOT in1 in2 out).
  Definition qi_XOR (in1 in2 out : N) : lprog :=
    if (in1 =? in2) && (in2 =? out) then LReset []
    else LGates (if in1 =? out then qi_CNOT in2 out else if in2 =? out then qi_CNOT in1 out else qi_CNOT in1 out ++ qi_CNOT in2 out).
  (** NAND, NOR, XNOR, 71-87. *)
  Definition qi_NAND (in1 in2 out : N) : lprog := then_ (qi_AND in1 in2 out) (qi_X out).
  Definition qi_NOR (in1 in2 out : N) : lprog := then_ (qi_OR in1 in2 out) (qi_X out).
  Definition qi_XNOR (in1 in2 out : N) : lprog := then_ (qi_XOR in1 in2 out) (qi_X out).
  (** CLAND, 89-94; CLOR, 96-103; CLXOR, 105-115; CLNAND, CLNOR, CLXNOR, 117-133. *)
  Definition qi_CLAND (inq : N) (inc : bool) (out : N) : circ := if inc && negb (inq =? out) then qi_CNOT inq out else [].
  Definition qi_CLOR (inq : N) (inc : bool) (out : N) : circ :=
    if inc then qi_X out else if negb (inq =? out) then qi_CNOT inq out else [].
  Definition qi_CLXOR (inq : N) (inc : bool) (out : N) : circ :=
    if negb (inq =? out) then (if inc then qi_X out else []) ++ qi_CNOT inq out else if inc then qi_X out else [].
  Definition qi_CLNAND (inq : N) (inc : bool) (out : N) : circ := qi_CLAND inq inc out ++ qi_X out.
  Definition qi_CLNOR (inq : N) (inc : bool) (out : N) : circ := qi_CLOR inq inc out ++ qi_X out.
  Definition qi_CLXNOR (inq : N) (inc : bool) (out : N) : circ := qi_CLXOR inq inc out ++ qi_X out.
  (** Execution on the engine; [nrm] is the rescaling factor of the measurement. *)
  Definition lrun (c : cfg) (rgp : bool) (nrm : K) (n out : N) (p : lprog) (psi : V) (r : res (option V)) : Prop :=
    match p with
    | LThrow => r = Throw
    | LGates l => crun c rgp n l (Some psi) r
    | LReset l => exists b psi1, MBit c nrm n out psi b psi1 /\ crun c rgp n ((if b then qi_X out else []) ++ l) (Some psi1) r
    end.

  (** ** Probabilities and Compose *)

  (** ProbReg, qinterface.cpp:262-275 (64-bit shift). *)
  Definition qi_ProbReg (n start length perm : N) (v : option V) : K :=
    fold_left (fun p lcv =>
        let i := N.land lcv (pow2Ocl start - 1) in
        let i := N.lor i (shl64 (N.lor (N.lxor lcv i) perm) length) in
        (p + ProbAll v i)%amp) (iota 0 (N.to_nat (2 ^ n / 2 ^ length))) 0%amp.
  (** ProbMask, qinterface.cpp:278-292. *)
  Definition qi_ProbMask (n mask perm : N) (v : option V) : K :=
    if 2 ^ n - 1 =? mask then ProbAll v perm
    else fold_left (fun p lcv => if N.land lcv mask =? perm then (p + ProbAll v lcv)%amp else p) (iota 0 (N.to_nat (2 ^ n))) 0%amp.
  (** Compose(toCopy, start), qinterface.cpp:398-410, over the engine's Compose(toCopy): rotate, append, rotate back.  The
      returned index is that of the appended qubits before the second rotation. *)
  Definition qi_ComposeAt (c : cfg) (rgp : bool) (maxQB : N) (a b : eng K) (start : N) (r : res (eng K * N)) : Prop :=
    if start =? e_n a then Compose c maxQB a b r
    else exists r1, crun c rgp (e_n a) (qi_ROL (e_n a - start) 0 (e_n a)) (e_vec a) r1 /\
      match r1 with
      | Throw => r = Throw
      | Ok v1 => exists r2, Compose c maxQB (mkEng (e_n a) v1) b r2 /\
          match r2 with
          | Throw => r = Throw
          | Ok (e, idx) => exists r3, crun c rgp (e_n e) (qi_ROR (e_n a - start) 0 (e_n e)) (e_vec e) r3 /\
              r = match r3 with Throw => Throw | Ok v3 => Ok (mkEng (e_n e) v3, idx) end
          end
      end.
End Circuit.
Arguments gop : clear implicits.
Arguments circ : clear implicits.
Arguments lprog : clear implicits.
