(** Model of QPager on CPU engine pages: /repo/src/qpager.cpp and the inline bodies of /repo/include/qpager.hpp.

    - The pages are CPU engines; each is its state vector as in MEngine.v ([None]: all amplitudes zero).  MakeEngine
      (qpager.cpp:284-292) makes them with doNormalize and randGlobalPhase false; the two constructors (32-87) set both
      to false for the pager too, so the branches that test doNormalize are left out.
    - ENABLE_PTHREAD tasks (for instance qpager.cpp:420-440) work on disjoint pairs of pages; they are run in order here.
    - Devices, host pointers and the choice of the default threshold (Init, qpager.cpp:89-282) are not modelled: [pg_thr]
      is thresholdQubitsPerPage.
    - An index outside qPages is [Throw] here (undefined behaviour in the code). *)
From Coq Require Import NArith List Bool.
From Verif Require Import MQCircuit MFunctions MParFor MKernel Amp MEngine MCircuit.
Import ListNotations.
Local Open Scope N_scope.

Section Pager.
  Context {K : StarRing}.
  Variable c : cfg.
  Local Notation V := (mem K).
  Local Notation is0 := (fun x : K => sr_eqb x 0%amp).

  (** qubitCount, thresholdQubitsPerPage, qPages.size() and qPages, qpager.hpp:33-48. *)
  Record pager := mkPager { pg_n : N; pg_thr : N; pg_count : N; pg_page : N -> option V }.
  (** baseQubitsPerPage, set by SetQubitCount, qpager.hpp:52-58. *)
  Definition pg_base (p : pager) : N := if pg_n p <? pg_thr p then pg_n p else pg_thr p.
  (** pageMaxQPower and qubitsPerPage, qpager.hpp:60-67. *)
  Definition pageMaxQPower (p : pager) : N := w64 (2 ^ pg_n p / pg_count p).
  Definition qubitsPerPage (p : pager) : N := log2Ocl (pageMaxQPower p).

  (** ** Sequencing *)
  Definition pgstep := pager -> res pager -> Prop.
  Definition set_page (p : pager) (i : N) (v : option V) : pager :=
    mkPager (pg_n p) (pg_thr p) (pg_count p) (fun j => if j =? i then v else pg_page p j).
  Definition pg_skip : pgstep := fun p r => r = Ok p.
  Definition andthen (a b : pgstep) : pgstep :=
    fun p r => exists r1, a p r1 /\ match r1 with Throw => r = Throw | Ok p1 => b p1 r end.
  Fixpoint each (body : N -> pgstep) (l : list N) : pgstep :=
    match l with
    | [] => pg_skip
    | i :: t => andthen (body i) (each body t)
    end.
  (** An operation on page [i], and on the pages [i] and [j]. *)
  Definition page_op (f : option V -> res (option V) -> Prop) (i : N) : pgstep :=
    fun p r => if pg_count p <=? i then r = Throw
               else exists r1, f (pg_page p i) r1 /\ r = match r1 with Throw => Throw | Ok v => Ok (set_page p i v) end.
  Definition pair_op (f : option V -> option V -> res (option V * option V) -> Prop) (i j : N) : pgstep :=
    fun p r => if (pg_count p <=? i) || (pg_count p <=? j) then r = Throw
               else exists r1, f (pg_page p i) (pg_page p j) r1 /\
                 r = match r1 with Throw => Throw | Ok (v, w) => Ok (set_page (set_page p i v) j w) end.
  Definition all_pages (p : pager) : list N := iota 0 (N.to_nat (pg_count p)).

  (** A sequence of operations on one engine, and a vector of new engines in order of push_back. *)
  Fixpoint eng_each (body : N -> option V -> res (option V) -> Prop) (l : list N) (v : option V) (r : res (option V)) : Prop :=
    match l with
    | [] => r = Ok v
    | i :: t => exists r1, body i v r1 /\ match r1 with Throw => r = Throw | Ok v1 => eng_each body t v1 r end
    end.
  Fixpoint build (f : N -> res (option V) -> Prop) (l : list N) (acc : N -> option V) (r : res (N -> option V)) : Prop :=
    match l with
    | [] => r = Ok acc
    | i :: t => exists r1, f i r1 /\
        match r1 with Throw => r = Throw | Ok v => build f t (fun j => if j =? i then v else acc j) r end
    end.
  Definition new_pages (count : N) (f : N -> res (option V) -> Prop) : pgstep :=
    fun p r => exists r1, build f (iota 0 (N.to_nat count)) (fun _ => None) r1 /\
      r = match r1 with Throw => Throw | Ok pages => Ok (mkPager (pg_n p) (pg_thr p) count pages) end.

  (** ** Construction *)

  (** Engine SetPermutation with the default phase and no random phase, state.cpp:222-247 (clear, then one write); an index
      outside the vector is [Throw]. *)
  Definition eng_SetPermutation (n perm : N) (ph : K) (v : option V) (r : res (option V)) : Prop :=
    if 2 ^ n <=? perm then r = Throw
    else exists fresh m, fill c (2 ^ n) (fun _ => 0%amp) fresh m /\ r = Ok (Some (mset m perm ph)).
  (** The constructor, qpager.cpp:32-66.  [initState] is maxQPower + 1, the parameter [_initState] is not used; the page
      bound [pagePerm] is a 64-bit counter. *)
  Definition ctor_page (base initState i : N) (r : res (option V)) : Prop :=
    let pagePerm := w64 ((i + 1) * 2 ^ base) in
    if initState <? pagePerm
    then eng_SetPermutation base (w64 (w64 initState + (2 ^ 64 - w64 (pagePerm + (2 ^ 64 - 2 ^ base))))) 1%amp None r
    else r = Ok None.
  Definition Constructor (n thr _initState : N) (r : res pager) : Prop :=
    let p0 := mkPager n thr 0 (fun _ => None) in
    if n =? 0 then r = Ok p0
    else new_pages (2 ^ (n - pg_base p0)) (ctor_page (pg_base p0) (2 ^ n + 1)) p0 r.

  (** ** Page size changes *)

  (** CombineEngines, qpager.cpp:316-342; bitLenInt sums of the callers are wrapped there. *)
  Definition CombineEngines (bit0 : N) : pgstep := fun p r =>
    let bit := if pg_n p <? bit0 then pg_n p else bit0 in
    if bit <=? qubitsPerPage p then r = Ok p
    else
      let groupCount := pow2Ocl (pg_n p - bit) in
      let groupSize := pg_count p / groupCount in
      let pagePower := pageMaxQPower p in
      new_pages groupCount
        (fun i => eng_each (fun j => SetAmplitudePageEng c bit (qubitsPerPage p) (pg_page p (j + i * groupSize)) 0 (j * pagePower) pagePower)
                    (iota 0 (N.to_nat groupSize)) None) p r.
  (** SeparateEngines, qpager.cpp:344-367; the new page number is j + i * pagesPer. *)
  Definition SeparateEngines (thresholdBits : N) (noBaseFloor : bool) : pgstep := fun p r =>
    let bits := if negb noBaseFloor && (thresholdBits <? pg_base p) then pg_base p else thresholdBits in
    if qubitsPerPage p <=? bits then r = Ok p
    else
      let pagesPer := pow2Ocl (pg_n p - bits) / pg_count p in
      new_pages (pg_count p * pagesPer)
        (fun k => let i := k / pagesPer in let j := k mod pagesPer in
                  SetAmplitudePageEng c bits (qubitsPerPage p) (pg_page p i) (j * pow2Ocl bits) 0 (pow2Ocl bits) None) p r.
  Definition CombineAll : pgstep := fun p r => CombineEngines (pg_n p) p r.
  Definition SeparateBase : pgstep := fun p r => SeparateEngines (pg_base p) false p r.
  (** The constructor from an engine, qpager.cpp:68-87, with LockEngine, qpager.hpp:181-187: the engine becomes the only
      page; randGlobalPhase of that engine is taken to be false. *)
  Definition FromEngine (n thr : N) (v : option V) (r : res pager) : Prop :=
    andthen SeparateBase SeparateBase (mkPager n thr 1 (fun _ => v)) r.
  (** ReleaseEngine, qpager.hpp:175-179. *)
  Definition ReleaseEngine (p : pager) (r : res (option V)) : Prop :=
    exists r1, CombineAll p r1 /\ r = match r1 with Throw => Throw | Ok p1 => Ok (pg_page p1 0) end.

  (** ** Single-qubit gates *)

  (** An operation of a page engine on a given qubit. *)
  Definition page_fn := N -> option V -> res (option V) -> Prop.
  (** ShuffleBuffers, the gate on one or both engines at qubit [sqi] = qpp - 1 (bitLenInt), ShuffleBuffers again;
      qpager.cpp:425-432 and 536-543. *)
  Definition shuffle_op (q : N) (fn : page_fn) (isSqiCtrl isAnti : bool) (va vb : option V) (r : res (option V * option V)) : Prop :=
    exists a1 b1 ra rb, ShuffleBuffers c q va vb a1 b1 /\
      (if negb isSqiCtrl || isAnti then fn (w8 (q + 255)) a1 ra else ra = Ok a1) /\
      (if negb isSqiCtrl || negb isAnti then fn (w8 (q + 255)) b1 rb else rb = Ok b1) /\
      match ra, rb with
      | Ok a2, Ok b2 => exists a3 b3, ShuffleBuffers c q a2 b2 a3 b3 /\ r = Ok (a3, b3)
      | _, _ => r = Throw
      end.
  (** The lower page number of pair [i], for instance qpager.cpp:410-411. *)
  Definition pair_lo (targetPow i : N) : N :=
    let j := N.land i (targetPow - 1) in N.lor j (w64 (N.shiftl (N.lxor i j) 1)).
  (** SingleBitGate, qpager.cpp:369-448. *)
  Definition SingleBitGate (target : N) (fn : page_fn) (isSqiCtrl isAnti : bool) : pgstep := fun p r =>
    let qpp := qubitsPerPage p in
    if target <? qpp then each (page_op (fn target)) (all_pages p) p r
    else
      let targetPow := pow2Ocl (target - qpp) in
      each (fun i => let j := pair_lo targetPow i in pair_op (shuffle_op qpp fn isSqiCtrl isAnti) j (N.lor j targetPow))
        (iota 0 (N.to_nat (N.shiftr (pg_count p) 1))) p r.

  (** The loop over the sorted masks, qpager.cpp:500-507 and 582-589. *)
  Fixpoint spread (j jHi : N) (masks : list N) : N :=
    match masks with
    | [] => N.lor j jHi
    | m :: t => let jLo := N.land jHi m in spread (N.lor j jLo) (w64 (N.shiftl (N.lxor jHi jLo) 1)) t
    end.
  (** Engine Phase(f, f, 0), skipped by the caller when [f] is one; swap of the two pages first when inverting;
      qpager.cpp:509-525 and 981-990. *)
  Definition special_op (q : N) (isInvert : bool) (top bottom : K) (va vb : option V) (r : res (option V * option V)) : Prop :=
    let a := if isInvert then vb else va in
    let b := if isInvert then va else vb in
    exists ra rb,
      (if is0 (1 - top)%amp then ra = Ok a else Phase c false q top top 0 a ra) /\
      (if is0 (1 - bottom)%amp then rb = Ok b else Phase c false q bottom bottom 0 b rb) /\
      r = match ra, rb with Ok a', Ok b' => Ok (a', b') | _, _ => Throw end.
  (** MetaControlled, qpager.cpp:450-557. *)
  Definition MetaControlled (controlPerm : N) (controls : list N) (target : N) (fn : page_fn) (m : mat2 K) (isSqiCtrl isIntraCtrled : bool) : pgstep := fun p r =>
    let qpp := qubitsPerPage p in
    let meta := map (fun q => q - qpp) controls in
    let targetPow := pow2Ocl (target - qpp) in
    let sortedMasks := nsort (map (fun q => pow2Ocl q - 1) meta ++ [targetPow - 1]) in
    let controlMask := perm_mask 0 meta (w64 controlPerm) in
    let plain := negb isSqiCtrl && negb isIntraCtrled in
    let isAnti := negb (N.testbit (w64 controlPerm) (N.of_nat (length controls))) in
    let f := if plain && is0 (m01 m) && is0 (m10 m) then special_op qpp false (m00 m) (m11 m)
             else if plain && is0 (m00 m) && is0 (m11 m) then special_op qpp true (m01 m) (m10 m)
             else shuffle_op qpp fn isSqiCtrl isAnti in
    each (fun i => let j := N.lor (spread 0 i sortedMasks) controlMask in pair_op f j (N.lor j targetPow))
      (iota 0 (N.to_nat (N.shiftr (pg_count p) (N.of_nat (length sortedMasks))))) p r.
  (** SemiMetaControlled, qpager.cpp:559-593: [sortedMasks] is a vector of bitLenInt, so each power of two is cut to 8
      bits, and controlMask is made of the cut values. *)
  Fixpoint semi_mask (i : N) (meta : list N) (controlPerm : N) : N :=
    match meta with
    | [] => 0
    | q :: t => N.lor (if N.testbit controlPerm i then w8 (pow2Ocl q) else 0) (semi_mask (i + 1) t controlPerm)
    end.
  Definition SemiMetaControlled (controlPerm : N) (controls : list N) (target : N) (fn : page_fn) : pgstep := fun p r =>
    let qpp := qubitsPerPage p in
    let meta := map (fun q => q - qpp) controls in
    let sortedMasks := nsort (map (fun q => w8 (w8 (pow2Ocl q) + 255)) meta) in
    let controlMask := semi_mask 0 meta (w64 controlPerm) in
    each (fun i => page_op (fn target) (N.lor (spread 0 i sortedMasks) controlMask))
      (iota 0 (N.to_nat (N.shiftr (pg_count p) (N.of_nat (length sortedMasks))))) p r.

  (** ApplySingleEither, qpager.cpp:950-992 (randGlobalPhase false); Phase and Invert, qpager.hpp:344-351. *)
  Definition ApplySingleEither (isInvert : bool) (top bottom : K) (target : N) : pgstep := fun p r =>
    let qpp := qubitsPerPage p in
    if target <? qpp then
      SingleBitGate target
        (if isInvert then fun t => Mtrx c false qpp (mkMat 0%amp top bottom 0%amp) t else fun t => Phase c false qpp top bottom t)
        false false p r
    else
      let targetPow := pow2Ocl (target - qpp) in
      each (fun i => let j := pair_lo targetPow i in pair_op (special_op qpp isInvert top bottom) j (N.lor j targetPow))
        (iota 0 (N.to_nat (N.shiftr (pg_count p) 1))) p r.
  (** Mtrx, qpager.cpp:937-948. *)
  Definition PMtrx (m : mat2 K) (target : N) : pgstep := fun p r =>
    if is0 (m01 m) && is0 (m10 m) then ApplySingleEither false (m00 m) (m11 m) target p r
    else if is0 (m00 m) && is0 (m11 m) then ApplySingleEither true (m01 m) (m10 m) target p r
    else SingleBitGate target (fun t => Mtrx c false (qubitsPerPage p) m t) false false p r.

  (** The controls by kind, qpager.cpp:1002-1028: inside a page, page bits, and the one equal to qpp - 1 when the target
      is a page bit; the two permutations; index of that control.  [i] is the position in [controls]. *)
  Record csplit := mkSplit { cs_intra : list N; cs_iperm : N; cs_meta : list N; cs_mperm : N; cs_sqi : bool; cs_sqiIndex : N }.
  Fixpoint split_controls (qpp target cp i : N) (controls : list N) (s : csplit) : csplit :=
    match controls with
    | [] => s
    | q :: t =>
      let bit := N.land (N.shiftr cp i) 1 in
      split_controls qpp target cp (i + 1) t
        (if (qpp <=? target) && (q + 1 =? qpp) then mkSplit (cs_intra s) (cs_iperm s) (cs_meta s) (cs_mperm s) true i
         else if q <? qpp
         then mkSplit (cs_intra s ++ [q]) (N.lor (cs_iperm s) (w64 (N.shiftl bit (N.of_nat (length (cs_intra s)))))) (cs_meta s) (cs_mperm s) (cs_sqi s) (cs_sqiIndex s)
         else mkSplit (cs_intra s) (cs_iperm s) (cs_meta s ++ [q]) (N.lor (cs_mperm s) (w64 (N.shiftl bit (N.of_nat (length (cs_meta s)))))) (cs_sqi s) (cs_sqiIndex s))
    end.
  (** ApplyEitherControlledSingleBit, qpager.cpp:994-1040. *)
  Definition ApplyEitherControlledSingleBit (controlPerm : N) (controls : list N) (target : N) (m : mat2 K) : pgstep := fun p r =>
    match controls with
    | [] => PMtrx m target p r
    | _ =>
      let qpp := qubitsPerPage p in
      let cp := w64 controlPerm in
      let s := split_controls qpp target cp 0 controls (mkSplit [] 0 [] 0 false 0) in
      let isAnti := negb (N.testbit cp (cs_sqiIndex s)) in
      let extra := cs_sqi s && negb isAnti in
      let intraPerm := if extra then N.lor (cs_iperm s) (pow2Ocl (N.of_nat (length (cs_intra s)))) else cs_iperm s in
      let metaPerm := if extra then N.lor (cs_mperm s) (pow2Ocl (N.of_nat (length (cs_meta s)))) else cs_mperm s in
      let sg := fun t => UCMtrx c false qpp (cs_intra s) m t intraPerm in
      match cs_meta s with
      | [] => SingleBitGate target sg (cs_sqi s) isAnti p r
      | _ => if target <? qpp then SemiMetaControlled metaPerm (cs_meta s) target sg p r
             else MetaControlled metaPerm (cs_meta s) target sg m (cs_sqi s) (negb (N.of_nat (length (cs_intra s)) =? 0)) p r
      end
    end.
  (** MCMtrx and MACMtrx, qpager.hpp:352-368. *)
  Definition PEitherMtrx (isAnti : bool) (controls : list N) (m : mat2 K) (target : N) : pgstep := fun p r =>
    if pg_count p =? 1 then page_op (EitherMtrx c false isAnti (pg_n p) controls m target) 0 p r
    else ApplyEitherControlledSingleBit (if isAnti then 0 else 2 ^ N.of_nat (length controls) - 1) controls target m p r.

  (** ** Register-wide gates *)

  (** XMask, qpager.cpp:1053-1070; X is Invert(1, 1), qinterface.hpp:1084.  A 64-bit mask has at most 64 bits. *)
  Definition PXMask (mask : N) : pgstep := fun p r =>
    let intraMask := N.land (w64 mask) (pageMaxQPower p - 1) in
    let interMask := N.lxor (w64 mask) intraMask in
    andthen (each (fun bit => ApplySingleEither true 1%amp 1%amp bit) (mask_bits 64 interMask))
      (each (page_op (fun v => XMask c false (qubitsPerPage p) intraMask v)) (all_pages p)) p r.
  (** PhaseParity, qpager.cpp:1072-1098: [ph] is exp(i radians/2), [phA] its inverse; for -radians the two are exchanged. *)
  Definition PPhaseParity (ph phA : K) (mask : N) : pgstep := fun p r =>
    let intraMask := N.land (w64 mask) (pageMaxQPower p - 1) in
    let interMask := N.shiftr (N.lxor (w64 mask) intraMask) (qubitsPerPage p) in
    each (fun i => page_op (fun v =>
        let odd := negb (parity64 (N.land interMask i) =? 0) in
        if negb (intraMask =? 0)
        then if odd then PhaseParity c false (qubitsPerPage p) phA ph intraMask v else PhaseParity c false (qubitsPerPage p) ph phA intraMask v
        else if odd then Phase c false (qubitsPerPage p) ph ph 0 v else Phase c false (qubitsPerPage p) phA phA 0 v) i)
      (all_pages p) p r.

  (** CombineAndOp, qpager.cpp:595-604: [highest] is the highest qubit involved. *)
  Definition CombineAndOp (highest : N) (fn : N -> option V -> res (option V) -> Prop) : pgstep :=
    andthen (CombineEngines (w8 (highest + 1))) (fun p r => each (page_op (fn (qubitsPerPage p))) (all_pages p) p r).

  (** MetaSwap, qpager.cpp:1297-1333; [ph] is the factor of the two exchanged pages ([None]: no phase). *)
  Definition swap_pages (q : N) (ph : option K) (va vb : option V) (r : res (option V * option V)) : Prop :=
    match ph with
    | None => r = Ok (vb, va)
    | Some f => exists ra rb, Phase c false q f f 0 vb ra /\ Phase c false q f f 0 va rb /\
                  r = match ra, rb with Ok a', Ok b' => Ok (a', b') | _, _ => Throw end
    end.
  Definition MetaSwap (qubit1 qubit2 : N) (ph : option K) : pgstep := fun p r =>
    let qpp := qubitsPerPage p in
    let q1 := N.min (qubit1 - qpp) (qubit2 - qpp) in
    let q2 := N.max (qubit1 - qpp) (qubit2 - qpp) in
    each (fun i =>
        let j0 := N.land i (pow2Ocl q1 - 1) in
        let jHi := w64 (N.shiftl (N.lxor i j0) 1) in
        let jLo := N.land jHi (pow2Ocl q2 - 1) in
        let j := N.lor j0 (N.lor jLo (w64 (N.shiftl (N.lxor jHi jLo) 1))) in
        pair_op (swap_pages qpp ph) (N.lor j (pow2Ocl q1)) (N.lor j (pow2Ocl q2)))
      (iota 0 (N.to_nat (N.shiftr (pg_count p) 2))) p r.
  (** The generic Swap, QInterface::Swap, gates.cpp:166-175: three CNOT. *)
  Definition PCNOT (ctl target : N) : pgstep := PEitherMtrx false [ctl] (mkMat 0%amp 1%amp 1%amp 0%amp) target.
  Definition GenericSwap (a b : N) : pgstep :=
    if a =? b then pg_skip else andthen (PCNOT a b) (andthen (PCNOT b a) (PCNOT a b)).
  (** Swap, qpager.cpp:1335-1359. *)
  Definition PSwap (q1 q2 : N) : pgstep := fun p r =>
    if q1 =? q2 then r = Ok p
    else
      let m1 := pg_base p <=? q1 in
      let m2 := pg_base p <=? q2 in
      if m1 && m2 then andthen SeparateBase (MetaSwap q1 q2 None) p r
      else if m1 || m2 then andthen SeparateBase (GenericSwap q1 q2) p r
      else each (page_op (SwapLike c (qubitsPerPage p) (mkMat 0%amp 1%amp 1%amp 0%amp) q1 q2)) (all_pages p) p r.
  (** EitherISwap, qpager.cpp:1360-1416: [f] is i for ISwap and -i for IISwap. *)
  Definition PISwap (f : K) (q1 q2 : N) : pgstep := fun p r =>
    if q1 =? q2 then r = Ok p
    else
      let base := pg_base p in
      let m1 := base <=? q1 in
      let m2 := base <=? q2 in
      let phases (mq lq : N) : pgstep := fun p r =>
        each (fun i => page_op (fun v => if N.testbit i (mq - base) then Phase c false (qubitsPerPage p) f 1%amp lq v
                                         else Phase c false (qubitsPerPage p) 1%amp f lq v) i) (all_pages p) p r in
      if m1 && m2 then andthen SeparateBase (MetaSwap q1 q2 (Some f)) p r
      else if m1 then andthen (andthen SeparateBase (GenericSwap q1 q2)) (phases q1 q2) p r
      else if m2 then andthen (andthen SeparateBase (GenericSwap q1 q2)) (phases q2 q1) p r
      else each (page_op (SwapLike c (qubitsPerPage p) (mkMat 0%amp f f 0%amp) q1 q2)) (all_pages p) p r.

  (** ** Amplitude access *)

  (** GetAmplitude and ProbAll, qpager.hpp:308-325: quotient and remainder by the page size. *)
  Definition PGetAmplitude (p : pager) (perm : N) : K := vread (pg_page p (perm / pageMaxQPower p)) (perm mod pageMaxQPower p).
  Definition PProbAll (p : pager) (perm : N) : K := ProbAll (pg_page p (perm / pageMaxQPower p)) (perm mod pageMaxQPower p).
  (** SetAmplitude, qpager.hpp:314-319. *)
  Definition PSetAmplitude (tracked : bool) (perm : N) (amp : K) : pgstep := fun p r =>
    page_op (SetAmplitude c (qubitsPerPage p) (perm mod pageMaxQPower p) tracked amp) (perm / pageMaxQPower p) p r.
  (** GetQuantumState, qpager.cpp:850-882: page [i] is written to the caller's array from i * pagePower on. *)
  Definition copy_page (q base : N) (v : option V) (out out' : V) : Prop :=
    forall x, out' x = if (base <=? x) && (x <? base + 2 ^ q) then vread v (x - base) else out x.
  Fixpoint out_each (body : N -> V -> V -> Prop) (l : list N) (o o' : V) : Prop :=
    match l with
    | [] => o' = o
    | i :: t => exists o1, body i o o1 /\ out_each body t o1 o'
    end.
  Definition PGetQuantumState (p : pager) (out out' : V) : Prop :=
    out_each (fun i => copy_page (qubitsPerPage p) (w64 (i * pageMaxQPower p)) (pg_page p i)) (all_pages p) out out'.
  (** SetQuantumState, qpager.cpp:810-848; engine copy_in, state.cpp:250-260 and statevector.hpp. *)
  Definition eng_SetQuantumState (n : N) (inp : V) (v : option V) (r : res (option V)) : Prop :=
    exists m, (forall x, x < 2 ^ n -> m x = inp x) /\ r = Ok (Some m).
  Definition PSetQuantumState (inp : V) : pgstep := fun p r =>
    each (fun i => page_op (eng_SetQuantumState (qubitsPerPage p) (fun x => inp (w64 (i * pageMaxQPower p) + x))) i) (all_pages p) p r.
  (** SetPermutation, qpager.cpp:918-935: ZeroAmplitudes on the other pages; [ph] is the phase factor. *)
  Definition PSetPermutation (perm : N) (ph : K) : pgstep := fun p r =>
    let permOcl := N.land (w64 perm) (2 ^ pg_n p - 1) in
    let pw := pageMaxQPower p in
    each (fun i => page_op (fun v r =>
        if (i * pw <=? permOcl) && (permOcl <? (i + 1) * pw) then eng_SetPermutation (qubitsPerPage p) (permOcl - i * pw) ph v r
        else r = Ok None) i) (all_pages p) p r.
  (** GetSetAmplitudePage, qpager.cpp:294-314.  [perm] advances only past pages that were accessed; the caller's pointer
      does not advance.  For reading, [out] is the caller's array. *)
  Fixpoint get_page_loop (pageLength q : N) (pages : N -> option V) (offset len : N) (l : list N) (perm : N) (out : V) (r : res V) : Prop :=
    match l with
    | [] => r = Ok out
    | i :: t =>
      if perm + len <? offset then get_page_loop pageLength q pages offset len t perm out r
      else if offset + len <=? perm then r = Ok out
      else
        let partOffset := if perm <? offset then offset - perm else 0 in
        let partLength := if len <? pageLength then len else pageLength in
        exists r1, GetAmplitudePage c q partOffset partLength (pages i) out r1 /\
          match r1 with Throw => r = Throw | Ok out1 => get_page_loop pageLength q pages offset len t (perm + pageLength) out1 r end
    end.
  Definition PGetAmplitudePage (offset len : N) (p : pager) (out : V) (r : res V) : Prop :=
    get_page_loop (pageMaxQPower p) (qubitsPerPage p) (pg_page p) offset len (all_pages p) 0 out r.
  Fixpoint set_page_loop (pageLength q offset len : N) (page : V) (l : list N) (perm : N) : pgstep :=
    match l with
    | [] => pg_skip
    | i :: t =>
      if perm + len <? offset then set_page_loop pageLength q offset len page t perm
      else if offset + len <=? perm then pg_skip
      else
        let partOffset := if perm <? offset then offset - perm else 0 in
        let partLength := if len <? pageLength then len else pageLength in
        andthen (page_op (SetAmplitudePage c q partOffset partLength page) i) (set_page_loop pageLength q offset len page t (perm + pageLength))
    end.
  Definition PSetAmplitudePage (offset len : N) (page : V) : pgstep := fun p r =>
    set_page_loop (pageMaxQPower p) (qubitsPerPage p) offset len page (all_pages p) 0 p r.

  (** ** Probabilities and measurement *)

  (** A sum over pages of the results of a read-only operation. *)
  Fixpoint page_sum (f : N -> K -> Prop) (l : list N) (acc : K) (r : K) : Prop :=
    match l with
    | [] => r = acc
    | i :: t => exists x, f i x /\ page_sum f t (acc + x)%amp r
    end.
  (** The running norm of one page after UpdateRunningNorm, state.cpp:1731-1749 (exact: no amplitude floor). *)
  Definition running_norm (q : N) (v : option V) (x : K) : Prop :=
    match v with
    | None => x = 0%amp
    | Some psi => par_norm 0%amp (fun a b => (a + b)%amp) (fun k => anorm (psi k)) (cf_cores c) (cf_stride c) (2 ^ q) x
    end.
  (** Prob, qpager.cpp:1449-1519 (clampProb is the identity on [0,1]); [simd] as in the engine's Prob. *)
  Definition PProb (simd : bool) (qubit : N) (p : pager) (r : K) : Prop :=
    let qpp := qubitsPerPage p in
    if pg_count p =? 1 then Prob c simd (pg_n p) qubit (pg_page p 0) (Ok r)
    else if qubit <? qpp then page_sum (fun i x => Prob c simd qpp qubit (pg_page p i) (Ok x)) (all_pages p) 0%amp r
    else let qPower := pow2Ocl (qubit - qpp) in
         page_sum (fun i x => running_norm qpp (pg_page p (N.lor (pair_lo qPower i) qPower)) x)
           (iota 0 (N.to_nat (N.shiftr (pg_count p) 1))) 0%amp r.
  (** The state update of ForceM for a result that is not certain, qpager.cpp:1130-1147: [nrm] is the phase over the square
      root of the probability. *)
  Definition PApplyResult (qubit : N) (result : bool) (nrm : K) : pgstep := fun p r =>
    let qpp := qubitsPerPage p in
    if qubit <? qpp
    then each (page_op (fun v r => exists v', ApplyM c qpp (pow2Ocl qubit) (if result then pow2Ocl qubit else 0) nrm v v' /\ r = Ok v')) (all_pages p) p r
    else each (fun i => page_op (fun v r => if Bool.eqb (N.testbit i (qubit - qpp)) result then Phase c false qpp nrm nrm 0 v r else r = Ok None) i) (all_pages p) p r.

  (** SumSqrDiff of two engines of [q] qubits, state.cpp:1601-1657, for distinct objects (clampProb is the identity). *)
  Definition eng_SumSqrDiff (q : N) (va vb : option V) (x : K) : Prop :=
    match va, vb with
    | None, None => x = 0%amp
    | None, Some _ => running_norm q vb x
    | Some _, None => running_norm q va x
    | Some a, Some b => exists s, inner_sum c q a b s /\ x = (1 - anorm s)%amp
    end.
  (** SumSqrDiff, qpager.cpp:1637-1683, for two pagers of the same page size (the code adjusts them first). *)
  Definition PSumSqrDiff (p p2 : pager) (r : K) : Prop :=
    page_sum (fun i x => eng_SumSqrDiff (qubitsPerPage p) (pg_page p i) (pg_page p2 i) x) (all_pages p) 0%amp r.

  (** ** Composition, qpager.cpp:616-711, for a first operand at least as large as the second and a total above the
      threshold: page i * count + j is page j times amplitude i of the second operand. *)
  Definition compose_page (p p2 : pager) (k : N) (r : res (option V)) : Prop :=
    let i := k / pg_count p in
    let j := k mod pg_count p in
    let amp := PGetAmplitude p2 i in
    if is0 amp then r = Ok None
    else match pg_page p j with
         | None => r = Ok None
         | Some a => exists r1, SetAmplitudePageEng c (qubitsPerPage p) (qubitsPerPage p) (Some a) 0 0 (2 ^ qubitsPerPage p) None r1 /\
             match r1 with Throw => r = Throw | Ok v => Phase c false (qubitsPerPage p) amp amp 0 v r end
         end.
  Definition set_qubit_count (n : N) : pgstep := fun p r => r = Ok (mkPager n (pg_thr p) (pg_count p) (pg_page p)).
  Definition ComposeLarge (p2 : pager) : pgstep := fun p r =>
    andthen (new_pages (2 ^ pg_n p2 * pg_count p) (compose_page p p2))
      (andthen (set_qubit_count (pg_n p + pg_n p2)) (andthen (CombineEngines (pg_thr p)) SeparateBase)) p r.

  (** Generic circuits (MCircuit.v) on a pager. *)
  Definition pgate (g : gop K) : pgstep :=
    match g with
    | GM [] m t => PMtrx m t
    | GM cs m t => PEitherMtrx false cs m t
    | GXM mask => PXMask mask
    end.
  Fixpoint pcrun (l : circ K) : pgstep :=
    match l with
    | [] => pg_skip
    | g :: t => andthen (pgate g) (pcrun t)
    end.
End Pager.
Arguments pager K : clear implicits.
