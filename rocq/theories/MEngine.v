(** Model of the CPU state-vector engine, exact amplitudes.
    Sources: /repo/src/qengine/state.cpp, /repo/src/qengine/qengine.cpp, /repo/include/qengine.hpp,
    /repo/include/statevector.hpp.

    - [doNormalize] is false (the default of the constructor, qengine_cpu.hpp:53) unless a definition says otherwise;
      the norm-tracking variants of the 2x2 kernel are modelled as [nmode] below.
    - Every kernel call is dispatched to the work queue or run at once (Dispatch, qengine_cpu.hpp:242-255); by C17 the
      operations of one engine run one at a time in order, so each operation is one relation between the vector
      before and after.
    - IS_NORM_0 and IS_SAME (qrack_types.hpp:25-26) compare with a rounding tolerance; here the comparison is exact.
    - The state vector is a function from 64-bit indices; [None] is the null pointer (all amplitudes zero). *)
From Coq Require Import NArith List Bool.
From Verif Require Import MFunctions MParFor MKernel Amp.
Import ListNotations.
Local Open Scope N_scope.

(** Parallel configuration: GetConcurrencyLevel() and GetStride(), /repo/include/common/parallel_for.hpp. *)
Record cfg := mkCfg { cf_cores : N; cf_stride : N }.

(** An exception (std::invalid_argument) or a normal return. *)
Inductive res (T : Type) := Throw | Ok (t : T).
Arguments Throw {T}.
Arguments Ok {T} _.

(** popCountOcl, qrack_functions.hpp:116-129: the C++11 build on GCC/clang (line 121) calls __builtin_popcount, whose
    parameter is a 32-bit unsigned; [bits] is 32 there and 64 in the C++20 build (line 119) and the portable loop. *)
Fixpoint pop_pos (p : positive) : N :=
  match p with xH => 1 | xO q => pop_pos q | xI q => 1 + pop_pos q end.
Definition popcount (x : N) : N := match x with 0 => 0 | Npos p => pop_pos p end.
Definition popCountOcl (bits : N) (x : N) : N := popcount (x mod 2 ^ bits).

(** std::sort on an array of integers. *)
Fixpoint ninsert (x : N) (l : list N) : list N :=
  match l with
  | [] => [x]
  | y :: t => if x <=? y then x :: l else y :: ninsert x t
  end.
Fixpoint nsort (l : list N) : list N :=
  match l with
  | [] => []
  | x :: t => ninsert x (nsort t)
  end.

Section Engine.
  Context {K : StarRing}.
  Variable c : cfg.
  Local Notation V := (mem K).
  Local Notation is0 := (fun x : K => sr_eqb x 0%amp).

  (** Running a kernel body over a parallel loop. *)
  Definition loop_for (e : N) (body : N -> prog K) (m m' : V) : Prop :=
    exists calls, par_for (cf_cores c) (cf_stride c) 0 e calls /\ kernel (map body (map fst calls)) m m'.
  Definition loop_mask (e : N) (masks : list N) (body : N -> prog K) (m m' : V) : Prop :=
    exists calls, par_for_mask (cf_cores c) (cf_stride c) 0 e masks calls /\ kernel (map body (map fst calls)) m m'.
  Definition loop_skip (e skip width : N) (body : N -> prog K) (m m' : V) : Prop :=
    exists calls, par_for_skip (cf_cores c) (cf_stride c) 0 e skip width calls /\ kernel (map body (map fst calls)) m m'.

  (** Reductions: a buffer with one accumulator per core, each thread adds to its own, the caller adds up all
      (for instance state.cpp:1343-1381). *)
  Definition acc_total (term : N -> K) (calls : list (N * nat)) : K :=
    par_norm_result 0%amp sr_add term (N.to_nat (cf_cores c)) calls.
  Definition sum_for (e : N) (term : N -> K) (r : K) : Prop :=
    exists calls, par_for (cf_cores c) (cf_stride c) 0 e calls /\ r = acc_total term calls.
  Definition sum_mask (e : N) (masks : list N) (term : N -> K) (r : K) : Prop :=
    exists calls, par_for_mask (cf_cores c) (cf_stride c) 0 e masks calls /\ r = acc_total term calls.
  Definition sum_skip (e skip width : N) (term : N -> K) (r : K) : Prop :=
    exists calls, par_for_skip (cf_cores c) (cf_stride c) 0 e skip width calls /\ r = acc_total term calls.

  (** ** Apply2x2, state.cpp:333-641 (SIMD form 333-469, portable form 513-641) *)

  (** The three branches on the shape of the matrix, state.cpp:561-579. *)
  Definition a2_vals (m : mat2 K) (y0 y1 : K) : K * K :=
    if is0 (m01 m) && is0 (m10 m) then (m00 m * y0, m11 m * y1)%amp
    else if is0 (m00 m) && is0 (m11 m) then (m01 m * y1, m10 m * y0)%amp
    else (m00 m * y0 + m01 m * y1, m10 m * y0 + m11 m * y1)%amp.

  (** Norm handling chosen at state.cpp:539-546 and 561-617: none; scale by [nrm] and accumulate the norm; the same and
      drop amplitudes below the threshold. *)
  Inductive nmode := NPlain | NCalc (nrm : K) | NThresh (nrm : K) (below : K -> bool).
  Definition a2_fn (md : nmode) (m : mat2 K) (y0 y1 : K) : K * K :=
    let v := a2_vals m y0 y1 in
    match md with
    | NPlain => v
    | NCalc nrm => (nrm * fst v, nrm * snd v)%amp
    | NThresh nrm below =>
        let a := (nrm * fst v)%amp in let b := (nrm * snd v)%amp in
        (if below (anorm a) then 0%amp else a, if below (anorm b) then 0%amp else b)
    end.
  (** Contribution of one pair to the running norm. *)
  Definition a2_term (md : nmode) (m : mat2 K) (y0 y1 : K) : K :=
    let v := a2_fn md m y0 y1 in
    match md with NPlain => 0%amp | _ => (anorm (fst v) + anorm (snd v))%amp end.

  (** Kernel body: two reads, then write2 (statevector.hpp:132-136). *)
  Definition a2_body (o1 o2 : N) (f : K -> K -> K * K) (lcv : N) : prog K :=
    Rd (w64 (lcv + o1)) (fun y0 => Rd (w64 (lcv + o2)) (fun y1 =>
      let v := f y0 y1 in Wr (w64 (lcv + o1)) (fst v) (Wr (w64 (lcv + o2)) (snd v) Ret))).

  (** Argument checks, state.cpp:518-531. *)
  Fixpoint adjacent_equal (l : list N) : bool :=
    match l with
    | x :: ((y :: _) as t) => (x =? y) || adjacent_equal t
    | _ => false
    end.
  Definition a2_throws (n o1 o2 : N) (qps : list N) : bool :=
    (2 ^ n <=? o1) || (2 ^ n <=? o2) || existsb (fun p => 2 ^ n <=? p) qps || adjacent_equal qps.

  Definition Apply2x2 (n o1 o2 : N) (m : mat2 K) (qps : list N) (v : option V) (r : res (option V)) : Prop :=
    match v with
    | None => r = Ok None
    | Some psi => if a2_throws n o1 o2 qps then r = Throw
                  else exists psi', loop_mask (2 ^ n) qps (a2_body o1 o2 (a2_fn NPlain m)) psi psi' /\ r = Ok (Some psi')
    end.

  (** The norm-tracking form: the new runningNorm is the sum of the per-core accumulators (state.cpp:630-636).  In the
      portable build the accumulate kernel assigns [rngNrm[cpu] = ...] (state.cpp:508) instead of adding, so only the last
      pair of each thread is kept; the SIMD build adds (state.cpp:329).  [assign] selects the portable form. *)
  Definition thread_acc (assign : bool) (term : N -> K) (t : nat) (calls : list (N * nat)) : K :=
    if assign then fold_left (fun _ k => term k) (thread_calls t calls) 0%amp
    else fold_left (fun a k => (a + term k)%amp) (thread_calls t calls) 0%amp.
  Definition Apply2x2_norm (assign : bool) (n o1 o2 : N) (m : mat2 K) (qps : list N) (md : nmode) (psi psi' : V) (rnorm : K) : Prop :=
    exists calls, par_for_mask (cf_cores c) (cf_stride c) 0 (2 ^ n) qps calls /\
      kernel (map (a2_body o1 o2 (a2_fn md m)) (map fst calls)) psi psi' /\
      rnorm = fold_left (fun acc t => (acc + thread_acc (match md with NCalc _ => assign | _ => false end)
                (fun lcv => a2_term md m (psi (w64 (lcv + o1))) (psi (w64 (lcv + o2)))) t calls)%amp)
              (seq 0 (N.to_nat (cf_cores c))) 0%amp.

  (** ** Gates, qengine.cpp and qengine.hpp *)

  (** IsIdentity, qengine.hpp:45-67. *)
  Definition is_identity (randGlobalPhase isControlled : bool) (m : mat2 K) : bool :=
    if negb (is0 (m00 m - m11 m)%amp) || negb (is0 (m01 m) && is0 (m10 m)) then false
    else if (isControlled || negb randGlobalPhase) && negb (is0 (1 - m00 m)%amp) then false
    else true.

  (** Mtrx, qengine.cpp:19-27. *)
  Definition Mtrx (rgp : bool) (n : N) (m : mat2 K) (qubit : N) (v : option V) (r : res (option V)) : Prop :=
    if is_identity rgp false m then r = Ok v
    else Apply2x2 n 0 (pow2Ocl qubit) m [pow2Ocl qubit] v r.

  Definition or_pows (l : list N) : N := fold_left (fun a q => N.lor a (pow2Ocl q)) l 0.

  (** MCMtrx and MACMtrx through EitherMtrx, ApplyControlled2x2, ApplyAntiControlled2x2;
      qengine.cpp:29-48, 372-399. *)
  Definition EitherMtrx (rgp isAnti : bool) (n : N) (controls : list N) (m : mat2 K) (target : N) (v : option V) (r : res (option V)) : Prop :=
    match controls with
    | [] => Mtrx rgp n m target v r
    | _ =>
      if is_identity rgp true m then r = Ok v
      else
        let qps := nsort (map pow2Ocl controls ++ [pow2Ocl target]) in
        if isAnti then Apply2x2 n 0 (pow2Ocl target) m qps v r
        else Apply2x2 n (or_pows controls) (N.lor (or_pows controls) (pow2Ocl target)) m qps v r
    end.

  (** UCMtrx, qengine.cpp:50-75: control [i] must equal bit [i] of [controlPerm]. *)
  Fixpoint perm_mask (i : N) (controls : list N) (controlPerm : N) : N :=
    match controls with
    | [] => 0
    | q :: t => N.lor (if N.testbit controlPerm i then pow2Ocl q else 0) (perm_mask (i + 1) t controlPerm)
    end.
  Definition UCMtrx (rgp : bool) (n : N) (controls : list N) (m : mat2 K) (target controlPerm : N) (v : option V) (r : res (option V)) : Prop :=
    match controls with
    | [] => Mtrx rgp n m target v r
    | _ =>
      if is_identity rgp true m then r = Ok v
      else
        let cm := perm_mask 0 controls controlPerm in
        Apply2x2 n cm (N.lor cm (pow2Ocl target)) m (nsort (map pow2Ocl controls ++ [pow2Ocl target])) v r
    end.

  (** Swap, ISwap, IISwap, SqrtSwap, ISqrtSwap, qengine.cpp:408-443, and their (anti-)controlled forms, 212-370: a 2x2
      matrix between the two basis states in which exactly one of the two qubits is set. *)
  Definition SwapLike (n : N) (m : mat2 K) (q1 q2 : N) (v : option V) (r : res (option V)) : Prop :=
    if q1 =? q2 then r = Ok v
    else let a := N.min q1 q2 in let b := N.max q1 q2 in
         Apply2x2 n (pow2Ocl a) (pow2Ocl b) m [pow2Ocl a; pow2Ocl b] v r.
  Definition CSwapLike (isAnti : bool) (n : N) (controls : list N) (m : mat2 K) (q1 q2 : N) (v : option V) (r : res (option V)) : Prop :=
    match controls with
    | [] => SwapLike n m q1 q2 v r
    | _ =>
      if q1 =? q2 then r = Ok v
      else let a := N.min q1 q2 in let b := N.max q1 q2 in
           let s := if isAnti then 0 else or_pows controls in
           Apply2x2 n (N.lor s (pow2Ocl a)) (N.lor s (pow2Ocl b)) m (nsort (map pow2Ocl controls ++ [pow2Ocl a; pow2Ocl b])) v r
    end.

  (** FSim, qengine.cpp:444-461: [co] and [si] are cos and sin of theta, [i] the imaginary unit, [ph] is exp(-i phi); the
      swap part is skipped when sin(theta) is zero.  MCPhase is MCMtrx with a diagonal matrix, qinterface.hpp:538-547. *)
  Definition FSim (rgp : bool) (n : N) (i co si ph : K) (q1 q2 : N) (v : option V) (r : res (option V)) : Prop :=
    let a := N.min q1 q2 in let b := N.max q1 q2 in
    exists r1,
      (if is0 (si * si)%amp then r1 = Ok v
       else Apply2x2 n (pow2Ocl a) (pow2Ocl b) (mkMat co (- (i * si))%amp (- (i * si))%amp co) [pow2Ocl a; pow2Ocl b] v r1) /\
      match r1 with
      | Throw => r = Throw
      | Ok v1 => if is0 (1 - ph)%amp then r = Ok v1 else EitherMtrx rgp false n [a] (mkMat 1%amp 0%amp 0%amp ph) b v1 r
      end.

  (** ** XMask, state.cpp:644-682 *)
  Definition xmask_body (n mask lcv : N) : prog K :=
    let otherMask := N.lxor (2 ^ n - 1) mask in
    let otherRes := N.land lcv otherMask in
    let setInt := N.land lcv mask in
    let resetInt := N.lxor setInt mask in
    if setInt <? resetInt then Ret
    else let s := N.lor setInt otherRes in let t := N.lor resetInt otherRes in
         Rd t (fun y0 => Rd s (fun y1 => Wr t y1 (Wr s y0 Ret))).
  Definition matX : mat2 K := mkMat 0%amp 1%amp 1%amp 0%amp.
  Definition XMask (rgp : bool) (n mask : N) (v : option V) (r : res (option V)) : Prop :=
    if 2 ^ n <=? mask then r = Throw
    else match v with
    | None => r = Ok None
    | Some psi =>
      if mask =? 0 then r = Ok v
      else if isPowerOfTwoOcl mask then Mtrx rgp n matX (bi_log2_native mask) v r
      else exists psi', loop_for (2 ^ n) (xmask_body n mask) psi psi' /\ r = Ok (Some psi')
    end.

  (** ** PhaseParity, state.cpp:684-725; [ph] is exp(i radians/2), [phA] its conjugate (also 1/ph). *)
  Fixpoint fold_parity (sizes : list N) (v : N) : N :=
    match sizes with
    | [] => N.land v 1
    | s :: t => fold_parity t (N.lxor v (N.shiftr v s))
    end.
  Definition parity64 (v : N) : N := fold_parity [32; 16; 8; 4; 2; 1] v.
  Definition pparity_body (n mask : N) (ph phA : K) (lcv : N) : prog K :=
    let otherMask := N.lxor (2 ^ n - 1) mask in
    let otherRes := N.land lcv otherMask in
    let setInt := N.land lcv mask in
    let v := parity64 setInt in
    let s := N.lor setInt otherRes in
    Rd s (fun y => Wr s ((if v =? 0 then phA else ph) * y)%amp Ret).
  (** Phase (qinterface.hpp:516-524): skipped when both entries are equal and (one of them is 1, or global phase is
      random); otherwise Mtrx. *)
  Definition Phase (rgp : bool) (n : N) (tl br : K) (qubit : N) (v : option V) (r : res (option V)) : Prop :=
    if (rgp || is0 (1 - tl)%amp) && is0 (tl - br)%amp then r = Ok v
    else Mtrx rgp n (mkMat tl 0%amp 0%amp br) qubit v r.
  Definition PhaseParity (rgp : bool) (n : N) (ph phA : K) (mask : N) (v : option V) (r : res (option V)) : Prop :=
    if 2 ^ n <=? mask then r = Throw
    else match v with
    | None => r = Ok None
    | Some psi =>
      if mask =? 0 then r = Ok v
      else if isPowerOfTwoOcl mask then Phase rgp n phA ph (bi_log2_native mask) v r
      else exists psi', loop_for (2 ^ n) (pparity_body n mask ph phA) psi psi' /\ r = Ok (Some psi')
    end.

  (** UniformParityRZ, state.cpp:866-884; CUniformParityRZ, 886-922.  [pb] is the width of the popcount. *)
  Definition uprz_body (pb mask : N) (ph phA : K) (lcv : N) : prog K :=
    Rd lcv (fun y => Wr lcv (y * (if N.testbit (popCountOcl pb (N.land lcv mask)) 0 then ph else phA))%amp Ret).
  Definition UniformParityRZ (pb n mask : N) (ph phA : K) (v : option V) (r : res (option V)) : Prop :=
    if 2 ^ n <=? mask then r = Throw
    else match v with
    | None => r = Ok None
    | Some psi => exists psi', loop_for (2 ^ n) (uprz_body pb mask ph phA) psi psi' /\ r = Ok (Some psi')
    end.
  Definition cuprz_body (pb mask cmask : N) (ph phA : K) (lcv : N) : prog K :=
    Rd (N.lor cmask lcv) (fun y => Wr (N.lor cmask lcv) (y * (if N.testbit (popCountOcl pb (N.land lcv mask)) 0 then ph else phA))%amp Ret).
  Definition CUniformParityRZ (pb n : N) (controls : list N) (mask : N) (ph phA : K) (v : option V) (r : res (option V)) : Prop :=
    match controls with
    | [] => UniformParityRZ pb n mask ph phA v r
    | _ =>
      if (2 ^ n <=? mask) || throwIfQbIdArrayIsBad controls n then r = Throw
      else match v with
      | None => r = Ok None
      | Some psi =>
          let cs := nsort controls in
          exists psi', loop_mask (2 ^ n) (map pow2Ocl cs) (cuprz_body pb mask (or_pows cs) ph phA) psi psi' /\ r = Ok (Some psi')
      end
    end.

  (** ZMask, qengine.hpp:158: PhaseParity with the angle pi; [i] is exp(i pi/2). *)
  Definition ZMask (rgp : bool) (n : N) (i : K) (mask : N) (v : option V) (r : res (option V)) : Prop :=
    PhaseParity rgp n i (- i)%amp mask v r.
  (** PhaseRootNMask, state.cpp:727-759; [w] is exp(i pi / 2^(nr-1)), so that std::polar(1, radians * k) is the k-th power
      of its conjugate. *)
  Definition prn_body (pb nr mask : N) (w : K) (lcv : N) : prog K :=
    let k := popCountOcl pb (N.land lcv mask) mod (pow2Ocl nr) in
    if k =? 0 then Ret else Rd lcv (fun y => Wr lcv (apow (sr_conj w) (N.to_nat k) * y)%amp Ret).
  Definition PhaseRootNMask (rgp : bool) (pb n nr : N) (i w : K) (mask : N) (v : option V) (r : res (option V)) : Prop :=
    if 2 ^ n <=? mask then r = Throw
    else match v with
    | None => r = Ok None
    | Some psi =>
      if (nr =? 0) || (mask =? 0) then r = Ok v
      else if nr =? 1 then ZMask rgp n i mask v r
      else if isPowerOfTwoOcl mask then Phase rgp n 1%amp (sr_conj w) (bi_log2_native mask) v r
      else exists psi', loop_for (2 ^ n) (prn_body pb nr mask w) psi psi' /\ r = Ok (Some psi')
    end.
  (** PhaseRootN on one qubit, qinterface.hpp:1055-1062: pow(-1, 1/2^(nr-1)) is exp(i pi / 2^(nr-1)). *)
  Definition PhaseRootN (rgp : bool) (n nr : N) (w : K) (qubit : N) (v : option V) (r : res (option V)) : Prop :=
    if nr =? 0 then r = Ok v else Phase rgp n 1%amp w qubit v r.

  (** ** UniformlyControlledSingleBit, state.cpp:761-864 (doNormalize false: lines 823-855).
      [mtrxs] is the array of matrix entries. *)
  Fixpoint ctrl_offset (j : N) (controls : list N) (lcv : N) : N :=
    match controls with
    | [] => 0
    | q :: t => N.lor (if N.land lcv (pow2Ocl q) =? 0 then 0 else pow2Ocl j) (ctrl_offset (j + 1) t lcv)
    end.
  Fixpoint skip_loop (i iHigh : N) (skips : list N) : N :=
    match skips with
    | [] => N.lor i iHigh
    | s :: t => let iLow := N.land iHigh (s - 1) in
                skip_loop (N.lor i iLow) (w64 (N.shiftl (N.lxor iHigh iLow) 1)) t
    end.
  Definition ucsb_offset (controls skips : list N) (skipValue lcv : N) : N :=
    w64 (N.lor (skip_loop 0 (ctrl_offset 0 controls lcv) skips) skipValue * 4).
  Definition mat_at (mtrxs : N -> K) (off : N) : mat2 K :=
    mkMat (mtrxs off) (mtrxs (1 + off)) (mtrxs (2 + off)) (mtrxs (3 + off)).
  Definition ucsb_body (controls : list N) (target : N) (mtrxs : N -> K) (skips : list N) (skipValue lcv : N) : prog K :=
    let m := mat_at mtrxs (ucsb_offset controls skips skipValue lcv) in
    let hi := N.lor lcv (pow2Ocl target) in
    Rd lcv (fun y0 => Rd hi (fun y1 =>
      Wr lcv (m00 m * y0 + m01 m * y1)%amp (Wr hi (m10 m * y0 + m11 m * y1)%amp Ret))).
  Definition UniformlyControlledSingleBit (rgp : bool) (n : N) (controls : list N) (target : N) (mtrxs : N -> K)
      (skips : list N) (skipValue : N) (v : option V) (r : res (option V)) : Prop :=
    match v with
    | None => r = Ok None
    | Some psi =>
      match controls with
      | [] => Mtrx rgp n (mat_at mtrxs (w64 (skipValue * 4))) target v r
      | _ =>
        if (n <=? target) || throwIfQbIdArrayIsBad controls n then r = Throw
        else exists psi', loop_skip (2 ^ n) (pow2Ocl target) 1 (ucsb_body controls target mtrxs skips skipValue) psi psi' /\ r = Ok (Some psi')
      end
    end.

  (** ** Compose, state.cpp:929-1113 *)
  Record eng := mkEng { e_n : N; e_vec : option V }.

  (** A new vector is filled completely; [fresh] is the uninitialised memory. *)
  Definition fill (e : N) (val : N -> K) (fresh m' : V) : Prop :=
    loop_for e (fun lcv => Wr lcv (val lcv) Ret) fresh m'.

  (** Compose(toCopy), state.cpp:929-994; [maxQB] is QRACK_MAX_CPU_QB. *)
  Definition Compose (maxQB : N) (a b : eng) (r : res (eng * N)) : Prop :=
    if e_n b =? 0 then r = Ok (a, e_n a)
    else if maxQB <? e_n a + e_n b then r = Throw
    else if e_n a =? 0 then
      match e_vec b with
      | None => r = Ok (mkEng (e_n b) (e_vec a), 0)
      | Some pb => exists fresh m', fill (2 ^ e_n b) pb fresh m' /\ r = Ok (mkEng (e_n b) (Some m'), 0)
      end
    else match e_vec a, e_vec b with
    | Some pa, Some pb =>
        let startMask := 2 ^ e_n a - 1 in
        let endMask := w64 (N.shiftl (2 ^ e_n b - 1) (e_n a)) in
        exists fresh m', fill (pow2Ocl (e_n a + e_n b))
          (fun lcv => pa (N.land lcv startMask) * pb (N.shiftr (N.land lcv endMask) (e_n a)))%amp fresh m' /\
          r = Ok (mkEng (e_n a + e_n b) (Some m'), e_n a)
    | _, _ => r = Ok (mkEng (e_n a + e_n b) None, e_n a)
    end.

  (** Compose(toCopy, start), state.cpp:1000-1057. *)
  Definition ComposeAt (maxQB : N) (a b : eng) (start : N) (r : res (eng * N)) : Prop :=
    if e_n a <? start then r = Throw
    else if e_n a =? 0 then
      exists r', Compose maxQB a b r' /\ r = match r' with Ok (e, _) => Ok (e, 0) | Throw => Throw end
    else if e_n b =? 0 then r = Ok (a, e_n a)
    else if maxQB <? e_n a + e_n b then r = Throw
    else match e_vec a, e_vec b with
    | Some pa, Some pb =>
        let startMask := pow2MaskOcl start in
        let midMask := bitRegMaskOcl start (e_n b) in
        let endMask := N.land (pow2MaskOcl (e_n a + e_n b)) (not64 (N.lor startMask midMask)) in
        exists fresh m', fill (pow2Ocl (e_n a + e_n b))
          (fun lcv => pa (N.lor (N.land lcv startMask) (N.shiftr (N.land lcv endMask) (e_n b))) *
                      pb (N.shiftr (N.land lcv midMask) start))%amp fresh m' /\
          r = Ok (mkEng (e_n a + e_n b) (Some m'), start)
    | _, _ => r = Ok (mkEng (e_n a + e_n b) None, start)
    end.

  (** Compose(vector), state.cpp:1066-1113: several operands at once.  Every operand must hold a vector (a null
      pointer is dereferenced otherwise), so operands are given as pairs (qubits, vector). *)
  Fixpoint compose_srcs (off : N) (srcs : list (N * V)) (lcv : N) : prog K :=
    match srcs with
    | [] => Ret
    | (k, s) :: t =>
        let mask := w64 (N.shiftl (2 ^ k - 1) off) in
        Rd lcv (fun y => Wr lcv (y * s (N.shiftr (N.land lcv mask) off))%amp (compose_srcs (off + k) t lcv))
    end.
  Definition ComposeMany (na : N) (pa : V) (srcs : list (N * V)) (n' : N) (m' : V) : Prop :=
    n' = fold_left (fun a s => a + fst s) srcs na /\
    exists fresh, loop_for (pow2Ocl n') (fun lcv => Wr lcv (pa (N.land lcv (2 ^ na - 1))) (compose_srcs na srcs lcv)) fresh m'.

  (** Dispose(start, length, perm), state.cpp:1280-1320. *)
  Definition Dispose (a : eng) (start length perm : N) (r : res eng) : Prop :=
    if isBadBitRange start length (e_n a) then r = Throw
    else if length =? 0 then r = Ok a
    else match e_vec a with
    | None => r = Ok (mkEng (e_n a - length) None)
    | Some pa =>
        let nLength := e_n a - length in
        let skipMask := pow2Ocl start - 1 in
        let disposedRes := w64 (N.shiftl (w64 perm) start) in
        exists fresh m', fill (pow2Ocl nLength)
          (fun iHigh => let iLow := N.land iHigh skipMask in
             pa (N.lor (N.lor iLow (w64 (N.shiftl (N.lxor iHigh iLow) length))) disposedRes)) fresh m' /\
          r = Ok (mkEng (if nLength =? 0 then 1 else nLength) (Some m'))
    end.

  (** ** Probabilities, state.cpp:1322-1529.  clampProb (qinterface.hpp:158) is omitted: exact probabilities of a
      normalised state lie in [0,1]. *)
  Definition vread (v : option V) (x : N) : K := match v with None => 0%amp | Some psi => psi x end.

  (** Prob, state.cpp:1323-1381; [simd] selects the ENABLE_COMPLEX_X2 build. *)
  Definition Prob (simd : bool) (n qubit : N) (v : option V) (r : res K) : Prop :=
    if n <=? qubit then r = Throw
    else match v with
    | None => r = Ok 0%amp
    | Some psi =>
      if n =? 1 then r = Ok (anorm (psi 1))
      else
        let qp := pow2Ocl qubit in
        if simd then
          if qp =? 1
          then exists p, sum_for (N.shiftr (2 ^ n) 2)
                 (fun lcv => let t4 := w64 (N.shiftl lcv 2) in anorm (psi (N.lor t4 1)) + anorm (psi (N.lor t4 3)))%amp p /\ r = Ok p
          else exists p, sum_skip (N.shiftr (2 ^ n) 1) (N.shiftr qp 1) 1
                 (fun lcv => let t2 := N.lor (w64 (N.shiftl lcv 1)) qp in anorm (psi t2) + anorm (psi (N.lor t2 1)))%amp p /\ r = Ok p
        else exists p, sum_skip (2 ^ n) qp 1 (fun lcv => anorm (psi (N.lor lcv qp))) p /\ r = Ok p
    end.

  (** CtrlOrAntiProb before the division by the control's probability, state.cpp:1408-1426. *)
  Definition CtrlOrAntiProb_num (n control target : N) (cstate : bool) (psi : V) (p : K) : Prop :=
    let cp := pow2Ocl control in
    sum_skip (2 ^ n) (pow2Ocl target) 1
      (fun lcv => if N.land lcv cp =? (if cstate then cp else 0) then anorm (psi (N.lor lcv (pow2Ocl target))) else 0%amp) p.

  (** ProbReg, state.cpp:1431-1455. *)
  Definition ProbReg (n start length perm : N) (v : option V) (p : K) : Prop :=
    match v with
    | None => p = 0%amp
    | Some psi => sum_skip (2 ^ n) (pow2Ocl start) length (fun lcv => anorm (psi (N.lor lcv (w64 (N.shiftl (w64 perm) start))))) p
    end.

  (** The powers of the bits of a mask, lowest first, state.cpp:1473-1479. *)
  Fixpoint mask_powers (fuel : nat) (v : N) : list N :=
    match fuel with
    | O => []
    | S f => if v =? 0 then [] else
             let v' := N.land v (v - 1) in N.land (N.lxor v' v) v :: mask_powers f v'
    end.
  (** ProbMask, state.cpp:1458-1495. *)
  Definition ProbMask (n mask perm : N) (v : option V) (r : res K) : Prop :=
    if 2 ^ n <=? mask then r = Throw
    else match v with
    | None => r = Ok 0%amp
    | Some psi => exists p, sum_mask (2 ^ n) (mask_powers 64 mask) (fun lcv => anorm (psi (N.lor lcv perm))) p /\ r = Ok p
    end.

  (** ProbParity, state.cpp:1497-1529. *)
  Definition ProbParity (pb n mask : N) (v : option V) (r : res K) : Prop :=
    if 2 ^ n <=? mask then r = Throw
    else match v with
    | None => r = Ok 0%amp
    | Some psi => if mask =? 0 then r = Ok 0%amp
        else exists p, sum_for (2 ^ n) (fun lcv => if N.testbit (popCountOcl pb (N.land lcv mask)) 0 then anorm (psi lcv) else 0%amp) p /\ r = Ok p
    end.

  (** ProbAll, qengine.hpp:268-276 and ProbRegAll, qengine.cpp:479-487: [probs] accumulates sequentially. *)
  Definition ProbAll (v : option V) (x : N) : K := anorm (vread v x).
  Definition ProbRegAll (n start length : N) (v : option V) : N -> K :=
    fold_left (fun (arr : N -> K) i =>
      let reg := N.land (N.shiftr i start) (pow2Ocl length - 1) in
      fun k => if k =? reg then (arr k + ProbAll v i)%amp else arr k) (iota 0 (N.to_nat (2 ^ n))) (fun _ => 0%amp).

  (** The inner product of SumSqrDiff, state.cpp:1643-1654. *)
  Definition inner_sum (n : N) (a b : V) (p : K) : Prop :=
    sum_for (2 ^ n) (fun lcv => sr_conj (a lcv) * b lcv)%amp p.

  (** GetExpectation before the division, utility.cpp:68-84 (sequential); [emb] embeds integers. *)
  Definition expectation_num (emb : N -> K) (n start length : N) (psi : V) : K :=
    fold_left (fun acc i => (acc + anorm (psi i) * emb (N.shiftr (N.land i (bitRegMaskOcl start length)) start))%amp)
      (iota 0 (N.to_nat (2 ^ n))) 0%amp.

  (** ** ApplyM, state.cpp:1659-1677 *)
  Definition applym_body (mask result : N) (nrm : K) (i : N) : prog K :=
    if N.land i mask =? result then Rd i (fun y => Wr i (nrm * y)%amp Ret) else Wr i 0%amp Ret.
  Definition ApplyM (n mask result : N) (nrm : K) (v v' : option V) : Prop :=
    match v with
    | None => v' = None
    | Some psi => exists psi', loop_for (2 ^ n) (applym_body (w64 mask) (w64 result) nrm) psi psi' /\ v' = Some psi'
    end.

  (** The projection step of ForceMParity, state.cpp:1578-1584. *)
  Definition mparity_body (pb mask : N) (result : bool) (lcv : N) : prog K :=
    if Bool.eqb (N.testbit (popCountOcl pb (N.land lcv mask)) 0) result then Rd lcv (fun _ => Ret) else Wr lcv 0%amp Ret.

  (** The scaling step of NormalizeState, state.cpp:1713-1726; [cnrm] is the complex factor, [below] the threshold test
      (constantly false for a threshold that is not positive). *)
  Definition normalize_body (cnrm : K) (below : K -> bool) (lcv : N) : prog K :=
    Rd lcv (fun y => Wr lcv (cnrm * (if below (anorm y) then 0 else y))%amp Ret).

  (** ** Amplitude access, state.cpp:61-220 and statevector.hpp:138-205 *)
  (** GetAmplitudePage: [out] is the caller's array. *)
  Definition GetAmplitudePage (n offset length : N) (v : option V) (out : V) (r : res V) : Prop :=
    if isBadPermRange offset length (2 ^ n) then r = Throw
    else exists out', loop_for length (fun lcv => Wr lcv (vread v (w64 (lcv + offset))) Ret) out out' /\ r = Ok out'.
  (** SetAmplitudePage from an array; a null vector is allocated and cleared first. *)
  Definition cleared (n : N) (v : option V) (m : V) : Prop :=
    match v with
    | Some psi => m = psi
    | None => exists fresh, fill (2 ^ n) (fun _ => 0%amp) fresh m
    end.
  Definition SetAmplitudePage (n offset length : N) (page : V) (v : option V) (r : res (option V)) : Prop :=
    if isBadPermRange offset length (2 ^ n) then r = Throw
    else exists m0 m', cleared n v m0 /\ loop_for length (fun lcv => Wr (w64 (lcv + offset)) (page lcv) Ret) m0 m' /\ r = Ok (Some m').
  (** SetAmplitudePage from another engine of [ns] qubits. *)
  Definition SetAmplitudePageEng (n : N) (ns : N) (src : option V) (srcOffset dstOffset length : N) (v : option V) (r : res (option V)) : Prop :=
    if isBadPermRange dstOffset length (2 ^ n) || isBadPermRange srcOffset length (2 ^ ns) then r = Throw
    else match v, src with
    | None, None => r = Ok None
    | _, _ =>
      if (match src with None => true | _ => false end) && (length =? 2 ^ n) then r = Ok None
      else exists m0 m', cleared n v m0 /\
        loop_for length (fun lcv => Wr (w64 (lcv + dstOffset)) (vread src (w64 (lcv + srcOffset))) Ret) m0 m' /\ r = Ok (Some m')
    end.
  (** SetAmplitude, state.cpp:197-220, when the norm is tracked ([tracked]: runningNorm is not the default marker, which
      holds after construction): the old amplitude is read before a null vector is allocated; that read of a null
      pointer is [Throw] here. *)
  Definition SetAmplitude (n perm : N) (tracked : bool) (amp : K) (v : option V) (r : res (option V)) : Prop :=
    if 2 ^ n <=? perm then r = Throw
    else match v with
    | None => if sr_eqb (anorm amp) 0%amp then r = Ok None
              else if tracked then r = Throw
              else exists m0, cleared n v m0 /\ r = Ok (Some (mset m0 perm amp))
    | Some psi => r = Ok (Some (mset psi perm amp))
    end.

  (** ShuffleBuffers, state.cpp:129-158 and statevector.hpp:197-205.  Both vectors form one address space: cell 2*i is
      element i of this vector, cell 2*i+1 element i of the other. *)
  Definition pair_mem (a b : V) : V := fun x => if N.testbit x 0 then b (N.shiftr x 1) else a (N.shiftr x 1).
  Definition shuffle_body (half lcv : N) : prog K :=
    Rd (2 * (lcv + half)) (fun tmp => Rd (2 * lcv + 1) (fun y => Wr (2 * (lcv + half)) y (Wr (2 * lcv + 1) tmp Ret))).
  Definition ShuffleBuffers (n : N) (va vb : option V) (va' vb' : option V) : Prop :=
    match va, vb with
    | None, None => va' = None /\ vb' = None
    | _, _ => exists a b m', cleared n va a /\ cleared n vb b /\
        loop_for (N.shiftr (2 ^ n) 1) (shuffle_body (N.shiftr (2 ^ n) 1)) (pair_mem a b) m' /\
        va' = Some (fun x => m' (2 * x)) /\ vb' = Some (fun x => m' (2 * x + 1))
    end.
End Engine.
Arguments eng K : clear implicits.
Arguments nmode K : clear implicits.
