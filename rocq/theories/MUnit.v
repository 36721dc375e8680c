(** QUnit: qubits kept apart as long as possible.  /repo/src/qunit.cpp and /repo/include/qunit.hpp, with QEngineShard
    (/repo/include/qengineshard.hpp, /repo/src/qengineshard.cpp); the two-qubit buffers of the shards are those of MShard.v.
    Numbers alone refer to qunit.cpp; "hpp" to qunit.hpp.
    Simplified: arithmetic is exact and the thresholds (FP_NORM_EPSILON, separabilityThreshold) are 0; no allocation fails (so
    the catch branches and the limits of 437-453 are absent); logFidelity is left out; the engines are ideal state vectors with
    the gates of SpecState (as proved for the engines in other files) and are never Clifford, so the branches for
    QINTERFACE_STABILIZER_HYBRID, useTGadget and isClifford() are absent; isReactiveSeparate is false.
    A shard is named by its position in QEngineShardMap::shards; the functions here take positions, and [order] lists the
    positions in the order of the logical indices (the swap map).  Pointers to engines are numbers; an engine without owner
    is a register of no qubits. *)
From Coq Require Import NArith List Bool.
From Verif Require Import Amp SpecState MShard.
Import ListNotations.
Local Open Scope N_scope.

(** The constants I_CMPLX and SQRT1_2_R1, sqrt for probabilities, and the polar operations of MShard.v. *)
Record Cplx (K : StarRing) := mkCplx {
  cx_i : K;
  cx_h : K;
  cx_sqrt : K -> K;
  cx_po : Polar K;
  cx_i_sq : (cx_i * cx_i = - (1))%amp;
  cx_i_conj : sr_conj cx_i = (- cx_i)%amp;
  cx_h_sq : (cx_h * cx_h + cx_h * cx_h = 1)%amp;
  cx_h_conj : sr_conj cx_h = cx_h;
  cx_sqrt_0 : forall p, cx_sqrt p = 0%amp <-> p = 0%amp;
  cx_unit_h : forall x, anorm x = (cx_h * cx_h)%amp -> po_unit cx_po x = (x * (cx_h + cx_h))%amp;
  cx_unit_0 : forall x, po_unit cx_po x = 0%amp -> x = 0%amp
}.
Arguments cx_i {_} _.
Arguments cx_h {_} _.
Arguments cx_sqrt {_} _ _.
Arguments cx_po {_} _.

(** pauli.hpp (PauliI does not occur). *)
Inductive pauli := PauliZ | PauliX | PauliY.
Definition pauli_eqb (a b : pauli) : bool :=
  match a, b with PauliZ, PauliZ | PauliX, PauliX | PauliY, PauliY => true | _, _ => false end.

(** hpp:979-981. *)
Inductive RevertExclusivity := INVERT_AND_PHASE | ONLY_INVERT | ONLY_PHASE.
Inductive RevertControl := CONTROLS_AND_TARGETS | ONLY_CONTROLS | ONLY_TARGETS.
Inductive RevertAnti := CTRL_AND_ANTI | ONLY_CTRL | ONLY_ANTI.

Section Unit.
  Context {K : StarRing} (cx : Cplx K).
  Local Open Scope amp_scope.
  Local Notation vec := (N -> K).
  Local Notation po := (cx_po cx).
  Local Notation ii := (cx_i cx).
  Local Notation hh := (cx_h cx).

  (** qengineshard.hpp:55-75, without the four maps. *)
  Record qshard := mkQS {
    s_unit : option N;
    s_map : N;
    s_pd : bool;  (* isProbDirty *)
    s_fd : bool;  (* isPhaseDirty *)
    s_a0 : K;
    s_a1 : K;
    s_bas : pauli
  }.
  (** The simulator: number of qubits, swap map (logical index to position), shards, engines (number of qubits and
      amplitudes), number of the next engine, the buffers of the shards, the random phases and comparisons still to come
      (GetNonunitaryPhase; Rand() <= p) with the number already used, and whether a null pointer was dereferenced.
      randGlobalPhase is fixed (hpp:57). *)
  Record qunit := mkQU {
    u_rgp : bool;
    u_n : N;
    u_sw : N -> N;
    u_sh : N -> qshard;
    u_eng : N -> N * vec;
    u_next : N;
    u_buf : shards K;
    u_ph : N -> K;
    u_rnd : N -> K -> bool;
    u_draw : N;
    u_ub : bool
  }.

  Definition set_sh (f : N -> qshard) (U : qunit) : qunit :=
    mkQU (u_rgp U) (u_n U) (u_sw U) f (u_eng U) (u_next U) (u_buf U) (u_ph U) (u_rnd U) (u_draw U) (u_ub U).
  Definition put_sh (q : N) (s : qshard) (U : qunit) : qunit := set_sh (fun p => if (p =? q)%N then s else u_sh U p) U.
  Definition set_eng (f : N -> N * vec) (next : N) (U : qunit) : qunit :=
    mkQU (u_rgp U) (u_n U) (u_sw U) (u_sh U) f next (u_buf U) (u_ph U) (u_rnd U) (u_draw U) (u_ub U).
  Definition set_shbuf (b : shards K) (U : qunit) : qunit :=
    mkQU (u_rgp U) (u_n U) (u_sw U) (u_sh U) (u_eng U) (u_next U) b (u_ph U) (u_rnd U) (u_draw U) (u_ub U).
  Definition set_draw (d : N) (U : qunit) : qunit :=
    mkQU (u_rgp U) (u_n U) (u_sw U) (u_sh U) (u_eng U) (u_next U) (u_buf U) (u_ph U) (u_rnd U) d (u_ub U).
  Definition set_ub (U : qunit) : qunit :=
    mkQU (u_rgp U) (u_n U) (u_sw U) (u_sh U) (u_eng U) (u_next U) (u_buf U) (u_ph U) (u_rnd U) (u_draw U) true.
  Definition set_sw (f : N -> N) (U : qunit) : qunit :=
    mkQU (u_rgp U) (u_n U) f (u_sh U) (u_eng U) (u_next U) (u_buf U) (u_ph U) (u_rnd U) (u_draw U) (u_ub U).
  Definition onbuf (f : shards K -> shards K) (U : qunit) : qunit := set_shbuf (f (u_buf U)) U.

  (** Single fields of a shard. *)
  Definition w_bas (b : pauli) (s : qshard) := mkQS (s_unit s) (s_map s) (s_pd s) (s_fd s) (s_a0 s) (s_a1 s) b.
  Definition w_amps (a0 a1 : K) (s : qshard) := mkQS (s_unit s) (s_map s) (s_pd s) (s_fd s) a0 a1 (s_bas s).
  Definition w_pd (b : bool) (s : qshard) := mkQS (s_unit s) (s_map s) b (s_fd s) (s_a0 s) (s_a1 s) (s_bas s).
  Definition w_fd (b : bool) (s : qshard) := mkQS (s_unit s) (s_map s) (s_pd s) b (s_a0 s) (s_a1 s) (s_bas s).
  Definition w_unit (u : option N) (m : N) (s : qshard) := mkQS u m (s_pd s) (s_fd s) (s_a0 s) (s_a1 s) (s_bas s).
  Definition on_sh (q : N) (f : qshard -> qshard) (U : qunit) : qunit := put_sh q (f (u_sh U q)) U.

  (** The amplitudes of a register as a table. *)
  Definition tab (n : N) (f : vec) : vec :=
    let l := map f (basis n) in fun x => nth (N.to_nat x) l 0.
  Definition put_eng (u n : N) (v : vec) (U : qunit) : qunit :=
    let t := tab n v in set_eng (fun w => if (w =? u)%N then (n, t) else u_eng U w) (u_next U) U.
  Definition free_eng (u : N) (U : qunit) : qunit := put_eng u 0 (fun _ => 1) U.

  (** The positions in the order of the logical indices. *)
  Definition order (U : qunit) : list N := map (u_sw U) (upto (N.to_nat (u_n U))).

  (** A gate of an engine: [m] on its qubit [t] where [P] holds. *)
  Definition eng_gate (u : N) (P : N -> bool) (t : N) (m : mat2 K) (U : qunit) : qunit :=
    let '(n, v) := u_eng U u in put_eng u n (gate1 P t m v) U.
  (** A gate of the engine of shard [q], if there is one, on the qubit of [q]. *)
  Definition unit_gate (q : N) (m : mat2 K) (U : qunit) : qunit :=
    match s_unit (u_sh U q) with
    | Some u => eng_gate u always (s_map (u_sh U q)) m U
    | None => U
    end.
  (** The cached amplitudes times a matrix. *)
  Definition amps_gate (q : N) (m : mat2 K) (U : qunit) : qunit :=
    on_sh q (fun s => w_amps (m00 m * s_a0 s + m01 m * s_a1 s) (m10 m * s_a0 s + m11 m * s_a1 s) s) U.

  (** qinterface.hpp:169-177. *)
  Definition draw (U : qunit) : K * qunit :=
    if u_rgp U then (u_ph U (u_draw U), set_draw (u_draw U + 1) U) else (1, U).

  Definition is0 (a : K) : bool := sr_eqb a 0.
  Definition DIRTY (s : qshard) : bool := s_fd s || s_pd s.
  Definition QUEUED_PHASE (q : N) (U : qunit) : bool :=
    let some m := match entries (u_buf U) m q with [] => false | _ => true end in
    some targetOfShards || some controlsShards || some antiTargetOfShards || some antiControlsShards.
  Definition IS_SAME_UNIT (p q : N) (U : qunit) : bool :=
    match s_unit (u_sh U p), s_unit (u_sh U q) with Some a, Some b => (a =? b)%N | _, _ => false end.
  Definition IS_PHASE_OR_INVERT (m : mat2 K) : bool := (is0 (m01 m) && is0 (m10 m)) || (is0 (m00 m) && is0 (m11 m)).

  (** qengineshard.cpp:26-48: the shard, and whether it was clamped. *)
  Definition ClampAmps (s : qshard) : bool * qshard :=
    if s_pd s then (false, s)
    else if is0 (s_a0 s) then (true, w_fd false (w_amps 0 (po_unit po (s_a1 s)) s))
    else if is0 (s_a1 s) then (true, w_fd false (w_amps (po_unit po (s_a0 s)) 0 s))
    else (false, s).
  (** hpp:728-744; [sep] is SeparateBit. *)
  Definition ClampShard (sep : bool -> N -> qunit -> qunit) (q : N) (U : qunit) : qunit :=
    let '(c, s) := ClampAmps (u_sh U q) in
    let U1 := put_sh q s U in
    match s_unit s with
    | Some _ => if negb c then U1
                else if is0 (s_a1 s) then sep false q U1 else if is0 (s_a0 s) then sep true q U1 else U1
    | None => U1
    end.

  Definition half : K := hh * hh.
  Definition mH : mat2 K := mkMat hh hh hh (- hh).
  Definition mX : mat2 K := mkMat 0 1 1 0.
  Definition mY : mat2 K := mkMat 0 (- ii) ii 0.
  Definition mZ : mat2 K := mkMat 1 0 0 (- (1)).
  Definition mSqrtX : mat2 K := mkMat (half * (1 + ii)) (half * (1 - ii)) (half * (1 - ii)) (half * (1 + ii)).
  Definition mSH : mat2 K := mkMat hh hh (ii * hh) (- (ii * hh)).
  (** The common part of RevertBasisY, ConvertZToX and ConvertYToZ: the basis is renamed, the engine and the cached amplitudes
      are transformed by the same matrix, and a shard with dirty amplitudes becomes dirty in both respects. *)
  Definition convert (sep : bool -> N -> qunit -> qunit) (b : pauli) (m : mat2 K) (i : N) (U : qunit) : qunit :=
    let U1 := unit_gate i m (on_sh i (w_bas b) U) in
    if DIRTY (u_sh U1 i) then on_sh i (w_pd true) U1 else ClampShard sep i (amps_gate i m U1).
  (** hpp:798-827. *)
  Definition RevertBasisY (sep : bool -> N -> qunit -> qunit) (i : N) (U : qunit) : qunit :=
    match s_bas (u_sh U i) with PauliY => convert sep PauliX mSqrtX i U | _ => U end.
  (** hpp:861-882. *)
  Definition ConvertZToX (sep : bool -> N -> qunit -> qunit) (i : N) (U : qunit) : qunit :=
    convert sep (match s_bas (u_sh U i) with PauliX => PauliZ | _ => PauliX end) mH i U.
  (** hpp:907-929. *)
  Definition ConvertYToZ (sep : bool -> N -> qunit -> qunit) (i : N) (U : qunit) : qunit := convert sep PauliZ mSH i U.
  (** hpp:786-796, 829-838. *)
  Definition RevertBasis1Qb (sep : bool -> N -> qunit -> qunit) (i : N) (U : qunit) : qunit :=
    match s_bas (u_sh U i) with
    | PauliY => ConvertYToZ sep i U
    | PauliX => ConvertZToX sep i U
    | PauliZ => U
    end.

  (** 1334-1345: the shard on its own in a basis state. *)
  Definition sep_core (value : bool) (q : N) (U : qunit) : qunit :=
    let '(ph, U1) := draw U in
    on_sh q (fun s => mkQS None 0 false false (if value then 0 else ph) (if value then ph else 0) (s_bas s)) U1.
  (** 1324-1347 for a shard without engine or with an engine of one qubit. *)
  Definition sep_last (value : bool) (q : N) (U : qunit) : qunit :=
    let U1 := sep_core value q U in
    match s_unit (u_sh U q) with Some u => free_eng u U1 | None => U1 end.
  (** 954-992: ProbBase for an engine of one qubit. *)
  Definition prob_single (q : N) (U : qunit) : qunit :=
    let U1 := RevertBasis1Qb sep_last q U in
    match s_unit (u_sh U1 q) with
    | None => set_ub U1
    | Some u =>
        let v := snd (u_eng U1 u) in
        let a0 := v 0%N in let a1 := v 1%N in
        let s := u_sh U1 q in
        let '(b, c0, c1) :=
          if is0 (a0 - a1) then (PauliX, po_unit po a0, 0)
          else if is0 (a0 + a1) then (PauliX, 0, po_unit po a0)
          else if is0 (ii * a0 - a1) then (PauliY, po_unit po a0, 0)
          else if is0 (ii * a0 + a1) then (PauliY, 0, po_unit po a0)
          else (s_bas s, a0, a1) in
        put_sh q (snd (ClampAmps (mkQS None 0 false false c0 c1 b))) (free_eng u U1)
    end.
  (** 1324-1376.  (The renormalisation of 1351-1356 does nothing to a normalised state.) *)
  Definition SeparateBit (value : bool) (q : N) (U : qunit) : qunit :=
    match s_unit (u_sh U q) with
    | None => sep_core value q U
    | Some u =>
        let '(n, v) := u_eng U u in
        if (n =? 1)%N then sep_last value q U
        else
          let m := s_map (u_sh U q) in
          let U1 := sep_core value q U in
          let U2 := put_eng u (n - 1) (slice m 1 (if value then 1%N else 0%N) v) U1 in
          let U3 := set_sh (fun p => let s := u_sh U2 p in
                      match s_unit s with
                      | Some w => if (w =? u)%N && (m <? s_map s)%N then w_unit (Some w) (s_map s - 1) s else s
                      | None => s
                      end) U2 in
          if negb (n - 1 =? 1)%N then U3
          else match find (fun p => match s_unit (u_sh U3 p) with Some w => (w =? u)%N | None => false end) (order U3) with
               | Some p => prob_single p U3
               | None => U3
               end
    end.
  (** QEngine::Prob. *)
  Definition eng_prob (u m : N) (U : qunit) : K :=
    let '(n, v) := u_eng U u in weight_of n (fun x => N.testbit x m) v.
  (** 950-1015: the probability, and the state. *)
  Definition ProbBase (q : N) (U : qunit) : K * qunit :=
    let one := match s_unit (u_sh U q) with Some u => (fst (u_eng U u) =? 1)%N | None => false end in
    if one then let U1 := prob_single q U in (anorm (s_a1 (u_sh U1 q)), U1)
    else
      let U1 := match s_unit (u_sh U q) with
                | Some u => if s_pd (u_sh U q) then
                              let p := eng_prob u (s_map (u_sh U q)) U in
                              ClampShard SeparateBit q
                                (on_sh q (fun s => w_amps (cx_sqrt cx (1 - p)) (cx_sqrt cx p) (w_pd false s)) U)
                            else U
                | None => U
                end in
      let s := u_sh U1 q in
      let U2 := if is0 (s_a1 s) then SeparateBit false q U1 else if is0 (s_a0 s) then SeparateBit true q U1 else U1 in
      (anorm (s_a1 (u_sh U2 q)), U2).

  (** 45-58; the first component is the value of the macro. *)
  Definition CACHED (b : pauli) (q : N) (U : qunit) : bool :=
    pauli_eqb (s_bas (u_sh U q)) b && negb (DIRTY (u_sh U q)) && negb (QUEUED_PHASE q U).
  Definition CACHED_ZERO (q : N) (U : qunit) : bool * qunit :=
    if CACHED PauliZ q U then let '(p, U1) := ProbBase q U in (is0 p, U1) else (false, U).
  Definition CACHED_ONE (q : N) (U : qunit) : bool * qunit :=
    if CACHED PauliZ q U then let '(p, U1) := ProbBase q U in (is0 (1 - p), U1) else (false, U).
  Definition CACHED_PLUS (q : N) (U : qunit) : bool * qunit :=
    if CACHED PauliX q U then let '(p, U1) := ProbBase q U in (is0 p, U1) else (false, U).

  (** hpp:561-606. *)
  Definition XBase (q : N) (U : qunit) : qunit := on_sh q (fun s => w_amps (s_a1 s) (s_a0 s) s) (unit_gate q mX U).
  Definition YBase (q : N) (U : qunit) : qunit :=
    on_sh q (fun s => w_amps (- ii * s_a1 s) (ii * s_a0 s) s) (unit_gate q mY U).
  Definition ZBase (q : N) (U : qunit) : qunit := on_sh q (fun s => w_amps (s_a0 s) (- s_a1 s) s) (unit_gate q mZ U).

  (** hpp:746-784. *)
  Definition TransformX2x2 (m : mat2 K) : mat2 K :=
    mkMat (half * (m00 m + m01 m + m10 m + m11 m)) (half * (m00 m - m01 m + m10 m - m11 m))
          (half * (m00 m + m01 m - m10 m - m11 m)) (half * (m00 m - m01 m - m10 m + m11 m)).
  Definition TransformXInvert (tr bl : K) : mat2 K :=
    let x := half * (tr + bl) in let y := half * (- tr + bl) in mkMat x y (- y) (- x).
  Definition TransformY2x2 (m : mat2 K) : mat2 K :=
    mkMat (half * (m00 m + ii * (m01 m - m10 m) + m11 m)) (half * (m00 m - ii * (m01 m + m10 m) - m11 m))
          (half * (m00 m + ii * (m01 m + m10 m) - m11 m)) (half * (m00 m - ii * (m01 m - m10 m) + m11 m)).
  Definition TransformYInvert (tr bl : K) : mat2 K :=
    let x := ii * half * (tr - bl) in let y := ii * half * (- tr - bl) in mkMat x y (- y) (- x).
  Definition TransformPhase (tl br : K) : mat2 K :=
    let x := half * (tl + br) in let y := half * (tl - br) in mkMat x y y x.

  (** 2037-2069. *)
  Definition GateS (q : N) (U0 : qunit) : qunit :=
    let U := onbuf (CommutePhase po q 1 ii) U0 in
    match s_bas (u_sh U q) with
    | PauliY => XBase q (on_sh q (w_bas PauliX) U)
    | PauliX => on_sh q (w_bas PauliY) U
    | PauliZ => on_sh q (fun s => w_amps (s_a0 s) (ii * s_a1 s) s) (unit_gate q (mkMat 1 0 0 ii) U)
    end.
  (** 2071-2103. *)
  Definition GateIS (q : N) (U0 : qunit) : qunit :=
    let U := onbuf (CommutePhase po q 1 (- ii)) U0 in
    match s_bas (u_sh U q) with
    | PauliY => on_sh q (w_bas PauliX) U
    | PauliX => XBase q (on_sh q (w_bas PauliY) U)
    | PauliZ => on_sh q (fun s => w_amps (s_a0 s) (- ii * s_a1 s) s) (unit_gate q (mkMat 1 0 0 (- ii)) U)
    end.
  (** The end of Phase, Invert and Mtrx: the transformed matrix on the engine and on the cached amplitudes. *)
  Definition general (q : N) (m : mat2 K) (U : qunit) : qunit :=
    let U1 := unit_gate q m U in
    let U2 := on_sh q (fun s => if DIRTY s then w_pd (s_pd s || negb (IS_PHASE_OR_INVERT m)) s else s) U1 in
    ClampShard SeparateBit q (amps_gate q m U2).
  (** 2178-2236. *)
  Definition Phase (tl br : K) (q : N) (U0 : qunit) : qunit :=
    let short := u_rgp U0 || sr_eqb tl 1 in
    if short && is0 (tl - br) then U0
    else if short && is0 (ii * tl - br) then GateS q U0
    else if short && is0 (ii * tl + br) then GateIS q U0
    else
      let U := onbuf (CommutePhase po q tl br) U0 in
      match s_bas (u_sh U q) with
      | PauliZ => on_sh q (fun s => w_amps (s_a0 s * tl) (s_a1 s * br) s) (unit_gate q (mkMat tl 0 0 br) U)
      | _ => general q (TransformPhase tl br) U
      end.
  (** 2238-2288.  FlipPhaseAnti dereferences a null pointer in the case excluded by the None of MShard.v. *)
  Definition Invert (tr bl : K) (q : N) (U0 : qunit) : qunit :=
    match FlipPhaseAnti q (u_buf U0) with
    | None => set_ub U0
    | Some b =>
        let U := onbuf (CommutePhase po q tr bl) (set_shbuf b U0) in
        match s_bas (u_sh U q) with
        | PauliZ => on_sh q (fun s => w_amps (tr * s_a1 s) (bl * s_a0 s) s) (unit_gate q (mkMat 0 tr bl 0) U)
        | PauliX => general q (TransformXInvert tr bl) U
        | PauliY => general q (TransformYInvert tr bl) U
        end
    end.

  (** hpp:1066-1082.  A new engine in a basis state has a random phase (QEngine::SetPermutation). *)
  Definition EndEmulation (q : N) (U : qunit) : qunit :=
    let s := u_sh U q in
    match s_unit s with
    | Some _ => U
    | None =>
        let '(v, U1) :=
          if is0 (s_a1 s) then let '(ph, U1) := draw U in ((fun x => if (x =? 0)%N then ph else 0), U1)
          else if is0 (s_a0 s) then let '(ph, U1) := draw U in ((fun x => if (x =? 1)%N then ph else 0), U1)
          else ((fun x => if (x =? 0)%N then s_a0 s else s_a1 s), U) in
        let u := u_next U1 in
        put_sh q (w_unit (Some u) (s_map s) s) (put_eng u 1 v (set_eng (u_eng U1) (u + 1) U1))
    end.
  (** 461-470, 476-491: the qubits of engine [c] are added above those of engine [r].  (The pairs of one round are disjoint, so
      the shards may be renamed pair by pair.) *)
  Definition join (r c : N) (U : qunit) : qunit :=
    let '(nr, vr) := u_eng U r in
    let '(nc, vc) := u_eng U c in
    let U1 := free_eng c (put_eng r (nr + nc) (tensor nr vr vc) U) in
    set_sh (fun p => let s := u_sh U1 p in
              match s_unit s with
              | Some w => if (w =? c)%N then w_unit (Some r) (s_map s + nr) s else s
              | None => s
              end) U1.
  Fixpoint join_pairs (us : list N) (U : qunit) : list N * qunit :=
    match us with
    | r :: c :: t => let '(l, U1) := join_pairs t (join r c U) in (r :: l, U1)
    | _ => (us, U)
    end.
  (** 456-494, with one step of fuel for each engine. *)
  Fixpoint join_all (fuel : nat) (us : list N) (U : qunit) : qunit :=
    match fuel with
    | O => U
    | S f =>
        match us with
        | [] | [_] => U
        | r :: c :: t =>
            let '(us1, U1) := if Nat.odd (length us) then (r :: t, join r c U) else (us, U) in
            let '(us2, U2) := join_pairs us1 U1 in
            join_all f us2 U2
        end
    end.
  Fixpoint units_of (bits : list N) (U : qunit) (seen : list N) : list N :=
    match bits with
    | [] => []
    | b :: t => match s_unit (u_sh U b) with
                | Some u => if existsb (N.eqb u) seen then units_of t U seen else u :: units_of t U (u :: seen)
                | None => units_of t U seen
                end
    end.

  (** The functions that flush two-qubit buffers, or not while freezeBasis2Qb is set: [R2] is RevertBasis2Qb with all its
      parameters but dumpSkipped (false in all these calls), [frozen] is freezeBasis2Qb. *)
  Section Level.
    Variable frozen : bool.
    Variable R2 : N -> RevertExclusivity -> RevertControl -> RevertAnti -> list N -> list N -> bool -> qunit -> qunit.
    Variable OPB : N -> N -> bool -> qunit -> qunit.

    (** hpp:1009-1013, 1022-1026. *)
    Definition ToPermBasis (i : N) (U : qunit) : qunit :=
      R2 i INVERT_AND_PHASE CONTROLS_AND_TARGETS CTRL_AND_ANTI [] [] false (RevertBasis1Qb SeparateBit i U).
    Definition ToPermBasisProb (i : N) (U : qunit) : qunit :=
      R2 i ONLY_INVERT ONLY_TARGETS CTRL_AND_ANTI [] [] false (RevertBasis1Qb SeparateBit i U).
    (** hpp:991-1008. *)
    Definition Flush0Eigenstate (i : N) (U : qunit) : qunit :=
      let U1 := onbuf (DumpControlOf po i) U in
      let U2 := if u_rgp U then onbuf (DumpSamePhaseAntiControlOf po i) U1 else U1 in
      R2 i INVERT_AND_PHASE ONLY_CONTROLS ONLY_ANTI [] [] false U2.
    Definition Flush1Eigenstate (i : N) (U : qunit) : qunit :=
      let U1 := onbuf (DumpAntiControlOf po i) U in
      let U2 := if u_rgp U then onbuf (DumpSamePhaseControlOf po i) U1 else U1 in
      R2 i INVERT_AND_PHASE ONLY_CONTROLS ONLY_CTRL [] [] false U2.

    (** 2536-2650: None when the gate does nothing, else the controls left, with the value each must have; bit [i] of [perm] is
        the value of control [i], given here as the list [cs] of pairs. *)
    Fixpoint trim1 (cs : list (N * bool)) (U : qunit) : bool * qunit :=
      match cs with
      | [] => (false, U)
      | (c, v) :: t => let '(b, U1) := if v : bool then CACHED_ZERO c U else CACHED_ONE c U in
                       if b then (true, U1) else trim1 t U1
      end.
    (** The test shared by the last three loops: whether the control is in an eigenstate, and whether the gate does nothing. *)
    Definition trim_test (c : N) (v : bool) (U0 : qunit) : bool * bool * qunit :=
      let U := snd (ProbBase c U0) in
      if is0 (s_a1 (u_sh U c)) then (true, v, Flush0Eigenstate c U)
      else if is0 (s_a0 (u_sh U c)) then (true, negb v, Flush1Eigenstate c U)
      else (false, false, U).
    Fixpoint trim2 (cs : list (N * bool)) (U : qunit) : bool * qunit :=
      match cs with
      | [] => (false, U)
      | (c, v) :: t =>
          if negb (pauli_eqb (s_bas (u_sh U c)) PauliZ) || IsInvertTarget c (u_buf U) then trim2 t U
          else let '(_, b, U1) := trim_test c v U in if b then (true, U1) else trim2 t U1
      end.
    Fixpoint trim3 (cs : list (N * bool)) (U : qunit) : bool * qunit :=
      match cs with
      | [] => (false, U)
      | (c, v) :: t =>
          if pauli_eqb (s_bas (u_sh U c)) PauliZ || IsInvertTarget c (u_buf U) then trim3 t U
          else let '(_, b, U1) := trim_test c v (RevertBasis1Qb SeparateBit c U) in if b then (true, U1) else trim3 t U1
      end.
    Fixpoint trim4 (cs : list (N * bool)) (U : qunit) : option (list (N * bool)) * qunit :=
      match cs with
      | [] => (Some [], U)
      | (c, v) :: t =>
          let '(e, b, U1) := trim_test c v (ToPermBasisProb c U) in
          if b then (None, U1)
          else let '(r, U2) := trim4 t U1 in
               (match r with Some l => Some (if e : bool then l else (c, v) :: l) | None => None end, U2)
      end.
    Definition TrimControls (cs : list (N * bool)) (U : qunit) : option (list (N * bool)) * qunit :=
      match cs with
      | [] => (Some [], U)
      | _ =>
          let '(b1, U1) := trim1 cs U in if b1 then (None, U1) else
          let '(b2, U2) := trim2 cs U1 in if b2 then (None, U2) else
          let '(b3, U3) := trim3 cs U2 in if b3 then (None, U3) else
          trim4 cs U3
      end.

    (** 411-501.  Line 418 copies the simulator, which flushes all buffers of this one (CloneBody, 3869-3874). *)
    Definition EntangleInCurrentBasis (bits : list N) (U : qunit) : qunit :=
      let flush V i := R2 i INVERT_AND_PHASE CONTROLS_AND_TARGETS CTRL_AND_ANTI [] [] false V in
      let U1 := fold_left flush (order U) U in
      let U2 := fold_left (fun V b => EndEmulation b V) bits U1 in
      let us := units_of bits U2 [] in
      join_all (length us) us U2.
    (** The condition that the controls, as qubits of their engine, have the given values. *)
    Definition mapped_cond (cs : list (N * bool)) (U : qunit) (x : N) : bool :=
      forallb (fun cv => eqb (N.testbit x (s_map (u_sh U (fst cv)))) (snd cv)) cs.
    (** 2652-2686 with one target; the lambdas of 2103-2139 compute the matrix from the basis of the target. *)
    Definition ApplyEitherControlled (cs : list (N * bool)) (t : N) (isPhase : bool) (trns : pauli -> mat2 K) (U : qunit) : qunit :=
      let U1 := fold_left (fun V c => ToPermBasisProb (fst c) V) cs U in
      let U2 := if isPhase then R2 t ONLY_INVERT ONLY_TARGETS CTRL_AND_ANTI [] [] false U1
                else R2 t INVERT_AND_PHASE CONTROLS_AND_TARGETS CTRL_AND_ANTI [] [] false U1 in
      let bits := filter (fun p => (p =? t)%N || existsb (fun c => (p =? fst c)%N) cs) (order U2) in
      let U3 := EntangleInCurrentBasis bits U2 in
      let U4 := fold_left (fun V c => on_sh (fst c) (w_fd true) V) cs U3 in
      let U5 := on_sh t (fun s => w_pd (s_pd s || negb (pauli_eqb (s_bas s) PauliZ) || negb isPhase) (w_fd true s)) U4 in
      match s_unit (u_sh U5 t) with
      | Some u => eng_gate u (mapped_cond cs U5) (s_map (u_sh U5 t)) (trns (s_bas (u_sh U5 t))) U5
      | None => U5
      end.
    (** 2290-2356. *)
    Definition trnsPhase (tl br : K) (b : pauli) : mat2 K :=
      match b with PauliZ => mkMat tl 0 0 br | _ => TransformPhase tl br end.
    Definition UCPhase (cs0 : list (N * bool)) (tl br : K) (t : N) (U0 : qunit) : qunit :=
      if sr_eqb tl 1 && sr_eqb br 1 then U0 else
      let '(r, U) := TrimControls cs0 U0 in
      match r with
      | None => U
      | Some [] => Phase tl br t U
      | Some [(c, v)] =>
          if is0 (tl - br) then (if v then Phase 1 br c U else Phase tl 1 c U)
          else if frozen then ApplyEitherControlled [(c, v)] t true (trnsPhase tl br) U
          else
            let U1 := R2 c ONLY_INVERT ONLY_TARGETS CTRL_AND_ANTI [] [] false U in
            let U2 := if v then
                        R2 t ONLY_INVERT ONLY_TARGETS ONLY_CTRL [] [c] false (R2 t ONLY_INVERT ONLY_TARGETS ONLY_ANTI [] [] false U1)
                      else
                        R2 t ONLY_INVERT ONLY_TARGETS ONLY_ANTI [] [c] false (R2 t ONLY_INVERT ONLY_TARGETS ONLY_CTRL [] [] false U1) in
            if negb (IS_SAME_UNIT c t U2) then
              if v then OPB c t false (onbuf (AddPhaseAngles po t c tl br) U2)
              else OPB c t true (onbuf (AddAntiPhaseAngles po t c br tl) U2)
            else ApplyEitherControlled [(c, v)] t true (trnsPhase tl br) U2
      | Some cs => ApplyEitherControlled cs t true (trnsPhase tl br) U
      end.
    (** 2358-2418. *)
    Definition trnsInvert (tr bl : K) (b : pauli) : mat2 K :=
      match b with PauliZ => mkMat 0 tr bl 0 | PauliX => TransformXInvert tr bl | PauliY => TransformYInvert tr bl end.
    Definition UCInvert (cs0 : list (N * bool)) (tr bl : K) (t : N) (U00 : qunit) : qunit :=
      let '(plus, U0) := if sr_eqb tr 1 && sr_eqb bl 1 then CACHED_PLUS t U00 else (false, U00) in
      if plus then U0 else
      let '(r, U) := TrimControls cs0 U0 in
      match r with
      | None => U
      | Some [] => Invert tr bl t U
      | Some [(c, v)] =>
          if frozen then ApplyEitherControlled [(c, v)] t false (trnsInvert tr bl) U
          else
            let U1 := R2 c ONLY_INVERT ONLY_TARGETS CTRL_AND_ANTI [] [] false U in
            let U2 := if v then
                        R2 t INVERT_AND_PHASE CONTROLS_AND_TARGETS ONLY_CTRL [] [c] false
                          (R2 t INVERT_AND_PHASE CONTROLS_AND_TARGETS ONLY_ANTI [] [] false U1)
                      else
                        R2 t INVERT_AND_PHASE CONTROLS_AND_TARGETS ONLY_ANTI [] [c] false
                          (R2 t INVERT_AND_PHASE CONTROLS_AND_TARGETS ONLY_CTRL [] [] false U1) in
            if negb (IS_SAME_UNIT c t U2) then
              if v then OPB c t false (onbuf (AddInversionAngles po t c tr bl) U2)
              else OPB c t true (onbuf (AddAntiInversionAngles po t c bl tr) U2)
            else ApplyEitherControlled [(c, v)] t false (trnsInvert tr bl) U2
      | Some cs => ApplyEitherControlled cs t false (trnsInvert tr bl) U
      end.
  End Level.

  (** While freezeBasis2Qb is set: RevertBasis2Qb returns at once (4077-4081). *)
  Definition R2_frozen (i : N) (e : RevertExclusivity) (c : RevertControl) (a : RevertAnti) (ec et : list N) (skip : bool) (U : qunit) : qunit := U.
  Definition OPB_frozen (c t : N) (anti : bool) (U : qunit) : qunit := U.
  (** 3900-3923, 4005 (hpp:257-275).  The buffer is given by its contents. *)
  Definition ApplyBuffer (b : PhaseShard K) (c t : N) (anti : bool) (U : qunit) : qunit :=
    let d := cmplxDiff b in let s := cmplxSame b in
    if isInvert b then
      if anti then UCInvert true R2_frozen OPB_frozen [(c, false)] s d t U
      else UCInvert true R2_frozen OPB_frozen [(c, true)] d s t U
    else
      if anti then UCPhase true R2_frozen OPB_frozen [(c, false)] s d t U
      else UCPhase true R2_frozen OPB_frozen [(c, true)] d s t U.

  (** 4008-4069, with dumpSkipped false.  The map is passed by value; the buffers are shared. *)
  Definition skips (e : RevertExclusivity) (inv : bool) : bool :=
    match e with ONLY_INVERT => negb inv | ONLY_PHASE => inv | INVERT_AND_PHASE => false end.
  Fixpoint apply_entries (i : N) (es : list (N * N)) (e : RevertExclusivity) (isControl anti : bool) (except : list N) (U : qunit) : qunit :=
    match es with
    | [] => U
    | (p, b) :: t =>
        let ps := sh_heap (u_buf U) b in
        if skips e (isInvert ps) then apply_entries i t e isControl anti except U
        else if existsb (N.eqb p) except then apply_entries i t e isControl anti except U
        else
          let rem := match isControl, anti with
                     | true, true => RemoveAntiTarget i p
                     | true, false => RemoveTarget i p
                     | false, true => RemoveAntiControl i p
                     | false, false => RemoveControl i p
                     end in
          let U1 := onbuf rem U in
          apply_entries i t e isControl anti except
            (if isControl then ApplyBuffer ps i p anti U1 else ApplyBuffer ps p i anti U1)
    end.
  Definition ApplyBufferMap (i : N) (m : mapsel) (e : RevertExclusivity) (isControl anti : bool) (except : list N) (U : qunit) : qunit :=
    apply_entries i (entries (u_buf U) m i) e isControl anti except U.
  (** 4071-4121. *)
  Definition RevertBasis2Qb (i : N) (e : RevertExclusivity) (c : RevertControl) (a : RevertAnti)
      (exceptControlling exceptTargetedBy : list N) (skipOptimize : bool) (U0 : qunit) : qunit :=
    if negb (QUEUED_PHASE i U0) then U0 else
    let U1 := onbuf (CombineGates po i) U0 in
    let opt := negb skipOptimize && match e with ONLY_INVERT => false | _ => true end in
    let U2 := match c with
              | ONLY_CONTROLS =>
                  if opt then
                    let V := match a with ONLY_ANTI => U1 | _ => onbuf (OptimizeControls po i) U1 end in
                    match a with ONLY_CTRL => V | _ => onbuf (OptimizeAntiControls po i) V end
                  else U1
              | ONLY_TARGETS =>
                  if opt then
                    match a with
                    | CTRL_AND_ANTI => onbuf (OptimizeBothTargets po i) U1
                    | ONLY_CTRL => onbuf (OptimizeTargets po i) U1
                    | ONLY_ANTI => onbuf (OptimizeAntiTargets po i) U1
                    end
                  else U1
              | CONTROLS_AND_TARGETS => U1
              end in
    let U3 := match c with
              | ONLY_TARGETS => U2
              | _ =>
                  let V := match a with ONLY_ANTI => U2 | _ => ApplyBufferMap i controlsShards e true false exceptControlling U2 end in
                  match a with ONLY_CTRL => V | _ => ApplyBufferMap i antiControlsShards e true true exceptControlling V end
              end in
    match c with
    | ONLY_CONTROLS => U3
    | _ =>
        let V := match a with ONLY_ANTI => U3 | _ => ApplyBufferMap i targetOfShards e false false exceptTargetedBy U3 end in
        match a with ONLY_CTRL => V | _ => ApplyBufferMap i antiTargetOfShards e false true exceptTargetedBy V end
    end.

  (** 4226-4305.  The buffer is changed in place at 4286-4287. *)
  Definition clear_invert (b : N) (s : shards K) : shards K :=
    set_buf b (mkPS (cmplxDiff (sh_heap s b)) (cmplxSame (sh_heap s b)) false) s.
  Definition OptimizePairBuffers (c t : N) (anti : bool) (U : qunit) : qunit :=
    match sh_map (u_buf U) (if anti then antiTargetOfShards else targetOfShards) t c with
    | None => U
    | Some b =>
        let ps := sh_heap (u_buf U) b in
        let rem := if anti then RemoveAntiControl t c else RemoveControl t c in
        if negb (isInvert ps) && sr_eqb (cmplxDiff ps) 1 && sr_eqb (cmplxSame ps) 1 then onbuf rem U
        else if negb (isInvert ps) && IS_SAME_UNIT c t U then ApplyBuffer ps c t anti (onbuf rem U)
        else
          match sh_map (u_buf U) (if anti then targetOfShards else antiTargetOfShards) t c with
          | None => U
          | Some a =>
              if negb (eqb (isInvert ps) (isInvert (sh_heap (u_buf U) a))) then U
              else
                let '(b, a) := if anti then (a, b) else (b, a) in
                let inv := isInvert ps in
                let U1 := if inv then
                            let V := match s_bas (u_sh U t) with PauliY => YBase t U | PauliX => ZBase t U | PauliZ => XBase t U end in
                            onbuf (fun s => clear_invert a (clear_invert b s)) V
                          else U in
                let pb := sh_heap (u_buf U1) b in
                let pa := sh_heap (u_buf U1) a in
                if sr_eqb (cmplxDiff pb) (cmplxSame pa) && sr_eqb (cmplxSame pb) (cmplxDiff pa) then
                  Phase (cmplxDiff pb) (cmplxSame pb) t (onbuf (RemoveAntiControl t c) (onbuf (RemoveControl t c) U1))
                else if inv then
                  let V := if sr_eqb (cmplxDiff pb) 1 && sr_eqb (cmplxSame pb) 1 then onbuf (RemoveControl t c) U1 else U1 in
                  if sr_eqb (cmplxDiff pa) 1 && sr_eqb (cmplxSame pa) 1 then onbuf (RemoveAntiControl t c) V else V
                else U1
          end
    end.

  (** 4123-4224: the conversions of the buffers controlled by the bit, and the buffers of which it is target. *)
  Definition commute_controls (i : N) (anti : bool) (U : qunit) : qunit :=
    fold_left (fun V e =>
        let '(p, b) := e in
        let ps := sh_heap (u_buf V) b in
        if isInvert ps then V
        else if IS_ARG_0 (cmplxDiff ps) && IS_ARG_PI (cmplxSame ps) then
          if anti then onbuf (AddAntiPhaseAngles po i p 1 (- (1))) (onbuf (RemoveAntiTarget i p) V)
          else onbuf (AddPhaseAngles po i p 1 (- (1))) (onbuf (RemoveTarget i p) V)
        else if IS_ARG_PI (cmplxDiff ps) && IS_ARG_0 (cmplxSame ps) then
          if anti then onbuf (AddPhaseAngles po i p (- (1)) 1) (onbuf (RemoveAntiTarget i p) V)
          else onbuf (AddAntiPhaseAngles po i p (- (1)) 1) (onbuf (RemoveTarget i p) V)
        else V)
      (entries (u_buf U) (if anti then antiControlsShards else controlsShards) i) U.
  Definition commute_targets (i : N) (anti : bool) (U : qunit) : qunit :=
    fold_left (fun V e =>
        let '(p, b) := e in
        let ps := sh_heap (u_buf V) b in
        if IS_SAME (cmplxDiff ps) (cmplxSame ps) then V
        else if isInvert ps && IS_OPPOSITE (cmplxDiff ps) (cmplxSame ps) then V
        else ApplyBuffer ps p i anti (onbuf (if anti then RemoveAntiControl i p else RemoveControl i p) V))
      (entries (u_buf U) (if anti then antiTargetOfShards else targetOfShards) i) U.
  Definition QCommuteH (i : N) (U : qunit) : qunit :=
    if negb (QUEUED_PHASE i U) then U else
    let U1 := commute_controls i true (commute_controls i false U) in
    let U2 := RevertBasis2Qb i INVERT_AND_PHASE ONLY_CONTROLS CTRL_AND_ANTI [] [] true U1 in
    onbuf (CommuteH po i) (commute_targets i true (commute_targets i false U2)).
  (** 2012-2035. *)
  Definition GateH (q : N) (U : qunit) : qunit :=
    on_sh q (fun s => w_bas (match s_bas s with PauliZ => PauliX | _ => PauliZ end) s) (QCommuteH q (RevertBasisY SeparateBit q U)).

  Definition QUCPhase := UCPhase false RevertBasis2Qb OptimizePairBuffers.
  Definition QUCInvert := UCInvert false RevertBasis2Qb OptimizePairBuffers.
  (** 2420-2473. *)
  Definition trnsMtrx (m : mat2 K) (b : pauli) : mat2 K :=
    match b with PauliY => TransformY2x2 m | PauliX => TransformX2x2 m | PauliZ => m end.
  Definition Mtrx (m : mat2 K) (q : N) (U : qunit) : qunit :=
    let ok := u_rgp U || IS_SAME (m00 m) hh in
    if is0 (m01 m) && is0 (m10 m) then Phase (m00 m) (m11 m) q U
    else if is0 (m00 m) && is0 (m11 m) then Invert (m01 m) (m10 m) q U
    else if ok && IS_SAME (m00 m) (m01 m) && IS_SAME (m00 m) (m10 m) && IS_SAME (m00 m) (- m11 m) then GateH q U
    else if ok && IS_SAME (m00 m) (m01 m) && IS_SAME (m00 m) (- ii * m10 m) && IS_SAME (m00 m) (ii * m11 m) then GateS q (GateH q U)
    else if ok && IS_SAME (m00 m) (ii * m01 m) && IS_SAME (m00 m) (m10 m) && IS_SAME (m00 m) (- ii * m11 m) then GateH q (GateIS q U)
    else
      let U1 := RevertBasis2Qb q INVERT_AND_PHASE CONTROLS_AND_TARGETS CTRL_AND_ANTI [] [] false U in
      general q (trnsMtrx m (s_bas (u_sh U1 q))) U1.
  (** 2475-2504. *)
  Definition UCMtrx (cs : list (N * bool)) (m : mat2 K) (t : N) (U0 : qunit) : qunit :=
    if is0 (m01 m) && is0 (m10 m) then QUCPhase cs (m00 m) (m11 m) t U0
    else if is0 (m00 m) && is0 (m11 m) then QUCInvert cs (m01 m) (m10 m) t U0
    else
      let '(r, U) := TrimControls RevertBasis2Qb cs U0 in
      match r with
      | None => U
      | Some [] => Mtrx m t U
      | Some l => ApplyEitherControlled RevertBasis2Qb l t false (trnsMtrx m) U
      end.

  (** 235-278 (the order of the engines does not matter).  ToPermBasisAll, hpp:1036. *)
  Definition ToPermBasisAll (U : qunit) : qunit :=
    let U1 := fold_left (fun V i => RevertBasis1Qb SeparateBit i V) (order U) U in
    fold_left (fun V i => RevertBasis2Qb i INVERT_AND_PHASE CONTROLS_AND_TARGETS CTRL_AND_ANTI [] [] false V) (order U1) U1.
  Definition unit_perm (u : N) (perm : N) (U : qunit) : N :=
    fold_left (fun a i => let s := u_sh U (u_sw U i) in
        match s_unit s with
        | Some w => if (w =? u)%N && N.testbit perm i then N.lor a (2 ^ s_map s) else a
        | None => a
        end) (upto (N.to_nat (u_n U))) 0%N.
  Definition GetAmplitude (perm : N) (U0 : qunit) : K * qunit :=
    let U := ToPermBasisAll U0 in
    let r := fold_left (fun a i => let s := u_sh U (u_sw U i) in
               match s_unit s with
               | None => a * (if N.testbit perm i then s_a1 s else s_a0 s)
               | Some _ => a
               end) (upto (N.to_nat (u_n U))) 1 in
    let us := units_of (order U) U [] in
    (fold_left (fun a u => a * snd (u_eng U u) (unit_perm u perm U)) us r, U).
  (** hpp:444-452. *)
  Definition Prob (q : N) (U : qunit) : K * qunit := ProbBase q (ToPermBasisProb RevertBasis2Qb q U).

  (** hpp:414-430; QEngineShardMap::swap exchanges the two entries of the swap map. *)
  Definition QSwap (a b : N) (U : qunit) : qunit :=
    if (a =? b)%N then U
    else set_sw (fun q => u_sw U (if (q =? a)%N then b else if (q =? b)%N then a else q)) U.

  (** 133-144.  (Dump removes all buffers; new shards have new positions, renumbered here from 0.) *)
  Fixpoint fresh (k : nat) (perm : N) (U : qunit) : qunit :=
    match k with
    | O => U
    | S j => let U1 := fresh j perm U in
             let '(ph, U2) := draw U1 in
             let b := N.testbit perm (N.of_nat j) in
             put_sh (N.of_nat j) (mkQS None 0 false false (if b then 0 else ph) (if b then ph else 0) PauliZ) U2
    end.
  Definition SetPermutation (perm : N) (U : qunit) : qunit :=
    let U1 := mkQU (u_rgp U) (u_n U) (fun q => q) (u_sh U) (fun _ => (0%N, tab 0 (fun _ => 1))) 0 (newShards (u_n U)) (u_ph U) (u_rnd U) (u_draw U) (u_ub U) in
    fresh (N.to_nat (u_n U)) perm U1.
  (** 62-121: the constructor. *)
  Definition new_unit (rgp : bool) (n perm : N) (ph : N -> K) (rnd : N -> K -> bool) : qunit :=
    SetPermutation perm
      (mkQU rgp n (fun q => q) (fun _ => mkQS None 0 false false 1 0 PauliZ) (fun _ => (0%N, tab 0 (fun _ => 1))) 0 (newShards n) ph rnd 0 false).

  (** The result of a measurement whose probability of 1 is [p]: forced, certain, or by comparison with Rand(). *)
  Definition outcome (p : K) (res doForce : bool) (U : qunit) : bool * qunit :=
    if doForce then (res, U)
    else if is0 (1 - p) then (true, U)
    else if is0 p then (false, U)
    else (u_rnd U (u_draw U) p, set_draw (u_draw U + 1) U).
  (** QEngine::ForceM: [nrm p] is the factor GetNonunitaryPhase() / sqrt(p). *)
  Definition eng_measure (nrm : K -> K) (u m : N) (res doForce doApply : bool) (U : qunit) : bool * qunit :=
    let p := eng_prob u m U in
    let '(r, U1) := outcome p res doForce U in
    let pr := if r then p else 1 - p in
    (r, if doApply && negb (is0 (1 - pr))
        then put_eng u (fst (u_eng U1 u)) (project (fun x => eqb (N.testbit x m) r) (nrm pr) (snd (u_eng U1 u))) U1 else U1).
  (** hpp:1038-1046. *)
  Definition ToPermBasisMeasure (q : N) (U : qunit) : qunit :=
    let U1 := RevertBasis2Qb q ONLY_INVERT CONTROLS_AND_TARGETS CTRL_AND_ANTI [] [] false (RevertBasis1Qb SeparateBit q U) in
    onbuf (DumpMultiBit q) (RevertBasis2Qb q ONLY_PHASE ONLY_CONTROLS CTRL_AND_ANTI [] [] false U1).
  (** 1378-1454. *)
  Definition ForceM (nrm : K -> K) (q : N) (res doForce doApply : bool) (U0 : qunit) : bool * qunit :=
    let U := if doApply then ToPermBasisProb RevertBasis2Qb q U0 else ToPermBasisMeasure q U0 in
    let '(r, U1) := match s_unit (u_sh U q) with
                    | None => outcome (anorm (s_a1 (u_sh U q))) res doForce U
                    | Some u => eng_measure nrm u (s_map (u_sh U q)) res doForce doApply U
                    end in
    if negb doApply then (r, U1)
    else
      let '(ph, U2) := draw U1 in
      let U3 := on_sh q (fun s => mkQS (s_unit s) (s_map s) false false (if r then 0 else ph) (if r then ph else 0) (s_bas s)) U2 in
      let flush := if r then Flush1Eigenstate RevertBasis2Qb q else Flush0Eigenstate RevertBasis2Qb q in
      match s_unit (u_sh U3 q) with
      | None => (r, flush U3)
      | Some u =>
          if (fst (u_eng U3 u) =? 1)%N then (r, flush (free_eng u (on_sh q (w_unit None 0) U3)))
          else
            let U4 := set_sh (fun p => let s := u_sh U3 p in
                         if (p =? q)%N then s
                         else match s_unit s with
                              | Some w => if (w =? u)%N then w_pd true (w_fd true s) else s
                              | None => s
                              end) U3 in
            (r, flush (SeparateBit r q U4))
      end.
  (** hpp (QInterface::M): ForceM(q, false, false, true). *)
  Definition QM (nrm : K -> K) (q : N) (U : qunit) : bool * qunit := ForceM nrm q false false true U.
  (** 1475-1523. *)
  Definition mall_bit (nrm : K -> K) (acc : N * qunit) (i : N) : N * qunit :=
    let '(r, U) := acc in
    let p := u_sw U i in
    match s_unit (u_sh U p) with
    | None =>
        let '(b, U1) := outcome (anorm (s_a1 (u_sh U p))) false false U in
        let '(ph, U2) := draw U1 in
        (if b then N.lor r (2 ^ i) else r, on_sh p (w_amps (if b then 0 else ph) (if b then ph else 0)) U2)
    | Some _ => let '(b, U1) := QM nrm p U in (if b then N.lor r (2 ^ i) else r, U1)
    end.
  Definition MAll (nrm : K -> K) (U0 : qunit) : N * qunit :=
    let U1 := fold_left (fun V i => RevertBasis1Qb SeparateBit i V) (order U0) U0 in
    let U2 := fold_left (fun V i => onbuf (fun s => ClearInvertPhase i (DumpPhaseBuffers i s)) V) (order U1) U1 in
    let U3 := fold_left (fun V i => if IsInvertControl i (u_buf V) then snd (QM nrm i V) else V) (order U2) U2 in
    let '(r, U4) := fold_left (mall_bit nrm) (upto (N.to_nat (u_n U3))) (0%N, U3) in
    (r, SetPermutation r U4).
End Unit.
Arguments qunit : clear implicits.
Arguments qshard : clear implicits.
