(** Model of the circuit optimiser: QCircuitGate and QCircuit of /repo/include/qcircuit.hpp, /repo/src/qcircuit.cpp and
    /repo/src/arithmetic_qcircuit.cpp.  Line numbers without a file name are in qcircuit.hpp.

    - std::set<bitLenInt> is a list in increasing order, std::map<bitCapInt, ...> a list of pairs in increasing key order.
    - Comparisons of an amplitude with zero up to FP_NORM_EPSILON are exact comparisons.
    - Gates are values: a gate object shared between two circuits (QCircuit::Append, QCircuit::Combine, AppendGate of a
      caller's gate) is not modelled.
    - pow2 of a position is a 128-bit shift; ~ is the complement in 128 bits. *)
From Coq Require Import NArith List Bool.
From Verif Require Import MFunctions MParFor MKernel Amp MEngine MAlu.
Import ListNotations.
Local Open Scope N_scope.

(** ** std::set<bitLenInt> *)
Definition smem (c : N) (s : list N) : bool := existsb (N.eqb c) s.
Fixpoint sins (c : N) (s : list N) : list N :=
  match s with
  | [] => [c]
  | a :: t => if c <? a then c :: s else if c =? a then s else a :: sins c t
  end.
Definition sdel (c : N) (s : list N) : list N := filter (fun a => negb (a =? c)) s.
(** std::distance(s.begin(), s.find(c)): the whole size when [c] is absent. *)
Fixpoint spos (c : N) (s : list N) : N :=
  match s with
  | [] => 0
  | a :: t => if a =? c then 0 else 1 + spos c t
  end.
(** std::includes(big, small). *)
Definition sincl (big small : list N) : bool := forallb (fun a => smem a big) small.
Definition sinter (a b : list N) : list N := filter (fun x => smem x b) a.

(** ** std::map<bitCapInt, T> *)
Section Map.
  Context {T : Type}.
  Fixpoint mfind (k : N) (l : list (N * T)) : option T :=
    match l with
    | [] => None
    | (a, v) :: t => if k =? a then Some v else mfind k t
    end.
  (** payloads[k] = v. *)
  Fixpoint mset (k : N) (v : T) (l : list (N * T)) : list (N * T) :=
    match l with
    | [] => [(k, v)]
    | (a, w) :: t => if k <? a then (k, v) :: l else if k =? a then (k, v) :: t else (a, w) :: mset k v t
    end.
  (** emplace: an existing key is kept. *)
  Definition mins (k : N) (v : T) (l : list (N * T)) : list (N * T) :=
    match mfind k l with None => mset k v l | Some _ => l end.
  Definition mdel (k : N) (l : list (N * T)) : list (N * T) := filter (fun e => negb (fst e =? k)) l.
End Map.

(** bitLenInt is uint8_t, /repo/include/common/qrack_types.hpp. *)
Definition w8 (x : N) : N := x mod 256.
(** ~ on bitCapInt. *)
Definition not128 (x : N) : N := N.lnot (w128 x) 128.

Section QCircuit.
  Context {K : StarRing}.
  Local Notation V := (mem K).
  Local Notation M2 := (mat2 K).

  (** norm(x) <= FP_NORM_EPSILON. *)
  Definition z0 (x : K) : bool := sr_eqb x 0%amp.

  (** QCircuitGate, 51-54. *)
  Record qgate := mkGate { qg_t : N; qg_pl : list (N * M2); qg_ctl : list N }.

  (** Constructors: Swap, 71-78; single-qubit, 83-88; controlled, 93-100; uniformly controlled, 105-114.  The identity
      constructor 59-66 is [qg_clear]. *)
  Definition swap_gate (q1 q2 : N) : qgate := mkGate q1 [] [q2].
  Definition gate_1 (t : N) (m : M2) : qgate := mkGate t [(0, m)] [].
  Definition gate_c (t : N) (m : M2) (ctrls : list N) (perm : N) : qgate := mkGate t [(perm, m)] ctrls.
  Definition gate_uc (t : N) (pl : list (N * M2)) (ctrls : list N) : qgate := mkGate t pl ctrls.
  (** Clear, 156-167: the target is kept. *)
  Definition qg_clear (g : qgate) : qgate := mkGate (qg_t g) [(0, midn)] [].

  (** IsPhase, 372-382; IsInvert, 387-397; IsPhaseInvert, 402-413. *)
  Definition mat_phase (m : M2) : bool := z0 (m01 m) && z0 (m10 m).
  Definition mat_invert (m : M2) : bool := z0 (m00 m) && z0 (m11 m).
  Definition IsPhase (g : qgate) : bool := forallb (fun e => mat_phase (snd e)) (qg_pl g).
  Definition IsInvert (g : qgate) : bool := forallb (fun e => mat_invert (snd e)) (qg_pl g).
  Definition IsPhaseInvert (g : qgate) : bool :=
    forallb (fun e => negb (negb (mat_invert (snd e)) && negb (mat_phase (snd e)))) (qg_pl g).

  (** IsIdentity, 337-367: with a full set of payloads one common phase is enough. *)
  Definition mat_is (ph : K) (m : M2) : bool :=
    negb (negb (z0 (m01 m)) || negb (z0 (m10 m)) || negb (z0 (ph - m00 m)%amp) || negb (z0 (ph - m11 m)%amp)).
  Definition IsIdentityG (g : qgate) : bool :=
    if N.of_nat (length (qg_pl g)) =? pow2_128 (N.of_nat (length (qg_ctl g)))
    then match qg_pl g with
         | [] => true
         | (_, r) :: _ => z0 (m00 r - m11 r)%amp && forallb (fun e => mat_is (m00 r) (snd e)) (qg_pl g)
         end
    else forallb (fun e => mat_is 1%amp (snd e)) (qg_pl g).

  (** __IS_CLIFFORD_PHASE_INVERT and __IS_CLIFFORD, 28-41; [i] is I_CMPLX. *)
  Definition same4 (i a b : K) : bool :=
    z0 (a - b)%amp || z0 (a - - b)%amp || z0 (a - i * b)%amp || z0 (a - - i * b)%amp.
  Definition mat_clifford (i : K) (m : M2) : bool :=
    (mat_phase m && same4 i (m00 m) (m11 m)) || (mat_invert m && same4 i (m01 m) (m10 m)) ||
    (same4 i (m00 m) (m01 m) && same4 i (m00 m) (m10 m) && same4 i (m00 m) (m11 m)).
  (** IsClifford, 454-487.  With no controls the payload of key 0 is read (a missing one would be a null pointer). *)
  Definition IsClifford (i : K) (g : qgate) : bool :=
    match qg_pl g, qg_ctl g with
    | [], _ => true
    | _, [] => match mfind 0 (qg_pl g) with Some m => mat_clifford i m | None => false end
    | _, [_] => forallb (fun e => let m := snd e in
                  if mat_phase m then same4 i (m00 m) (m11 m) else if mat_invert m then same4 i (m01 m) (m10 m) else false) (qg_pl g)
    | _, _ => false
    end.

  (** CanCombine, 121-151. *)
  Definition is_nil {T} (l : list T) : bool := match l with [] => true | _ => false end.
  Definition CanCombine (i : K) (clifford : bool) (g other : qgate) : bool :=
    if negb (qg_t g =? qg_t other) then false
    else
      let ec := is_nil (qg_ctl g) in let eo := is_nil (qg_ctl other) in
      let general := if ec || eo then true else sincl (qg_ctl other) (qg_ctl g) || sincl (qg_ctl g) (qg_ctl other) in
      if clifford then
        if ec && eo then true
        else
          let mc := IsClifford i g in let oc := IsClifford i other in
          if negb (Bool.eqb mc oc) then false
          else if mc then ec || eo || (hd 0 (qg_ctl g) =? hd 0 (qg_ctl other))
          else general
      else general.

  (** AddControl, 172-199. *)
  Definition AddControl (g : qgate) (c : N) : qgate :=
    if smem c (qg_ctl g) then g
    else
      let ctl := sins c (qg_ctl g) in
      let midPow := pow2_128 (spos c ctl) in
      let lowMask := sub128 midPow 1 in
      let highMask := not128 lowMask in
      let pl := fold_left (fun acc (e : N * M2) =>
                  let nKey := N.lor (N.land (fst e) lowMask) (w128 (N.shiftl (N.land (fst e) highMask) 1)) in
                  mins (N.lor nKey midPow) (snd e) (mins nKey (snd e) acc)) (qg_pl g) [] in
      mkGate (qg_t g) pl ctl.

  (** CanRemoveControl, 204-234. *)
  Definition mat_same (l h : M2) : bool :=
    z0 (m00 l - m00 h)%amp && z0 (m01 l - m01 h)%amp && z0 (m10 l - m10 h)%amp && z0 (m11 l - m11 h)%amp.
  Definition CanRemoveControl (g : qgate) (c : N) : bool :=
    let midPow := pow2_128 (spos c (qg_ctl g)) in
    forallb (fun e : N * M2 =>
      let nKey := N.land (not128 midPow) (fst e) in
      match mfind nKey (qg_pl g), mfind (N.lor nKey midPow) (qg_pl g) with
      | Some l, Some h => mat_same l h
      | _, _ => false
      end) (qg_pl g).
  (** RemoveControl, 239-254. *)
  Definition RemoveControl (g : qgate) (c : N) : qgate :=
    let midPow := pow2_128 (spos c (qg_ctl g)) in
    let lowMask := sub128 midPow 1 in
    let highMask := not128 (N.lor lowMask midPow) in
    mkGate (qg_t g)
      (fold_left (fun acc (e : N * M2) =>
         mins (N.lor (N.land (fst e) lowMask) (N.shiftr (N.land (fst e) highMask) 1)) (snd e) acc) (qg_pl g) [])
      (sdel c (qg_ctl g)).
  (** TryRemoveControl, 259-267. *)
  Definition TryRemoveControl (g : qgate) (c : N) : qgate := if CanRemoveControl g c then RemoveControl g c else g.

  (** Combine, 272-319: [other] acts after [g]. *)
  Definition combine_pl (pl : list (N * M2)) (e : N * M2) : list (N * M2) :=
    match mfind (fst e) pl with
    | None => mset (fst e) (snd e) pl
    | Some p => let out := mmul (snd e) p in
                if z0 (m01 out) && z0 (m10 out) && z0 (1 - m00 out)%amp && z0 (1 - m11 out)%amp then mdel (fst e) pl
                else mset (fst e) out pl
    end.
  Definition CombineG (g other : qgate) : qgate :=
    let toTest := sinter (qg_ctl g) (qg_ctl other) in
    let lg := length (qg_ctl g) in let lo := length (qg_ctl other) in
    let g1 := if Nat.ltb lg lo then fold_left AddControl (qg_ctl other) g else g in
    let o1 := if Nat.ltb lo lg then fold_left AddControl (qg_ctl g) other else other in
    let pl := fold_left combine_pl (qg_pl o1) (qg_pl g1) in
    match pl with
    | [] => qg_clear g1
    | _ => fold_left TryRemoveControl toTest (mkGate (qg_t g1) pl (qg_ctl g1))
    end.

  (** CanPass, 492-540: [None] is false; [Some other'] is true, with the possibly rewritten [other]. *)
  Fixpoint pass_key (j : N) (octl ctl : list N) (key : N) : N :=
    match ctl with
    | [] => 0
    | q :: t => N.lor (if N.land key (pow2_128 (spos q octl)) =? 0 then 0 else pow2_128 j) (pass_key (j + 1) octl t key)
    end.
  Definition CanPass (g other : qgate) : option qgate :=
    let yes (b : bool) := if b then Some other else None in
    if negb (smem (qg_t g) (qg_ctl other)) then
      if smem (qg_t other) (qg_ctl g) then yes (IsPhase other)
      else yes (negb (qg_t g =? qg_t other) || (IsPhase g && IsPhase other))
    else if smem (qg_t other) (qg_ctl g) then yes (IsPhase g && IsPhase other)
    else if IsPhase g then yes true
    else if negb (IsPhaseInvert g) || negb (sincl (qg_ctl other) (qg_ctl g)) then None
    else
      let p := pow2_128 (spos (qg_t g) (qg_ctl other)) in
      let pl := fold_left (fun acc (e : N * M2) =>
                  let pf := pass_key 0 (qg_ctl other) (qg_ctl g) (fst e) in
                  match mfind pf (qg_pl g) with
                  | None => mset (fst e) (snd e) acc
                  | Some m => if negb (z0 (m00 m)) then mset (fst e) (snd e) acc else mset (N.lxor (fst e) p) (snd e) acc
                  end) (qg_pl other) [] in
      Some (mkGate (qg_t other) pl (qg_ctl other)).

  (** PostSelectControl, 573-598. *)
  Definition PostSelectControl (g : qgate) (c : N) (eigen : bool) : qgate :=
    if negb (smem c (qg_ctl g)) then g
    else
      let midPow := pow2_128 (spos c (qg_ctl g)) in
      let lowMask := sub128 midPow 1 in
      let highMask := not128 (N.lor lowMask midPow) in
      let eigenPow := if eigen then midPow else 0 in
      mkGate (qg_t g)
        (fold_left (fun acc (e : N * M2) =>
           if N.land (fst e) midPow =? eigenPow
           then mins (N.lor (N.land (fst e) lowMask) (N.shiftr (N.land (fst e) highMask) 1)) (snd e) acc else acc) (qg_pl g) [])
        (sdel c (qg_ctl g)).

  (** ** QCircuit *)

  (** 610-615. *)
  Record qcirc := mkQC { qc_collapsed : bool; qc_clifford : bool; qc_count : N; qc_gates : list qgate }.
  (** Default constructor, 621-628; manual constructor, 633-641; Clone, 643. *)
  Definition qc_new (collapse clifford : bool) : qcirc := mkQC collapse clifford 0 [].
  Definition qc_make (count : N) (gs : list qgate) (collapse clifford : bool) : qcirc := mkQC collapse clifford count gs.

  (** The qubits of a gate. *)
  Definition qubits (g : qgate) : list N := sins (qg_t g) (qg_ctl g).
  Definition shares (a b : list N) : bool := existsb (fun q => smem q b) a.

  (** AppendGate, qcircuit.cpp:101-171.  [scan] is the loop over the gates from the last to the first (126-166); [after] holds
      the gates already passed.  When a merge cancels to the identity, the gates behind it are appended again (128-151);
      [reapp] is that loop.  [fuel] bounds the nesting of AppendGate: [length gates + 1] is enough. *)
  Inductive scanned := Done (gs : list qgate) (b : bool) | Cancel (before after : list qgate) (gq : list N).
  Fixpoint scan (i : K) (clifford : bool) (rl after : list qgate) (ng : qgate) (did : bool) : scanned :=
    match rl with
    | [] => Done (ng :: after) did
    | g :: rest =>
        if CanCombine i clifford g ng then
          let g' := CombineG g ng in
          if IsIdentityG g' then Cancel (rev rest) after (qubits g') else Done (rev rest ++ g' :: after) true
        else match CanPass g ng with
        | None => Done (rev rest ++ g :: ng :: after) did
        | Some ng' => scan i clifford rest (g :: after) ng' (did || shares (qubits ng) (qubits g))
        end
    end.
  Section Reapp.
    Variable app : N * list qgate -> qgate -> (N * list qgate) * bool.
    Fixpoint reapp (head : list qgate) (gq : list N) (st : N * list qgate) : N * list qgate :=
      match head with
      | [] => st
      | h :: t =>
          if is_nil gq then (fst st, snd st ++ head)
          else if negb (shares (qubits h) gq) then reapp t gq (fst st, snd st ++ [h])
          else
            let '(st', b) := app st h in
            reapp t (if b then fold_left (fun s q => sins q s) (qubits h) gq else fold_left (fun s q => sdel q s) (qubits h) gq) st'
      end.
  End Reapp.
  (** 113-121; bitLenInt wraps at 256. *)
  Definition grow (count : N) (g : qgate) : N :=
    let c1 := if count <? qg_t g + 1 then w8 (qg_t g + 1) else count in
    match qg_ctl g with
    | [] => c1
    | _ => let q := last (qg_ctl g) 0 in if c1 <? q + 1 then w8 (q + 1) else c1
    end.
  Fixpoint append (i : K) (clifford : bool) (fuel : nat) (st : N * list qgate) (ng : qgate) : (N * list qgate) * bool :=
    match fuel with
    | O => ((fst st, snd st ++ [ng]), false)
    | S f =>
        if IsIdentityG ng then (st, true)
        else
          let count := grow (fst st) ng in
          match scan i clifford (rev (snd st)) [] ng false with
          | Done gs b => ((count, gs), b)
          | Cancel before after gq => (reapp (append i clifford f) after gq (count, before), true)
          end
    end.
  Definition AppendGate (i : K) (c : qcirc) (ng : qgate) : qcirc :=
    if negb (qc_collapsed c) then mkQC (qc_collapsed c) (qc_clifford c) (qc_count c) (qc_gates c ++ [ng])
    else let st := fst (append i (qc_clifford c) (S (length (qc_gates c))) (qc_count c, qc_gates c) ng) in
         mkQC (qc_collapsed c) (qc_clifford c) (fst st) (snd st).
  Definition AppendGates (i : K) (c : qcirc) (gs : list qgate) : qcirc := fold_left (AppendGate i) gs c.

  (** Inverse, 645-658. *)
  Definition inv_gate (g : qgate) : qgate := mkGate (qg_t g) (map (fun e => (fst e, mdag (snd e))) (qg_pl g)) (qg_ctl g).
  Definition Inverse (c : qcirc) : qcirc := mkQC (qc_collapsed c) (qc_clifford c) (qc_count c) (rev (map inv_gate (qc_gates c))).

  (** Swap, 683-701. *)
  Definition mat_X : M2 := mkMat 0%amp 1%amp 1%amp 0%amp.
  Definition qc_Swap (i : K) (c : qcirc) (q1 q2 : N) : qcirc :=
    if q1 =? q2 then c
    else let a := N.min q1 q2 in let b := N.max q1 q2 in
         AppendGates i c [gate_c a mat_X [b] 1; gate_c b mat_X [a] 1; gate_c a mat_X [b] 1].
  (** Append, 706-712; Combine, 718-726 (the gates of the argument are taken as values). *)
  Definition qc_Append (c d : qcirc) : qcirc :=
    mkQC (qc_collapsed c) (qc_clifford c) (if qc_count c <? qc_count d then qc_count d else qc_count c) (qc_gates c ++ qc_gates d).
  Definition qc_Combine (i : K) (c d : qcirc) : qcirc :=
    AppendGates i (mkQC (qc_collapsed c) (qc_clifford c) (if qc_count c <? qc_count d then qc_count d else qc_count c) (qc_gates c)) (qc_gates d).

  (** IsNonPhaseTarget, 740-749; DeletePhaseTarget, 754-767. *)
  Definition IsNonPhaseTarget (c : qcirc) (q : N) : bool :=
    existsb (fun g => (qg_t g =? q) && negb (IsPhase g)) (qc_gates c).
  Definition DeletePhaseTarget (c : qcirc) (q : N) (eigen : bool) : qcirc :=
    mkQC (qc_collapsed c) (qc_clifford c) (qc_count c)
      (map (fun g => PostSelectControl g q eigen) (filter (fun g => negb (qg_t g =? q)) (qc_gates c))).

  (** PastLightCone, 772-808: from the last gate to the first; returns the kept gates in the original order and the cone. *)
  Fixpoint cone_loop (rl kept : list qgate) (qs : list N) : list qgate * list N :=
    match rl with
    | [] => (kept, qs)
    | g :: rest =>
        if negb (smem (qg_t g) qs) && negb (existsb (fun c => smem c qs) (qg_ctl g)) then cone_loop rest kept qs
        else cone_loop rest (g :: kept) (fold_left (fun s c => sins c s) (qg_ctl g) (sins (qg_t g) qs))
    end.
  Definition PastLightCone (c : qcirc) (qs : list N) : qcirc * list N :=
    let r := cone_loop (rev (qc_gates c)) [] qs in (mkQC (qc_collapsed c) false (qc_count c) (fst r), snd r).

  (** INC, arithmetic_qcircuit.cpp:22-63. *)
  Definition inc_gates (toAdd start length : N) : list qgate :=
    if length =? 0 then []
    else if length =? 1 then if N.testbit toAdd 0 then [gate_1 start mat_X] else []
    else flat_map (fun i =>
      if N.testbit toAdd i then
        gate_1 (start + i) mat_X ::
        map (fun j => gate_c (start + (i + j + 1) mod length) mat_X (map (fun b => start + b) (iota i (N.to_nat (j + 1)))) 0)
          (iota 0 (N.to_nat ((length - 1) - i)))
      else []) (iota 0 (N.to_nat length)).
  Definition qc_INC (i : K) (c : qcirc) (toAdd start length : N) : qcirc := AppendGates i c (inc_gates toAdd start length).

  (** ** Run, qcircuit.cpp:173-245 *)

  (** IsCnot, 418-431; IsAntiCnot, 436-449: [key] is 1 and 0. *)
  Definition is_x (m : M2) : bool := z0 (m00 m) && z0 (m11 m) && z0 (1 - m01 m)%amp && z0 (1 - m10 m)%amp.
  Definition IsCnotAt (key : N) (g : qgate) : bool :=
    match qg_ctl g, qg_pl g with
    | [_], [_] => match mfind key (qg_pl g) with Some m => is_x m | None => false end
    | _, _ => false
    end.
  Definition IsCnot := IsCnotAt 1.
  Definition IsAntiCnot := IsCnotAt 0.
  (** Three alternating (anti-)CNOTs become one swap gate (179-215). *)
  Definition is_swap3 (a b c : qgate) : bool :=
    let anti := IsAntiCnot a in
    let kind g := (anti && IsAntiCnot g) || (negb anti && IsCnot g) in
    (IsCnot a || anti) &&
    (kind b && (qg_t b =? hd 0 (qg_ctl a)) && (qg_t a =? hd 0 (qg_ctl b))) &&
    (kind c && (qg_t c =? qg_t a) && (hd 0 (qg_ctl a) =? hd 0 (qg_ctl c))).
  Fixpoint fuse_swaps (l : list qgate) : list qgate :=
    match l with
    | a :: tl =>
        match tl with
        | b :: c :: rest => if is_swap3 a b c then swap_gate (qg_t a) (hd 0 (qg_ctl a)) :: fuse_swaps rest else a :: fuse_swaps tl
        | _ => l
        end
    | [] => []
    end.

  (** MakeUniformlyControlledPayload, 545-563: four entries per control value; entries past the array are never read. *)
  Definition payload_at (g : qgate) (k : N) : M2 := match mfind k (qg_pl g) with Some m => m | None => midn end.
  Definition payload_array (g : qgate) (off : N) : K :=
    let m := payload_at g (off / 4) in
    if off mod 4 =? 0 then m00 m else if off mod 4 =? 1 then m01 m else if off mod 4 =? 2 then m10 m else m11 m.

  (** One gate on the CPU engine (217-244); [None] is undefined behaviour (a null matrix pointer). *)
  Definition run_gate (c : cfg) (rgp : bool) (n : N) (g : qgate) (v : option V) (r : option (res (option V))) : Prop :=
    match qg_ctl g with
    | [] => match mfind 0 (qg_pl g) with
            | None => r = None
            | Some m => exists r', Mtrx c rgp n m (qg_t g) v r' /\ r = Some r'
            end
    | c0 :: _ => exists r', r = Some r' /\
        match qg_pl g with
        | [] => SwapLike c n mat_X c0 (qg_t g) v r'
        | [(k, m)] => UCMtrx c rgp n (qg_ctl g) m (qg_t g) k v r'
        | _ => UniformlyControlledSingleBit c rgp n (qg_ctl g) (qg_t g) (payload_array g) [] 0 v r'
        end
    end.
  Fixpoint run_gates (c : cfg) (rgp : bool) (n : N) (l : list qgate) (v : option V) (r : option (res (option V))) : Prop :=
    match l with
    | [] => r = Some (Ok v)
    | g :: t => exists r1, run_gate c rgp n g v r1 /\
        match r1 with Some (Ok v1) => run_gates c rgp n t v1 r | _ => r = r1 end
    end.
  (** Run on an engine of [n] qubits: missing qubits are first allocated in state |0> at the end (175-177,
      src/qengine/utility.cpp:52-66). *)
  Definition ket0 : V := fun x => if x =? 0 then 1%amp else 0%amp.
  Definition Run (c : cfg) (rgp : bool) (maxQB : N) (qc : qcirc) (e : @eng K) (r : option (res (@eng K))) : Prop :=
    let go (e1 : @eng K) :=
      exists r1, run_gates c rgp (e_n e1) (fuse_swaps (qc_gates qc)) (e_vec e1) r1 /\
        r = match r1 with None => None | Some Throw => Some Throw | Some (Ok v) => Some (Ok (mkEng (e_n e1) v)) end in
    if e_n e <? qc_count qc then
      exists r0, ComposeAt c maxQB e (mkEng (qc_count qc - e_n e) (Some ket0)) (e_n e) r0 /\
        match r0 with Throw => r = Some Throw | Ok (e1, _) => go e1 end
    else go e.

  (** ** Text form, qcircuit.cpp:17-99 *)

  (** The text is a sequence of blank-separated items: numbers in decimal (character codes) and complex numbers.  The
      standard library prints a complex number with a limited number of digits: [fmt a] is the value of the text of [a]. *)
  Inductive tok := TNum (ds : list N) | TAmp (a : K).
  Fixpoint dec_loop (fuel : nat) (x : N) (acc : list N) : list N :=
    match fuel with
    | O => acc
    | S f => if x <? 10 then (48 + x) :: acc else dec_loop f (x / 10) ((48 + x mod 10) :: acc)
    end.
  (** std::ostream << size_t. *)
  Definition put_size (x : N) : tok := TNum (dec_loop 20 x []).
  Definition put_entry (fmt : K -> K) (e : N * M2) : list tok :=
    put_size (w64 (fst e)) :: map (fun a => TAmp (fmt a)) [m00 (snd e); m01 (snd e); m10 (snd e); m11 (snd e)].
  Definition put_gate (fmt : K -> K) (g : qgate) : list tok :=
    put_size (qg_t g) :: put_size (N.of_nat (length (qg_ctl g))) :: map put_size (qg_ctl g) ++
    put_size (N.of_nat (length (qg_pl g))) :: flat_map (put_entry fmt) (qg_pl g).
  Definition put_circ (fmt : K -> K) (c : qcirc) : list tok :=
    put_size (qc_count c) :: put_size (N.of_nat (length (qc_gates c))) :: flat_map (put_gate fmt) (qc_gates c).

  (** std::istream >> size_t reads decimal digits; bitCapInt keys are read by operator>>(std::istream&, bitCapInt&)
      ([parse_bci]).  [None]: the text has another shape. *)
  Definition get_num (l : list tok) : option (list N * list tok) := match l with TNum ds :: t => Some (ds, t) | _ => None end.
  Definition get_size (l : list tok) : option (N * list tok) :=
    match get_num l with Some (ds, t) => Some (fold_left (fun b d => b * 10 + (d - 48)) ds 0, t) | None => None end.
  Definition get_amp (l : list tok) : option (K * list tok) := match l with TAmp a :: t => Some (a, t) | _ => None end.
  Fixpoint get_ctl (k : nat) (s : list N) (l : list tok) : option (list N * list tok) :=
    match k with
    | O => Some (s, l)
    | S j => match get_size l with Some (c, t) => get_ctl j (sins (w8 c) s) t | None => None end
    end.
  Definition get_mat (l : list tok) : option (M2 * list tok) :=
    match get_amp l with None => None | Some (a, l1) =>
    match get_amp l1 with None => None | Some (b, l2) =>
    match get_amp l2 with None => None | Some (c, l3) =>
    match get_amp l3 with None => None | Some (d, l4) => Some (mkMat a b c d, l4) end end end end.
  Fixpoint get_pl (k : nat) (pl : list (N * M2)) (l : list tok) : option (list (N * M2) * list tok) :=
    match k with
    | O => Some (pl, l)
    | S j => match get_num l with None => None | Some (ds, t) =>
             match get_mat t with None => None | Some (m, t') => get_pl j (mset (parse_bci ds) m pl) t' end end
    end.
  (** A fresh gate object has no controls; its payloads are cleared first. *)
  Definition get_gate (l : list tok) : option (qgate * list tok) :=
    match get_size l with None => None | Some (t, l1) =>
    match get_size l1 with None => None | Some (nc, l2) =>
    match get_ctl (N.to_nat nc) [] l2 with None => None | Some (ctl, l3) =>
    match get_size l3 with None => None | Some (np, l4) =>
    match get_pl (N.to_nat np) [] l4 with None => None | Some (pl, l5) => Some (mkGate (w8 t) pl ctl, l5) end end end end end.
  Fixpoint get_gates (k : nat) (l : list tok) : option (list qgate * list tok) :=
    match k with
    | O => Some ([], l)
    | S j => match get_gate l with None => None | Some (g, l1) =>
             match get_gates j l1 with None => None | Some (gs, l2) => Some (g :: gs, l2) end end
    end.
  (** Reading into the circuit object [c]: its flags are kept. *)
  Definition get_circ (c : qcirc) (l : list tok) : option (qcirc * list tok) :=
    match get_size l with None => None | Some (count, l1) =>
    match get_size l1 with None => None | Some (ng, l2) =>
    match get_gates (N.to_nat ng) l2 with None => None | Some (gs, l3) =>
      Some (mkQC (qc_collapsed c) (qc_clifford c) (w8 count) gs, l3) end end end.
End QCircuit.
