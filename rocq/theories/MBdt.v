(** QBdt: the state as a binary decision tree.  /repo/src/qbdt/tree.cpp ("tree"), /repo/src/qbdt/node.cpp ("node"),
    /repo/src/qbdt/node_interface.cpp ("iface"), /repo/include/qbdt.hpp ("hpp"), /repo/include/qbdt_node_interface.hpp.
    The variant without ENABLE_COMPLEX_X2 and without ENABLE_QBDT_CPU_PARALLEL (both do the same arithmetic).
    Simplified: arithmetic is exact and the threshold _qrack_qbdt_sep_thresh is 0, so that IS_NODE_0 and IS_NORM_0 test for
    zero and isEqual compares exactly; a tree is a value, so the sharing of equal subtrees (end of Prune, isEqualBranch) and
    copying before writing (ShallowClone) have no effect; no allocation fails; clampProb is left out (it changes no
    probability); calls that throw because of their arguments are not modelled.  Reading through a null pointer gives
    [BNull]. *)
From Coq Require Import NArith List Bool.
From Verif Require Import Amp SpecState.
Import ListNotations.
Local Open Scope N_scope.

(** SQRT1_2_R1, division, the square root of a real number, and comparison of real numbers. *)
Record Arith (K : StarRing) := mkArith {
  ar_h : K;
  ar_div : K -> K -> K;
  ar_sqrt : K -> K;
  ar_ltb : K -> K -> bool
}.
Arguments ar_h {_} _.
Arguments ar_div {_} _ _ _.
Arguments ar_sqrt {_} _ _.
Arguments ar_ltb {_} _ _ _.

Section Bdt.
  Context {K : StarRing} (A : Arith K).
  Local Open Scope amp_scope.

  (** A pointer to a node: null, or scale, branches[0], branches[1] (qbdt_node_interface.hpp:62-63). *)
  Inductive bdt := BNull | BNode (s : K) (b0 b1 : bdt).
  Definition scl (t : bdt) : K := match t with BNull => 0 | BNode s _ _ => s end.
  Definition br (t : bdt) (b : bool) : bdt := match t with BNull => BNull | BNode _ l r => if b then r else l end.
  Definition is_null (t : bdt) : bool := match t with BNull => true | _ => false end.
  Definition set_scl (s : K) (t : bdt) : bdt := match t with BNull => BNull | BNode _ l r => BNode s l r end.
  (** IS_NODE_0, IS_NORM_0; SetZero (qbdt_node_interface.hpp:112-132). *)
  Definition is0 (x : K) : bool := sr_eqb x 0.
  Definition zero_node : bdt := BNode 0 BNull BNull.
  (** std::abs; std::polar(1, std::arg(x)). *)
  Definition aabs (x : K) : K := ar_sqrt A (anorm x).
  Definition phase_of (x : K) : K := if is0 x then 1 else ar_div A x (aabs x).

  (** Equality of subtrees: isEqual, isEqualUnder, operator== (iface:36-105). *)
  Fixpoint bdt_eqb (t u : bdt) : bool :=
    match t, u with
    | BNull, BNull => true
    | BNode s l r, BNode s' l' r' => sr_eqb s s' && bdt_eqb l l' && bdt_eqb r r'
    | _, _ => false
    end.
  Definition equal_under (t u : bdt) : bool := bdt_eqb (br t false) (br u false) && bdt_eqb (br t true) (br u true).

  (** Branch (node:220-303). *)
  Fixpoint branch (depth : nat) (t : bdt) : bdt :=
    match depth, t with
    | O, _ | _, BNull => t
    | S d, BNode s l r =>
        if is0 s then zero_node
        else if is_null l || is_null r then BNode s (branch d (BNode (ar_h A) BNull BNull)) (branch d (BNode (ar_h A) BNull BNull))
        else BNode s (branch d l) (branch d r)
    end.

  (** Normalize with depth 1 (node:305-343). *)
  Definition normalize1 (t : bdt) : bdt :=
    match t with
    | BNull => BNull
    | BNode s l r =>
        if is_null l then zero_node
        else let nrm := ar_sqrt A (anorm (scl l) + anorm (scl r)) in
             BNode s (set_scl (ar_div A (scl l) nrm) l) (set_scl (ar_div A (scl r) nrm) r)
    end.
  (** Normalize (node:305-343); QBdt::NormalizeState (hpp:184-188). *)
  Fixpoint normalize (depth : nat) (t : bdt) : bdt :=
    match depth, t with
    | O, _ | _, BNull => t
    | S d, BNode s l r =>
        if is_null l then zero_node
        else let nrm := ar_sqrt A (anorm (scl l) + anorm (scl r)) in
             let l := normalize d l in let r := normalize d r in
             BNode s (set_scl (ar_div A (scl l) nrm) l) (set_scl (ar_div A (scl r) nrm) r)
    end.
  (** Prune after the recursive calls and Normalize (node:113-139).  When both branches are the same node, the result is that of
      the last case; the combining of equal branches (141-213) does not change the tree. *)
  Definition prune_top (t : bdt) : bdt :=
    match t with
    | BNull => BNull
    | BNode s l r =>
        if is0 (scl l) then BNode (s * ar_div A (scl r) (aabs (scl r))) zero_node (set_scl 1 r)
        else if is0 (scl r) then BNode (s * ar_div A (scl l) (aabs (scl l))) (set_scl 1 l) zero_node
        else let p := phase_of (scl r) in
             BNode (s * p) (set_scl (ar_div A (scl l) p) l) (set_scl (ar_div A (scl r) p) r)
    end.
  (** Prune (node:40-214). *)
  Fixpoint prune (depth : nat) (t : bdt) : bdt :=
    match depth, t with
    | O, _ | _, BNull => t
    | S d, BNode s l r => if is_null l then zero_node else prune_top (normalize1 (BNode s (prune d l) (prune d r)))
    end.
  (** The second argument of the first SelectBit in the loop of Prune, when the loop is reached (node:146): [depth - 1U] as
      bitLenInt; the value shifted has 128 bits.  [prune_shifts depth t] lists these arguments. *)
  Definition prune_shift (depth : nat) : N := (255 + N.of_nat depth) mod 256.
  Fixpoint prune_shifts (depth : nat) (t : bdt) : list N :=
    match depth, t with
    | O, _ | _, BNull => []
    | S d, BNode s l r => if is_null l then [] else prune_shifts d l ++ prune_shifts d r ++ (if bdt_eqb l r then [] else [prune_shift d])
    end.

  (** PopStateVector (node:345-437). *)
  Definition pop_top (t : bdt) : bdt :=
    match t with
    | BNull => BNull
    | BNode _ l r =>
        let n0 := anorm (scl l) in let n1 := anorm (scl r) in
        if is0 (scl l) && is0 (scl r) then zero_node
        else let sq := ar_sqrt A (n0 + n1) in
             if is0 (scl l) then BNode (sq * phase_of (scl r)) zero_node (set_scl 1 r)
             else let s := sq * phase_of (scl l) in
                  if is0 (scl r) then BNode s (set_scl 1 l) zero_node
                  else BNode s (set_scl (ar_div A (scl l) s) l) (set_scl (ar_div A (scl r) s) r)
    end.
  Fixpoint pop (depth : nat) (t : bdt) : bdt :=
    match depth, t with
    | O, _ | _, BNull => t
    | S d, BNode s l r => if is_null l then zero_node else pop_top (BNode s (pop d l) (pop d r))
    end.

  (** PushStateVector on the pair (b0, b1) (node:834-932).  PushSpecial only throws. *)
  Definition mix0 (m : mat2 K) (x y : K) : K := m00 m * x + m01 m * y.
  Definition mix1 (m : mat2 K) (x y : K) : K := m10 m * x + m11 m * y.
  Fixpoint push (m : mat2 K) (depth : nat) (l r : bdt) : bdt * bdt :=
    let z0 := is0 (scl l) in let z1 := is0 (scl r) in
    if z0 && z1 then (zero_node, zero_node)
    else
      let l := if z0 then set_scl 0 r else l in
      let r := if negb z0 && z1 then set_scl 0 l else r in
      if z0 || z1 || equal_under l r then (set_scl (mix0 m (scl l) (scl r)) l, set_scl (mix1 m (scl l) (scl r)) r)
      else
        match depth with
        | O => (BNull, BNull)
        | S d =>
            let l := branch 1 l in let r := branch 1 r in
            let down p c := set_scl (scl c * scl p) c in
            let '(l0, r0) := push m d (down l (br l false)) (down r (br r false)) in
            let '(l1, r1) := push m d (down l (br l true)) (down r (br r true)) in
            (pop 1 (BNode (ar_h A) l0 l1), pop 1 (BNode (ar_h A) r0 r1))
        end.

  (** Apply2x2 (node:781-832). *)
  Definition apply2x2 (m : mat2 K) (depth : nat) (t : bdt) : bdt :=
    match depth with
    | O => t
    | _ =>
        let t := branch 1 t in
        let l := br t false in let r := br t true in
        if is0 (m01 m) && is0 (m10 m) then prune 1 (BNode (scl t) (set_scl (scl l * m00 m) l) (set_scl (scl r * m11 m) r))
        else if is0 (m00 m) && is0 (m11 m) then prune 1 (BNode (scl t) (set_scl (scl r * m01 m) r) (set_scl (scl l * m10 m) l))
        else let '(l, r) := push m depth l r in prune depth (BNode (scl t) l r)
    end.

  (** The loops of par_for_qbdt and _par_for (tree:64-93): [fn] gives the mask for the loop variable. *)
  Fixpoint par_loop (fuel : nat) (stop j : N) (fn : N -> bdt -> N * bdt) (t : bdt) : bdt :=
    match fuel with
    | O => t
    | S f => if (j <? stop)%N then let '(mask, t') := fn j t in par_loop f stop (N.lor j mask + 1)%N fn t' else t
    end.
  Definition par_for_qbdt (target : N) (fn : N -> bdt -> N * bdt) (t : bdt) : bdt :=
    prune (N.to_nat target) (par_loop (N.to_nat (2 ^ target)) (2 ^ target) 0 fn (branch (N.to_nat target) t)).
  (** From the root along the bits of [i], the highest first, and [f] on the node reached (tree:558-580, 647-668). *)
  Fixpoint at_leaf (k : nat) (i : N) (f : bdt -> bdt) (t : bdt) : N * bdt :=
    match k with
    | O => (0%N, f t)
    | S k' =>
        match t with
        | BNull => (0%N, BNull)
        | BNode s l r =>
            let b := N.testbit i (N.of_nat k') in
            if is_null (if b then r else l) then ((2 ^ N.of_nat k - 1)%N, t)
            else if b then let '(mask, r') := at_leaf k' i f r in (mask, BNode s l r')
            else let '(mask, l') := at_leaf k' i f l in (mask, BNode s l' r)
        end
    end.
  (** tree:572-586, 660-674. *)
  Definition leaf_gate (m : mat2 K) (depth : nat) (t : bdt) : bdt :=
    if is_null (br t false) || is_null (br t true) then zero_node else apply2x2 m depth t.

  (** A simulator: the number of qubits, the tree, randGlobalPhase, and the random phases and comparisons still to come
      (GetNonunitaryPhase; Rand() <= p) with the number already used. *)
  Record qbdt := mkQB {
    bt_n : N;
    bt_root : bdt;
    bt_rgp : bool;
    bt_ph : N -> K;
    bt_rnd : N -> K -> bool;
    bt_draw : N
  }.
  Definition set_root (t : bdt) (B : qbdt) : qbdt := mkQB (bt_n B) t (bt_rgp B) (bt_ph B) (bt_rnd B) (bt_draw B).
  Definition set_count (n : N) (B : qbdt) : qbdt := mkQB n (bt_root B) (bt_rgp B) (bt_ph B) (bt_rnd B) (bt_draw B).
  Definition next_draw (B : qbdt) : qbdt := mkQB (bt_n B) (bt_root B) (bt_rgp B) (bt_ph B) (bt_rnd B) (bt_draw B + 1).
  (** GetNonunitaryPhase (qinterface.hpp:169-177). *)
  Definition nonunitary_phase (B : qbdt) : K * qbdt := if bt_rgp B then (bt_ph B (bt_draw B), next_draw B) else (1, B).

  (** SetPermutation (tree:124-147); [phaseFac] is None for CMPLX_DEFAULT_ARG. *)
  Fixpoint chain (n : nat) (s : K) (q perm : N) : bdt :=
    match n with
    | O => BNode s BNull BNull
    | S n => if N.testbit perm q then BNode s zero_node (chain n 1 (q + 1) perm) else BNode s (chain n 1 (q + 1) perm) zero_node
    end.
  Definition set_permutation (perm : N) (phaseFac : option K) (B : qbdt) : qbdt :=
    if (bt_n B =? 0)%N then B
    else let '(s, B) := match phaseFac with Some p => (p, B) | None => nonunitary_phase B end in
         set_root (chain (N.to_nat (bt_n B)) s 0 perm) B.
  (** The constructor (tree:24-37). *)
  Definition new_bdt (n perm : N) (phaseFac : option K) (rgp : bool) (ph : N -> K) (rnd : N -> K -> bool) : qbdt :=
    set_permutation perm phaseFac (mkQB n BNull rgp ph rnd 0).

  (** GetAmplitude (tree:193-210); the loop of GetTraversal (hpp:49-64) and ProbAll (tree:384-398). *)
  Fixpoint path_scale (n : nat) (q perm : N) (t : bdt) (s : K) : K :=
    match n with
    | O => s
    | S n => let c := br t (N.testbit perm q) in if is_null c then s else path_scale n (q + 1) perm c (s * scl c)
    end.
  Definition get_amplitude (B : qbdt) (perm : N) : K := path_scale (N.to_nat (bt_n B)) 0 perm (bt_root B) (scl (bt_root B)).
  Definition prob_all (B : qbdt) (perm : N) : K := anorm (get_amplitude B perm).
  (** Prob (tree:347-382). *)
  Fixpoint path_prob (n : nat) (q i : N) (t : bdt) (s : K) : K :=
    match n with
    | O => if is_null (br t true) then 0 else anorm (s * scl (br t true))
    | S n => let c := br t (N.testbit i q) in if is_null c then 0 else path_prob n (q + 1) i c (s * scl c)
    end.
  Definition prob (B : qbdt) (q : N) : K := asum (fun i => path_prob (N.to_nat q) 0 i (bt_root B) (scl (bt_root B))) (basis q).

  (** GetQuantumState (hpp:197-200). *)
  Definition get_state (B : qbdt) : N -> K := get_amplitude B.
  (** SetTraversal, SetQuantumState (hpp:65-91, 205-208). *)
  Fixpoint set_leaf (n : nat) (q i : N) (s : K) (t : bdt) : bdt :=
    match n, t with
    | O, _ => set_scl s t
    | S n, BNull => BNull
    | S n, BNode x l r => if N.testbit i q then BNode x l (set_leaf n (q + 1) i s r) else BNode x (set_leaf n (q + 1) i s l) r
    end.
  Definition set_tree (psi : N -> K) (n : N) : bdt :=
    let d := N.to_nat n in
    pop d (par_loop (N.to_nat (2 ^ n)) (2 ^ n) 0 (fun i t => (0%N, set_leaf d 0 i (psi i) t)) (branch d (BNode 1 BNull BNull))).
  Definition set_state (psi : N -> K) (B : qbdt) : qbdt := set_root (prune (N.to_nat (bt_n B)) (set_tree psi (bt_n B))) B.

  (** ApplySingle, Mtrx (tree:534-589, 676); H, X, Invert, Phase (qinterface.hpp:516-533, 913-919, 1084). *)
  Definition mtrx (m : mat2 K) (target : N) (B : qbdt) : qbdt :=
    if is0 (m01 m) && is0 (m10 m) && sr_eqb (m00 m) (m11 m) && (bt_rgp B || sr_eqb 1 (m00 m)) then B
    else set_root (par_for_qbdt target (fun i => at_leaf (N.to_nat target) i (leaf_gate m (N.to_nat (bt_n B - target)))) (bt_root B)) B.
  Definition h_mat : mat2 K := mkMat (ar_h A) (ar_h A) (ar_h A) (- ar_h A).
  Definition hgate (q : N) (B : qbdt) : qbdt := mtrx h_mat q B.
  Definition invert (tr bl : K) (q : N) (B : qbdt) : qbdt := mtrx (mkMat 0 tr bl 0) q B.
  Definition xgate (q : N) (B : qbdt) : qbdt := invert 1 1 q B.
  Definition phase (tl rb : K) (q : N) (B : qbdt) : qbdt :=
    if (bt_rgp B || sr_eqb 1 tl) && sr_eqb tl rb then B else mtrx (mkMat tl 0 0 rb) q B.

  (** std::sort. *)
  Fixpoint insert (x : N) (l : list N) : list N :=
    match l with
    | [] => [x]
    | y :: t => if (x <=? y)%N then x :: l else y :: insert x t
    end.
  Definition sort (l : list N) : list N := fold_right insert [] l.

  (** The loop of ApplyControlledSingle (tree:621-674). *)
  Definition ctrl_loop (m : mat2 K) (controls : list N) (target : N) (anti : bool) (B : qbdt) : qbdt :=
    let cmask := fold_left (fun a c => N.lor a (2 ^ (target - (c + 1)))%N) controls 0%N in
    let cperm := if anti then 0%N else cmask in
    set_root (par_for_qbdt target (fun i t =>
      if negb (N.eqb (N.land i cmask) cperm) then ((cmask - 1)%N, t)
      else at_leaf (N.to_nat target) i (leaf_gate m (N.to_nat (bt_n B - target))) t) (bt_root B)) B.
  (** ApplyControlledSingle (tree:591-674), given Swap. *)
  Definition controlled (swap : N -> N -> qbdt -> qbdt) (m : mat2 K) (controls : list N) (target : N) (anti : bool) (B : qbdt) : qbdt :=
    let is_phase := is0 (m01 m) && is0 (m10 m) && (if anti then sr_eqb 1 (m11 m) else sr_eqb 1 (m00 m)) in
    if is_phase && sr_eqb 1 (m00 m) && sr_eqb 1 (m11 m) then B
    else
      let cs := sort controls in
      let back := last cs 0%N in
      if (target <? back)%N then
        let cs' := removelast cs ++ [target] in
        if is_phase then ctrl_loop m cs' back anti B
        else swap back target (ctrl_loop m (sort cs') back anti (swap back target B))
      else ctrl_loop m cs target anti B.
  (** MCPhase (tree:705-728). *)
  Definition mcphase_with (acs : mat2 K -> list N -> N -> bool -> qbdt -> qbdt) (controls : list N) (tl rb : K) (target : N) (B : qbdt) : qbdt :=
    match controls with
    | [] => phase tl rb target B
    | _ =>
        let m := mkMat tl 0 0 rb in
        if negb (sr_eqb 1 tl) then acs m controls target false B
        else if sr_eqb 1 rb then B
        else let cs := sort (controls ++ [target]) in acs m (removelast cs) (last cs 0%N) false B
    end.
  (** MCInvert (tree:730-752). *)
  Definition mcinvert_with (acs : mat2 K -> list N -> N -> bool -> qbdt -> qbdt) (controls : list N) (tr bl : K) (target : N) (B : qbdt) : qbdt :=
    match controls with
    | [] => invert tr bl target B
    | _ =>
        let m := mkMat 0 tr bl 0 in
        if negb (sr_eqb 1 tr) || negb (sr_eqb 1 bl) then acs m controls target false B
        else
          let cs := sort controls in
          if (last cs 0 <? target)%N then acs m cs target false B
          else hgate target (mcphase_with acs cs 1 (- (1)) target (hgate target B))
    end.
  (** Swap (hpp:354-360; QInterface::Swap, CNOT: src/qinterface/gates.cpp:166-175, qinterface.hpp:709-713).  The controlled gates
      in it never need Swap themselves. *)
  Definition cnot (c t : N) (B : qbdt) : qbdt := mcinvert_with (controlled (fun _ _ B => B)) [c] 1 1 t B.
  Definition swap (a b : N) (B : qbdt) : qbdt :=
    let '(a, b) := if (b <? a)%N then (b, a) else (a, b) in
    if (a =? b)%N then B else cnot a b (cnot b a (cnot a b B)).
  Definition apply_controlled := controlled swap.
  Definition mcphase := mcphase_with apply_controlled.
  Definition mcinvert := mcinvert_with apply_controlled.
  (** MCMtrx (tree:678-689). *)
  Definition mcmtrx (controls : list N) (m : mat2 K) (target : N) (B : qbdt) : qbdt :=
    match controls with
    | [] => mtrx m target B
    | _ =>
        if is0 (m01 m) && is0 (m10 m) then mcphase controls (m00 m) (m11 m) target B
        else if is0 (m00 m) && is0 (m11 m) then mcinvert controls (m01 m) (m10 m) target B
        else apply_controlled m controls target false B
    end.
  (** XMask with one X for each control, in ascending order (src/qinterface/gates.cpp:101-110), around the call: MACWrapper
      (qinterface.hpp:179-189).  MACPhase, MACInvert (qinterface.hpp:565-590); MACMtrx (tree:691-703). *)
  Definition xmask (qs : list N) (B : qbdt) : qbdt := fold_left (fun B q => xgate q B) (sort qs) B.
  Definition macphase (controls : list N) (tl rb : K) (target : N) (B : qbdt) : qbdt :=
    if sr_eqb 1 tl && sr_eqb 1 rb then B else xmask controls (mcphase controls tl rb target (xmask controls B)).
  Definition macinvert (controls : list N) (tr bl : K) (target : N) (B : qbdt) : qbdt :=
    xmask controls (mcinvert controls tr bl target (xmask controls B)).
  Definition macmtrx (controls : list N) (m : mat2 K) (target : N) (B : qbdt) : qbdt :=
    match controls with
    | [] => mtrx m target B
    | _ =>
        if is0 (m01 m) && is0 (m10 m) then macphase controls (m00 m) (m11 m) target B
        else if is0 (m00 m) && is0 (m11 m) then macinvert controls (m01 m) (m10 m) target B
        else apply_controlled m controls target true B
    end.

  (** ForceM (tree:400-489). *)
  Definition force_leaf (result : bool) (t : bdt) : bdt :=
    match t with
    | BNull => BNull
    | BNode s l r =>
        if is_null l || is_null r then zero_node
        else if result then
          if is0 (scl r) then BNode s l zero_node else BNode s zero_node (set_scl (ar_div A (scl r) (aabs (scl r))) r)
        else
          if is0 (scl l) then BNode s zero_node r else BNode s (set_scl (ar_div A (scl l) (aabs (scl l))) l) zero_node
    end.
  Fixpoint at_path (k : nat) (q i : N) (f : bdt -> bdt) (t : bdt) : bdt :=
    match k, t with
    | O, _ => f t
    | S k, BNull => BNull
    | S k, BNode s l r => if N.testbit i q then BNode s l (at_path k (q + 1) i f r) else BNode s (at_path k (q + 1) i f l) r
    end.
  Definition force_m (q : N) (result doForce doApply : bool) (B : qbdt) : bool * qbdt :=
    let p := prob B q in
    let '(result, B) :=
      if sr_eqb p 1 then (true, B) else if sr_eqb p 0 then (false, B)
      else if doForce then (result, B) else (bt_rnd B (bt_draw B) p, next_draw B) in
    if negb doApply then (result, B)
    else
      let '(ph, B) := nonunitary_phase B in
      let t := branch (N.to_nat q + 1) (set_scl ph (bt_root B)) in
      let t := par_loop (N.to_nat (2 ^ q)) (2 ^ q) 0 (fun i t => (0%N, at_path (N.to_nat q) 0 i (force_leaf result) t)) t in
      (result, set_root (prune (N.to_nat q + 1) t) B).
  (** MAllOptionalCollapse (tree:491-532): the result, the tree below the current node, and the number of random numbers used. *)
  Fixpoint m_all (collapsing : bool) (n : nat) (q : N) (rnd : N -> K -> bool) (draw : N) (t : bdt) : N * N * bdt :=
    match n with
    | O => (0%N, draw, t)
    | S n =>
        let p := anorm (scl (br t true)) in
        let '(b, draw) := if sr_eqb p 1 then (true, draw) else if sr_eqb p 0 then (false, draw) else (rnd draw p, (draw + 1)%N) in
        let t := if collapsing then branch 1 t else t in
        let c := br t b in
        let c := if collapsing then set_scl 1 c else c in
        let '(res, draw, c) := m_all collapsing n (q + 1) rnd draw c in
        let res := if b then N.lor (2 ^ q) res else res in
        (res, draw, if collapsing then (if b then BNode (scl t) zero_node c else BNode (scl t) c zero_node) else t)
    end.
  Definition m_all_optional_collapse (collapsing : bool) (B : qbdt) : N * qbdt :=
    let '(res, draw, t) := m_all collapsing (N.to_nat (bt_n B)) 0 (bt_rnd B) (bt_draw B) (bt_root B) in
    (res, mkQB (bt_n B) t (bt_rgp B) (bt_ph B) (bt_rnd B) draw).
  Definition mall := m_all_optional_collapse true.
  (** SampleClone (hpp:131-141). *)
  Definition sample_clone (qs : list N) (B : qbdt) : N * qbdt :=
    let '(raw, B) := m_all_optional_collapse false B in
    (fold_left (fun a jq => if N.testbit raw (snd jq) then N.lor a (2 ^ fst jq) else a) (combine (upto (length qs)) qs) 0%N, B).

  (** InsertAtDepth (node:440-608).  The call with size 0 at depth 0 returns without doing anything (452-454); [insert0] is the
      call with size 0. *)
  Fixpoint insert0 (b : bdt) (depth : nat) (t : bdt) : bdt :=
    match t with
    | BNull => BNull
    | BNode s l r =>
        if is0 s then zero_node
        else match depth with
             | O => t
             | S d => if is_null l then t else BNode s (insert0 b d l) (insert0 b d r)
             end
    end.
  Fixpoint insert_at (b : bdt) (depth size : nat) (t : bdt) : bdt :=
    match t with
    | BNull => BNull
    | BNode s l r =>
        if is0 s then zero_node
        else match depth, size with
             | O, O => t
             | O, _ => insert0 t size (BNode (scl b) (br b false) (br b true))
             | S d, _ =>
                 if is_null l then t
                 else match d, size with
                      | O, S _ =>
                          let below c := insert0 b size (BNode (scl c) (br b false) (br b true)) in
                          if is0 (scl l) then BNode s l (below r)
                          else if is0 (scl r) then BNode s (below l) r
                          else BNode s (below l) (below r)
                      | _, _ => BNode s (insert_at b d size l) (insert_at b d size r)
                      end
             end
    end.
  (** Compose (tree:212-235). *)
  Definition compose (C : qbdt) (start : N) (B : qbdt) : qbdt :=
    if (bt_n C =? 0)%N then B
    else set_count (bt_n B + bt_n C) (set_root (insert_at (bt_root C) (N.to_nat start) (N.to_nat (bt_n C)) (bt_root B)) B).

  (** RemoveSeparableAtDepth (iface:111-176): the node returned and the node itself afterwards. *)
  Fixpoint cut (depth : nat) (t : bdt) : bdt * bdt :=
    if is0 (scl t) then (BNull, zero_node)
    else
      let t := branch 1 t in
      match depth with
      | S d =>
          let '(r0, l') := cut d (br t false) in
          let '(r1, r') := cut d (br t true) in
          (if is_null r0 then r1 else if is_null r1 then r0 else if ar_ltb A (anorm (scl l')) (anorm (scl r')) then r1 else r0, BNode (scl t) l' r')
      | O => (set_scl (ar_div A (scl t) (aabs (scl t))) t, BNode (scl t) BNull BNull)
      end.
  Fixpoint remove_at (depth size : nat) (t : bdt) : bdt * bdt :=
    if is0 (scl t) then (BNull, zero_node)
    else
      let t := branch 1 t in
      match depth with
      | S d =>
          let '(r0, l') := remove_at d size (br t false) in
          let '(r1, r') := remove_at d size (br t true) in
          (if is_null r0 then r1 else if is_null r1 then r0 else if ar_ltb A (anorm (scl l')) (anorm (scl r')) then r1 else r0, BNode (scl t) l' r')
      | O =>
          let ret := set_scl (ar_div A (scl t) (aabs (scl t))) t in
          let '(temp, ret) := cut size ret in
          (ret, BNode (scl t) (br temp false) (br temp true))
      end.
  (** DecomposeDispose (tree:247-273): the tree of the part taken out, and the simulator. *)
  Definition decompose (start len : N) (B : qbdt) : bdt * qbdt :=
    if (len =? 0)%N then (BNull, B)
    else let '(d, t) := remove_at (N.to_nat start) (N.to_nat len) (bt_root B) in
         (d, set_count (bt_n B - len) (set_root (prune (N.to_nat (bt_n B - len)) t) B)).

  (** IsSeparable (tree:275-329): all non-zero nodes at depth [start], in the order of the loop. *)
  Fixpoint leaves_at (k : nat) (t : bdt) : list bdt :=
    match k, t with
    | _, BNull => []
    | O, BNode _ l r => if is_null l || is_null r then [] else [t]
    | S k, BNode _ l r => leaves_at k l ++ leaves_at k r
    end.
  Definition is_separable (start : N) (B : qbdt) : bool :=
    match leaves_at (N.to_nat start) (bt_root B) with
    | [] => true
    | t :: ts => forallb (fun u => bdt_eqb t u) ts
    end.
End Bdt.
