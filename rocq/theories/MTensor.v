(** QTensorNetwork: gates are kept in circuit objects, measurements in layers between them, and everything is run on another
    simulator (the "layer stack") when amplitudes are needed.  /repo/include/qtensornetwork.hpp ("hpp"),
    /repo/src/qtensornetwork.cpp ("cpp").
    Simplified: the layer stack is an exact simulator whose calls do what they should, with the tests for probability 0 and 1 and
    the forced measurement of QEngine (/repo/src/qengine/qengine.cpp) or, for other simulators, of QInterface; its MAll returns
    any basis state ([tc_pick]).  Arithmetic is exact.  Circuit objects are those of MQCircuit.v.  Calls that throw because of
    their arguments are not modelled, except the range checks of the layer stack. *)
From Coq Require Import NArith List Bool.
From Verif Require Import MFunctions MParFor MKernel Amp MEngine MAlu SpecState MQCircuit MBdt.
Import ListNotations.
Local Open Scope N_scope.

(** A result, an exception, or undefined behaviour (a null pointer is read, a division by 0). *)
Inductive out (T : Type) := Ret (x : T) | Throws | Undef.
Arguments Ret {_} _.
Arguments Throws {_}.
Arguments Undef {_}.
Definition bind {S T} (o : out S) (f : S -> out T) : out T := match o with Ret x => f x | Throws => Throws | Undef => Undef end.
Notation "'do' x <- o ; f" := (bind o (fun x => f)) (at level 60, x pattern, right associativity).

Definition set_nth {T} (i : nat) (x : T) (l : list T) : list T := firstn i l ++ match skipn i l with [] => [] | _ :: t => x :: t end.
Definition del_nth {T} (i : nat) (l : list T) : list T := firstn i l ++ skipn (S i) l.

Section Tensor.
  Context {K : StarRing} (A : Arith K) (ci : K).
  Local Notation vec := (N -> K).
  Local Notation qcirc := (@qcirc K).
  Local Notation qgate := (@qgate K).
  Local Open Scope amp_scope.

  (** Constants: GetThresholdQb (cpp:112-155); whether the layer stack is a QEngine; isNearClifford; randGlobalPhase; the random
      phases, comparisons and outcomes of MAll, by the number of random numbers used before. *)
  Record tcfg := mkTC { tc_thr : N; tc_engine : bool; tc_near : bool; tc_rgp : bool; tc_ph : N -> K; tc_rnd : N -> K -> bool; tc_pick : N -> N -> vec -> N }.
  Variable c : tcfg.

  (** ** The layer stack *)
  Record lstack := mkLS { ls_n : N; ls_v : vec }.
  (** GetNonunitaryPhase (/repo/include/qinterface.hpp:169-177). *)
  Definition ls_phase (d : N) : K * N := if tc_rgp c then (tc_ph c d, (d + 1)%N) else (1, d).
  (** Allocate at the end (/repo/src/qengine/utility.cpp:52-66). *)
  Definition ls_alloc (k : N) (L : lstack) : lstack := mkLS (ls_n L + k) (fun x => if (x <? 2 ^ ls_n L)%N then ls_v L x else 0).
  (** QCircuit::Run, one gate (/repo/src/qcircuit.cpp:217-244). *)
  Definition ls_gate (g : qgate) (v : vec) : out vec :=
    match qg_ctl g, qg_pl g with
    | [], pl => match mfind 0 pl with None => Undef | Some m => Ret (gate1 always (qg_t g) m v) end
    | c0 :: _, [] => Ret (fun x => v (swap_bits c0 (qg_t g) x))
    | cs, _ => Ret (fun x => gate1 always (qg_t g) (payload_at g (ctrl_value 0 cs x)) v x)
    end.
  Fixpoint ls_gates (gs : list qgate) (v : vec) : out vec :=
    match gs with [] => Ret v | g :: t => do v <- ls_gate g v; ls_gates t v end.
  (** QCircuit::Run (/repo/src/qcircuit.cpp:173-245). *)
  Definition ls_run (qc : qcirc) (L : lstack) : out lstack :=
    let L := if (ls_n L <? qc_count qc)%N then ls_alloc (qc_count qc - ls_n L) L else L in
    do v <- ls_gates (fuse_swaps (qc_gates qc)) (ls_v L); Ret (mkLS (ls_n L) v).
  (** Prob, GetAmplitude. *)
  Definition ls_prob (q : N) (L : lstack) : out K := if (q <? ls_n L)%N then Ret (weight_of (ls_n L) (fun x => N.testbit x q) (ls_v L)) else Throws.
  Definition ls_amp (x : N) (L : lstack) : out K := if (x <? 2 ^ ls_n L)%N then Ret (ls_v L x) else Throws.
  (** QEngine::ForceM (/repo/src/qengine/qengine.cpp:78-106). *)
  Definition ls_force (q : N) (result doForce doApply : bool) (L : lstack) (d : N) : out (bool * lstack * N) :=
    do p <- ls_prob q L;
    let '(r, d) := if doForce then (result, d) else if sr_eqb p 1 then (true, d) else if sr_eqb p 0 then (false, d) else (tc_rnd c d p, (d + 1)%N) in
    let nz := if r then p else 1 - p in
    if sr_eqb nz 0 then Throws
    else if doApply && negb (sr_eqb nz 1) then
      let '(ph, d) := ls_phase d in
      Ret (r, mkLS (ls_n L) (fun x => if eqb (N.testbit x q) r then ar_div A ph (ar_sqrt A nz) * ls_v L x else 0), d)
    else Ret (r, L, d).
  (** ForceM of several bits with given values: QEngine (/repo/src/qengine/qengine.cpp:109-155; a single bit is not forced;
      probability 0 leads to a division by 0), or QInterface (/repo/src/qinterface/qinterface.cpp). *)
  Definition reads (m : list (N * bool)) (x : N) : bool := forallb (fun e => eqb (N.testbit x (fst e)) (snd e)) m.
  Fixpoint ls_force_each (m : list (N * bool)) (L : lstack) (d : N) : out (lstack * N) :=
    match m with
    | [] => Ret (L, d)
    | (q, r) :: t => do (_, L, d) <- ls_force q r true true L d; ls_force_each t L d
    end.
  Definition ls_force_list (m : list (N * bool)) (L : lstack) (d : N) : out (lstack * N) :=
    if tc_engine c then
      match m with
      | [(q, r)] => do (_, L, d) <- ls_force q r false true L d; Ret (L, d)
      | _ =>
          if negb (forallb (fun e => fst e <? ls_n L)%N m) then Throws
          else
            let '(ph, d) := ls_phase d in
            let p := weight_of (ls_n L) (reads m) (ls_v L) in
            if sr_eqb p 0 then Undef
            else if sr_eqb p 1 then Ret (L, d)
            else Ret (mkLS (ls_n L) (fun x => if reads m x then ar_div A ph (ar_sqrt A p) * ls_v L x else 0), d)
      end
    else ls_force_each m L d.

  (** ** The network (hpp:29-49) *)
  Record tn := mkTN { tn_n : N; tn_circ : list qcirc; tn_meas : list (list (N * bool)); tn_ls : option lstack; tn_gp : K; tn_draw : N }.
  Definition set_ls (L : option lstack) (T : tn) : tn := mkTN (tn_n T) (tn_circ T) (tn_meas T) L (tn_gp T) (tn_draw T).
  Definition set_draw (d : N) (T : tn) : tn := mkTN (tn_n T) (tn_circ T) (tn_meas T) (tn_ls T) (tn_gp T) d.
  Definition set_layers (cs : list qcirc) (ms : list (list (N * bool))) (T : tn) : tn := mkTN (tn_n T) cs ms (tn_ls T) (tn_gp T) (tn_draw T).

  (** GetCircuit (hpp:51-77): the layer behind the last measurement of one of the qubits. *)
  Definition measured (m : list (N * bool)) (q : N) : bool := existsb (fun e => (fst e =? q)%N) m.
  Fixpoint layer_of (ms : list (list (N * bool))) (qs : list N) (i acc : nat) : nat :=
    match ms with
    | [] => acc
    | m :: t => layer_of t qs (S i) (if existsb (measured m) qs then S i else acc)
    end.
  (** AppendGate on that layer; the layer stack is dropped (hpp:442-462). *)
  Definition tn_append (g : qgate) (T : tn) : tn :=
    let l := layer_of (tn_meas T) (qg_t g :: qg_ctl g) 0 0 in
    let cs := if Nat.eqb (length (tn_circ T)) l then tn_circ T ++ [qc_new true false] else tn_circ T in
    set_ls None (set_layers (set_nth l (AppendGate ci (nth l cs (qc_new true false)) g) cs) (tn_meas T) T).
  (** Mtrx, MCMtrx, MACMtrx (hpp:442-465; MCPhase, MCInvert, MACPhase, MACInvert do the same, 466-524). *)
  Definition set_of (l : list N) : list N := fold_left (fun s q => sins q s) l [].
  Definition tn_mtrx (m : mat2 K) (t : N) : tn -> tn := tn_append (gate_1 t m).
  Definition tn_mcmtrx (cs : list N) (m : mat2 K) (t : N) : tn -> tn := tn_append (gate_c t m (set_of cs) (sub128 (pow2_128 (N.of_nat (length cs))) 1)).
  Definition tn_macmtrx (cs : list N) (m : mat2 K) (t : N) : tn -> tn := tn_append (gate_c t m (set_of cs) 0).
  (** X, CNOT, Swap of QInterface (/repo/include/qinterface.hpp:709-713, /repo/src/qinterface/gates.cpp:166-175). *)
  Definition tn_x (q : N) : tn -> tn := tn_mtrx mat_X q.
  Definition tn_cnot (a b : N) : tn -> tn := tn_mcmtrx [a] mat_X b.
  Definition tn_swap (a b : N) (T : tn) : tn := if (a =? b)%N then T else tn_cnot a b (tn_cnot b a (tn_cnot a b T)).

  (** SetPermutation (hpp:216-238) and the constructor (cpp:35-110).  [phaseFac] is None for CMPLX_DEFAULT_ARG.  globalPhase is
      set and never read. *)
  Definition tn_set_permutation (perm : N) (phaseFac : option K) (T : tn) : tn :=
    let T := set_ls None (set_layers [qc_new true false] [] T) in
    let T := fold_left (fun T q => if N.testbit perm q then tn_x q T else T) (iota 0 (N.to_nat (tn_n T))) T in
    match phaseFac with
    | Some p => mkTN (tn_n T) (tn_circ T) (tn_meas T) (tn_ls T) p (tn_draw T)
    | None => let '(p, d) := ls_phase (tn_draw T) in mkTN (tn_n T) (tn_circ T) (tn_meas T) (tn_ls T) p d
    end.
  Definition new_tn (n perm : N) (phaseFac : option K) : tn := tn_set_permutation perm phaseFac (mkTN n [] [] None 1 0).

  (** MakeLayerStack (cpp:157-204).  [cone] goes from the last layer to the first and returns the circuits in running order;
      [rl] holds (circuit, measurement layer or none) from last to first. *)
  Definition x_circuit (q0 : qcirc) (m : list (N * bool)) : qcirc :=
    fold_left (fun (qc : qcirc) (e : N * bool) => if snd e then AppendGate ci qc (gate_1 (fst e) mat_X) else qc) m q0.
  Fixpoint cone (rl : list (qcirc * list (N * bool))) (qs : list N) (acc : list (qcirc * list (N * bool))) : list (qcirc * list (N * bool)) :=
    match rl with
    | [] => acc
    | (qc, m) :: t =>
        let qs := filter (fun q => negb (measured m q)) qs in
        match qs with
        | [] => (x_circuit (qc_new true (tc_near c)) m, m) :: acc
        | _ => let r := PastLightCone qc qs in cone t (snd r) ((fst r, m) :: acc)
        end
    end.
  Fixpoint layers (cs : list qcirc) (ms : list (list (N * bool))) : list (qcirc * list (N * bool)) :=
    match cs with
    | [] => []
    | qc :: t => (qc, hd [] ms) :: layers t (tl ms)
    end.
  Fixpoint run_layers (l : list (qcirc * list (N * bool))) (L : lstack) (d : N) : out (lstack * N) :=
    match l with
    | [] => Ret (L, d)
    | (qc, m) :: t =>
        do L <- ls_run qc L;
        do (L, d) <- (match m with [] => Ret (L, d) | _ => ls_force_list m L d end);
        run_layers t L d
    end.
  Definition make_stack (qs : list N) (T : tn) : out (lstack * tn) :=
    match tn_ls T with
    | Some L => Ret (L, T)
    | None =>
        let l := layers (tn_circ T) (tn_meas T) in
        do (L, d) <- run_layers (match qs with [] => l | _ => cone (rev l) qs [] end) (mkLS (tn_n T) (fun x => if (x =? 0)%N then 1 else 0)) (tn_draw T);
        Ret (L, set_ls (Some L) (set_draw d T))
    end.
  (** RunAsAmplitudes (hpp:114-132): with a list of qubits and more qubits than the threshold, only what these qubits depend on is
      run, and the layer stack is not kept. *)
  Definition amplitudes (qs : list N) (T : tn) : out (lstack * tn) :=
    if is_nil qs || (tn_n T <=? tc_thr c)%N then make_stack [] T
    else do (L, T) <- make_stack qs T; Ret (L, set_ls None T).
  (** GetAmplitude (hpp:259-264), Prob (hpp:317-322). *)
  Definition tn_amp (x : N) (T : tn) : out (K * tn) := do (L, T) <- amplitudes [] T; do a <- ls_amp x L; Ret (a, T).
  Definition tn_prob (q : N) (T : tn) : out (K * tn) := do (L, T) <- amplitudes [q] T; do a <- ls_prob q L; Ret (a, T).

  (** ForceM (cpp:227-332).  The first loop (239-268); [l] is layerId. *)
  Fixpoint move_back (q : N) (r : bool) (l : nat) (cs : list qcirc) (ms : list (list (N * bool))) : nat * list qcirc * list (list (N * bool)) :=
    match l with
    | O => (O, cs, ms)
    | S l1 =>
        let qc := nth l cs (qc_new true false) in
        if IsNonPhaseTarget qc q then (l, cs, ms)
        else
          let qc := DeletePhaseTarget qc q r in
          let cs := set_nth l qc cs in
          if Nat.leb (length ms) l then move_back q r l1 cs ms
          else
            match mdel q (nth l ms []) with
            | [] =>
                let ms := del_nth l ms in
                if Nat.ltb (S l) (length cs) then move_back q r l1 (del_nth (S l) (set_nth l (qc_Combine ci qc (nth (S l) cs (qc_new true false))) cs)) ms
                else move_back q r l1 cs ms
            | m => move_back q r l1 cs (set_nth l m ms)
            end
    end.
  (** The second loop (279-328). *)
  Fixpoint collapse_layers (n : N) (l : nat) (cs : list qcirc) (ms : list (list (N * bool))) : list qcirc * list (list (N * bool)) :=
    let m := nth l ms [] in
    let qc := nth l cs (qc_new true false) in
    if existsb (fun q => negb (measured m q) && IsNonPhaseTarget qc q) (iota 0 (N.to_nat n)) then (cs, ms)
    else match l with
    | O => (set_nth 0 (x_circuit (qc_new true false) m) cs, ms)
    | S l1 =>
        let m1 := nth l1 ms [] in
        let cs := del_nth l cs in
        let qc1 := fold_left (fun (qc : qcirc) (e : N * bool) => match mfind (fst e) m1 with
                     | Some b => if eqb (snd e) b then qc else AppendGate ci qc (gate_1 (fst e) mat_X)
                     | None => qc end) m (nth l1 cs (qc_new true false)) in
        let m := fold_left (fun (m : list (N * bool)) (e : N * bool) => mins (fst e) (snd e) m) m1 m in
        collapse_layers n l1 (set_nth l1 qc1 cs) (del_nth l1 (set_nth l m ms))
    end.
  Definition tn_force_m (q : N) (result doForce doApply : bool) (T : tn) : out (bool * tn) :=
    if (tn_n T <=? q)%N then Throws
    else
      do (L, T1) <- amplitudes [q] T;
      do (r, L, d) <- ls_force q result doForce doApply L (tn_draw T1);
      let T2 := set_draw d (set_ls (match tn_ls T1 with Some _ => Some L | None => None end) T1) in
      if negb doApply then Ret (r, T2)
      else
        let '(l, cs, ms) := move_back q r (length (tn_circ T2) - 1) (tn_circ T2) (tn_meas T2) in
        let ms := if Nat.leb (length ms) l then ms ++ [[]] else ms in
        let ms := set_nth l (mset q r (nth l ms [])) ms in
        let '(cs, ms) := collapse_layers (tn_n T2) l cs ms in
        Ret (r, set_layers cs ms T2).
  (** M (/repo/include/qinterface.hpp). *)
  Definition tn_m (q : N) (T : tn) : out (bool * tn) := tn_force_m q false false true T.

  (** MAll (hpp:332-351). *)
  Fixpoint m_each (qs : list N) (acc : N) (T : tn) : out (N * tn) :=
    match qs with
    | [] => Ret (acc, T)
    | q :: t => do (r, T) <- tn_m q T; m_each t (if r then N.lor acc (pow2_128 q) else acc) T
    end.
  Definition tn_mall (T : tn) : out (N * tn) :=
    do (x, T) <- (if (tn_n T <=? tc_thr c)%N
                   then do (L, T) <- make_stack [] T; Ret (tc_pick c (tn_draw T) (ls_n L) (ls_v L), set_draw (tn_draw T + 1) T)
                   else m_each (iota 0 (N.to_nat (tn_n T))) 0 T);
    Ret (x, tn_set_permutation x None T).

  (** Allocate (hpp:292-315), for [start <= tn_n T]; bitLenInt wraps at 256. *)
  Definition tn_allocate (start len : N) (T : tn) : tn :=
    if (len =? 0)%N then T
    else
      let moved := (tn_n T - start)%N in
      let T := mkTN (w8 (tn_n T + len)) (tn_circ T) (tn_meas T) (tn_ls T) (tn_gp T) (tn_draw T) in
      fold_left (fun T i => let q := (start + moved - (i + 1))%N in tn_swap q (w8 (q + len)) T) (iota 0 (N.to_nat moved)) T.

  (** Programs of calls. *)
  Inductive tcall :=
  | TGate (m : mat2 K) (t : N) | TMC (cs : list N) (m : mat2 K) (t : N) | TMAC (cs : list N) (m : mat2 K) (t : N) | TSwap (a b : N)
  | TMeas (q : N) (result doForce doApply : bool) | TProb (q : N) | TAmp (x : N).
  (** The state and the result of a measurement. *)
  Definition tstep (a : tcall) (T : tn) : out (list bool * tn) :=
    match a with
    | TGate m t => Ret ([], tn_mtrx m t T)
    | TMC cs m t => Ret ([], tn_mcmtrx cs m t T)
    | TMAC cs m t => Ret ([], tn_macmtrx cs m t T)
    | TSwap a b => Ret ([], tn_swap a b T)
    | TMeas q r f ap => do (b, T) <- tn_force_m q r f ap T; Ret ([b], T)
    | TProb q => do (_, T) <- tn_prob q T; Ret ([], T)
    | TAmp x => do (_, T) <- tn_amp x T; Ret ([], T)
    end.
  Fixpoint tsteps (l : list tcall) (T : tn) : out (list bool * tn) :=
    match l with
    | [] => Ret ([], T)
    | a :: t => do (b, T) <- tstep a T; do (bs, T) <- tsteps t T; Ret (b ++ bs, T)
    end.
End Tensor.
