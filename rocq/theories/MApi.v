(** The C interface: simulators, qubits and circuits are named by numbers ("IDs").  /repo/src/pinvoke_api.cpp ("api").
    Simplified: a simulator is exact and its calls do what they should; each throws when a qubit is not below the qubit count, or when
    controls and target are not different from each other.  A simulator and its map of qubit IDs ([shards], keyed by the simulator's
    address) are kept together in the slot of the simulator ID.  Mutexes and the printed messages are left out (one thread).  When a
    call of a simulator throws after other calls have changed it, the slot keeps its old state.  [phi] is represented by
    cos phi, sin phi and exp(-i phi/2). *)
From Coq Require Import NArith List Bool.
From Verif Require Import MFunctions MParFor MKernel Amp MEngine MAlu SpecState MQCircuit MTensor.
Import ListNotations.
Local Open Scope N_scope.

(** A set of distinct qubits below [n] (ThrowIfQbIdArrayIsBad, /repo/include/common/qrack_functions.hpp). *)
Fixpoint distinct (l : list N) : bool := match l with [] => true | a :: t => negb (smem a t) && distinct t end.
Definition valid_qubits (n : N) (l : list N) : bool := forallb (fun q => q <? n) l && distinct l.

Section Api.
  Context {K : StarRing} (ci ch : K).
  Local Notation vec := (N -> K).
  Local Open Scope amp_scope.

  (** The largest number of qubits; QBCAPPOW; what Decompose(start, length) makes of a state ([n], [start], [length]): the remaining
      state and the separated one; random comparisons and results of MAll; the test for less than 1/100;
      1 / sqrt of a probability.  [ci] is i, [ch] is 1 / sqrt 2. *)
  Record acfg := mkAC { ac_max : N; ac_cap : N; ac_split : N -> N -> N -> vec -> vec * vec; ac_rnd : N -> K -> bool; ac_pick : N -> N -> vec -> N; ac_small : K -> bool; ac_nrm : K -> K }.
  Variable c : acfg.

  (** ** Simulators *)
  Record sim := mkSim { s_n : N; s_v : vec }.
  Definition new_sim (n : N) : sim := mkSim n (ket 0).
  (** Mtrx, MCMtrx, MACMtrx and the gates built on them. *)
  Definition sim_gate (want : bool) (cs : list N) (m : mat2 K) (t : N) (s : sim) : out sim :=
    if valid_qubits (s_n s) (t :: cs) then Ret (mkSim (s_n s) (gate1 (if want then all_set cs else all_clear cs) t m (s_v s))) else Throws.
  Definition sim_swap (a b : N) (s : sim) : out sim :=
    if (a <? s_n s)%N && (b <? s_n s)%N then Ret (mkSim (s_n s) (fun x => s_v s (swap_bits a b x))) else Throws.
  Definition sim_prob (q : N) (s : sim) : out K :=
    if (q <? s_n s)%N then Ret (weight_of (s_n s) (fun x => N.testbit x q) (s_v s)) else Throws.
  (** M; [d] counts the random numbers. *)
  Definition sim_m (q d : N) (s : sim) : out (bool * sim * N) :=
    do p <- sim_prob q s;
    let '(r, d) := if sr_eqb p 1 then (true, d) else if sr_eqb p 0 then (false, d) else (ac_rnd c d p, (d + 1)%N) in
    let nz := if r then p else 1 - p in
    Ret (r, mkSim (s_n s) (fun x => if eqb (N.testbit x q) r then ac_nrm c nz * s_v s x else 0), d).
  (** Compose at the end, Decompose and Dispose. *)
  Definition sim_compose (s t : sim) : out sim :=
    if (ac_max c <? s_n s + s_n t)%N then Throws else Ret (mkSim (s_n s + s_n t) (tensor (s_n s) (s_v s) (s_v t))).
  Definition sim_decompose (start len : N) (s : sim) : out (sim * sim) :=
    if isBadBitRange start len (s_n s) then Throws
    else let r := ac_split c (s_n s) start len (s_v s) in Ret (mkSim (s_n s - len) (fst r), mkSim len (snd r)).
  Definition sim_dispose (start len : N) (s : sim) : out sim := do (r, _) <- sim_decompose start len s; Ret r.
  (** The register of [len] qubits at [start] of basis state [x] replaced by [k]. *)
  Definition set_reg (start len k x : N) : N := x mod 2 ^ start + k * 2 ^ start + x / 2 ^ (start + len) * 2 ^ (start + len).
  (** INC, Hash (for one-to-one tables), MUL and IndexedLDA (for a clear second register). *)
  Definition sim_inc (a start len : N) (s : sim) : out sim :=
    if isBadBitRange start len (s_n s) then Throws
    else Ret (mkSim (s_n s) (fun x => s_v s (set_reg start len ((get_reg x start len + (2 ^ len - a mod 2 ^ len)) mod 2 ^ len)%N x))).
  Definition sim_hash (start len : N) (t : N -> N) (s : sim) : out sim :=
    if isBadBitRange start len (s_n s) then Throws
    else Ret (mkSim (s_n s) (fun x => match find (fun k => (t k =? get_reg x start len)%N) (basis len) with Some k => s_v s (set_reg start len k x) | None => 0 end)).
  Definition sim_lda (is il vs vl : N) (t : N -> N) (s : sim) : out sim :=
    if isBadBitRange is il (s_n s) || isBadBitRange vs vl (s_n s) then Throws
    else Ret (mkSim (s_n s) (fun x => if (get_reg x vs vl =? t (get_reg x is il))%N then s_v s (set_reg vs vl 0 x) else 0)).
  Definition sim_mul (a is os len : N) (s : sim) : out sim :=
    if isBadBitRange is len (s_n s) || isBadBitRange os len (s_n s) then Throws
    else Ret (mkSim (s_n s) (fun x =>
           match find (fun k => (k * a =? get_reg x is len + 2 ^ len * get_reg x os len)%N) (basis len) with
           | Some k => s_v s (set_reg os len 0 (set_reg is len k x)) | None => 0 end)).
  (** UniformParityRZ, CUniformParityRZ (/repo/src/qengine/state.cpp:886-922): the phase [ph] for odd parity, [phA] for even. *)
  Definition sim_parity (cs : list N) (mask : N) (ph phA : K) (s : sim) : out sim :=
    if (2 ^ s_n s <=? mask)%N || negb (valid_qubits (s_n s) cs) then Throws
    else Ret (mkSim (s_n s) (fun x => if all_set cs x then (if odd_bits 64 (N.land x mask) then ph else phA) * s_v s x else s_v s x)).
  Definition sim_prob_parity (mask : N) (s : sim) : out K :=
    if (2 ^ s_n s <=? mask)%N then Throws else Ret (weight_of (s_n s) (fun x => odd_bits 64 (N.land x mask)) (s_v s)).

  (** ** IDs *)
  Record slot := mkSlot { sl_res : bool; sl_sim : option (sim * list (N * N)); sl_err : N }.
  Record api := mkApi { a_slots : list slot; a_meta : N; a_draw : N }.
  Definition put (sid : N) (s : slot) (a : api) : api := mkApi (set_nth (N.to_nat sid) s (a_slots a)) (a_meta a) (a_draw a).
  Definition meta_error (a : api) : api := mkApi (a_slots a) 2 (a_draw a).
  Definition set_err (s : slot) : slot := mkSlot (sl_res s) (sl_sim s) 1.
  Definition count (a : api) : N := N.of_nat (length (a_slots a)).
  (** simulators[sid] with the test of SIMULATOR_LOCK_GUARD (api:53-76): the ID that equals the size of the vector passes it. *)
  Definition lookup {T} (sid : N) (a : api) (bad : out T) (f : slot -> out T) : out T :=
    if (count a <? sid)%N then bad
    else match nth_error (a_slots a) (N.to_nat sid) with Some s => f s | None => Undef end.

  (** GetSimShardId (api:277-308): the ID is cut to bitLenInt; 255 when it is not found. *)
  Definition shard_id (m : list (N * N)) (i : N) : N := match mfind (w8 i) m with Some q => q | None => 255 end.
  (** FillSimShards (api:310-317). *)
  Definition fill (n : N) : list (N * N) := map (fun i => (i, i)) (iota 0 (N.to_nat n)).

  (** The first ID that is not reserved (api:635-641 and the others). *)
  Fixpoint free_slot (l : list slot) (i : N) : N := match l with [] => i | s :: t => if sl_res s then free_slot t (i + 1) else i end.
  Definition install (s : option (sim * list (N * N))) (a : api) : N * api :=
    let sid := free_slot (a_slots a) 0 in
    let sl := mkSlot true s 0 in
    (sid, if (sid =? count a)%N then mkApi (a_slots a ++ [sl]) (a_meta a) (a_draw a) else put sid sl a).
  (** init_count_type, init_count, init_count_pager (api:628-845). *)
  Definition init_count (q : N) (a : api) : N * api := install (if (q =? 0)%N then None else Some (new_sim q, fill q)) a.
  (** init_clone (api:850-901), init_clone_size (api:903-955). *)
  Definition init_clone (sid : N) (a : api) : out (N * api) :=
    lookup sid a (Ret (0%N, meta_error a)) (fun s =>
      match sl_sim s with None => Undef | Some (Q, _) => Ret (install (Some (Q, fill (s_n Q))) a) end).
  Definition init_clone_size (sid n : N) (a : api) : out (N * api) :=
    lookup sid a (Ret (0%N, meta_error a)) (fun s => Ret (install (Some (new_sim n, fill n)) a)).
  (** destroy (api:960-968). *)
  Definition destroy (sid : N) (a : api) : out api :=
    match nth_error (a_slots a) (N.to_nat sid) with None => Undef | Some _ => Ret (put sid (mkSlot false None 0) a) end.

  (** A call on one simulator: the slot is looked up (SIMULATOR_LOCK_GUARD, api:34-82), nothing happens without a simulator, and an
      exception sets the error of the simulator. *)
  Definition on_sim (sid : N) (f : sim -> list (N * N) -> out (sim * list (N * N))) (a : api) : out api :=
    lookup sid a (Ret (meta_error a)) (fun s =>
      match sl_sim s with
      | None => Ret a
      | Some (Q, m) => match f Q m with Ret r => Ret (put sid (mkSlot (sl_res s) (Some r) (sl_err s)) a) | Throws => Ret (put sid (set_err s) a) | Undef => Undef end
      end).
  Definition keep (m : list (N * N)) (o : out sim) : out (sim * list (N * N)) := do s <- o; Ret (s, m).
  (** X to AdjT, U, Mtrx (api:1379-1579), MCX to MACMtrx (api:1584-1875). *)
  Definition api_gate (sid : N) (want : bool) (cs : list N) (m : mat2 K) (q : N) : api -> out api :=
    on_sim sid (fun s mp => keep mp (sim_gate want (map (shard_id mp) cs) m (shard_id mp q) s)).
  (** SWAP (api:2158-2167). *)
  Definition api_swap (sid q1 q2 : N) : api -> out api := on_sim sid (fun s mp => keep mp (sim_swap (shard_id mp q1) (shard_id mp q2) s)).
  (** Prob (api:2462-2474, 2526).  None stands for the value returned after an error. *)
  Definition api_prob (sid q : N) (a : api) : out (option K * api) :=
    lookup sid a (Ret (None, meta_error a)) (fun s =>
      match sl_sim s with
      | None => Ret (None, a)
      | Some (Q, m) => match sim_prob (shard_id m q) Q with Ret p => Ret (Some p, a) | Throws => Ret (None, put sid (set_err s) a) | Undef => Undef end
      end).
  (** M (api:2070-2082). *)
  Definition api_m (sid q : N) (a : api) : out (option bool * api) :=
    lookup sid a (Ret (None, meta_error a)) (fun s =>
      match sl_sim s with
      | None => Ret (None, a)
      | Some (Q, m) => match sim_m (shard_id m q) (a_draw a) Q with
          | Ret (r, Q, d) => let a := put sid (mkSlot (sl_res s) (Some (Q, m)) (sl_err s)) a in Ret (Some r, mkApi (a_slots a) (a_meta a) d)
          | Throws => Ret (None, put sid (set_err s) a) | Undef => Undef end
      end).
  (** MAll (api:2105-2116); the result of the simulator's MAll is any of its basis states. *)
  Definition api_mall (sid : N) (a : api) : out (option N * api) :=
    lookup sid a (Ret (None, meta_error a)) (fun s =>
      match sl_sim s with
      | None => Ret (None, a)
      | Some (Q, m) => let x := ac_pick c (a_draw a) (s_n Q) (s_v Q) in
          let a := put sid (mkSlot (sl_res s) (Some (mkSim (s_n Q) (ket x), m)) (sl_err s)) a in Ret (Some (x mod 2 ^ 64)%N, mkApi (a_slots a) (a_meta a) (a_draw a + 1))
      end).

  (** allocateQubit (api:1285-1321). *)
  Definition allocate (sid qid : N) (a : api) : out api :=
    lookup sid a (Ret (meta_error a)) (fun s =>
      match sl_sim s with
      | None => Ret (put sid (mkSlot (sl_res s) (Some (new_sim 1, [(qid, 0%N)])) (sl_err s)) a)
      | Some (Q, m) => match sim_compose Q (new_sim 1) with
          | Ret S1 => Ret (put sid (mkSlot (sl_res s) (Some (S1, mset qid (w8 (w8 (s_n S1) - 1)) m)) (sl_err s)) a)
          | Throws => Ret (put sid (mkSlot (sl_res s) (Some (Q, mset qid 254%N m)) 1) a)
          | Undef => Undef end
      end).
  (** The loops of release (api:1351-1356), Decompose (api:2290-2299) and Dispose (api:2318-2327): positions above [o] go down. *)
  Definition close_gap (o : N) (m : list (N * N)) : list (N * N) := map (fun e => (fst e, if (o <? snd e)%N then (snd e - 1)%N else snd e)) m.
  Definition drop_id (q : N) (m : list (N * N)) : list (N * N) :=
    let o := match mfind q m with Some o => o | None => 0%N end in
    let m := match mfind q m with Some _ => m | None => mset q 0%N m end in
    mdel q (close_gap o m).
  (** release (api:1326-1360); exceptions are not caught.  The result says whether Prob was below 1/100. *)
  Definition release (sid q : N) (a : api) : out (bool * api) :=
    lookup sid a (Ret (false, meta_error a)) (fun s =>
      match sl_sim s with
      | None => Undef
      | Some (Q, m) =>
          do p <- sim_prob (shard_id m q) Q;
          let r := ac_small c p in
          if (s_n Q =? 1)%N then Ret (r, put sid (mkSlot (sl_res s) None (sl_err s)) a)
          else
            let o := match mfind q m with Some o => o | None => 0%N end in
            do S1 <- sim_dispose o 1 Q;
            Ret (r, put sid (mkSlot (sl_res s) (Some (S1, drop_id q m)) (sl_err s)) a)
      end).

  (** Compose (api:2224-2266), for simulators of the same layers. *)
  Fixpoint name_new (q : list N) (o i : N) (m : list (N * N)) : list (N * N) :=
    match q with [] => m | id :: t => name_new t o (i + 1) (mset id (w8 (o + i)) m) end.
  Definition api_compose (sid1 sid2 : N) (q : list N) (a : api) : out api :=
    match nth_error (a_slots a) (N.to_nat sid1), nth_error (a_slots a) (N.to_nat sid2) with
    | Some s1, Some s2 =>
        match sl_sim s1, sl_sim s2 with
        | Some (S1, m1), Some (S2, m2) =>
            if (sid1 =? sid2)%N then Undef
            else match sim_compose S1 S2 with
                 | Ret Q => Ret (put sid1 (mkSlot (sl_res s1) (Some (Q, name_new (firstn (N.to_nat (s_n S2)) q) (s_n S1) 0 m1)) (sl_err s1)) a)
                 | Throws => Ret (put sid2 (set_err s2) (put sid1 (mkSlot (sl_res s1) (Some (S1, name_new (firstn (N.to_nat (s_n S2)) q) (s_n S1) 0 m1)) 1) a))
                 | Undef => Undef
                 end
        | _, _ => Ret a
        end
    | _, _ => Undef
    end.

  (** The swaps of Decompose (api:2279-2281) and Dispose (api:2310-2312). *)
  Fixpoint swaps_to_end (q : list N) (m : list (N * N)) (i base : N) (s : sim) : out sim :=
    match q with [] => Ret s | id :: t => do s <- sim_swap (shard_id m id) (i + base) s; swaps_to_end t m (i + 1) base s end.
  Definition api_dispose (sid : N) (q : list N) : api -> out api :=
    on_sim sid (fun s m =>
      let len := N.of_nat (length q) in
      let base := w8 (s_n s + (256 - w8 len)) in
      do s <- swaps_to_end q m 0 base s;
      do s <- sim_dispose base len s;
      Ret (s, fold_left (fun m id => drop_id id m) q m)).
  (** Decompose (api:2268-2302): the new simulator gets the ID [nsid]. *)
  Definition api_decompose (sid : N) (q : list N) (a : api) : out (N * api) :=
    let len := N.of_nat (length q) in
    do (nsid, a) <- init_clone_size sid len a;
    lookup sid a (Ret (0%N, meta_error a)) (fun s =>
      match sl_sim s with
      | None => Ret (0%N, a)
      | Some (Q, m) =>
          let base := w8 (s_n Q + (256 - w8 len)) in
          match (do Q <- swaps_to_end q m 0 base Q; sim_decompose base len Q) with
          | Ret (S1, S2) => Ret (nsid, put sid (mkSlot (sl_res s) (Some (S1, fold_left (fun m id => drop_id id m) q m)) (sl_err s)) (put nsid (mkSlot true (Some (S2, fill len)) 0) a))
          | Throws => Ret (nsid, put sid (mkSlot (sl_res s) (Some (Q, fold_left (fun m id => drop_id id m) q m)) 1) (put nsid (mkSlot true (Some (new_sim len, fill len)) 1) a))
          | Undef => Undef
          end
      end).
  (** Separate (api:3327-3352). *)
  Fixpoint swaps_back (qs : list N) (last i : N) (s : sim) : out sim :=
    match qs with [] => Ret s | q :: t => do s <- sim_swap (w8 (last + (256 - i))) q s; swaps_back t last (i + 1) s end.
  Definition api_separate (sid : N) (q : list N) : api -> out api :=
    on_sim sid (fun s m =>
      let qs := map (shard_id m) q in
      let last := w8 (s_n s + 255) in
      do s <- swaps_back qs last 0 s;
      do (s, p) <- sim_decompose (w8 (last + (256 - N.of_nat (length q)))) (N.of_nat (length q)) s;
      do s <- sim_compose s p;
      do s <- swaps_back qs last 0 s;
      Ret (s, m)).

  (** ** Arithmetic *)
  (** FindShardValue, SwapShardValues (api:449-466); nothing to find is undefined behaviour. *)
  Definition has_value (v : N) (m : list (N * N)) : bool := existsb (fun e => (snd e =? v)%N) m.
  Fixpoint key_of (v : N) (m : list (N * N)) : N := match m with [] => 0%N | (k, w) :: t => if (w =? v)%N then k else key_of v t end.
  Definition swap_values (v1 v2 : N) (m : list (N * N)) : out (list (N * N)) :=
    if has_value v1 m && has_value v2 m then Ret (mset (key_of v2 m) v1 (mset (key_of v1 m) v2 m)) else Undef.
  (** The loops of MapArithmetic (api:478-481, 558-561, 565-568). *)
  Fixpoint gather (bits : list N) (start i : N) (s : sim) (m : list (N * N)) : out (sim * list (N * N)) :=
    match bits with
    | [] => Ret (s, m)
    | b :: t => do s <- sim_swap (start + i) b s; do m <- swap_values (start + i) b m; gather t start (i + 1) s m
    end.
  Definition lowest (l : list N) : N := fold_right N.min 255 l.
  (** MapArithmetic (api:468-483). *)
  Definition map1 (q : list N) (s : sim) (m : list (N * N)) : out (N * sim * list (N * N)) :=
    let bits := map (shard_id m) q in
    let start := lowest bits in
    do (s, m) <- gather bits start 0 s m; Ret (start, s, m).
  (** MapArithmetic3 (api:534-573); MapArithmetic2 (api:496-532) is the same with two lists of equal length. *)
  Definition map2 (q1 q2 : list N) (s : sim) (m : list (N * N)) : out (N * N * sim * list (N * N)) :=
    let b1 := map (shard_id m) q1 in
    let b2 := map (shard_id m) q2 in
    let rev := (lowest b2 <? lowest b1)%N in
    let '(b1, b2) := if rev then (b2, b1) else (b1, b2) in
    let start1 := lowest b1 in
    do (s, m) <- gather b1 start1 0 s m;
    let start2 := N.max (start1 + N.of_nat (length b1)) (lowest b2) in
    do (s, m) <- gather b2 start2 0 s m;
    Ret (if rev then start2 else start1, if rev then start1 else start2, s, m).
  (** _combineA (api:582-602); with QBCAPPOW > 6 the shift is by the width of the type. *)
  Definition combine_a (l : list N) : out N :=
    if (2 ^ ac_cap c / 64 <? N.of_nat (length l))%N then Ret 0%N
    else if (6 <? ac_cap c)%N then match l with [] => Ret 0%N | _ => Undef end
    else match l with [] => Undef | a :: _ => Ret a end.
  (** ADD (api:2985-2997), Hash (api:3267-3278), MUL (api:3073-3085), LDA (api:3231-3242). *)
  Definition api_add (sid : N) (l q : list N) : api -> out api :=
    on_sim sid (fun s m => do k <- combine_a l; do (start, s, m) <- map1 q s m; do s <- sim_inc k start (N.of_nat (length q)) s; Ret (s, m)).
  Definition api_hash (sid : N) (q : list N) (t : N -> N) : api -> out api :=
    on_sim sid (fun s m => do (start, s, m) <- map1 q s m; do s <- sim_hash start (N.of_nat (length q)) t s; Ret (s, m)).
  Definition api_mul (sid : N) (l q o : list N) : api -> out api :=
    on_sim sid (fun s m => do k <- combine_a l; do (s1, s2, s, m) <- map2 q o s m; do s <- sim_mul k s1 s2 (N.of_nat (length q)) s; Ret (s, m)).
  Definition api_lda (sid : N) (qi qv : list N) (t : N -> N) : api -> out api :=
    on_sim sid (fun s m => do (s1, s2, s, m) <- map2 qi qv s m; do s <- sim_lda s1 (N.of_nat (length qi)) s2 (N.of_nat (length qv)) t s; Ret (s, m)).

  (** ** Pauli bases *)
  Inductive pauli := PI | PX | PY | PZ.
  Definition is_pi (b : pauli) : bool := match b with PI => true | _ => false end.
  Definition mat_H : mat2 K := mkMat ch ch ch (- ch).
  Definition mat_S : mat2 K := mkMat 1 0 0 ci.
  Definition mat_IS : mat2 K := mkMat 1 0 0 (- ci).
  (** TransformPauliBasis, RevertPauliBasis (api:319-355). *)
  Fixpoint to_z (l : list (pauli * N)) (m : list (N * N)) (s : sim) : out sim :=
    match l with
    | [] => Ret s
    | (PX, q) :: t => do s <- sim_gate true [] mat_H (shard_id m q) s; to_z t m s
    | (PY, q) :: t => do s <- sim_gate true [] mat_IS (shard_id m q) s; do s <- sim_gate true [] mat_H (shard_id m q) s; to_z t m s
    | _ :: t => to_z t m s
    end.
  Fixpoint from_z (l : list (pauli * N)) (m : list (N * N)) (s : sim) : out sim :=
    match l with
    | [] => Ret s
    | (PX, q) :: t => do s <- sim_gate true [] mat_H (shard_id m q) s; from_z t m s
    | (PY, q) :: t => do s <- sim_gate true [] mat_H (shard_id m q) s; do s <- sim_gate true [] mat_S (shard_id m q) s; from_z t m s
    | _ :: t => from_z t m s
    end.
  (** removeIdentities (api:357-368). *)
  Definition no_identities (l : list (pauli * N)) : list (pauli * N) := filter (fun e => negb (is_pi (fst e))) l.
  (** pow2 (/repo/include/common/qrack_functions.hpp) of bitCapInt, pow2Ocl of 64 bits. *)
  Definition mask_of (qs : list N) : N := fold_left (fun k q => N.lor k (2 ^ q)) qs 0%N.
  (** JointEnsembleProbability (api:1218-1266). *)
  Definition api_joint (sid : N) (l : list (pauli * N)) (a : api) : out (option K * api) :=
    lookup sid a (Ret (Some 0, meta_error a)) (fun s =>
      match sl_sim s with
      | None => Ret (Some 0, a)
      | Some (Q, m) =>
          match (do S1 <- to_z l m Q;
                 do p <- (match no_identities l with [] => Ret 0 | l' => sim_prob_parity (mask_of (map (fun e => shard_id m (snd e)) l')) S1 end);
                 do S2 <- from_z l m S1; Ret (p, S2)) with
          | Ret (p, S2) => Ret (Some p, put sid (mkSlot (sl_res s) (Some (S2, m)) (sl_err s)) a)
          | Throws => Ret (None, put sid (set_err s) a)
          | Undef => Undef
          end
      end).
  (** RHelper (api:370-395) and MCRHelper (api:397-438) for the angle -2 phi: [cph], [sph], [hph] are cos phi, sin phi and
      exp(-i phi/2).  No controls stand for RHelper. *)
  Definition r_mat (b : pauli) (cph sph hph : K) : mat2 K :=
    match b with
    | PI => mkMat hph 0 0 hph
    | PX => mkMat cph (ci * sph) (ci * sph) cph
    | PY => mkMat cph sph (- sph) cph
    | PZ => mkMat (cph + ci * sph) 0 0 (cph - ci * sph)
    end.
  (** Exp (api:1992-2025; no controls) and MCExp (api:2030-2065): the mask and the controls are not translated. *)
  Definition api_exp (sid : N) (l : list (pauli * N)) (cph sph hph : K) (cs : list N) (a : api) : out api :=
    match l with
    | [] => Ret a
    | (b0, q0) :: _ =>
        on_sim sid (fun s m =>
          match no_identities l with
          | [] => keep m (sim_gate true (map (shard_id m) cs) (r_mat PI cph sph hph) (shard_id m (w8 q0)) s)
          | [(b, q)] => keep m (sim_gate true (map (shard_id m) cs) (r_mat b cph sph hph) (shard_id m (w8 q)) s)
          | l' =>
              do s <- to_z l m s;
              do s <- sim_parity (map w8 cs) (mask_of (map (fun e => (w8 (snd e) mod 64)%N) l')) (cph - ci * sph) (cph + ci * sph) s;
              do s <- from_z l m s;
              Ret (s, m)
          end) a
    end.

  (** ** Circuits *)
  (** std::sort of the indices by the control IDs (api:3799-3801); the IDs are different. *)
  Fixpoint insert_index (cs : list N) (i : N) (l : list N) : list N :=
    match l with
    | [] => [i]
    | j :: t => if (nth (N.to_nat i) cs 0 <? nth (N.to_nat j) cs 0)%N then i :: l else j :: insert_index cs i t
    end.
  Definition sort_indices (cs : list N) : list N := fold_left (fun l i => insert_index cs i l) (iota 0 (length cs)) [].
  (** qcircuit_append_mc (api:3794-3813): the gate that is appended. *)
  Fixpoint place_bits (idx : list N) (p i acc : N) : N :=
    match idx with [] => acc | j :: t => place_bits t p (i + 1) (N.lor acc (if N.testbit p i then 2 ^ j else 0)%N) end.
  Definition mc_gate (m : mat2 K) (cs : list N) (q p : N) : @qgate K :=
    gate_c (w8 q) m (set_of (map w8 cs)) (place_bits (sort_indices cs) p 0 0).
End Api.
