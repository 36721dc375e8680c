(** QUnitClifford: qubits of a stabilizer simulation kept apart as long as possible.  /repo/src/qunitclifford.cpp ("cpp") and
    /repo/include/qunitclifford.hpp ("hpp").
    Simplified: arithmetic is exact.  The units (QStabilizer) are ideal registers whose calls do what they should, phases included; a
    call with a qubit index that is not below the qubit count reads past the rows of the tableau (/repo/src/qstabilizer.cpp:1220-1235 and
    the others) unless it is Prob, IsSeparableZ or ForceM, which throw (qstabilizer.cpp:1353, 1424).  The phases of the units are part of
    their amplitudes, so CombinePhaseOffsets (hpp:56-64) does not appear.  Prob of a stabilizer is 0, 1/2 or 1 (qstabilizer.cpp:1881-1889);
    the tests for less than 1/4 and more than 3/4 are tests for 0 and 1.  Pointers to units are numbers; a unit without owner is a
    register of no qubits. *)
From Coq Require Import NArith List Bool.
From Verif Require Import MFunctions Amp SpecState MTensor.
Import ListNotations.
Local Open Scope N_scope.

Section Cliff.
  Context {K : StarRing} (ci ch : K).
  Local Notation vec := (N -> K).
  Local Open Scope amp_scope.

  (** What the units do: TrySeparate of one qubit ([n] qubits, which, amplitudes) with the two parts that Decompose then makes;
      Decompose of a range; the matrices that Mtrx and MCMtrx / MACMtrx accept; random results; 1 / sqrt of a probability.
      [ci] is i, [ch] is 1 / sqrt 2. *)
  Record kcfg := mkKC { kc_sep : N -> N -> vec -> option (vec * vec); kc_split : N -> N -> N -> vec -> vec * vec; kc_ok : mat2 K -> bool; kc_ok2 : bool -> mat2 K -> bool; kc_rnd : N -> bool; kc_nrm : K -> K }.
  Variable c : kcfg.

  (** CliffordShard (hpp:23-40), here (unit, mapped), for each qubit; the units with their numbers of qubits; the number of the next unit;
      phaseOffset; the random numbers used. *)
  Record ucliff := mkUK { k_n : N; k_sh : N -> N * N; k_eng : N -> N * vec; k_next : N; k_ph : K; k_draw : N }.
  Definition k_unit (U : ucliff) (q : N) : N := fst (k_sh U q).
  Definition k_map (U : ucliff) (q : N) : N := snd (k_sh U q).
  Definition k_size (U : ucliff) (u : N) : N := fst (k_eng U u).
  Definition k_vec (U : ucliff) (u : N) : vec := snd (k_eng U u).
  Definition set_shards (f : N -> N * N) (U : ucliff) : ucliff := mkUK (k_n U) f (k_eng U) (k_next U) (k_ph U) (k_draw U).
  Definition put_shard (q : N) (s : N * N) (U : ucliff) : ucliff := set_shards (fun p => if (p =? q)%N then s else k_sh U p) U.
  (** The amplitudes of a register as a table. *)
  Definition ktab (n : N) (f : vec) : vec := let l := map f (basis n) in fun x => nth (N.to_nat x) l 0.
  Definition put_unit (u n : N) (v : vec) (U : ucliff) : ucliff :=
    let t := ktab n v in mkUK (k_n U) (k_sh U) (fun w => if (w =? u)%N then (n, t) else k_eng U w) (k_next U) (k_ph U) (k_draw U).
  Definition new_unit (n : N) (v : vec) (U : ucliff) : ucliff :=
    let t := ktab n v in mkUK (k_n U) (k_sh U) (fun w => if (w =? k_next U)%N then (n, t) else k_eng U w) (k_next U + 1) (k_ph U) (k_draw U).

  (** ** The calls of a unit *)
  Definition u_gate (u t : N) (m : mat2 K) (U : ucliff) : out ucliff :=
    if (t <? k_size U u)%N then Ret (put_unit u (k_size U u) (gate1 always t m (k_vec U u)) U) else Undef.
  Definition u_cgate (u : N) (want : bool) (q t : N) (m : mat2 K) (U : ucliff) : out ucliff :=
    if (q <? k_size U u)%N && (t <? k_size U u)%N then Ret (put_unit u (k_size U u) (gate1 (fun x => eqb (N.testbit x q) want) t m (k_vec U u)) U) else Undef.
  (** Swap with the factor [f] where the two differ. *)
  Definition iswap (a b : N) (f : K) (v : vec) : vec := fun x => if xorb (N.testbit x a) (N.testbit x b) then f * v (swap_bits a b x) else v x.
  Definition u_iswap (u a b : N) (f : K) (U : ucliff) : out ucliff :=
    if (a <? k_size U u)%N && (b <? k_size U u)%N then Ret (put_unit u (k_size U u) (iswap a b f (k_vec U u)) U) else Undef.
  Definition u_prob (u q : N) (U : ucliff) : out K :=
    if (q <? k_size U u)%N then Ret (weight_of (k_size U u) (fun x => N.testbit x q) (k_vec U u)) else Throws.

  (** ** Construction (cpp:20-27, 181-198): SetPermutation with the phase [ph]. *)
  Definition set_permutation (n perm : N) (ph : K) : ucliff :=
    mkUK n (fun q => (q, 0%N)) (fun u => if (u <? n)%N then (1%N, ket (if N.testbit perm u then 1 else 0)) else (0%N, fun _ => 1)) n ph 0.

  (** ** Joining units *)
  (** ComposeNoClone and the new places of the qubits (cpp:291-299, 310-321). *)
  Definition k_join (r q : N) (U : ucliff) : ucliff :=
    let nr := k_size U r in
    let U1 := put_unit q 0 (fun _ => 1) (put_unit r (nr + k_size U q) (tensor nr (k_vec U r) (k_vec U q)) U) in
    set_shards (fun p => let s := k_sh U p in if (fst s =? q)%N then (r, (snd s + nr)%N) else s) U1.
  Fixpoint k_pairs (us : list N) (U : ucliff) : list N * ucliff :=
    match us with
    | r :: q :: t => let '(l, U1) := k_pairs t (k_join r q U) in (r :: l, U1)
    | _ => (us, U)
    end.
  (** cpp:287-324, with one step of fuel for each unit. *)
  Fixpoint k_join_all (fuel : nat) (us : list N) (U : ucliff) : ucliff :=
    match fuel with
    | O => U
    | S f =>
        match us with
        | [] | [_] => U
        | r :: q :: t =>
            let '(us1, U1) := if Nat.odd (length us) then (r :: t, k_join r q U) else (us, U) in
            let '(us2, U2) := k_pairs us1 U1 in
            k_join_all f us2 U2
        end
    end.
  (** The different units of the qubits, in order (cpp:279-284). *)
  Fixpoint k_units (bits : list N) (U : ucliff) (seen : list N) : list N :=
    match bits with
    | [] => []
    | b :: t => if existsb (N.eqb (k_unit U b)) seen then k_units t U seen else k_unit U b :: k_units t U (k_unit U b :: seen)
    end.
  (** EntangleInCurrentBasis (cpp:269-332). *)
  Definition entangle (bits : list N) (U : ucliff) : ucliff := let us := k_units bits U [] in k_join_all (length us) us U.

  (** TrySeparate(qubit) (cpp:811-837). *)
  Definition k_try_separate (q : N) (U : ucliff) : ucliff :=
    let u := k_unit U q in
    let m := k_map U q in
    if (k_size U u <=? 1)%N then U
    else match kc_sep c (k_size U u) m (k_vec U u) with
         | None => U
         | Some (rest, one) =>
             let new := k_next U in
             let U1 := new_unit 1 one (put_unit u (k_size U u - 1) rest U) in
             put_shard q (new, 0%N) (set_shards (fun p => let s := k_sh U p in if (fst s =? u)%N && (m <? snd s)%N then (fst s, (snd s - 1)%N) else s) U1)
         end.

  (** ** Probabilities and gates of one qubit *)
  (** Prob (hpp:617-622). *)
  Definition k_prob (q : N) (U : ucliff) : out K := if (k_n U <=? q)%N then Throws else u_prob (k_unit U q) (k_map U q) U.
  Definition definitely (b : bool) (p : K) : bool := sr_eqb p (if b then 1 else 0).
  (** IsSeparableZ (hpp:477-482). *)
  Definition k_separable_z (q : N) (U : ucliff) : out bool := do p <- k_prob q U; Ret (definitely false p || definitely true p).
  (** H, S, IS, Z, X, Y (hpp:364-411). *)
  Definition k_gate (m : mat2 K) (t : N) (U : ucliff) : out ucliff := if (k_n U <=? t)%N then Throws else u_gate (k_unit U t) (k_map U t) m U.
  (** Mtrx, Phase, Invert (hpp:624-644). *)
  Definition k_mtrx (m : mat2 K) (t : N) (U : ucliff) : out ucliff := if (k_n U <=? t)%N then Throws else if kc_ok c m then u_gate (k_unit U t) (k_map U t) m U else Throws.
  Definition mH : mat2 K := mkMat ch ch ch (- ch).
  Definition mX : mat2 K := mkMat 0 1 1 0.
  Definition mY : mat2 K := mkMat 0 (- ci) ci 0.
  Definition mZ : mat2 K := mkMat 1 0 0 (- (1)).

  (** ** Controlled gates *)
  (** CGate (hpp:103-126); [okay] says whether the gates of the unit take the matrix.  The gate for a certain control goes to qubit
      number [t] of the unit, not to [k_map U t]. *)
  Definition CGate (anti okay okay2 : bool) (q t : N) (m : mat2 K) (U : ucliff) : out ucliff :=
    if (k_n U <=? t)%N then Throws
    else
      do p <- k_prob q U;
      let fire := if okay then u_gate (k_unit U t) t m U else Throws in
      if definitely false p then (if anti then fire else Ret U)
      else if definitely true p then (if anti then Ret U else fire)
      else
        let U := entangle [q; t] U in
        if okay2 then do U <- u_cgate (k_unit U q) (negb anti) (k_map U q) (k_map U t) m U; Ret (k_try_separate t (k_try_separate q U))
        else Throws.
  (** CZ, AntiCZ (hpp:313-323, 351-363). *)
  Definition k_cz (anti : bool) (q t : N) (U : ucliff) : out ucliff :=
    do p <- k_prob t U;
    if definitely true p then k_gate (if anti then mkMat (- (1)) 0 0 1 else mZ) q U else CGate anti true true q t mZ U.
  (** CY, AntiCY (hpp:305-311, 341-349). *)
  Definition k_cy (anti : bool) (q t : N) (U : ucliff) : out ucliff := CGate anti true true q t mY U.
  (** CNOT, AntiCNOT (hpp:289-303, 325-339). *)
  Definition k_cnot (anti : bool) (q t : N) (U : ucliff) : out ucliff :=
    do U <- k_gate mH t U;
    do s <- k_separable_z t U;
    if s then do U <- k_cz anti q t U; k_gate mH t U
    else do U <- k_gate mH t U; CGate anti true true q t mX U.
  (** MCMtrx, MACMtrx with MCPhase, MCInvert, MACPhase, MACInvert (hpp:645-776), for at most one control. *)
  Definition k_mc (anti : bool) (cs : list N) (m : mat2 K) (t : N) (U : ucliff) : out ucliff :=
    match cs with
    | [] => k_mtrx m t U
    | [q] =>
        if (k_n U <=? t)%N || (k_n U <=? q)%N then Throws
        else if sr_eqb (m01 m) 0 && sr_eqb (m10 m) 0 then
          if sr_eqb (m00 m) 1 && sr_eqb (m11 m) (- (1)) then k_cz anti q t U else CGate anti (kc_ok c m) (kc_ok2 c anti m) q t m U
        else if sr_eqb (m00 m) 0 && sr_eqb (m11 m) 0 then
          if sr_eqb (m01 m) 1 && sr_eqb (m10 m) 1 then k_cnot anti q t U else CGate anti (kc_ok c m) (kc_ok2 c anti m) q t m U
        else CGate anti (kc_ok c m) (kc_ok2 c anti m) q t m U
    | _ => Throws
    end.

  (** ** Swaps *)
  (** hpp:413-424. *)
  Definition k_swap (a b : N) (U : ucliff) : out ucliff :=
    if (k_n U <=? a)%N || (k_n U <=? b)%N then Throws
    else if (a =? b)%N then Ret U
    else Ret (set_shards (fun p => if (p =? a)%N then k_sh U b else if (p =? b)%N then k_sh U a else k_sh U p) U).
  (** SwapGate with ISwap and IISwap (hpp:127-143, 426-436). *)
  Definition k_iswap (f : K) (a b : N) (U : ucliff) : out ucliff :=
    do pa <- k_prob a U;
    do pb <- k_prob b U;
    if (definitely false pa && definitely true pb) || (definitely false pb && definitely true pa) then
      do U <- k_swap a b U; k_gate (mkMat f 0 0 f) b U
    else
      let U := entangle [a; b] U in
      do U <- u_iswap (k_unit U a) (k_map U a) (k_map U b) f U;
      Ret (k_try_separate b (k_try_separate a U)).
  (** FSim (hpp:777-789), for the parameters of ISwap, which QStabilizer::FSim accepts: the gate goes to the numbers of the qubits in the register. *)
  Definition k_fsim_iswap (f : K) (a b : N) (U : ucliff) : out ucliff :=
    if (k_n U <=? a)%N || (k_n U <=? b)%N then Throws
    else
      let U := entangle [a; b] U in
      do U <- u_iswap (k_unit U a) a b f U;
      Ret (k_try_separate b (k_try_separate a U)).

  (** ** Measurement *)
  (** QStabilizer::ForceM (qstabilizer.cpp:1422-1546): the result and the unit. *)
  Definition u_force_m (u q : N) (res force apply : bool) (U : ucliff) : out (bool * ucliff) :=
    if (k_size U u <=? q)%N then Throws
    else if force && negb apply then Ret (res, U)
    else
      do p <- u_prob u q U;
      if definitely true p || definitely false p then
        if force && negb (eqb res (definitely true p)) then Throws else Ret (definitely true p, U)
      else
        let '(r, d) := if force then (res, k_draw U) else (kc_rnd c (k_draw U), (k_draw U + 1)%N) in
        let U := mkUK (k_n U) (k_sh U) (k_eng U) (k_next U) (k_ph U) d in
        if negb apply then Ret (r, U)
        else
          let nz := kc_nrm c (if r then p else 1 - p) in
          Ret (r, put_unit u (k_size U u) (fun x => if eqb (N.testbit x q) r then nz * k_vec U u x else 0) U).
  (** SeparateBit (cpp:533-568); SetBit (/repo/include/qinterface.hpp:2823-2828) measures and inverts. *)
  Definition separate_bit (value : bool) (q : N) (U : ucliff) : out ucliff :=
    let u := k_unit U q in
    let m := k_map U q in
    if (k_size U u <=? 1)%N then
      do (r, U) <- u_force_m u 0 false false true U;
      if eqb r value then Ret U else u_gate u 0 mX U
    else match kc_sep c (k_size U u) m (k_vec U u) with
         | None => Ret U
         | Some (rest, _) =>
             let new := k_next U in
             let U1 := new_unit 1 (ket (if value then 1 else 0)) (put_unit u (k_size U u - 1) rest U) in
             Ret (set_shards (fun p => let s := if (p =? q)%N then (new, 0%N) else k_sh U p in if (fst s =? u)%N && (m <? snd s)%N then (fst s, (snd s - 1)%N) else s) U1)
         end.
  (** ForceM (cpp:571-593). *)
  Definition k_force_m (q : N) (res force apply : bool) (U : ucliff) : out (bool * ucliff) :=
    if (k_n U <=? q)%N then Throws
    else
      do (r, U) <- u_force_m (k_unit U q) (k_map U q) res force apply U;
      if negb apply then Ret (r, U) else do U <- separate_bit r q U; Ret (r, U).

  (** ** Reading *)
  (** The basis state of a unit within a basis state [x] (cpp:459-468). *)
  Definition k_gather (u x : N) (U : ucliff) : N :=
    fold_right (fun p a => if (k_unit U p =? u)%N && N.testbit x p then N.setbit a (k_map U p) else a) 0%N (upto (N.to_nat (k_n U))).
  (** GetAmplitude (cpp:453-479). *)
  Definition k_amplitude (x : N) (U : ucliff) : out K :=
    if (2 ^ k_n U <=? x)%N then Throws
    else Ret (fold_left (fun a u => if sr_eqb a 0 then a else a * k_vec U u (k_gather u x U)) (k_units (upto (N.to_nat (k_n U))) U []) (k_ph U)).
  (** ProbMask (cpp:153-179). *)
  Definition k_prob_mask (mask perm : N) (U : ucliff) : out K :=
    let bits := filter (N.testbit mask) (upto (N.to_nat (N.size mask))) in
    if existsb (fun b => (k_n U <=? b)%N) bits then Undef
    else Ret (asum (fun u =>
           let own := filter (fun b => (k_unit U b =? u)%N) bits in
           weight_of (k_size U u) (fun y => forallb (fun b => eqb (N.testbit y (k_map U b)) (N.testbit perm b)) own) (k_vec U u)) (k_units bits U [])).

  (** ** Order *)
  (** QSortEntry is (bit, mapped) (hpp:66-71); SortUnit (cpp:360-398).  An index past the array reads (0, 0). *)
  Definition entry := (N * N)%type.
  Definition e_at (l : list entry) (i : N) : entry := nth (N.to_nat i) l (0%N, 0%N).
  (** The swap of entries [i] and [j]: in the unit, in the map and in the array. *)
  Definition sort_swap (u i j : N) (lU : list entry * ucliff) : list entry * ucliff :=
    let '(l, U) := lU in
    let '(bi, mi) := e_at l i in
    let '(bj, mj) := e_at l j in
    let U1 := put_unit u (k_size U u) (fun x => k_vec U u (swap_bits mi mj x)) U in
    let U2 := put_shard bj (fst (k_sh U bj), mi) (put_shard bi (fst (k_sh U bi), mj) U1) in
    (set_nth (N.to_nat j) (bj, mi) (set_nth (N.to_nat i) (bi, mj) l), U2).
  (** The inner loops (375-380), from [i] up and from [j] down. *)
  Fixpoint scan_up (fuel : nat) (l : list entry) (pivot i : N) : N :=
    match fuel with O => i | S f => if (snd (e_at l i) <? pivot)%N then scan_up f l pivot (i + 1) else i end.
  Fixpoint scan_down (fuel : nat) (l : list entry) (pivot j : N) : N :=
    match fuel with O => j | S f => if (pivot <? snd (e_at l j))%N then scan_down f l pivot (j - 1) else j end.
  (** The outer loop (374-391). [j] is one more than in the code, so that it stays a natural number. *)
  Fixpoint partition (fuel : nat) (u pivot i j1 : N) (lU : list entry * ucliff) : N * N * (list entry * ucliff) :=
    match fuel with
    | O => (i, j1, lU)
    | S f =>
        if (i <? j1)%N then
          let i := scan_up (length (fst lU)) (fst lU) pivot i in
          let j := scan_down (length (fst lU)) (fst lU) pivot (j1 - 1) in
          if (i <? j)%N then partition f u pivot (i + 1) j (sort_swap u i j lU)
          else if (i =? j)%N then partition f u pivot (i + 1) j lU
          else partition f u pivot i (j + 1) lU
        else (i, j1, lU)
    end.
  Fixpoint sort_unit (fuel : nat) (u low high : N) (lU : list entry * ucliff) : list entry * ucliff :=
    match fuel with
    | O => lU
    | S f =>
        if (low + 1 =? high)%N then
          if (snd (e_at (fst lU) high) <? snd (e_at (fst lU) low))%N then sort_swap u low high lU else lU
        else
          let pivot := snd (e_at (fst lU) ((low + high) / 2)) in
          let '(i, j1, lU) := partition (length (fst lU)) u pivot low (high + 1) lU in
          let lU := if (low + 1 <? j1)%N then sort_unit f u low (j1 - 1) lU else lU in
          if (i <? high)%N then sort_unit f u i high lU else lU
    end.
  (** OrderContiguous (cpp:334-357). *)
  Definition order_contiguous (u : N) (U : ucliff) : ucliff :=
    if (k_size U u =? 1)%N then U
    else
      let l := map (fun p => (p, k_map U p)) (filter (fun p => (k_unit U p =? u)%N) (upto (N.to_nat (k_n U)))) in
      snd (sort_unit (length l) u 0 (N.of_nat (length l) - 1) (l, U)).

  (** ** Register size *)
  (** Compose (hpp:524-539): the units of the clone get new numbers. *)
  Definition k_compose (T : ucliff) (start : N) (U : ucliff) : out ucliff :=
    if (k_n U <? start)%N then Throws
    else Ret (mkUK (k_n U + k_n T)
                   (fun p => if (p <? start)%N then k_sh U p
                             else if (p <? start + k_n T)%N then let s := k_sh T (p - start) in (k_next U + fst s, snd s)%N else k_sh U (p - k_n T))
                   (fun u => if (u <? k_next U)%N then k_eng U u else k_eng T (u - k_next U))
                   (k_next U + k_next T) (k_ph U) (k_draw U)).
  (** Detach (cpp:200-267) with a destination: what remains and the shards of the destination.  The units of the destination have the
      numbers they have here. *)
  Definition detach (start len : N) (U : ucliff) : out (ucliff * ucliff) :=
    if isBadBitRange start len (k_n U) then Throws
    else
      let range := map (fun i => start + i)%N (upto (N.to_nat len)) in
      let subs := k_units range U [] in
      let subLen V u := N.of_nat (length (filter (fun p => (k_unit V p =? u)%N) range)) in
      let U1 := if (1 <? len)%N then fold_left (fun V u => order_contiguous u V) subs U else U in
      (** 225-254: for each unit, the position of its first qubit in the range, and the unit that holds its part of the range. *)
      let first u := hd 0%N (filter (fun p => (k_unit U1 p =? u)%N) range) in
      let step (r : ucliff * list (N * N)) (u : N) : ucliff * list (N * N) :=
        let '(V, moved) := r in
        if (subLen U1 u =? k_size U1 u)%N then (V, (u, u) :: moved)
        else
          let '(rest, part) := kc_split c (k_size U1 u) (k_map U1 (first u)) (subLen U1 u) (k_vec U1 u) in
          let new := k_next V in
          (new_unit (subLen U1 u) part (put_unit u (k_size U1 u - subLen U1 u) rest V), (u, new) :: moved) in
      let '(U2, moved) := fold_left step subs (U1, []) in
      let holder u := match find (fun e => (fst e =? u)%N) moved with Some e => snd e | None => u end in
      (** The shards of the destination keep the [mapped] they had (251-253). *)
      let D := mkUK len (fun i => (holder (k_unit U1 (start + i)), k_map U1 (start + i))) (k_eng U2) (k_next U2) 1 0 in
      (** 256-266. *)
      let rest p := let s := k_sh U1 p in
                    if existsb (N.eqb (fst s)) subs && (k_map U1 (first (fst s)) + subLen U1 (fst s) <=? snd s)%N then (fst s, (snd s - subLen U1 (fst s))%N) else s in
      Ret (mkUK (k_n U - len) (fun p => if (p <? start)%N then rest p else rest (p + len)%N) (k_eng U2) (k_next U2) (k_ph U2) (k_draw U2), D).

  (** ** Programs: the gates of hpp:289-436 and 624-776. *)
  Inductive kcall := OH (t : N) | OX (t : N) | OY (t : N) | OZ (t : N) | OS (t : N) | OIS (t : N) | OMtrx (m : mat2 K) (t : N)
    | OCZ (anti : bool) (q t : N) | OCY (anti : bool) (q t : N) | OCNOT (anti : bool) (q t : N) | OMC (anti : bool) (cs : list N) (m : mat2 K) (t : N)
    | OSwap (a b : N) | OISwap (inv : bool) (a b : N).
  Definition k_call (o : kcall) (U : ucliff) : out ucliff :=
    match o with
    | OH t => k_gate mH t U | OX t => k_gate mX t U | OY t => k_gate mY t U | OZ t => k_gate mZ t U
    | OS t => k_gate (mkMat 1 0 0 ci) t U | OIS t => k_gate (mkMat 1 0 0 (- ci)) t U | OMtrx m t => k_mtrx m t U
    | OCZ anti q t => k_cz anti q t U | OCY anti q t => k_cy anti q t U | OCNOT anti q t => k_cnot anti q t U | OMC anti cs m t => k_mc anti cs m t U
    | OSwap a b => k_swap a b U | OISwap inv a b => k_iswap (if inv then - ci else ci) a b U
    end.
  Fixpoint k_run (p : list kcall) (U : ucliff) : out ucliff := match p with [] => Ret U | o :: t => do U <- k_call o U; k_run t U end.
End Cliff.
Arguments ucliff : clear implicits.
Arguments kcfg : clear implicits.
Arguments kcall : clear implicits.
