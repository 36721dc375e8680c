(** Model of the stabilizer simulator QStabilizer, /repo/src/qstabilizer.cpp and /repo/include/qstabilizer.hpp.

    A tableau row is one Pauli operator: BoolVector x[i] and z[i] are bit masks (bit j = entry j; the vectors have
    exactly qubitCount entries, so bits at and above qubitCount are clear), r[i] is a power of i.  Rows 0..n-1 are the
    destabilizers, rows n..2n-1 the stabilizers.  Row 2n is scratch space: every function that reads it writes it
    first, so it is a local value here and not part of the tableau.  phaseOffset (the global phase) is not part of
    this file.  [rgp] is randGlobalPhase.  bitLenInt is 8 bits wide ([w8]).  Two-qubit gates are modelled for
    distinct qubits only (the code does not check; Swap, ISwap and IISwap return early on equal qubits).  [Rand] is a
    parameter.  Dispatch runs the loop at once, Finish and Dump do nothing (qstabilizer.hpp:61-62). *)
From Coq Require Import NArith List Bool.
From Verif Require Import MKernel MParFor MQCircuit MEngine.
Import ListNotations.
Local Open Scope N_scope.

(** Members r, x, z: qstabilizer.hpp:40-58. *)
Record row := mkRow { rx : N; rz : N; rr : N }.
Record tab := mkTab { t_n : N; t_row : N -> row }.

Definition row0 : row := mkRow 0 0 0.
(** Assignment to a vector<bool> entry. *)
Definition setb (v q : N) (b : bool) : N := if b then N.setbit v q else N.clearbit v q.
Definition set_row (T : tab) (i : N) (w : row) : tab := mkTab (t_n T) (fun k => if k =? i then w else t_row T k).

(** [maxLcv], the number of rows of the row loops: [qubitCount << 1U] stored in a bitLenInt. *)
Definition max_lcv (n : N) : N := w8 (2 * n).

(** ** Row operations, qstabilizer.hpp:156-207 *)

(** rowcopy, 156-165. *)
Definition rowcopy (T : tab) (i k : N) : tab := if i =? k then T else set_row T i (t_row T k).
(** rowswap, 167-176. *)
Definition rowswap (T : tab) (i k : N) : tab :=
  if i =? k then T else set_row (set_row T k (t_row T i)) i (t_row T k).
(** rowset, 178-192: the b-th observable of X_1..X_n, Z_1..Z_n. *)
Definition rowset (T : tab) (i b : N) : tab :=
  set_row T i (if b <? t_n T then mkRow (N.setbit 0 b) 0 0 else mkRow 0 (N.setbit 0 (b - t_n T)) 0).

(** clifford, qstabilizer.cpp:131-168; [e] is a bitLenInt, decremented modulo 256. *)
Definition b2n (b : bool) : N := if b then 1 else 0.
Definition clifford_step (xi zi xk zk : bool) (e : N) : N :=
  let e := if xk && negb zk then w8 (w8 (e + b2n (xi && zi)) + 256 - b2n (negb xi && zi)) else e in
  let e := if xk && zk then w8 (w8 (e + b2n (negb xi && zi)) + 256 - b2n (xi && negb zi)) else e in
  if negb xk && zk then w8 (w8 (e + b2n (xi && negb zi)) + 256 - b2n (xi && zi)) else e.
Definition clifford (n : N) (wi wk : row) : N :=
  let e := fold_left (fun e j => clifford_step (N.testbit (rx wi) j) (N.testbit (rz wi) j)
                                   (N.testbit (rx wk) j) (N.testbit (rz wk) j) e) (iota 0 (N.to_nat n)) 0 in
  (e + rr wi + rr wk) mod 4.
(** rowmult, qstabilizer.hpp:194-203, on the two rows: row i left-multiplied by row k. *)
Definition row_mul (n : N) (wi wk : row) : row :=
  mkRow (N.lxor (rx wi) (rx wk)) (N.lxor (rz wi) (rz wk)) (clifford n wi wk).
Definition rowmult (T : tab) (i k : N) : tab := set_row T i (row_mul (t_n T) (t_row T i) (t_row T k)).

(** ** gaussian, qstabilizer.cpp:176-231 *)

(** One column j: [sel] is x for the first pass (186-204), z for the second (208-226). *)
Definition gauss_elim (sel : row -> N) (j i : N) (T : tab) : tab :=
  fold_left (fun T k2 => if N.testbit (sel (t_row T k2)) j
                         then rowmult (rowmult T k2 i) (i - t_n T) (k2 - t_n T) else T)
            (iota (i + 1) (N.to_nat (max_lcv (t_n T) - (i + 1)))) T.
Definition gauss_col (sel : row -> N) (st : tab * N) (j : N) : tab * N :=
  let '(T, i) := st in
  match find (fun k => N.testbit (sel (t_row T k)) j) (iota i (N.to_nat (max_lcv (t_n T) - i))) with
  | None => (T, i)
  | Some k => (gauss_elim sel j i (rowswap (rowswap T i k) (i - t_n T) (k - t_n T)), i + 1)
  end.
(** The tableau and g, the number of generators containing X or Y. *)
Definition gaussian (T : tab) : tab * N :=
  let cols := iota 0 (N.to_nat (t_n T)) in
  let '(T1, i1) := fold_left (gauss_col rx) cols (T, t_n T) in
  let '(T2, _) := fold_left (gauss_col rz) cols (T1, i1) in
  (T2, i1 - t_n T).

(** ** Reading out the state *)

(** seed, 239-270: the x part of the scratch row; [min] keeps its value from row to row. *)
Definition seed_row (n : N) (w : row) (st : N * N) : N * N :=
  let '(xec, mn) := st in
  let '(mn', f) := fold_left (fun (a : N * N) j =>
      if N.testbit (rz w) j then (j, if N.testbit xec j then (snd a + 2) mod 4 else snd a) else a)
    (rev (iota 0 (N.to_nat n))) (mn, rr w) in
  (if f =? 2 then N.lxor xec (2 ^ mn') else xec, mn').
Definition seed (T : tab) (g : N) : row :=
  let rows := rev (iota (t_n T + g) (N.to_nat (t_n T - g))) in
  mkRow (fst (fold_left (fun st i => seed_row (t_n T) (t_row T i) st) rows (0, 0))) 0 0.

(** getBasisAmp, 273-304: basis state and power of i of its amplitude (the factors nrm and polar(1, phaseOffset)
    are common to all). *)
Definition basis_amp (n : N) (w : row) : N * N :=
  (rx w, fold_left (fun e j => if N.testbit (rx w) j && N.testbit (rz w) j then (e + 1) mod 4 else e)
           (iota 0 (N.to_nat n)) (rr w)).

(** The loop common to GetQuantumState, GetProbs, GetAmplitude and others (for instance 400-409): the scratch row
    after step t is multiplied by generator n+i for the bits i below g set in [t ^ (t+1)]. *)
Definition next_row (T : tab) (g t : N) (w : row) : row :=
  fold_left (fun w i => if N.testbit (N.lxor t (t + 1)) i then row_mul (t_n T) w (t_row T (t_n T + i)) else w)
    (iota 0 (N.to_nat g)) w.
Fixpoint amp_rows (T : tab) (g t : N) (k : nat) (w : row) : list row :=
  match k with
  | O => [w]
  | S j => w :: amp_rows T g (t + 1) j (next_row T g t w)
  end.
(** All reported amplitudes in order: basis state and power of i; there are 2^g of them. *)
Definition all_amps (T : tab) : list (N * N) :=
  let '(T1, g) := gaussian T in
  map (basis_amp (t_n T1)) (amp_rows T1 g 0 (N.to_nat (2 ^ g - 1)) (seed T1 g)).
(** gaussian() as called by the readers: the tableau stays reduced. *)
Definition reduced (T : tab) : tab := fst (gaussian T).
Definition gauss_rank (T : tab) : N := snd (gaussian T).
(** GetAmplitude, 501-531: the first entry for [perm], none if the amplitude is 0. *)
Definition get_amplitude (T : tab) (perm : N) : option N :=
  match find (fun a => fst a =? perm) (all_amps T) with Some a => Some (snd a) | None => None end.
(** GetQubitAmplitude, 592-625: the first entry in which qubit [t] has value [m]. *)
Definition get_qubit_amplitude (T : tab) (t : N) (m : bool) : option (N * N) :=
  find (fun a => Bool.eqb (N.testbit (fst a) t) m) (all_amps T).

(** ** Gates *)

(** ParFor, 57-71: throw for qubits out of range, then the rows below maxLcv. *)
Definition par_rows (T : tab) (qs : list N) (f : row -> row) : res tab :=
  if existsb (fun q => t_n T <=? q) qs then Throw
  else Ok (mkTab (t_n T) (fun i => if i <? max_lcv (t_n T) then f (t_row T i) else t_row T i)).

(** Row update touching qubit [t]: new x, new z, and whether 2 is added to r. *)
Definition upd1 (t : N) (f : bool -> bool -> bool * bool * bool) (w : row) : row :=
  let '(x', z', s) := f (N.testbit (rx w) t) (N.testbit (rz w) t) in
  mkRow (setb (rx w) t x') (setb (rz w) t z') (if s then (rr w + 2) mod 4 else rr w).
(** Row update touching qubits [c] and [t]: new xc, zc, xt, zt and how often 2 is added to r (parity). *)
Definition upd2 (c t : N) (f : bool -> bool -> bool -> bool -> bool * bool * bool * bool * bool) (w : row) : row :=
  let '(xc, zc, xt, zt, s) := f (N.testbit (rx w) c) (N.testbit (rz w) c) (N.testbit (rx w) t) (N.testbit (rz w) t) in
  mkRow (setb (setb (rx w) c xc) t xt) (setb (setb (rz w) c zc) t zt) (if s then (rr w + 2) mod 4 else rr w).

(** Loop bodies, in the order of the statements of the code. *)
(** CNOT, 863-879. *)
Definition cnot_bits (xc zc xt zt : bool) :=
  let xt := if xc then negb xt else xt in
  if zt then let zc := negb zc in (xc, zc, xt, zt, xc && Bool.eqb xt zc) else (xc, zc, xt, zt, false).
(** AntiCNOT, 893-909. *)
Definition anticnot_bits (xc zc xt zt : bool) :=
  let xt := if xc then negb xt else xt in
  if zt then let zc := negb zc in (xc, zc, xt, zt, negb xc || negb (Bool.eqb xt zc)) else (xc, zc, xt, zt, false).
(** CY, 923-943. *)
Definition cy_bits (xc zc xt zt : bool) :=
  let zt := xorb zt xt in
  let xt := if xc then negb xt else xt in
  let s := zt && (xc && Bool.eqb xt zc) in
  let zc := if zt then negb zc else zc in
  let zt := xorb zt xt in
  (xc, zc, xt, zt, s).
(** AntiCY, 957-977. *)
Definition anticy_bits (xc zc xt zt : bool) :=
  let zt := xorb zt xt in
  let xt := if xc then negb xt else xt in
  let s := zt && (negb xc || negb (Bool.eqb xt zc)) in
  let zc := if zt then negb zc else zc in
  let zt := xorb zt xt in
  (xc, zc, xt, zt, s).
(** CZ, 996-1014. *)
Definition cz_bits (xc zc xt zt : bool) :=
  let '(zc, s) := if xt then (negb zc, xc && Bool.eqb zt (negb zc)) else (zc, false) in
  let zt := if xc then negb zt else zt in
  (xc, zc, xt, zt, s).
(** AntiCZ, 1034-1052. *)
Definition anticz_bits (xc zc xt zt : bool) :=
  let '(zc, s) := if xt then (negb zc, negb xc || negb (Bool.eqb zt (negb zc))) else (zc, false) in
  let zt := if xc then negb zt else zt in
  (xc, zc, xt, zt, s).
(** Swap, 1070-1075. *)
Definition swap_bits2 (xc zc xt zt : bool) := (xt, zt, xc, zc, false).
(** ISwap, 1090-1117. *)
Definition iswap_bits (xc zc xt zt : bool) :=
  let '(xc, xt) := (xt, xc) in
  let '(zc, zt) := (zt, zc) in
  let '(zc, s1) := if xt then (negb zc, negb xc && zt) else (zc, false) in
  let '(zt, s2) := if xc then (negb zt, zc && negb xt) else (zt, false) in
  let zc := xorb zc xc in
  let zt := xorb zt xt in
  (xc, zc, xt, zt, xorb s1 s2).
(** IISwap, 1132-1159. *)
Definition iiswap_bits (xc zc xt zt : bool) :=
  let zc := xorb zc xc in
  let zt := xorb zt xt in
  let '(zt, s1) := if xc then (negb zt, zc && negb xt) else (zt, false) in
  let '(zc, s2) := if xt then (negb zc, negb xc && zt) else (zc, false) in
  (xt, zt, xc, zc, xorb s1 s2).
(** H, 1169-1178; X, 1229-1233; Y, 1248-1252; Z, 1270-1274; S, 1296-1303; IS, 1329-1336. *)
Definition h_bits (x z : bool) := let '(x, z) := (z, x) in (x, z, x && z).
Definition x_bits (x z : bool) := (x, z, z).
Definition y_bits (x z : bool) := (x, z, xorb z x).
Definition z_bits (x z : bool) := (x, z, x).
Definition s_bits (x z : bool) := (x, xorb z x, x && z).
Definition is_bits (x z : bool) := let z := xorb z x in (x, z, x && z).

(** ** Measurement *)

(** IsSeparableZ, 1351-1371. *)
Definition is_separable_z (T : tab) (t : N) : res bool :=
  if t_n T <=? t then Throw
  else Ok (negb (existsb (fun p => N.testbit (rx (t_row T (p + t_n T))) t) (iota 0 (N.to_nat (t_n T))))).

Definition rbind {A B} (a : res A) (f : A -> res B) : res B := match a with Ok x => f x | Throw => Throw end.

(** Lines 1467-1481 of ForceM: the generators that do not commute with Z_t are multiplied by row p. *)
Definition collapse (T : tab) (t p : N) (result : bool) : tab :=
  let n := t_n T in
  let T1 := rowset (rowcopy T p (p + n)) (p + n) (t + n) in
  let T2 := set_row T1 (p + n) (mkRow (rx (t_row T1 (p + n))) (rz (t_row T1 (p + n))) (if result then 2 else 0)) in
  let f T i := if N.testbit (rx (t_row T i)) t then rowmult T i p else T in
  let T3 := fold_left f (iota 0 (N.to_nat p)) T2 in
  fold_left f (iota (p + 1) (N.to_nat (max_lcv n - (p + 1)))) T3.

(** ForceM, 1422-1548: [rnd] is the value of Rand(); with a kept global phase (not [rgp]) the tableau is reduced
    after a random outcome (1487). *)
Definition force_m (rgp : bool) (rnd : bool) (T : tab) (t : N) (result doForce doApply : bool) : res (bool * tab) :=
  let n := t_n T in
  if n <=? t then Throw
  else if doForce && negb doApply then Ok (result, T)
  else match find (fun p => N.testbit (rx (t_row T (p + n))) t) (iota 0 (N.to_nat n)) with
  | Some p =>
      let result := if doForce then result else rnd in
      if negb doApply then Ok (result, T)
      else let T1 := collapse T t p result in
           Ok (result, if rgp then T1 else reduced T1)
  | None =>
      match find (fun m => N.testbit (rx (t_row T m)) t) (iota 0 (N.to_nat n)) with
      | None => Ok (false, T)
      | Some m =>
          let w := fold_left (fun w i => if N.testbit (rx (t_row T i)) t then row_mul n w (t_row T (i + n)) else w)
                     (iota (m + 1) (N.to_nat (n - (m + 1)))) (t_row T (m + n)) in
          let b := negb (rr w =? 0) in
          if doForce && negb (Bool.eqb result b) then Throw else Ok (b, T)
      end
  end.
(** M, /repo/include/qinterface.hpp: ForceM(q, false, false).  The gates call it only when the outcome is
    determined, so no random bit is drawn. *)
Definition m_det (rgp : bool) (T : tab) (t : N) : res (bool * tab) := force_m rgp false T t false false true.

(** Z, 1257-1280.  Kept phase: a separable qubit changes the global phase only; otherwise GetQubitAmplitude reduces
    the tableau first.  Random phase: GetAmplitude reduces it afterwards (the condition at 1276 is inverted). *)
Definition sg_z (rgp : bool) (T : tab) (t : N) : res tab :=
  if rgp then rbind (par_rows T [t] (upd1 t z_bits)) (fun T => Ok (reduced T))
  else rbind (is_separable_z T t) (fun b =>
       if b then rbind (m_det rgp T t) (fun r => Ok (snd r))
       else par_rows (reduced T) [t] (upd1 t z_bits)).
(** S, 1283-1313 and IS, 1316-1346. *)
Definition sg_s (rgp : bool) (T : tab) (t : N) : res tab :=
  if rgp then par_rows T [t] (upd1 t s_bits)
  else rbind (is_separable_z T t) (fun b =>
       if b then rbind (m_det rgp T t) (fun r => Ok (snd r))
       else par_rows (reduced T) [t] (upd1 t s_bits)).
Definition sg_is (rgp : bool) (T : tab) (t : N) : res tab :=
  if rgp then par_rows T [t] (upd1 t is_bits)
  else rbind (is_separable_z T t) (fun b =>
       if b then rbind (m_det rgp T t) (fun r => Ok (snd r))
       else par_rows (reduced T) [t] (upd1 t is_bits)).
(** H, 1164-1217: with a kept phase the tableau is reduced afterwards. *)
Definition sg_h (rgp : bool) (T : tab) (t : N) : res tab :=
  rbind (par_rows T [t] (upd1 t h_bits)) (fun T => Ok (if rgp then T else reduced T)).
(** X, 1220-1235. *)
Definition sg_x (rgp : bool) (T : tab) (t : N) : res tab :=
  if rgp then par_rows T [t] (upd1 t x_bits)
  else rbind (sg_h rgp T t) (fun T => rbind (sg_z rgp T t) (fun T => sg_h rgp T t)).
(** Y, 1238-1254. *)
Definition sg_y (rgp : bool) (T : tab) (t : N) : res tab :=
  if rgp then par_rows T [t] (upd1 t y_bits)
  else rbind (is_separable_z T t) (fun b =>
       if b then rbind (sg_is rgp T t) (fun T => rbind (sg_x rgp T t) (fun T => sg_s rgp T t))
       else par_rows T [t] (upd1 t y_bits)).
(** CZ, 983-1019. *)
Definition sg_cz (rgp : bool) (T : tab) (c t : N) : res tab :=
  if rgp then par_rows T [c; t] (upd2 c t cz_bits)
  else rbind (is_separable_z T c) (fun b =>
       if b then rbind (m_det rgp T c) (fun r => if fst r then sg_z rgp (snd r) t else Ok (snd r))
       else rbind (par_rows (reduced T) [c; t] (upd2 c t cz_bits)) (fun T => Ok (reduced T))).
(** AntiCZ, 1022-1057. *)
Definition sg_anticz (rgp : bool) (T : tab) (c t : N) : res tab :=
  if rgp then par_rows T [c; t] (upd2 c t anticz_bits)
  else rbind (is_separable_z T c) (fun b =>
       if b then rbind (m_det rgp T c) (fun r => if fst r then Ok (snd r) else sg_z rgp (snd r) t)
       else rbind (par_rows (reduced T) [c; t] (upd2 c t anticz_bits)) (fun T => Ok (reduced T))).
(** CNOT, 855-882 and AntiCNOT, 885-912. *)
Definition sg_cnot (rgp : bool) (T : tab) (c t : N) : res tab :=
  if rgp then par_rows T [c; t] (upd2 c t cnot_bits)
  else rbind (sg_h rgp T t) (fun T => rbind (sg_cz rgp T c t) (fun T => sg_h rgp T t)).
Definition sg_anticnot (rgp : bool) (T : tab) (c t : N) : res tab :=
  if rgp then par_rows T [c; t] (upd2 c t anticnot_bits)
  else rbind (sg_h rgp T t) (fun T => rbind (sg_anticz rgp T c t) (fun T => sg_h rgp T t)).
(** CY, 915-946 and AntiCY, 949-980. *)
Definition sg_cy (rgp : bool) (T : tab) (c t : N) : res tab :=
  if rgp then par_rows T [c; t] (upd2 c t cy_bits)
  else rbind (sg_is rgp T t) (fun T => rbind (sg_cnot rgp T c t) (fun T => sg_s rgp T t)).
Definition sg_anticy (rgp : bool) (T : tab) (c t : N) : res tab :=
  if rgp then par_rows T [c; t] (upd2 c t anticy_bits)
  else rbind (sg_is rgp T t) (fun T => rbind (sg_anticnot rgp T c t) (fun T => sg_s rgp T t)).
(** Swap, 1059-1077; generic circuit QInterface::Swap, /repo/src/qinterface/gates.cpp:166-175. *)
Definition sg_swap (rgp : bool) (T : tab) (c t : N) : res tab :=
  if c =? t then Ok T
  else if rgp then par_rows T [c; t] (upd2 c t swap_bits2)
  else rbind (sg_cnot rgp T c t) (fun T => rbind (sg_cnot rgp T t c) (fun T => sg_cnot rgp T c t)).
(** ISwap, 1079-1119; QInterface::ISwap, gates.cpp:177-187. *)
Definition sg_iswap (rgp : bool) (T : tab) (c t : N) : res tab :=
  if c =? t then Ok T
  else if rgp then par_rows T [c; t] (upd2 c t iswap_bits)
  else rbind (sg_swap rgp T c t) (fun T => rbind (sg_cz rgp T c t) (fun T => rbind (sg_s rgp T c) (fun T => sg_s rgp T t))).
(** IISwap, 1121-1161; QInterface::IISwap, gates.cpp:189-199. *)
Definition sg_iiswap (rgp : bool) (T : tab) (c t : N) : res tab :=
  if c =? t then Ok T
  else if rgp then par_rows T [c; t] (upd2 c t iiswap_bits)
  else rbind (sg_is rgp T t) (fun T => rbind (sg_is rgp T c) (fun T => rbind (sg_cz rgp T c t) (fun T => sg_swap rgp T c t))).

(** IsSeparableX, 1376-1383; IsSeparableY, 1388-1395; IsSeparable, 1404-1419. *)
Definition is_separable_x (rgp : bool) (T : tab) (t : N) : res (bool * tab) :=
  rbind (sg_h rgp T t) (fun T => rbind (is_separable_z T t) (fun b => rbind (sg_h rgp T t) (fun T => Ok (b, T)))).
Definition is_separable_y (rgp : bool) (T : tab) (t : N) : res (bool * tab) :=
  rbind (sg_is rgp T t) (fun T => rbind (is_separable_x rgp T t) (fun r => rbind (sg_s rgp (snd r) t) (fun T => Ok (fst r, T)))).
Definition is_separable (rgp : bool) (T : tab) (t : N) : res (N * tab) :=
  rbind (is_separable_z T t) (fun b => if b then Ok (1, T)
  else rbind (is_separable_x rgp T t) (fun r => if fst r then Ok (2, snd r)
  else rbind (is_separable_y rgp (snd r) t) (fun r => Ok (if fst r then 3 else 0, snd r)))).

(** SetPermutation, 89-128 (also the constructor, 38-55): rows X_0.. X_n-1, Z_0 .. Z_n-1, then X on the set bits. *)
Definition tab_zero (n : N) : tab :=
  mkTab n (fun i => if i <? max_lcv n then (if i <? n then mkRow (N.setbit 0 i) 0 0 else mkRow 0 (N.setbit 0 (i - n)) 0) else row0).
Definition set_permutation (rgp : bool) (n perm : N) : res tab :=
  fold_left (fun r j => rbind r (fun T => if N.testbit perm j then sg_x rgp T j else Ok T))
    (if perm =? 0 then [] else iota 0 (N.to_nat n)) (Ok (tab_zero n)).

(** Prob, 1881-1889: twice the probability (0, 1 or 2). *)
Definition prob2 (rgp : bool) (T : tab) (t : N) : res (N * tab) :=
  rbind (is_separable_z T t) (fun b =>
    if b then rbind (m_det rgp T t) (fun r => Ok (if fst r then 2 else 0, snd r)) else Ok (1, T)).

(** ** Composition and disposal *)

(** vector::insert of [len] false entries at [s]; vector::erase of the entries [s, s+len). *)
Definition insert_cols (s len v : N) : N := v mod 2 ^ s + v / 2 ^ s * 2 ^ (s + len).
Definition erase_cols (s len v : N) : N := v mod 2 ^ s + v / 2 ^ (s + len) * 2 ^ s.
Definition map_row (f : N -> N) (w : row) : row := mkRow (f (rx w)) (f (rz w)) (rr w).
(** Insertion and erasure of rows. *)
Definition insert_rows (at_ len : N) (new old : N -> row) : N -> row :=
  fun i => if i <? at_ then old i else if i <? at_ + len then new (i - at_) else old (i - len).
Definition erase_rows (at_ len : N) (old : N -> row) : N -> row := fun i => if i <? at_ then old i else old (i + len).

(** Compose, 1550-1607. *)
Definition stab_compose (T C : tab) (start : N) : res tab :=
  let q := t_n T in
  if q <? start then Throw
  else
    let length := t_n C in
    let secondStart := w8 (q + start) in
    let rows1 := fun i => map_row (insert_cols start length) (t_row T i) in
    (* new rows: [start] false entries in front, [endLength] behind *)
    let pad := fun w => map_row (fun v => v * 2 ^ start) w in
    let rows2 := insert_rows secondStart length (fun i => pad (t_row C (length + i))) rows1 in
    let rows3 := insert_rows start length (fun i => pad (t_row C i)) rows2 in
    Ok (mkTab (w8 (q + length)) rows3).

(** isBadBitRange, /repo/include/common/qrack_functions.hpp:170-173; it also tests for 8-bit overflow of the sum, which is
    subsumed here because the sum does not wrap. *)
Definition bad_range (start length n : N) : bool := n <? start + length.

(** CanDecomposeDispose, 1618-1680: no entries of the block's rows outside it or of other rows inside it. *)
Definition row_clear (w : row) (a k : N) : bool :=
  forallb (fun j => negb (N.testbit (rx w) j || N.testbit (rz w) j)) (iota a (N.to_nat k)).
Definition can_dispose (T : tab) (start length : N) : res (bool * tab) :=
  if bad_range start length (t_n T) then Throw
  else if t_n T =? 1 then Ok (true, T)
  else
    let T := reduced T in
    let n := t_n T in
    let end_ := start + length in
    let both i a k := row_clear (t_row T i) a k && row_clear (t_row T (i + n)) a k in
    Ok (forallb (fun i => both i start length) (iota 0 (N.to_nat start)) &&
        forallb (fun i => both i start length) (iota end_ (N.to_nat (n - end_))) &&
        forallb (fun i => both i 0 start && both i end_ (n - end_)) (iota start (N.to_nat length)), T).

(** DecomposeDispose, 1682-1760: the remaining tableau and (for Decompose) the tableau written to [dest]; the kept
    phase reads an amplitude first, which reduces the tableau once more. *)
Definition decompose_dispose (rgp dest : bool) (T : tab) (start length : N) : res (tab * tab) :=
  if bad_range start length (t_n T) then Throw
  else if length =? 0 then Ok (T, mkTab 0 (t_row T))
  else
    let T := reduced (if rgp || dest then T else reduced T) in
    let q := t_n T in
    let d := mkTab length (fun i => map_row (fun v => (v / 2 ^ start) mod 2 ^ length)
               (if i <? length then t_row T (start + i) else t_row T (q + start + (i - length)))) in
    let rows1 := erase_rows (q + start) length (t_row T) in
    let rows2 := erase_rows start length rows1 in
    let T' := mkTab (q - length) (fun i => map_row (erase_cols start length) (rows2 i)) in
    Ok (if rgp || dest then T' else reduced T', d).
Definition stab_dispose (rgp : bool) (T : tab) (start length : N) : res tab :=
  rbind (decompose_dispose rgp false T start length) (fun r => Ok (fst r)).
