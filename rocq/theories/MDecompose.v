(** Model of QEngineCPU::DecomposeDispose, /repo/src/qengine/state.cpp:1123-1268: separating a register from the rest. *)
From Coq Require Import NArith QArith List Bool.
From Verif Require Import MFunctions MParFor MKernel Amp.
Import ListNotations.
Local Open Scope N_scope.

(** Index computation, state.cpp:1178-1183 (and 1193-1199): remainder value [lcv], register value [k]. *)
Definition dd_index (start length lcv k : N) : N :=
  let j := N.land lcv (pow2MaskOcl start) in
  N.lor (N.lor j (w64 (N.shiftl (N.lxor lcv j) length))) (w64 (N.shiftl k start)).

(** The shared accumulation of the first loop, state.cpp:1181-1189: each call of the body adds its own term to every cell
    of the array [partStateAngle] of [part] cells.  (The second loop does the same to [remainderStateAngle], 1196-1205.)
    The cells hold numbers of any ring. *)
Fixpoint angle_cells {K : StarRing} (term : N -> N -> K) (lcv : N) (ks : list N) : prog K :=
  match ks with
  | [] => Ret
  | k :: t => Rd k (fun y => Wr k (y + term lcv k)%amp (angle_cells term lcv t))
  end.
Definition angle_body {K : StarRing} (term : N -> N -> K) (part : nat) (lcv : N) : prog K := angle_cells term lcv (iota 0 part).

(** ** The computation itself, free of races *)
(** An amplitude in polar form: squared magnitude and argument in units of pi, in (-1, 1] as std::arg returns. *)
Definition qsumf {T} (f : T -> Q) (l : list T) : Q := fold_right (fun x a => f x + a)%Q 0%Q l.
(** amplitudeFloor is taken as zero: contributions of zero-probability amplitudes are skipped, as is the division by a
    zero probability. *)
Definition dd_norm_arg (p a : Q) : Q := if Qle_bool p 0 then 0%Q else (a * p)%Q.
Definition dd_div (a p : Q) : Q := if Qle_bool p 0 then a else (a / p)%Q.
Definition powers (n : N) : list N := iota 0 (N.to_nat (2 ^ n)).
Definition dd_part_prob (prob : N -> Q) (start length nLength k : N) : Q :=
  qsumf (fun r => prob (dd_index start length r k)) (powers nLength).
Definition dd_rem_prob (prob : N -> Q) (start length r : N) : Q :=
  qsumf (fun k => prob (dd_index start length r k)) (powers length).
Definition dd_part_angle (prob angle : N -> Q) (start length nLength k : N) : Q :=
  dd_div (qsumf (fun r => dd_norm_arg (prob (dd_index start length r k)) (angle (dd_index start length r k))) (powers nLength))
    (dd_part_prob prob start length nLength k).
Definition dd_rem_angle (prob angle : N -> Q) (start length r : N) : Q :=
  dd_div (qsumf (fun k => dd_norm_arg (prob (dd_index start length r k)) (angle (dd_index start length r k))) (powers length))
    (dd_rem_prob prob start length r).
