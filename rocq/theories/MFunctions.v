(** Model of the native integer helpers.
    Sources: /repo/include/common/qrack_functions.hpp, /repo/src/common/functions.cpp,
    /repo/include/common/qrack_types.hpp (default build: bitLenInt = 8 bits, bitCapIntOcl = 64 bits,
    bitCapInt = 128 bits). *)
From Coq Require Import NArith ZArith List Bool.
From Verif Require Import MBigInteger.
Import ListNotations.
Local Open Scope N_scope.

(** 64-bit wrap-around (bitCapIntOcl, UINTPOW = 6). *)
Definition w64 (x : N) : N := x mod 2 ^ 64.
(** 128-bit wrap-around (bitCapInt, QBCAPPOW = 7). *)
Definition w128 (x : N) : N := x mod 2 ^ 128.
(** [~x] on 64-bit words. *)
Definition not64 (x : N) : N := N.lxor x (2 ^ 64 - 1).

(** log2Ocl, qrack_functions.hpp:91-114, the portable loop (lines 108-112): shift right until zero.
    64 iterations suffice for a 64-bit argument.  The intrinsic variants return the same value for n > 0. *)
Fixpoint log2Ocl_loop (fuel : nat) (p pow : N) : N :=
  match fuel with
  | O => pow
  | S f => if p =? 0 then pow else log2Ocl_loop f (N.shiftr p 1) (pow + 1)
  end.
Definition log2Ocl (n : N) : N := log2Ocl_loop 64 (N.shiftr n 1) 0.

(** bi_log2 in builds with a native 128-bit bitCapInt, qrack_functions.hpp:133: [return log2Ocl(n)], where
    the parameter type of log2Ocl is the 64-bit bitCapIntOcl, so the argument is truncated. *)
Definition bi_log2_native (n : N) : N := log2Ocl (w64 n).

(** pow2Mask and bitRegMask, qrack_functions.hpp:137-160 (64-bit forms). *)
Definition pow2Ocl (p : N) : N := w64 (N.shiftl 1 p).
Definition pow2MaskOcl (p : N) : N := w64 (N.shiftl 1 p) - 1.
Definition bitRegMaskOcl (start length : N) : N := w64 (N.shiftl (w64 (N.shiftl 1 length) - 1) start).

(** isPowerOfTwoOcl, qrack_functions.hpp:170. *)
Definition isPowerOfTwoOcl (x : N) : bool := negb (x =? 0) && (N.land x (x - 1) =? 0).

(** isBadBitRange, qrack_functions.hpp:171-174.  The first sum is computed in [int] (no wrap), the second
    is cast back to the 8-bit bitLenInt. *)
Definition isBadBitRange (start length qubitCount : N) : bool :=
  (qubitCount <? start + length) || ((start + length) mod 2 ^ 8 <? start).

(** isBadPermRange, qrack_functions.hpp:175-178: both sums wrap at 64 bits. *)
Definition isBadPermRange (start length maxQPower : N) : bool :=
  (maxQPower <? w64 (start + length)) || (w64 (start + length) <? start).

(** ThrowIfQbIdArrayIsBad, qrack_functions.hpp:179-196; [true] means "throws". *)
Fixpoint idArrayBad_loop (controls : list N) (qubitCount : N) (dupes : list N) : bool :=
  match controls with
  | [] => false
  | c :: t => if qubitCount <=? c then true
              else if existsb (N.eqb c) dupes then true
              else idArrayBad_loop t qubitCount (c :: dupes)
  end.
Definition throwIfQbIdArrayIsBad (controls : list N) (qubitCount : N) : bool :=
  idArrayBad_loop controls qubitCount [].

(** intPowOcl, functions.cpp:77-93: recursive square-and-multiply on wrapping 64-bit words. *)
Fixpoint intPowOcl_pos (base : N) (power : positive) : N :=
  match power with
  | xH => base
  | xO q => let tmp := intPowOcl_pos base q in w64 (tmp * tmp)
  | xI q => let tmp := intPowOcl_pos base q in w64 (w64 (tmp * tmp) * base)
  end.
Definition intPowOcl (base power : N) : N :=
  match power with
  | 0 => 1
  | Npos q => intPowOcl_pos base q
  end.

(** isOverflowAdd, functions.cpp:214-235. *)
Definition isOverflowAdd (inOutInt inInt signMask lengthPower : N) : bool :=
  if negb (N.land (N.land inOutInt inInt) signMask =? 0) then
    let a := w64 (N.land (not64 inOutInt) (lengthPower - 1) + 1) in
    let b := w64 (N.land (not64 inInt) (lengthPower - 1) + 1) in
    signMask <? w64 (a + b)
  else if negb (N.land (N.land (not64 inOutInt) (not64 inInt)) signMask =? 0) then
    signMask <=? w64 (inOutInt + inInt)
  else false.

(** isOverflowSub, functions.cpp:238-258. *)
Definition isOverflowSub (inOutInt inInt signMask lengthPower : N) : bool :=
  if negb (N.land (N.land inOutInt (not64 inInt)) signMask =? 0) then
    let a := w64 (N.land (not64 inOutInt) (lengthPower - 1) + 1) in
    signMask <? w64 (a + inInt)
  else if negb (N.land (N.land (not64 inOutInt) inInt) signMask =? 0) then
    let b := w64 (N.land (not64 inInt) (lengthPower - 1) + 1) in
    signMask <=? w64 (inOutInt + b)
  else false.

(** pushApartBits, functions.cpp:260-276; the skip list holds powers of two, given here as such.
    Left shifts wrap at the width of bitCapInt. *)
Fixpoint pushApart_loop (i iHigh : N) (skipPowers : list N) : N :=
  match skipPowers with
  | [] => N.lor i iHigh
  | s :: t => let iLow := N.land iHigh (s - 1) in
              pushApart_loop (N.lor i iLow) (w128 (N.shiftl (N.lxor iHigh iLow) 1)) t
  end.
Definition pushApartBits (perm : N) (skipPowers : list N) : N :=
  match skipPowers with
  | [] => perm
  | _ => pushApart_loop 0 perm skipPowers
  end.

(** operator<<(std::ostream&, bitCapInt), functions.cpp:279-311, default 128-bit build.  The while loop tests
    the constant parameter [b] (line 290) while dividing the copy [_b]; [fuel] bounds the number of
    iterations, [None] means that many iterations were not enough.  Characters are digit values. *)
Fixpoint print_loop (fuel : nat) (b b' : N) (digits : list N) : option (list N) :=
  if b =? 0 then Some digits else
  match fuel with
  | O => None
  | S f => print_loop f b (b' / 10) (b' mod 10 :: digits)
  end.
Definition print_bci (fuel : nat) (b : N) : option (list N) :=
  if b =? 0 then Some [0] else print_loop fuel b b [].

(** operator>>(std::istream&, bitCapInt), functions.cpp:313-328, default 128-bit build; [input] is the list of
    character codes. *)
Definition parse_bci (input : list N) : N :=
  fold_left (fun b c => w128 (w128 (b * 10) + (c - 48))) input 0.

(** The same function in wide-integer builds (QBCAPPOW >= 8): [b * 10U] is operator*(BigInteger, half word) and
    bi_increment adds the digit. *)
Definition parse_big (p : Z) (n : nat) (input : list N) : list Z :=
  fold_left (fun b c => bi_increment p (bi_mul_half p b 10) (Z.of_N (c - 48))) input (repeat 0%Z n).
