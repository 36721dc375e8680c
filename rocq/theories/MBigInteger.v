(** Model of the wide-integer layer of Qrack (used for the qubit-address type when
    the build asks for more than 128 qubits, QBCAPPOW >= 8).
    Source: /repo/include/common/big_integer.hpp and /repo/src/common/big_integer.cpp.

    A BigInteger is an array of words, least significant first (big_integer.hpp:67-68); here a
    list of integers.  The word width is [2 ^ p] bits, where [p] is BIG_INTEGER_WORD_POWER
    (big_integer.hpp:42-56: 7 with __int128, else 6); [p] and the number of words are arbitrary.
    Word arithmetic wraps: every word result is reduced [mod B p]. *)
From Coq Require Import ZArith List Bool.
Import ListNotations.
Local Open Scope Z_scope.

(** BIG_INTEGER_WORD_BITS, big_integer.hpp:43,50. *)
Definition wbits (p : Z) : Z := 2 ^ p.
(** Number of values of a word (the modulus of word arithmetic). *)
Definition B (p : Z) : Z := 2 ^ (wbits p).
(** BIG_INTEGER_HALF_WORD_BITS, big_integer.hpp:63. *)
Definition hbits (p : Z) : Z := wbits p / 2.
(** Number of values of a half word. *)
Definition HW (p : Z) : Z := 2 ^ (hbits p).

(** Array read; out-of-range reads do not occur in the modelled loops. *)
Definition get (l : list Z) (i : nat) : Z := nth i l 0.
(** Array write. *)
Fixpoint upd (l : list Z) (i : nat) (v : Z) : list Z :=
  match l, i with
  | [], _ => []
  | _ :: t, O => v :: t
  | x :: t, S i' => x :: upd t i' v
  end.

(** [for (int i = i0; i < i0 + k; ++i) s = f(i, s)]. *)
Fixpoint loop {A} (k : nat) (i0 : nat) (f : nat -> A -> A) (s : A) : A :=
  match k with
  | O => s
  | S k' => loop k' (S i0) f (f i0 s)
  end.

(** BIG_INTEGER_MAX_WORD_INDEX, big_integer.hpp:65. *)
Definition max_ix (l : list Z) : nat := pred (length l).

(** bi_compare, big_integer.hpp:120-133: from the highest word down, early return. *)
Fixpoint compare_from (k : nat) (l r : list Z) : Z :=
  match k with
  | O => 0
  | S i => if get r i <? get l i then 1
           else if get l i <? get r i then -1
           else compare_from i l r
  end.
Definition bi_compare (l r : list Z) : Z := compare_from (length l) l r.

(** bi_compare_0, big_integer.hpp:135-144. *)
Definition bi_compare_0 (l : list Z) : Z :=
  if existsb (fun x => negb (x =? 0)) l then 1 else 0.

(** bi_compare_1, big_integer.hpp:146-163. *)
Definition bi_compare_1 (l : list Z) : Z :=
  if existsb (fun x => negb (x =? 0)) (tl l) then 1
  else if 1 <? get l 0 then 1
  else if get l 0 <? 1 then -1
  else 0.

(** operator+, big_integer.hpp:165-175.  The uninitialised words of [result] are written before
    they are read; here the initial array is all zero (for one word the loop is empty and
    bits[0] = 0 is used). *)
Definition bi_plus (p : Z) (l r : list Z) : list Z :=
  let m := max_ix l in
  let res0 := map (fun _ => 0) l in
  let res := loop m 0 (fun i s =>
      let s1 := upd s i ((get s i + (get l i + get r i)) mod B p) in
      upd s1 (S i) (if get s1 i <? get l i then 1 else 0)) res0 in
  upd res m ((get res m + get r m) mod B p).

(** operator-, big_integer.hpp:190-200; the assigned -1 is the all-ones word. *)
Definition bi_minus (p : Z) (l r : list Z) : list Z :=
  let m := max_ix l in
  let res0 := map (fun _ => 0) l in
  let res := loop m 0 (fun i s =>
      let s1 := upd s i ((get s i + (get l i - get r i)) mod B p) in
      upd s1 (S i) (if get l i <? get s1 i then (-1) mod B p else 0)) res0 in
  upd res m ((get res m - get r m) mod B p).

(** The carry loop shared by bi_add_ip (big_integer.hpp:183-185) and operator* (big_integer.cpp:85-87):
    [while ((j < MAX) && (bits[j] < temp)) temp = bits[++j]++]. *)
Fixpoint ripple_up (p : Z) (fuel : nat) (m j : nat) (temp : Z) (l : list Z) : list Z :=
  match fuel with
  | O => l
  | S f => if (Nat.ltb j m && (get l j <? temp))%bool
           then let t := get l (S j) in
                ripple_up p f m (S j) t (upd l (S j) ((t + 1) mod B p))
           else l
  end.

(** The borrow loop of bi_sub_ip, big_integer.hpp:208-210. *)
Fixpoint ripple_down (p : Z) (fuel : nat) (m j : nat) (temp : Z) (l : list Z) : list Z :=
  match fuel with
  | O => l
  | S f => if (Nat.ltb j m && (temp <? get l j))%bool
           then let t := get l (S j) in
                ripple_down p f m (S j) t (upd l (S j) ((t - 1) mod B p))
           else l
  end.

(** bi_add_ip, big_integer.hpp:177-188. *)
Definition bi_add_ip (p : Z) (l r : list Z) : list Z :=
  let m := max_ix l in
  let l1 := loop m 0 (fun i s =>
      let temp := get s i in
      ripple_up p (length l) m i temp (upd s i ((get s i + get r i) mod B p))) l in
  upd l1 m ((get l1 m + get r m) mod B p).

(** bi_sub_ip, big_integer.hpp:202-213. *)
Definition bi_sub_ip (p : Z) (l r : list Z) : list Z :=
  let m := max_ix l in
  let l1 := loop m 0 (fun i s =>
      let temp := get s i in
      ripple_down p (length l) m i temp (upd s i ((get s i - get r i) mod B p))) l in
  upd l1 m ((get l1 m - get r m) mod B p).

(** The loop of bi_increment, big_integer.hpp:224-229, from word [i]. *)
Fixpoint inc_from (p : Z) (fuel : nat) (i : nat) (l : list Z) : list Z :=
  match fuel with
  | O => l
  | S f => let temp := get l i in
           let l' := upd l i ((temp + 1) mod B p) in
           if temp <=? get l' i then l' else inc_from p f (S i) l'
  end.

(** bi_increment, big_integer.hpp:215-230 (the loop starts at word 1). *)
Definition bi_increment (p : Z) (l : list Z) (v : Z) : list Z :=
  let temp := get l 0 in
  let l1 := upd l 0 ((temp + v) mod B p) in
  if temp <=? get l1 0 then l1 else inc_from p (length l - 1) 1 l1.

(** The loop of bi_decrement, big_integer.hpp:241-246, from word [i]. *)
Fixpoint dec_from (p : Z) (fuel : nat) (i : nat) (l : list Z) : list Z :=
  match fuel with
  | O => l
  | S f => let temp := get l i in
           let l' := upd l i ((temp - 1) mod B p) in
           if get l' i <=? temp then l' else dec_from p f (S i) l'
  end.

(** bi_decrement, big_integer.hpp:232-247.  The loop starts at word 0 as in the source. *)
Definition bi_decrement (p : Z) (l : list Z) (v : Z) : list Z :=
  let temp := get l 0 in
  let l1 := upd l 0 ((temp - v) mod B p) in
  if get l1 0 <=? temp then l1 else dec_from p (length l) 0 l1.

(** bi_lshift_word, big_integer.hpp:259-271 ([BigInteger result = 0], then
    result.bits[i] = left.bits[i - rightMult] for i >= rightMult). *)
Definition bi_lshift_word (l : list Z) (k : nat) : list Z :=
  match k with
  | O => l
  | _ => loop (length l - k) k (fun i s => upd s i (get l (i - k))) (map (fun _ => 0) l)
  end.

(** bi_rshift_word, big_integer.hpp:289-301. *)
Definition bi_rshift_word (l : list Z) (k : nat) : list Z :=
  match k with
  | O => l
  | _ => loop (length l - k) k (fun i s => upd s (i - k) (get l i)) (map (fun _ => 0) l)
  end.

(** bi_lshift_word_ip, big_integer.hpp:273-287, in place and ascending, shift masked with 63.
    [None] is an out-of-bounds write (more words to clear than the array has). *)
Definition bi_lshift_word_ip (l : list Z) (k0 : nat) : option (list Z) :=
  let k := (k0 mod 64)%nat in
  match k with
  | O => Some l
  | _ => let l1 := loop (length l - k) k (fun i s => upd s i (get s (i - k))) l in
         if Nat.ltb (length l) k then None
         else Some (loop k 0 (fun i s => upd s i 0) l1)
  end.

(** bi_rshift_word_ip, big_integer.hpp:303-315.  [None]: out-of-bounds write. *)
Definition bi_rshift_word_ip (l : list Z) (k : nat) : option (list Z) :=
  match k with
  | O => Some l
  | _ => let l1 := loop (length l - k) k (fun i s => upd s (i - k) (get s i)) l in
         if Nat.ltb (length l) k then None
         else Some (loop k 0 (fun i s => upd s (max_ix l - i) 0) l1)
  end.

(** The sub-word part of operator<< and bi_lshift_ip, big_integer.hpp:328-334 / 350-356:
    word by word upwards with a carry. *)
Fixpoint lshift_bits (p rMod carry : Z) (l : list Z) : list Z :=
  match l with
  | [] => []
  | x :: t => Z.lor carry ((Z.shiftl x rMod) mod B p)
              :: lshift_bits p rMod (Z.shiftr x (wbits p - rMod)) t
  end.

(** The sub-word part of operator>> and bi_rshift_ip, big_integer.hpp:370-376 / 392-398:
    word by word downwards; the recursion returns the new words and the carry out of the
    words above. *)
Fixpoint rshift_bits (p rMod : Z) (l : list Z) : list Z * Z :=
  match l with
  | [] => ([], 0)
  | x :: t => let '(t', carry) := rshift_bits p rMod t in
              (Z.lor carry (Z.shiftr x rMod) :: t', (Z.shiftl x (wbits p - rMod)) mod B p)
  end.

(** operator<<, big_integer.hpp:317-337.  [s >= 0] is the shift amount (its word part is assumed to
    fit the C++ [int]). *)
Definition bi_shl (p : Z) (l : list Z) (s : Z) : list Z :=
  let rShift := Z.shiftr s p in
  let rMod := s - Z.shiftl rShift p in
  let res := bi_lshift_word l (Z.to_nat rShift) in
  if rMod =? 0 then res else lshift_bits p rMod 0 res.

(** operator>>, big_integer.hpp:359-379. *)
Definition bi_shr (p : Z) (l : list Z) (s : Z) : list Z :=
  let rShift := Z.shiftr s p in
  let rMod := s - Z.shiftl rShift p in
  let res := bi_rshift_word l (Z.to_nat rShift) in
  if rMod =? 0 then res else fst (rshift_bits p rMod res).

(** bi_lshift_ip, big_integer.hpp:339-357. *)
Definition bi_lshift_ip (p : Z) (l : list Z) (s : Z) : option (list Z) :=
  let rShift := Z.shiftr s p in
  let rMod := s - Z.shiftl rShift p in
  match bi_lshift_word_ip l (Z.to_nat rShift) with
  | None => None
  | Some res => Some (if rMod =? 0 then res else lshift_bits p rMod 0 res)
  end.

(** bi_rshift_ip, big_integer.hpp:381-399. *)
Definition bi_rshift_ip (p : Z) (l : list Z) (s : Z) : option (list Z) :=
  let rShift := Z.shiftr s p in
  let rMod := s - Z.shiftl rShift p in
  match bi_rshift_word_ip l (Z.to_nat rShift) with
  | None => None
  | Some res => Some (if rMod =? 0 then res else fst (rshift_bits p rMod res))
  end.

(** bi_log2, big_integer.hpp:401-410: count right shifts by one until zero.
    [fuel] bounds the number of iterations; [None] means the bound was hit (or an out-of-bounds
    write, which does not happen for shifts by one). *)
Fixpoint log2_loop (p : Z) (fuel : nat) (q : list Z) (pw : Z) : option Z :=
  if bi_compare_0 q =? 0 then Some pw else
  match fuel with
  | O => None
  | S f => match bi_rshift_ip p q 1 with
           | None => None
           | Some q' => log2_loop p f q' (pw + 1)
           end
  end.
Definition bi_log2 (p : Z) (fuel : nat) (l : list Z) : option Z :=
  log2_loop p fuel (bi_shr p l 1) 0.

(** Bitwise operators, big_integer.hpp:414-476. *)
Definition bi_and (l r : list Z) : list Z := map (fun xy => Z.land (fst xy) (snd xy)) (combine l r).
Definition bi_or (l r : list Z) : list Z := map (fun xy => Z.lor (fst xy) (snd xy)) (combine l r).
Definition bi_xor (l r : list Z) : list Z := map (fun xy => Z.lxor (fst xy) (snd xy)) (combine l r).
Definition bi_not (p : Z) (l : list Z) : list Z := map (fun x => (Z.lnot x) mod B p) l.

(** bi_and_1, big_integer.hpp:412. *)
Definition bi_and_1 (l : list Z) : Z := Z.land (get l 0) 1.

(** operator*(BigInteger, half word), big_integer.cpp:39-56.  Iterations 2k and 2k+1 of the loop work
    on word k; they are written here as one step of a recursion over the words. *)
Fixpoint mul_half_from (p : Z) (carry : Z) (l : list Z) (r : Z) : list Z :=
  match l with
  | [] => []
  | x :: t =>
      (* i even: low half, big_integer.cpp:50-52 *)
      let temp0 := (r * (Z.land x (HW p - 1)) + carry) mod B p in
      let carry0 := Z.shiftr temp0 (hbits p) in
      let w0 := Z.lor 0 (Z.land temp0 (HW p - 1)) in
      (* i odd: high half, big_integer.cpp:46-48 *)
      let temp1 := (r * (Z.shiftr x (hbits p)) + carry0) mod B p in
      let carry1 := Z.shiftr temp1 (hbits p) in
      let w1 := Z.lor w0 ((Z.shiftl (Z.land temp1 (HW p - 1)) (hbits p)) mod B p) in
      w1 :: mul_half_from p carry1 t r
  end.
Definition bi_mul_half (p : Z) (l : list Z) (r : Z) : list Z := mul_half_from p 0 l r.

(** Inner loop of operator*(BigInteger, BigInteger), big_integer.cpp:81-88. *)
Definition mul_add_from (p : Z) (iWord : nat) (res part : list Z) : list Z :=
  loop (length res - iWord) iWord (fun j s =>
      let temp := get s j in
      ripple_up p (length res) (max_ix res) j temp (upd s j ((get s j + get part j) mod B p))) res.

(** Outer loop of operator*(BigInteger, BigInteger), big_integer.cpp:74-90, from bit [i] with [k]
    iterations left. *)
Fixpoint mul_loop (p : Z) (k : nat) (i : nat) (l r res : list Z) : list Z :=
  match k with
  | O => res
  | S k' =>
      let part := bi_shl p r (Z.of_nat i) in
      if bi_compare_0 part =? 0 then res
      else
        let iWord := Z.to_nat (Z.of_nat i / wbits p) in
        let bit := Z.land 1 (Z.shiftr (get l iWord) (Z.of_nat i - Z.of_nat iWord * wbits p)) in
        mul_loop p k' (S i) l r (if bit =? 0 then res else mul_add_from p iWord res part)
  end.

(** operator*(BigInteger, BigInteger), big_integer.cpp:61-93.  The [None] case (log2 not computed within
    the total number of bits) does not occur. *)
Definition bi_mul (p : Z) (l r : list Z) : option (list Z) :=
  let bits := wbits p * Z.of_nat (length l) in
  match bi_log2 p (Z.to_nat bits) r with
  | None => None
  | Some rl => if rl =? 0 then Some l
               else Some (mul_loop p (Z.to_nat (bits - rl)) 0 l r (map (fun _ => 0) l))
  end.

(** bi_div_mod_small, big_integer.cpp:182-217: from the highest half word down.  Iterations 2k+1 and 2k
    work on word k.  Returns the quotient words and the final carry (the remainder).
    The two branches of the source (with and without quotient) compute the same carry. *)
Fixpoint div_small (p : Z) (l : list Z) (r : Z) : list Z * Z :=
  match l with
  | [] => ([], 0)
  | x :: t =>
      let '(q, c) := div_small p t r in
      (* i odd: big_integer.cpp:190-193,198 *)
      let c1 := Z.lor ((Z.shiftl c (hbits p)) mod B p) (Z.shiftr x (hbits p)) in
      let q1 := (Z.shiftl (c1 / r) (hbits p)) mod B p in
      let c1' := c1 mod r in
      (* i even: big_integer.cpp:190,195-198 *)
      let c0 := Z.lor ((Z.shiftl c1' (hbits p)) mod B p) (Z.land x (HW p - 1)) in
      (Z.lor q1 (c0 / r) :: q, c0 mod r)
  end.

(** One iteration of the while loop of bi_div_mod, big_integer.cpp:290-301; [rl] is rightLog2. *)
Definition div_step (p : Z) (r : list Z) (rl : Z) (fuel : nat) (st : list Z * list Z)
  : option (list Z * list Z) :=
  let '(q, rem) := st in
  match bi_log2 p fuel rem with
  | None => None
  | Some remLog2 =>
      let logDiff := remLog2 - rl in
      let bi1 := upd (map (fun _ => 0) r) 0 1 in
      if 0 <? logDiff
      then Some (bi_add_ip p q (bi_shl p bi1 logDiff), bi_sub_ip p rem (bi_shl p r logDiff))
      else Some (bi_increment p q 1, bi_sub_ip p rem r)
  end.

(** The while loop, big_integer.cpp:290-301, bounded by [fuel] iterations ([None]: bound hit). *)
Fixpoint div_loop (p : Z) (fuel : nat) (r : list Z) (rl : Z) (st : list Z * list Z)
  : option (list Z * list Z) :=
  if bi_compare (snd st) r <? 0 then Some st else
  match fuel with
  | O => None
  | S f => match div_step p r rl (Z.to_nat (wbits p * Z.of_nat (length r))) st with
           | None => None
           | Some st' => div_loop p f r rl st'
           end
  end.

(** bi_div_mod, big_integer.cpp:221-316; returns (quotient, remainder).  Division by zero is not
    modelled (the source divides by zero in bi_div_mod_small); callers state [r <> 0]. *)
Definition bi_div_mod (p : Z) (fuel : nat) (l r : list Z) : option (list Z * list Z) :=
  let zero := map (fun _ => 0) l in
  let one := upd zero 0 1 in
  let c := bi_compare l r in
  if c <? 0 then Some (zero, l)
  else if c =? 0 then Some (one, zero)
  else if (get r 0 <=? HW p - 1) && negb (existsb (fun x => negb (x =? 0)) (tl r))
  then let '(q, t) := div_small p l (get r 0) in Some (q, upd zero 0 t)
  else
    match bi_log2 p (Z.to_nat (wbits p * Z.of_nat (length r))) r with
    | None => None
    | Some rl0 =>
        let rightTest := bi_shl p one rl0 in
        let rl := if bi_compare r rightTest <? 0 then rl0 + 1 else rl0 in
        div_loop p fuel r rl (zero, l)
    end.
