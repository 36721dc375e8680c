(** Property theorems C01-C07: wide integers (BigInteger).
    [B p] is the number of values of a word of 2^p bits; [big_value], [big_wf] are the specification.
    The real configuration is p = 7 (128-bit words); n is the number of words. *)
From Coq Require Import ZArith List Bool Lia.
From Verif Require Import MBigInteger SpecBigInteger PBigInteger PBigInteger2.
Import ListNotations.
Local Open Scope Z_scope.

(** * C01 in-place addition, subtraction, increment *)
Theorem c01_add_in_place : forall p n l r, 0 <= p -> (0 < n)%nat ->
  big_wf (B p) n l -> big_wf (B p) n r ->
  big_wf (B p) n (bi_add_ip p l r) /\
  big_value (B p) (bi_add_ip p l r) = (big_value (B p) l + big_value (B p) r) mod B p ^ Z.of_nat n.
Proof. exact bi_add_ip_ok. Qed.
Print Assumptions c01_add_in_place.
Example c01_add_example : (* carry through three words *)
  bi_add_ip 2 [15; 15; 14; 3] [1; 0; 1; 2] = [0; 0; 0; 6].
Proof. vm_compute. reflexivity. Qed.

Theorem c01_sub_in_place : forall p n l r, 0 <= p -> (0 < n)%nat ->
  big_wf (B p) n l -> big_wf (B p) n r ->
  big_wf (B p) n (bi_sub_ip p l r) /\
  big_value (B p) (bi_sub_ip p l r) = (big_value (B p) l - big_value (B p) r) mod B p ^ Z.of_nat n.
Proof. exact bi_sub_ip_ok. Qed.
Print Assumptions c01_sub_in_place.
Example c01_sub_example : bi_sub_ip 3 [0; 0; 0; 7] [1; 0; 0; 8] = [255; 255; 255; 254].
Proof. vm_compute. reflexivity. Qed.

Theorem c01_increment : forall p n l v, 0 <= p -> (0 < n)%nat -> big_wf (B p) n l -> 0 <= v < B p ->
  big_wf (B p) n (bi_increment p l v) /\
  big_value (B p) (bi_increment p l v) = (big_value (B p) l + v) mod B p ^ Z.of_nat n.
Proof. exact bi_increment_ok. Qed.
Print Assumptions c01_increment.
Example c01_increment_example : big_wf (B 7) 2 [2 ^ 128 - 1; 4] /\ bi_increment 7 [2 ^ 128 - 1; 4] 3 = [2; 5].
Proof. split; [split; [reflexivity | repeat constructor; vm_compute; congruence] | vm_compute; reflexivity]. Qed.

(** * C02 operator+ and operator-: the full statement is false; the restricted statements hold. *)
Theorem c02_plus_partial : forall p n l r, 0 <= p -> (0 < n)%nat -> big_wf (B p) n l -> big_wf (B p) n r ->
  get l (n - 1) = 0 -> (forall i, (i < n)%nat -> get r i < B p - 1) ->
  big_wf (B p) n (bi_plus p l r) /\
  big_value (B p) (bi_plus p l r) = (big_value (B p) l + big_value (B p) r) mod B p ^ Z.of_nat n.
Proof. exact bi_plus_restricted. Qed.
Print Assumptions c02_plus_partial.
Example c02_plus_example : bi_plus 7 [2 ^ 128 - 1; 0] [7; 9] = [6; 10].
Proof. vm_compute. reflexivity. Qed.

Theorem c02_minus_partial : forall p n l r, 0 <= p -> (0 < n)%nat -> big_wf (B p) n l -> big_wf (B p) n r ->
  get l (n - 1) = 0 -> (forall i, (i < n)%nat -> get r i < B p - 1) ->
  big_wf (B p) n (bi_minus p l r) /\
  big_value (B p) (bi_minus p l r) = (big_value (B p) l - big_value (B p) r) mod B p ^ Z.of_nat n.
Proof. exact bi_minus_restricted. Qed.
Print Assumptions c02_minus_partial.
Example c02_minus_example : bi_minus 7 [12; 0] [7; 9] = [5; 2 ^ 128 - 9].
Proof. vm_compute. reflexivity. Qed.

(** The unrestricted statement fails in the real configuration with two words: the top word of the left
    operand is dropped, and a carry into an all-ones word is lost (third clause, three words). *)
Theorem c02_plus_refuted : exists l r, big_wf (B 7) 2 l /\ big_wf (B 7) 2 r /\
  big_value (B 7) (bi_plus 7 l r) <> (big_value (B 7) l + big_value (B 7) r) mod B 7 ^ 2.
Proof.
  exists [0; 1], [0; 0]. split; [|split].
  - split; [reflexivity | repeat constructor; vm_compute; congruence].
  - split; [reflexivity | repeat constructor; vm_compute; congruence].
  - vm_compute. congruence.
Qed.
Print Assumptions c02_plus_refuted.

Theorem c02_plus_lost_carry_refuted : exists l r, big_wf (B 7) 3 l /\ big_wf (B 7) 3 r /\ get l 2 = 0 /\
  big_value (B 7) (bi_plus 7 l r) <> (big_value (B 7) l + big_value (B 7) r) mod B 7 ^ 3.
Proof.
  exists [1; 5; 0], [2 ^ 128 - 1; 2 ^ 128 - 1; 0]. split; [|split; [|split]].
  - split; [reflexivity | repeat constructor; vm_compute; congruence].
  - split; [reflexivity | repeat constructor; vm_compute; congruence].
  - reflexivity.
  - vm_compute. congruence.
Qed.
Print Assumptions c02_plus_lost_carry_refuted.

Theorem c02_minus_refuted : exists l r, big_wf (B 7) 2 l /\ big_wf (B 7) 2 r /\
  big_value (B 7) (bi_minus 7 l r) <> (big_value (B 7) l - big_value (B 7) r) mod B 7 ^ 2.
Proof.
  exists [0; 1], [0; 0]. split; [|split].
  - split; [reflexivity | repeat constructor; vm_compute; congruence].
  - split; [reflexivity | repeat constructor; vm_compute; congruence].
  - vm_compute. congruence.
Qed.
Print Assumptions c02_minus_refuted.

(** * C03 decrement: exact when the lowest word does not borrow; wrong in EVERY other case. *)
Theorem c03_decrement_partial : forall p n l v, 0 <= p -> (0 < n)%nat -> big_wf (B p) n l -> 0 <= v <= get l 0 ->
  big_wf (B p) n (bi_decrement p l v) /\ big_value (B p) (bi_decrement p l v) = big_value (B p) l - v.
Proof. exact bi_decrement_noborrow. Qed.
Print Assumptions c03_decrement_partial.
Example c03_decrement_example : bi_decrement 7 [5; 3] 4 = [1; 3].
Proof. vm_compute. reflexivity. Qed.

Theorem c03_decrement_with_borrow_always_off : forall p n l v, 0 <= p -> (0 < n)%nat -> big_wf (B p) n l ->
  get l 0 < v < B p ->
  big_wf (B p) n (bi_decrement p l v) /\
  big_value (B p) (bi_decrement p l v) = big_value (B p) l - v + (B p - 1).
Proof. exact bi_decrement_borrow. Qed.
Print Assumptions c03_decrement_with_borrow_always_off.

Theorem c03_decrement_refuted : exists l v, big_wf (B 7) 2 l /\ 0 <= v < B 7 /\
  big_value (B 7) (bi_decrement 7 l v) <> (big_value (B 7) l - v) mod B 7 ^ 2.
Proof.
  exists [0; 1], 1. split; [|split].
  - split; [reflexivity | repeat constructor; vm_compute; congruence].
  - split; [lia | vm_compute; reflexivity].
  - vm_compute. congruence.
Qed.
Print Assumptions c03_decrement_refuted.

(** * C04 comparison and bitwise operators *)
Theorem c04_compare : forall p n l r, 0 <= p -> big_wf (B p) n l -> big_wf (B p) n r ->
  bi_compare l r = Z.sgn (big_value (B p) l - big_value (B p) r).
Proof. exact bi_compare_ok. Qed.
Print Assumptions c04_compare.
Example c04_compare_example : bi_compare [9; 1] [0; 2] = -1 /\ bi_compare [9; 2] [0; 2] = 1.
Proof. split; vm_compute; reflexivity. Qed.

Theorem c04_compare_zero : forall p n l, 0 <= p -> big_wf (B p) n l -> bi_compare_0 l = Z.sgn (big_value (B p) l).
Proof. exact bi_compare_0_ok. Qed.
Print Assumptions c04_compare_zero.

Theorem c04_compare_one : forall p n l, 0 <= p -> (0 < n)%nat -> big_wf (B p) n l ->
  bi_compare_1 l = Z.sgn (big_value (B p) l - 1).
Proof. exact bi_compare_1_ok. Qed.
Print Assumptions c04_compare_one.
Example c04_compare_one_example : bi_compare_1 [1; 0; 4] = 1 /\ bi_compare_1 [0; 0; 0] = -1.
Proof. split; vm_compute; reflexivity. Qed.

Theorem c04_and : forall p n l r, 0 <= p -> big_wf (B p) n l -> big_wf (B p) n r ->
  big_wf (B p) n (bi_and l r) /\ big_value (B p) (bi_and l r) = Z.land (big_value (B p) l) (big_value (B p) r).
Proof. exact bi_and_ok. Qed.
Print Assumptions c04_and.

Theorem c04_or : forall p n l r, 0 <= p -> big_wf (B p) n l -> big_wf (B p) n r ->
  big_wf (B p) n (bi_or l r) /\ big_value (B p) (bi_or l r) = Z.lor (big_value (B p) l) (big_value (B p) r).
Proof. exact bi_or_ok. Qed.
Print Assumptions c04_or.

Theorem c04_xor : forall p n l r, 0 <= p -> big_wf (B p) n l -> big_wf (B p) n r ->
  big_wf (B p) n (bi_xor l r) /\ big_value (B p) (bi_xor l r) = Z.lxor (big_value (B p) l) (big_value (B p) r).
Proof. exact bi_xor_ok. Qed.
Print Assumptions c04_xor.
Example c04_xor_example : bi_xor [5; 3] [6; 1] = [3; 2].
Proof. vm_compute. reflexivity. Qed.

Theorem c04_not : forall p n l, 0 <= p -> big_wf (B p) n l ->
  big_wf (B p) n (bi_not p l) /\ big_value (B p) (bi_not p l) = B p ^ Z.of_nat n - 1 - big_value (B p) l.
Proof. exact bi_not_ok. Qed.
Print Assumptions c04_not.
Example c04_not_example : bi_not 2 [5; 3] = [10; 12].
Proof. vm_compute. reflexivity. Qed.

(** * C05 shifts *)
Theorem c05_shift_left : forall p n l s, 0 <= p -> big_wf (B p) n l -> 0 <= s ->
  big_wf (B p) n (bi_shl p l s) /\
  big_value (B p) (bi_shl p l s) = (big_value (B p) l * 2 ^ s) mod B p ^ Z.of_nat n.
Proof. exact bi_shl_ok. Qed.
Print Assumptions c05_shift_left.
Example c05_shift_left_example : bi_shl 7 [2 ^ 127 + 1; 0] 129 = [0; 2].
Proof. vm_compute. reflexivity. Qed.

Theorem c05_shift_right : forall p n l s, 0 <= p -> big_wf (B p) n l -> 0 <= s ->
  big_wf (B p) n (bi_shr p l s) /\ big_value (B p) (bi_shr p l s) = big_value (B p) l / 2 ^ s.
Proof. exact bi_shr_ok. Qed.
Print Assumptions c05_shift_right.
Example c05_shift_right_example : bi_shr 7 [3; 5; 9] 130 = [2 ^ 126 + 1; 2; 0].
Proof. vm_compute. reflexivity. Qed.

(** The in-place right shift agrees for every shift below width + one word (beyond that the source
    writes outside the array). *)
Theorem c05_shift_right_in_place : forall p n l s, 0 <= p -> big_wf (B p) n l -> 0 <= s < wbits p * (Z.of_nat n + 1) ->
  bi_rshift_ip p l s = Some (bi_shr p l s).
Proof. exact bi_rshift_ip_eq. Qed.
Print Assumptions c05_shift_right_in_place.
Example c05_shift_right_in_place_example : bi_rshift_ip 7 [3; 5; 9] 130 = Some [2 ^ 126 + 1; 2; 0].
Proof. vm_compute. reflexivity. Qed.

(** The in-place left shift agrees when the word part of the shift is 0 or at least half the words. *)
Theorem c05_shift_left_in_place_partial : forall p n l s, 0 <= p -> big_wf (B p) n l -> 0 <= s -> s / wbits p < 64 ->
  s / wbits p <= Z.of_nat n -> (s / wbits p = 0 \/ Z.of_nat n <= 2 * (s / wbits p)) ->
  bi_lshift_ip p l s = Some (bi_shl p l s).
Proof. exact bi_lshift_ip_eq. Qed.
Print Assumptions c05_shift_left_in_place_partial.
Example c05_shift_left_in_place_example : bi_lshift_ip 7 [3; 9] 129 = Some [0; 6].
Proof. vm_compute. reflexivity. Qed.

(** Missing cases fail: shifting four words (QBCAPPOW = 9) left by one word in place smears the lowest
    word, and a shift past the width leaves the array. *)
Theorem c05_shift_left_in_place_refuted : exists l s, big_wf (B 7) 4 l /\ 0 <= s < wbits 7 * 4 /\
  bi_lshift_ip 7 l s <> Some (bi_shl 7 l s).
Proof.
  exists [1; 2; 3; 4], 128. split; [|split].
  - split; [reflexivity | repeat constructor; vm_compute; congruence].
  - split; [lia | vm_compute; reflexivity].
  - vm_compute. congruence.
Qed.
Print Assumptions c05_shift_left_in_place_refuted.

Theorem c05_shift_left_in_place_out_of_bounds : exists l s, big_wf (B 7) 2 l /\ 0 <= s /\ bi_lshift_ip 7 l s = None.
Proof.
  exists [1; 2], 384. split; [|split].
  - split; [reflexivity | repeat constructor; vm_compute; congruence].
  - lia.
  - vm_compute. reflexivity.
Qed.
Print Assumptions c05_shift_left_in_place_out_of_bounds.

(** * C06 multiplication *)
Theorem c06_mul_half_word : forall p n l r, 1 <= p -> big_wf (B p) n l -> 0 <= r < HW p ->
  big_wf (B p) n (bi_mul_half p l r) /\
  big_value (B p) (bi_mul_half p l r) = (big_value (B p) l * r) mod B p ^ Z.of_nat n.
Proof. exact bi_mul_half_ok. Qed.
Print Assumptions c06_mul_half_word.
Example c06_mul_half_example : bi_mul_half 7 [2 ^ 127; 3] 6 = [0; 21].
Proof. vm_compute. reflexivity. Qed.

(** Full multiplication: exact when the right operand is positive and the product does not overflow. *)
Theorem c06_mul_partial : forall p n l r, 1 <= p -> (0 < n)%nat -> big_wf (B p) n l -> big_wf (B p) n r ->
  0 < big_value (B p) r -> big_value (B p) l * big_value (B p) r < B p ^ Z.of_nat n ->
  exists res, bi_mul p l r = Some res /\ big_wf (B p) n res /\
    big_value (B p) res = big_value (B p) l * big_value (B p) r.
Proof. exact bi_mul_exact. Qed.
Print Assumptions c06_mul_partial.
Example c06_mul_example : bi_mul 3 [200; 1] [100; 0] = Some [32; 178].
Proof. vm_compute. reflexivity. Qed.

(** What it computes in every case. *)
Theorem c06_mul_characterisation : forall p n l r, 1 <= p -> (0 < n)%nat -> big_wf (B p) n l -> big_wf (B p) n r ->
  exists res, bi_mul p l r = Some res /\ big_wf (B p) n res /\
    big_value (B p) res =
      if big_value (B p) r <=? 1 then big_value (B p) l
      else (big_value (B p) r *
            (big_value (B p) l mod 2 ^ (wbits p * Z.of_nat n - Z.log2 (big_value (B p) r)))) mod B p ^ Z.of_nat n.
Proof. exact bi_mul_char. Qed.
Print Assumptions c06_mul_characterisation.

Theorem c06_mul_by_zero_refuted : exists l r res, big_wf (B 7) 2 l /\ big_wf (B 7) 2 r /\ bi_mul 7 l r = Some res /\
  big_value (B 7) res <> (big_value (B 7) l * big_value (B 7) r) mod B 7 ^ 2.
Proof.
  exists [5; 0], [0; 0], [5; 0]. split; [|split; [|split]].
  - split; [reflexivity | repeat constructor; vm_compute; congruence].
  - split; [reflexivity | repeat constructor; vm_compute; congruence].
  - vm_compute. reflexivity.
  - vm_compute. congruence.
Qed.
Print Assumptions c06_mul_by_zero_refuted.

Theorem c06_mul_overflow_refuted : exists l r res, big_wf (B 7) 2 l /\ big_wf (B 7) 2 r /\ bi_mul 7 l r = Some res /\
  big_value (B 7) res <> (big_value (B 7) l * big_value (B 7) r) mod B 7 ^ 2.
Proof.
  exists [0; 2 ^ 127], [3; 0], [0; 0]. split; [|split; [|split]].
  - split; [reflexivity | repeat constructor; vm_compute; congruence].
  - split; [reflexivity | repeat constructor; vm_compute; congruence].
  - vm_compute. reflexivity.
  - vm_compute. congruence.
Qed.
Print Assumptions c06_mul_overflow_refuted.

(** * C07 division *)
Theorem c07_div_half_word : forall p n fuel l r, 1 <= p -> (0 < n)%nat -> big_wf (B p) n l -> big_wf (B p) n r ->
  0 < big_value (B p) r < HW p ->
  exists q rem, bi_div_mod p fuel l r = Some (q, rem) /\ big_wf (B p) n q /\ big_wf (B p) n rem /\
   big_value (B p) q = big_value (B p) l / big_value (B p) r /\
   big_value (B p) rem = big_value (B p) l mod big_value (B p) r.
Proof. exact bi_div_mod_half. Qed.
Print Assumptions c07_div_half_word.
Example c07_div_half_example : bi_div_mod 7 0 [1; 5] [10; 0] = Some ([2 ^ 127; 0], [1; 0]).
Proof. vm_compute. reflexivity. Qed.

Theorem c07_div_power_of_two : forall p n fuel l r e, 1 <= p -> (0 < n)%nat -> big_wf (B p) n l -> big_wf (B p) n r ->
  0 <= e -> big_value (B p) r = 2 ^ e -> B p ^ Z.of_nat n <= 2 ^ Z.of_nat fuel ->
  exists q rem, bi_div_mod p fuel l r = Some (q, rem) /\ big_wf (B p) n q /\ big_wf (B p) n rem /\
   big_value (B p) q = big_value (B p) l / big_value (B p) r /\
   big_value (B p) rem = big_value (B p) l mod big_value (B p) r.
Proof. exact bi_div_mod_pow2. Qed.
Print Assumptions c07_div_power_of_two.
Example c07_div_pow2_example : bi_div_mod 3 16 [7; 200] [64; 0] = Some ([32; 3], [7; 0]).
Proof. vm_compute. reflexivity. Qed.

(** For other divisors: whenever it terminates, Euclid's equation holds modulo 2^width only. *)
Theorem c07_div_general_partial : forall p n fuel l r q rem, 1 <= p -> (0 < n)%nat ->
  big_wf (B p) n l -> big_wf (B p) n r -> 0 < big_value (B p) r ->
  bi_div_mod p fuel l r = Some (q, rem) ->
  big_wf (B p) n q /\ big_wf (B p) n rem /\ big_value (B p) rem < big_value (B p) r /\
  (big_value (B p) q * big_value (B p) r + big_value (B p) rem) mod B p ^ Z.of_nat n = big_value (B p) l.
Proof. exact bi_div_mod_cong. Qed.
Print Assumptions c07_div_general_partial.

(** The exact equation fails: 2^255 / (2^254 + 1) gives quotient 5 in the real configuration
    (the correction of rightLog2 at big_integer.cpp:283-285 tests a condition that is never true). *)
Theorem c07_div_refuted : exists l r q rem, big_wf (B 7) 2 l /\ big_wf (B 7) 2 r /\ 0 < big_value (B 7) r /\
  bi_div_mod 7 3 l r = Some (q, rem) /\
  big_value (B 7) q <> big_value (B 7) l / big_value (B 7) r.
Proof.
  exists [0; 2 ^ 127], [1; 2 ^ 126], [5; 0], [2 ^ 128 - 5; 2 ^ 126 - 1].
  split; [|split; [|split; [|split]]].
  - split; [reflexivity | repeat constructor; vm_compute; congruence].
  - split; [reflexivity | repeat constructor; vm_compute; congruence].
  - vm_compute. reflexivity.
  - vm_compute. reflexivity.
  - vm_compute. congruence.
Qed.
Print Assumptions c07_div_refuted.
