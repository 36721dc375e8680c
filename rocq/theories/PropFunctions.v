(** Property theorems C08-C12: integer helpers. *)
From Coq Require Import NArith ZArith List Bool Lia.
From Verif Require Import MBigInteger SpecBigInteger MFunctions SpecFunctions PBigInteger PFunctions.
Import ListNotations.
Local Open Scope N_scope.

(** * C08 logarithms *)
Theorem c08_log2_word : forall n, 0 < n < 2 ^ 64 -> log2Ocl n = N.log2 n.
Proof. exact log2Ocl_ok. Qed.
Print Assumptions c08_log2_word.
Example c08_log2_word_example : log2Ocl (2 ^ 63 + 5) = 63.
Proof. vm_compute. reflexivity. Qed.

Theorem c08_log2_wide : forall p n fuel l, (1 <= p)%Z -> (0 < n)%nat -> big_wf (B p) n l ->
  (big_value (B p) l < 2 ^ Z.of_nat fuel)%Z -> bi_log2 p fuel l = Some (Z.log2 (big_value (B p) l)).
Proof. exact bi_log2_ok. Qed.
Print Assumptions c08_log2_wide.
Example c08_log2_wide_example : bi_log2 7 140 [5%Z; 1024%Z] = Some 138%Z.
Proof. vm_compute. reflexivity. Qed.

(** In the default 128-bit build the argument is truncated to 64 bits. *)
Theorem c08_log2_default_build_partial : forall n, 0 < n < 2 ^ 64 -> bi_log2_native n = N.log2 n.
Proof. exact bi_log2_native_ok. Qed.
Print Assumptions c08_log2_default_build_partial.

Theorem c08_log2_default_build_refuted : exists n, 0 < n < 2 ^ 128 /\ bi_log2_native n <> N.log2 n.
Proof. exists (2 ^ 64 + 1). split; [split; vm_compute; reflexivity | vm_compute; congruence]. Qed.
Print Assumptions c08_log2_default_build_refuted.

Theorem c08_power_of_two_test : forall x, isPowerOfTwoOcl x = true <-> exists k, x = 2 ^ k.
Proof. exact isPowerOfTwo_ok. Qed.
Print Assumptions c08_power_of_two_test.
Example c08_power_of_two_example : isPowerOfTwoOcl 4096 = true /\ isPowerOfTwoOcl 4098 = false.
Proof. split; vm_compute; reflexivity. Qed.

Theorem c08_register_mask : forall start len, start + len < 64 -> forall j,
  N.testbit (bitRegMaskOcl start len) j = ((start <=? j) && (j <? start + len)).
Proof. exact bitRegMask_ok. Qed.
Print Assumptions c08_register_mask.
Example c08_register_mask_example : bitRegMaskOcl 3 2 = 24.
Proof. vm_compute. reflexivity. Qed.

Theorem c08_integer_power : forall base power, base < 2 ^ 64 -> intPowOcl base power = (base ^ power) mod 2 ^ 64.
Proof. exact intPowOcl_ok. Qed.
Print Assumptions c08_integer_power.
Example c08_integer_power_example : intPowOcl 3 5 = 243 /\ intPowOcl 3 41 = 3 ^ 41 mod 2 ^ 64.
Proof. split; vm_compute; reflexivity. Qed.

(** * C09 printing and parsing *)
(** Printing never terminates for any non-zero value: no number of iterations suffices. *)
Theorem c09_print_diverges_refuted : forall b fuel, b <> 0 -> print_bci fuel b = None.
Proof. exact print_bci_diverges. Qed.
Print Assumptions c09_print_diverges_refuted.
Example c09_print_zero : print_bci 0 0 = Some [0] /\ print_bci 100 7 = None.
Proof. split; vm_compute; reflexivity. Qed.

(** Parsing half of the round trip: exact for every decimal string. *)
Theorem c09_parse_partial : forall ds, Forall (fun d => d < 10) ds -> decimal_value ds < 2 ^ 128 ->
  parse_bci (ascii_digits ds) = decimal_value ds.
Proof. exact parse_bci_ok. Qed.
Print Assumptions c09_parse_partial.
Example c09_parse_example : parse_bci [49; 50; 48; 57] = 1209.
Proof. vm_compute. reflexivity. Qed.

Theorem c09_parse_wide_partial : forall p n ds, (4 <= p)%Z -> (0 < n)%nat -> Forall (fun d => d < 10) ds ->
  big_wf (B p) n (parse_big p n (ascii_digits ds)) /\
  big_value (B p) (parse_big p n (ascii_digits ds)) = (Z.of_N (decimal_value ds) mod B p ^ Z.of_nat n)%Z.
Proof. exact parse_big_ok. Qed.
Print Assumptions c09_parse_wide_partial.
Example c09_parse_wide_example : parse_big 7 2 [49; 50; 48; 57] = [1209%Z; 0%Z].
Proof. vm_compute. reflexivity. Qed.

(** * C10 spreading bits *)
Theorem c10_push_apart_bijection : forall ps n, increasing_below 0 n ps -> n <= 128 ->
  (forall x, x < 2 ^ (n - N.of_nat (length ps)) ->
     pushApartBits x (map (fun p => 2 ^ p) ps) < 2 ^ n /\ zero_at ps (pushApartBits x (map (fun p => 2 ^ p) ps))) /\
  (forall x y, x < 2 ^ (n - N.of_nat (length ps)) -> y < 2 ^ (n - N.of_nat (length ps)) -> x < y ->
     pushApartBits x (map (fun p => 2 ^ p) ps) < pushApartBits y (map (fun p => 2 ^ p) ps)) /\
  (forall z, z < 2 ^ n -> zero_at ps z ->
     exists x, x < 2 ^ (n - N.of_nat (length ps)) /\ pushApartBits x (map (fun p => 2 ^ p) ps) = z).
Proof. exact pushApart_spec. Qed.
Print Assumptions c10_push_apart_bijection.
Example c10_push_apart_example : increasing_below 0 5 [1; 3] /\
  map (fun x => pushApartBits x [2; 8]) [0; 1; 2; 3; 4; 7] = [0; 1; 4; 5; 16; 21].
Proof. split; [simpl; lia | vm_compute; reflexivity]. Qed.

(** * C11 signed overflow predicates *)
Theorem c11_overflow_add : forall L x y, 1 <= L <= 62 -> x < 2 ^ L -> y < 2 ^ L ->
  isOverflowAdd x y (2 ^ (L - 1)) (2 ^ L) = true <-> ~ signed_range L (signed_value L x + signed_value L y).
Proof. exact isOverflowAdd_ok. Qed.
Print Assumptions c11_overflow_add.
Example c11_overflow_add_example : isOverflowAdd 5 4 8 16 = true /\ isOverflowAdd 9 15 8 16 = false.
Proof. split; vm_compute; reflexivity. Qed.

Theorem c11_overflow_sub : forall L x y, 1 <= L <= 62 -> x < 2 ^ L -> y < 2 ^ L ->
  isOverflowSub x y (2 ^ (L - 1)) (2 ^ L) = true <-> ~ signed_range L (signed_value L x - signed_value L y).
Proof. exact isOverflowSub_ok. Qed.
Print Assumptions c11_overflow_sub.
Example c11_overflow_sub_example : isOverflowSub 5 13 8 16 = true /\ isOverflowSub 9 1 8 16 = false.
Proof. split; vm_compute; reflexivity. Qed.

(** * C12 range checks *)
Theorem c12_bit_range : forall s l q, s < 2 ^ 8 -> l < 2 ^ 8 -> q < 2 ^ 8 -> isBadBitRange s l q = (q <? s + l).
Proof. exact isBadBitRange_ok. Qed.
Print Assumptions c12_bit_range.
Example c12_bit_range_example : isBadBitRange 200 100 255 = true /\ isBadBitRange 2 3 5 = false.
Proof. split; vm_compute; reflexivity. Qed.

Theorem c12_perm_range : forall s l m, s < 2 ^ 64 -> l < 2 ^ 64 -> m < 2 ^ 64 -> isBadPermRange s l m = (m <? s + l).
Proof. exact isBadPermRange_ok. Qed.
Print Assumptions c12_perm_range.
Example c12_perm_range_example : isBadPermRange (2 ^ 63) (2 ^ 63) 1024 = true /\ isBadPermRange 512 512 1024 = false.
Proof. split; vm_compute; reflexivity. Qed.

Theorem c12_id_list : forall cs q, throwIfQbIdArrayIsBad cs q = false <-> (Forall (fun c => c < q) cs /\ NoDup cs).
Proof. exact throwIf_ok. Qed.
Print Assumptions c12_id_list.
Example c12_id_list_example :
  throwIfQbIdArrayIsBad [3; 0; 2] 4 = false /\ throwIfQbIdArrayIsBad [3; 0; 3] 4 = true /\
  throwIfQbIdArrayIsBad [4] 4 = true.
Proof. repeat split; vm_compute; reflexivity. Qed.
