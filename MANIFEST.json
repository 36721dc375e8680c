{
 "claims": [
  {
   "property": "C01",
   "status": "proved",
   "theorems": [
    "c01_add_in_place",
    "c01_sub_in_place",
    "c01_increment"
   ],
   "note": "All word widths, word counts and operands."
  },
  {
   "property": "C02",
   "status": "partial",
   "theorems": [
    "c02_plus_partial",
    "c02_minus_partial",
    "c02_plus_refuted",
    "c02_plus_lost_carry_refuted",
    "c02_minus_refuted"
   ],
   "note": "REFUTED as stated (c02_*_refuted): the top word of the left operand is dropped and a carry into an all-ones word is lost. Proved for left operands with zero top word and right words below the maximum."
  },
  {
   "property": "C03",
   "status": "partial",
   "theorems": [
    "c03_decrement_partial",
    "c03_decrement_with_borrow_always_off",
    "c03_decrement_refuted"
   ],
   "note": "REFUTED as stated: every decrement that borrows is off by B-1 (c03_decrement_with_borrow_always_off). Exact otherwise."
  },
  {
   "property": "C04",
   "status": "proved",
   "theorems": [
    "c04_compare",
    "c04_compare_zero",
    "c04_compare_one",
    "c04_and",
    "c04_or",
    "c04_xor",
    "c04_not"
   ],
   "note": "All word widths, word counts and operands."
  },
  {
   "property": "C05",
   "status": "partial",
   "theorems": [
    "c05_shift_left",
    "c05_shift_right",
    "c05_shift_right_in_place",
    "c05_shift_left_in_place_partial",
    "c05_shift_left_in_place_refuted",
    "c05_shift_left_in_place_out_of_bounds"
   ],
   "note": "Out-of-place shifts and in-place right shift exact; in-place left shift REFUTED for word shifts of less than half the words and out of bounds past the width."
  },
  {
   "property": "C06",
   "status": "partial",
   "theorems": [
    "c06_mul_half_word",
    "c06_mul_partial",
    "c06_mul_characterisation",
    "c06_mul_by_zero_refuted",
    "c06_mul_overflow_refuted"
   ],
   "note": "Half-word multiplication exact. Full multiplication REFUTED for multiplier 0 and on overflow; exact otherwise; complete characterisation given."
  },
  {
   "property": "C07",
   "status": "partial",
   "theorems": [
    "c07_div_half_word",
    "c07_div_power_of_two",
    "c07_div_general_partial",
    "c07_div_refuted"
   ],
   "note": "Exact for half-word and power-of-two divisors; otherwise only modulo 2^width, and REFUTED for the exact equation."
  },
  {
   "property": "C08",
   "status": "partial",
   "theorems": [
    "c08_log2_word",
    "c08_log2_wide",
    "c08_log2_default_build_partial",
    "c08_log2_default_build_refuted",
    "c08_power_of_two_test",
    "c08_register_mask",
    "c08_integer_power"
   ],
   "note": "Exact for 64-bit words and wide integers; default 128-bit build REFUTED above 2^64."
  },
  {
   "property": "C09",
   "status": "partial",
   "theorems": [
    "c09_print_diverges_refuted",
    "c09_parse_partial",
    "c09_parse_wide_partial"
   ],
   "note": "Printing REFUTED: it never terminates for a non-zero value. Parsing half proved."
  },
  {
   "property": "C10",
   "status": "proved",
   "theorems": [
    "c10_push_apart_bijection"
   ],
   "note": ""
  },
  {
   "property": "C11",
   "status": "proved",
   "theorems": [
    "c11_overflow_add",
    "c11_overflow_sub"
   ],
   "note": ""
  },
  {
   "property": "C12",
   "status": "proved",
   "theorems": [
    "c12_bit_range",
    "c12_perm_range",
    "c12_id_list"
   ],
   "note": ""
  },
  {
   "property": "C13",
   "status": "proved",
   "theorems": [
    "c13_par_for_once",
    "c13_par_for_inc_once",
    "c13_par_for_terminates",
    "c13_par_for_set_once",
    "c13_par_for_sparse_compose_once"
   ],
   "note": ""
  },
  {
   "property": "C14",
   "status": "proved",
   "theorems": [
    "c14_par_for_mask",
    "c14_par_for_skip"
   ],
   "note": ""
  },
  {
   "property": "C15",
   "status": "proved",
   "theorems": [
    "c15_kernel_schedule_independent",
    "c15_kernel_is_sequential_loop"
   ],
   "note": ""
  },
  {
   "property": "C16",
   "status": "proved",
   "theorems": [
    "c16_par_norm"
   ],
   "note": ""
  },
  {
   "property": "C17",
   "status": "proved",
   "theorems": [
    "c17_finish_complete",
    "c17_in_order",
    "c17_no_lost_wakeup",
    "c17_worker_bounded",
    "c17_worker_drains"
   ],
   "note": "Work queue as a transition system with explicit sleeping threads, pending notifications and spurious wake-ups; any number of clients."
  },
  {
   "property": "C18",
   "status": "partial",
   "theorems": [
    "c18_finish_after_dump_refuted",
    "c18_at_most_once",
    "c18_dump_drops_queue",
    "c18_destroy_final"
   ],
   "note": "REFUTED as stated: dump() sets isFinished_ while an operation runs, so finish() returns early. Proved instead: at-most-once in order in every history, queued operations never start after dump, nothing runs after the destructor."
  },
  {
   "property": "C19",
   "status": "proved",
   "theorems": [
    "c19_controlled_gate",
    "c19_controlled_gate_any_values",
    "c19_swap_family"
   ],
   "note": "Exact arithmetic in any commutative ring with conjugation; every thread count, stride and interleaving of the kernel accesses; qubit counts below 64. Random global phase allowed where the code allows it."
  },
  {
   "property": "C20",
   "status": "proved",
   "theorems": [
    "c20_unitary_preserves_norm",
    "c20_gate_then_adjoint_restores",
    "c20_swap_family_preserves_norm"
   ],
   "note": "Follows from C19 at the level of engine calls; also the swap family."
  },
  {
   "property": "C21",
   "status": "partial",
   "theorems": [
    "c21_xmask_flips_bits",
    "c21_phase_parity",
    "c21_uniform_parity_rz",
    "c21_uniform_parity_rz_refuted",
    "c21_controlled_uniform_parity_rz"
   ],
   "note": "XMask and PhaseParity proved. UniformParityRZ proved for masks within the popcount width; REFUTED for the 32-bit popcount of the C++11 build (qubits above 31)."
  },
  {
   "property": "C22",
   "status": "proved",
   "theorems": [
    "c22_uniformly_controlled"
   ],
   "note": "Including skip bits; at most 62 control and skip bits."
  },
  {
   "property": "C23",
   "status": "proved",
   "theorems": [
    "c23_compose",
    "c23_compose_at",
    "c23_compose_many"
   ],
   "note": "Two operands, insertion at a position, and many operands."
  },
  {
   "property": "C24",
   "status": "partial",
   "theorems": [
    "c24_dispose_keeps_matching_amplitudes",
    "c24_dispose_undoes_insertion",
    "c24_compose_then_dispose",
    "c24_dispose_all_refuted"
   ],
   "note": "Proved for proper sub-registers; REFUTED when every qubit is disposed: the engine then claims one qubit (c24_dispose_all_refuted)."
  },
  {
   "property": "C25",
   "status": "partial",
   "theorems": [
    "c25_prob",
    "c25_prob_reg",
    "c25_prob_mask",
    "c25_prob_parity",
    "c25_prob_parity_refuted",
    "c25_joint_prob",
    "c25_prob_reg_all",
    "c25_register_probabilities_sum_to_norm"
   ],
   "note": "All marginals proved; ProbParity REFUTED for the 32-bit popcount on masks above bit 31."
  },
  {
   "property": "C26",
   "status": "proved",
   "theorems": [
    "c26_measurement_projects",
    "c26_repeated_measurement_agrees",
    "c26_parity_measurement_projects"
   ],
   "note": "Projection and repeatability for ApplyM; projection for parity measurement."
  },
  {
   "property": "C27",
   "status": "partial",
   "theorems": [
    "c27_single_qubit",
    "c27_register_positive_draw",
    "c27_register_zero_draw_refuted",
    "c27_register_zero_draw",
    "c27_bits_out_of_bounds_iff",
    "c27_bits_positive_draw",
    "c27_bits_zero_draw_refuted",
    "c27_mall_positive",
    "c27_mall_exact"
   ],
   "note": "REFUTED for the draw 0 in ForceMReg and ForceM(bits) (a value of probability zero is returned). Proved for every positive draw, for single qubits and MAll; out-of-bounds read characterised exactly."
  },
  {
   "property": "C28",
   "status": "proved",
   "theorems": [
    "c28_inc",
    "c28_dec",
    "c28_dec_undoes_inc"
   ],
   "note": "Every qubit count below 64, register, constant and schedule; DEC proved to undo INC."
  },
  {
   "property": "C29",
   "status": "proved",
   "theorems": [
    "c29_cinc",
    "c29_cdec_undoes_cinc"
   ],
   "note": "Controls distinct and outside the register; CDEC undoes CINC."
  },
  {
   "property": "C30",
   "status": "partial",
   "theorems": [
    "c30_incc_partial",
    "c30_decc_partial",
    "c30_incc_refuted",
    "c30_decc_refuted"
   ],
   "note": "REFUTED at constant 2^len-1 with carry set (INCC) and constant 0 with carry set (DECC): the carry is lost. Proved everywhere else for constants that fit the register."
  },
  {
   "property": "C31",
   "status": "proved",
   "theorems": [
    "c31_incs",
    "c31_decs"
   ],
   "note": "Overflow qubit outside the register; also DECS."
  },
  {
   "property": "C32",
   "status": "proved",
   "theorems": [
    "c32_rol",
    "c32_generic_rol",
    "c32_generic_ror",
    "c32_generic_ror_undoes_rol",
    "c32_ror_undoes_engine_rol"
   ],
   "note": "Engine kernel, generic reversals, and both undone by ROR, for every shift and schedule."
  },
  {
   "property": "C33",
   "status": "partial",
   "theorems": [
    "c33_mul",
    "c33_div_undoes_mul",
    "c33_mul_refuted"
   ],
   "note": "REFUTED for multipliers above 2^len. Proved for multipliers of 1..2^len with exact double-length product; DIV undoes MUL up to the normalisation factor of the carry measurement."
  },
  {
   "property": "C34",
   "status": "partial",
   "theorems": [
    "c34_mulmodnout_partial",
    "c34_imulmodnout_undoes_partial",
    "c34_mulmodnout_refuted"
   ],
   "note": "REFUTED: the product wraps at 64 bits before reduction. Proved whenever multiplier * 2^len <= 2^64 and the modulus fits the output register."
  },
  {
   "property": "C35",
   "status": "partial",
   "theorems": [
    "c35_powmodnout_partial",
    "c35_powmodnout_refuted",
    "c35_powmodnout_one_refuted"
   ],
   "note": "REFUTED: the power wraps at 64 bits; also base 1 with modulus 1. Proved when base^(2^len-1) < 2^64 and modulus >= 2."
  },
  {
   "property": "C36",
   "status": "partial",
   "theorems": [
    "c36_cmul_partial",
    "c36_cdiv_partial",
    "c36_cmulmodnout_partial",
    "c36_cimulmodnout_partial",
    "c36_cpowmodnout_partial",
    "c36_cmul_zero_refuted",
    "c36_cdiv_refuted",
    "c36_cimulmodnout_refuted",
    "c36_cpowmodnout_refuted"
   ],
   "note": "REFUTED: CMUL by zero ignores the controls; CDIV, CIMULModNOut and CPOWModNOut drop amplitudes with nonzero output register where a control is unset. Proved for states with a clear output register."
  },
  {
   "property": "C37",
   "status": "partial",
   "theorems": [
    "c37_indexed_lda_partial",
    "c37_indexed_adc_partial",
    "c37_indexed_sbc_partial",
    "c37_indexed_sbc_refuted",
    "c37_hash"
   ],
   "note": "REFUTED for IndexedSBC with value registers of two or more qubits (amplitude lost). LDA into a clear register, ADC and Hash by one-to-one tables proved."
  },
  {
   "property": "C38",
   "status": "partial",
   "theorems": [
    "c38_phase_flip_if_less_partial",
    "c38_phase_flip_if_less_refuted"
   ],
   "note": "Proved for bounds below 2^64; REFUTED for wider bounds (truncated)."
  },
  {
   "property": "C39",
   "status": "proved",
   "theorems": [
    "c39_inc",
    "c39_dec",
    "c39_cinc",
    "c39_cdec",
    "c39_cdec_undoes_cinc"
   ],
   "note": "INC, DEC, CINC, CDEC for every constant and control list; CDEC undoes CINC."
  },
  {
   "property": "C40",
   "status": "partial",
   "theorems": [
    "c40_incdecc_partial",
    "c40_incdecc_any",
    "c40_incdecc_refuted"
   ],
   "note": "REFUTED for registers that do not start at qubit 0: the carry goes to qubit start+carryIndex. Proved for start 0, and the exact effect for every start."
  },
  {
   "property": "C41",
   "status": "partial",
   "theorems": [
    "c41_fulladd",
    "c41_ifulladd_undoes",
    "c41_iadc_undoes",
    "c41_adc_partial",
    "c41_adc_refuted"
   ],
   "note": "FullAdd/CFullAdd, inverses at every length, ADC/CADC of length 1 proved. REFUTED for ADC of length 2 and more (first sum bit and carry are exchanged)."
  },
  {
   "property": "C42",
   "status": "partial",
   "theorems": [
    "c42_mul_pow2",
    "c42_mul_small",
    "c42_imul_undoes",
    "c42_mul_refuted"
   ],
   "note": "REFUTED (4*3 mod 5). Proved for moduli 2^k and for products below the modulus; IMULModNOut undoes MULModNOut always."
  },
  {
   "property": "C43",
   "status": "partial",
   "theorems": [
    "c43_toggle_partial",
    "c43_classical_partial",
    "c43_inplace_xor",
    "c43_inplace_throws",
    "c43_one_qubit",
    "c43_toggle_refuted",
    "c43_classical_refuted"
   ],
   "note": "Output different from the inputs: all twelve gates. In-place forms: XOR/XNOR overwrite, AND/OR/NAND/NOR throw. REFUTED: AND(q,q,q) and CLAND(q,b,q) do not toggle."
  },
  {
   "property": "C44",
   "status": "proved",
   "theorems": [
    "c44_swap",
    "c44_iswap",
    "c44_iswap_inverse",
    "c44_sqrtswap",
    "c44_sqrtswap_inverse",
    "c44_sqrtswap_twice"
   ],
   "note": "Swap, ISwap, IISwap, SqrtSwap, ISqrtSwap with exact matrices, inverses and SqrtSwap^2 = Swap over every ring with 1/sqrt 2 and i."
  },
  {
   "property": "C45",
   "status": "proved",
   "theorems": [
    "c45_ucmtrx",
    "c45_uniform"
   ],
   "note": "UCMtrx and UniformlyControlledSingleBit (single-matrix-list form), every control list."
  },
  {
   "property": "C46",
   "status": "proved",
   "theorems": [
    "c46_iqft_undoes_qft",
    "c46_index_lists"
   ],
   "note": "QFT/IQFT and QFTR/IQFTR, both orders."
  },
  {
   "property": "C47",
   "status": "partial",
   "theorems": [
    "c47_probreg_partial",
    "c47_probreg_refuted",
    "c47_probmask"
   ],
   "note": "REFUTED: the register position is mis-computed. Proved for value 0 or start = length; generic ProbMask proved."
  },
  {
   "property": "C48",
   "status": "partial",
   "theorems": [
    "c48_compose_at_partial",
    "c48_index_refuted"
   ],
   "note": "State proved; REFUTED: the returned index is the old qubit count, not start."
  },
  {
   "property": "C49",
   "status": "partial",
   "theorems": [
    "c49_append_run",
    "c49_append_run_wide",
    "c49_recursion_bound",
    "c49_exact_refuted"
   ],
   "note": "Proved up to a global phase for every circuit of good gates, with and without collapsing, also when Run has to allocate qubits. REFUTED for exact equality: phase-times-identity gates are dropped."
  },
  {
   "property": "C50",
   "status": "proved",
   "theorems": [
    "c50_inverse"
   ],
   "note": "Any circuit of gates with unitary matrices and swap gates; exact when the engine keeps global phases."
  },
  {
   "property": "C51",
   "status": "partial",
   "theorems": [
    "c51_swap",
    "c51_swap_gate_uncollapsed",
    "c51_swap_gate_refuted"
   ],
   "note": "QCircuit::Swap proved; a gate from the swap constructor is executed without collapsing. REFUTED with collapsing: it is dropped as an identity."
  },
  {
   "property": "C52",
   "status": "partial",
   "theorems": [
    "c52_round_trip",
    "c52_wide_key_refuted",
    "c52_precision_refuted"
   ],
   "note": "Proved for keys below 2^64 and entries that survive printing. REFUTED for wider keys (cut to 64 bits) and for entries that printing rounds."
  },
  {
   "property": "C53",
   "status": "proved",
   "theorems": [
    "c53_swaps"
   ],
   "note": "Up to 128 qubits (bitCapInt is 128 bits wide)."
  },
  {
   "property": "C54",
   "status": "proved",
   "theorems": [
    "c54_shard_list"
   ],
   "note": "Constructor, push_back, assignment, insert, erase, swap; at most 255 shards (bitLenInt)."
  },
  {
   "property": "C55",
   "status": "partial",
   "theorems": [
    "c55_conjugates",
    "c55_circuit",
    "c55_from_basis_state",
    "c55_wide_refuted"
   ],
   "note": "Exact conjugation of every row in the default mode; any circuit in both phase modes for up to 127 qubits, up to the tracked global phase. REFUTED for 128 qubits: the 8-bit row count wraps to 0 and gates do nothing."
  },
  {
   "property": "C56",
   "status": "proved",
   "theorems": [
    "c56_pattern",
    "c56_row_operations",
    "c56_one_state"
   ],
   "note": "For every tableau reachable by construction, gates, measurement, elimination, separability tests, composition and decomposition."
  },
  {
   "property": "C57",
   "status": "proved",
   "theorems": [
    "c57_rowmult"
   ],
   "note": "Exact power of i, every qubit count."
  },
  {
   "property": "C58",
   "status": "proved",
   "theorems": [
    "c58_measure",
    "c58_random",
    "c58_determined",
    "c58_twice"
   ],
   "note": "Every reachable tableau in both phase modes. ForceM with doForce and without doApply returns the requested bit unchecked and is excluded."
  },
  {
   "property": "C59",
   "status": "proved",
   "theorems": [
    "c59_gaussian"
   ],
   "note": "Also idempotent."
  },
  {
   "property": "C60",
   "status": "partial",
   "theorems": [
    "c60_split_partial",
    "c60_dispose_refuted"
   ],
   "note": "Proved when CanDecomposeDispose agrees. REFUTED otherwise: Dispose of qubit 1 of +0+ loses a generator."
  },
  {
   "property": "C61",
   "status": "proved",
   "theorems": [
    "c61_compose"
   ],
   "note": "Total of at most 127 qubits."
  },
  {
   "property": "C62",
   "status": "proved",
   "theorems": [
    "c62_combine",
    "c62_separate",
    "c62_round_trip"
   ],
   "note": "Every page size in both directions."
  },
  {
   "property": "C63",
   "status": "partial",
   "theorems": [
    "c63_single",
    "c63_controlled_partial",
    "c63_circuit_partial",
    "c63_far_control",
    "c63_controlled_refuted"
   ],
   "note": "Single-qubit gates everywhere; controlled gates except a target inside the pages with a control nine or more places above the page size. REFUTED there: the control acts as an anti-control (8-bit overflow of the shifted page count)."
  },
  {
   "property": "C64",
   "status": "partial",
   "theorems": [
    "c64_setpermutation",
    "c64_constructor_zero",
    "c64_constructor_refuted"
   ],
   "note": "REFUTED: the constructor gives the zero vector for every argument; SetPermutation is proved right."
  },
  {
   "property": "C65",
   "status": "partial",
   "theorems": [
    "c65_get_partial",
    "c65_set_partial",
    "c65_get_nothing",
    "c65_set_nothing",
    "c65_get_refuted",
    "c65_set_refuted"
   ],
   "note": "Proved for ranges in the first page with offset <= length. REFUTED otherwise: ranges with offset > length are neither read nor written."
  },
  {
   "property": "C66",
   "status": "partial",
   "theorems": [
    "c66_running_norm",
    "c66_running_norm_refuted"
   ],
   "note": "REFUTED for the portable accumulate kernel, which assigns instead of adding; proved for every other variant."
  },
  {
   "property": "C67",
   "status": "partial",
   "theorems": [
    "c67_sequential_sum",
    "c67_parallel_sum_refuted"
   ],
   "note": "REFUTED: lost update between two threads. Proved for sequential execution."
  },
  {
   "property": "C68",
   "status": "partial",
   "theorems": [
    "c68_index_is_insertion",
    "c68_decompose_without_wrap",
    "c68_decompose_refuted"
   ],
   "note": "REFUTED when phase sums wrap past pi; proved otherwise (amplitudes in polar form over the rationals)."
  },
  {
   "property": "C69",
   "status": "partial",
   "theorems": [
    "c69_forced_mask",
    "c69_forced_single_bit_refuted",
    "c69_forced_no_apply_refuted"
   ],
   "note": "REFUTED: a single forced bit is drawn at random, and doApply=false is ignored with several values. The mask returned for several bits is proved."
  },
  {
   "property": "C70",
   "status": "partial",
   "theorems": [
    "c70_fsim",
    "c70_fsim_refuted"
   ],
   "note": "REFUTED at theta = pi; proved whenever sin(theta) <> 0 or theta = 0."
  },
  {
   "property": "C71",
   "status": "partial",
   "theorems": [
    "c71_phase_root_mask",
    "c71_mask_is_product_refuted"
   ],
   "note": "REFUTED: PhaseRootNMask uses the conjugate of the PhaseRootN phase. The exact effect is proved."
  },
  {
   "property": "C72",
   "status": "partial",
   "theorems": [
    "c72_zmask_up_to_phase",
    "c72_zmask_refuted"
   ],
   "note": "REFUTED with a fixed global phase: the result carries an extra factor -i; proved up to that factor."
  },
  {
   "property": "C73",
   "status": "partial",
   "theorems": [
    "c73_incsc_partial",
    "c73_incsc_refuted",
    "c73_decsc_partial",
    "c73_decsc_refuted"
   ],
   "note": "REFUTED for two constants per direction when the carry is set; proved otherwise."
  },
  {
   "property": "C74",
   "status": "proved",
   "theorems": [
    "c74_setreg"
   ],
   "note": "The measured outcome and the normalisation factor are explicit."
  },
  {
   "property": "C75",
   "status": "proved",
   "theorems": [
    "c75_full_add",
    "c75_ifull_add_undoes"
   ],
   "note": "All four qubits distinct."
  },
  {
   "property": "C76",
   "status": "proved",
   "theorems": [
    "c76_qft"
   ],
   "note": "QFT is the DFT with bit-reversed output index."
  },
  {
   "property": "C77",
   "status": "proved",
   "theorems": [
    "c77_cswap",
    "c77_anticswap"
   ],
   "note": "CSwap and AntiCSwap."
  },
  {
   "property": "C78",
   "status": "partial",
   "theorems": [
    "c78_count_covers",
    "c78_uncollapsed_refuted"
   ],
   "note": "Collapsing circuits proved. REFUTED without collapsing: the count is not updated."
  },
  {
   "property": "C79",
   "status": "proved",
   "theorems": [
    "c79_light_cone",
    "c79_cone_set"
   ],
   "note": "Every outcome weight on the given qubits, for the runs on the engine."
  },
  {
   "property": "C80",
   "status": "proved",
   "theorems": [
    "c80_inc"
   ],
   "note": "Every constant, position and length, after any circuit."
  },
  {
   "property": "C81",
   "status": "partial",
   "theorems": [
    "c81_delete_controls",
    "c81_null_matrix_refuted",
    "c81_swap_refuted",
    "c81_phase_refuted"
   ],
   "note": "Proved when no gate targets the qubit and each gate it controls keeps a matrix. REFUTED otherwise: null matrix, swap instead of nothing, lost phase."
  },
  {
   "property": "C82",
   "status": "proved",
   "theorems": [
    "c82_append",
    "c82_combine"
   ],
   "note": "On values; sharing of the gate objects between the two circuits is not modelled."
  },
  {
   "property": "C83",
   "status": "partial",
   "theorems": [
    "c83_reindex",
    "c83_pending_swap_refuted"
   ],
   "note": "Proved when no swap is pending. REFUTED with a pending swap: reindex resets the swap map without moving the shards."
  },
  {
   "property": "C84",
   "status": "proved",
   "theorems": [
    "c84_amplitudes"
   ],
   "note": "Powers of i relative to one common factor; phaseOffset and the normalisation are not modelled."
  },
  {
   "property": "C85",
   "status": "proved",
   "theorems": [
    "c85_is_separable",
    "c85_zero_means_entangled"
   ],
   "note": "0 is proved to mean entangled in rings without zero divisors."
  },
  {
   "property": "C86",
   "status": "proved",
   "theorems": [
    "c86_prob"
   ],
   "note": ""
  },
  {
   "property": "C87",
   "status": "proved",
   "theorems": [
    "c87_set_permutation"
   ],
   "note": ""
  },
  {
   "property": "C88",
   "status": "partial",
   "theorems": [
    "c88_yes_partial",
    "c88_no_refuted"
   ],
   "note": "A yes is right. REFUTED for no: the product +0+."
  },
  {
   "property": "C89",
   "status": "proved",
   "theorems": [
    "c89_runs"
   ],
   "note": "Any sequence of gates and measurements, both phase modes."
  },
  {
   "property": "C90",
   "status": "proved",
   "theorems": [
    "c90_amplitudes",
    "c90_get_state",
    "c90_set_state"
   ],
   "note": ""
  },
  {
   "property": "C91",
   "status": "partial",
   "theorems": [
    "c91_set_amplitude_partial",
    "c91_set_amplitude_refuted"
   ],
   "note": "Proved for pages that are not null or whose norm is not tracked. REFUTED after SetPermutation: null dereference for every layout with at least two pages."
  },
  {
   "property": "C92",
   "status": "proved",
   "theorems": [
    "c92_xmask",
    "c92_phase_parity"
   ],
   "note": ""
  },
  {
   "property": "C93",
   "status": "partial",
   "theorems": [
    "c93_swap_partial",
    "c93_iswap_partial",
    "c93_rol_partial",
    "c93_ror_partial",
    "c93_swap_refuted"
   ],
   "note": "Swap and ISwap except a page qubit with a page bit nine or more places above; rotations up to eight page bits. REFUTED beyond: Swap of qubits 0 and 9 of ten with one-qubit pages."
  },
  {
   "property": "C94",
   "status": "proved",
   "theorems": [
    "c94_prob",
    "c94_measure"
   ],
   "note": ""
  },
  {
   "property": "C95",
   "status": "partial",
   "theorems": [
    "c95_compose_partial",
    "c95_compose_at_partial"
   ],
   "note": "Any sizes when the second operand is not larger; otherwise a total of at most eight qubits above the threshold. Operands without qubits excluded."
  },
  {
   "property": "C96",
   "status": "partial",
   "theorems": [
    "c96_dispose_partial",
    "c96_compose_then_dispose_partial"
   ],
   "note": "Up to eight page bits."
  },
  {
   "property": "C97",
   "status": "partial",
   "theorems": [
    "c97_one_page_partial",
    "c97_pages_refuted"
   ],
   "note": "One page proved. REFUTED on two pages: a state differs from itself by 1."
  },
  {
   "property": "C98",
   "status": "partial",
   "theorems": [
    "c98_from_engine",
    "c98_release",
    "c98_through_pages_partial",
    "c98_far_refuted"
   ],
   "note": "REFUTED as stated: between the conversions a control nine places above the page size acts as an anti-control (C63). The conversions themselves are proved for every state."
  },
  {
   "property": "C99",
   "status": "proved",
   "theorems": [
    "c99_calls",
    "c99_one_call"
   ],
   "note": "For any sequence of calls from new shards."
  },
  {
   "property": "C100",
   "status": "proved",
   "theorems": [
    "c100_phase",
    "c100_anti_phase",
    "c100_inversion",
    "c100_anti_inversion",
    "c100_phases"
   ],
   "note": "For shard states whose pending gates commute; phase-only buffers always qualify (c100_phases)."
  },
  {
   "property": "C101",
   "status": "proved",
   "theorems": [
    "c101_optimize_controls",
    "c101_optimize_targets",
    "c101_optimize_anti_controls",
    "c101_optimize_anti_targets",
    "c101_optimize_both",
    "c101_combine"
   ],
   "note": "All six functions."
  },
  {
   "property": "C102",
   "status": "proved",
   "theorems": [
    "c102_flip"
   ],
   "note": ""
  },
  {
   "property": "C103",
   "status": "partial",
   "theorems": [
    "c103_commute_phase_refuted",
    "c103_commute_phase_partial"
   ],
   "note": "REFUTED as stated: CommutePhase returns at the first non-inverting buffer. Proved when all or none of the buffers invert."
  },
  {
   "property": "C104",
   "status": "proved",
   "theorems": [
    "c104_commute_h"
   ],
   "note": "For any h with h*h+h*h=1."
  },
  {
   "property": "C105",
   "status": "proved",
   "theorems": [
    "c105_dump_phase",
    "c105_clear_invert"
   ],
   "note": ""
  },
  {
   "property": "C106",
   "status": "proved",
   "theorems": [
    "c106_dump_control",
    "c106_dump_anti_control",
    "c106_dump_same",
    "c106_dump_same_anti",
    "c106_dump_multi"
   ],
   "note": ""
  },
  {
   "property": "C107",
   "status": "partial",
   "theorems": [
    "c107_erase_refuted",
    "c107_erase_partial"
   ],
   "note": "REFUTED as stated: map keys are addresses and are not rebased when shards move. Proved when all buffers lie in front of the removed shard."
  },
  {
   "property": "C108",
   "status": "partial",
   "theorems": [
    "c108_programs_partial",
    "c108_safe_calls_partial",
    "c108_gates_refuted"
   ],
   "note": "REFUTED as stated: H after a buffered controlled phase whose partner has become separable. Proved (c108_programs_partial, c108_safe_calls_partial) for the sequences in which, whenever a Hadamard-like matrix meets a controlled gate that may be waiting, the other qubit has no certain value."
  },
  {
   "property": "C109",
   "status": "partial",
   "theorems": [
    "c109_outcomes_refuted"
   ],
   "note": "REFUTED as stated: MAll reads amplitudes stored for the X or Y basis as if for the Z basis."
  },
  {
   "property": "C110",
   "status": "partial",
   "theorems": [
    "c110_no_collapse_refuted"
   ],
   "note": "REFUTED as stated: ToPermBasisMeasure drops buffered gates also when the measurement is not applied."
  },
  {
   "property": "C111",
   "status": "partial",
   "theorems": [
    "c111_phase_refuted"
   ],
   "note": "REFUTED as stated: EndEmulation and SeparateBit replace the phase of a basis state by 1."
  },
  {
   "property": "C112",
   "status": "proved",
   "theorems": [
    "c112_amplitudes"
   ],
   "note": "For all numbers that satisfy `positive` (no zero divisors; sums of squared magnitudes vanish only if all do), in particular the complex numbers; tests against zero are exact."
  },
  {
   "property": "C113",
   "status": "proved",
   "theorems": [
    "c113_prob"
   ],
   "note": "As C112; the square root of a probability p is some number with squared magnitude p."
  },
  {
   "property": "C114",
   "status": "proved",
   "theorems": [
    "c114_reads"
   ],
   "note": "As C112."
  },
  {
   "property": "C115",
   "status": "proved",
   "theorems": [
    "c115_norm"
   ],
   "note": "As C112."
  },
  {
   "property": "C116",
   "status": "proved",
   "theorems": [
    "c116_layout"
   ],
   "note": "As C112."
  },
  {
   "property": "C117",
   "status": "proved",
   "theorems": [
    "c117_set_permutation"
   ],
   "note": "As C112."
  },
  {
   "property": "C118",
   "status": "proved",
   "theorems": [
    "c118_outcome",
    "c118_possible",
    "c118_outcomes",
    "c118_again"
   ],
   "note": "As C112; nrm(p) is any factor whose squared magnitude is 1/p (GetNonunitaryPhase() / sqrt(p)). A random number is compared with the probability; no claim about the distribution of the random numbers themselves."
  },
  {
   "property": "C119",
   "status": "partial",
   "theorems": [
    "c119_collapse_refuted",
    "c119_collapse_partial",
    "c119_first_partial"
   ],
   "note": "REFUTED as stated: a measurement while a controlled phase is waiting can leave a wrong state. Proved (c119_collapse_partial, c119_first_partial) if the controls of waiting gates stay undecided, in particular for measurements after GetAmplitude."
  },
  {
   "property": "C120",
   "status": "proved",
   "theorems": [
    "c120_set_permutation"
   ],
   "note": "Exact arithmetic, 1 <> 0."
  },
  {
   "property": "C121",
   "status": "partial",
   "theorems": [
    "c121_gates_refuted",
    "c121_gates_partial",
    "c121_any_state_partial",
    "c121_prob_partial"
   ],
   "note": "REFUTED as stated: MACMtrx with controls that are not next to each other (matrix neither diagonal nor anti-diagonal). Proved for all other calls: MACMtrx with one control, with controls next to each other and below the target, or with a matrix with two zeros. Exact arithmetic (division, square roots of sums of squared magnitudes) over any ring with conjugation in which such sums vanish only if all summands do; trees as values."
  },
  {
   "property": "C122",
   "status": "proved",
   "theorems": [
    "c122_prob",
    "c122_norm"
   ],
   "note": "After every program in range, also those with the calls of MACMtrx that give wrong amplitudes. Exact arithmetic as in C121."
  },
  {
   "property": "C123",
   "status": "proved",
   "theorems": [
    "c123_round_trip",
    "c123_replaces"
   ],
   "note": "As C121, for all vectors."
  },
  {
   "property": "C124",
   "status": "partial",
   "theorems": [
    "c124_outcome",
    "c124_collapse_refuted",
    "c124_collapse_partial",
    "c124_first_partial"
   ],
   "note": "REFUTED as stated: on a Bell pair the measurement of qubit 1 leaves the state as it was. Proved: the outcome (c124_outcome), and the state for qubits independent of the qubits below, in particular qubit 0."
  },
  {
   "property": "C125",
   "status": "proved",
   "theorems": [
    "c125_mall",
    "c125_sample"
   ],
   "note": "After every program in range. Exact arithmetic as in C121."
  },
  {
   "property": "C126",
   "status": "partial",
   "theorems": [
    "c126_insert_refuted",
    "c126_end_partial",
    "c126_phase_refuted"
   ],
   "note": "REFUTED as stated: only the position at the end works; elsewhere the norm is wrong, and at the end the phase of the second state is lost. Proved up to a global phase for the position at the end."
  },
  {
   "property": "C127",
   "status": "partial",
   "theorems": [
    "c127_no_refuted",
    "c127_yes_partial"
   ],
   "note": "REFUTED as stated: the answer no may be wrong. Proved: the answer yes is right."
  },
  {
   "property": "C128",
   "status": "partial",
   "theorems": [
    "c128_shift_refuted"
   ],
   "note": "REFUTED: SetQuantumState on one qubit (a shift by 255)."
  },
  {
   "property": "C129",
   "status": "proved",
   "theorems": [
    "c129_gates"
   ],
   "note": "QTensorNetwork and its layer stack modelled in MTensor.v on top of the QCircuit model (MQCircuit.v); up to 126 qubits."
  },
  {
   "property": "C130",
   "status": "partial",
   "theorems": [
    "c130_programs_partial",
    "c130_layers_refuted",
    "c130_phase_refuted",
    "c130_stuck_refuted",
    "c130_flip_partial",
    "c130_cnot_partial",
    "c130_null_refuted"
   ],
   "note": "REFUTED as stated: a gate without measured qubits is put before gates on which it depends; ForceM deletes controlled phases; the rebuilt layers may contradict each other. Proved for the programs of the class ordered (SpecTensor.v)."
  },
  {
   "property": "C131",
   "status": "partial",
   "theorems": [
    "c131_repeat_partial",
    "c131_repeat_refuted",
    "c131_wide_partial"
   ],
   "note": "REFUTED as stated with an engine as layer stack: replaying a single measurement does not force the value. Proved after programs of the class ordered, for two measurements in a row."
  },
  {
   "property": "C132",
   "status": "partial",
   "theorems": [
    "c132_one_partial",
    "c132_second_refuted",
    "c132_bell_refuted"
   ],
   "note": "REFUTED as stated: a second measurement throws, or gives a wrong result. Proved for the first measurement."
  },
  {
   "property": "C133",
   "status": "partial",
   "theorems": [
    "c133_mall_partial",
    "c133_mall_refuted",
    "c133_zero_partial",
    "c133_basis_refuted"
   ],
   "note": "REFUTED as stated above the threshold. Proved up to the threshold after programs of the class ordered."
  },
  {
   "property": "C134",
   "status": "partial",
   "theorems": [
    "c134_set_permutation",
    "c134_phase_refuted"
   ],
   "note": "REFUTED for the phase argument, which is never used. The basis state is proved."
  },
  {
   "property": "C135",
   "status": "partial",
   "theorems": [
    "c135_allocate_partial",
    "c135_allocate_refuted"
   ],
   "note": "REFUTED as stated: the cached layer stack keeps its size. Proved when no layer stack is cached or the position is not the end."
  },
  {
   "property": "C136",
   "status": "partial",
   "theorems": [
    "c136_programs_partial",
    "c136_large_refuted"
   ],
   "note": "REFUTED as stated: IDs are cut to eight bits when they are looked up, so an ID of 256 stands for 0. Proved for IDs below 256."
  },
  {
   "property": "C137",
   "status": "partial",
   "theorems": [
    "c137_new_partial",
    "c137_bound_refuted",
    "c137_reuse_refuted"
   ],
   "note": "REFUTED as stated: the number of simulators passes the test for a valid ID, and a destroyed ID is used again. Proved: a new simulator gets a free ID and the others stay."
  },
  {
   "property": "C138",
   "status": "partial",
   "theorems": [
    "c138_clone_partial",
    "c138_clone_refuted"
   ],
   "note": "REFUTED as stated: a clone numbers its qubits by position. Proved when no qubit was allocated or released after the start."
  },
  {
   "property": "C139",
   "status": "partial",
   "theorems": [
    "c139_dispose_refuted",
    "c139_newest_partial"
   ],
   "note": "REFUTED as stated: the remaining qubits are exchanged. Proved for the qubit that was allocated last."
  },
  {
   "property": "C140",
   "status": "partial",
   "theorems": [
    "c140_decompose_refuted"
   ],
   "note": "REFUTED as stated: the remaining qubits are exchanged."
  },
  {
   "property": "C141",
   "status": "partial",
   "theorems": [
    "c141_separate_refuted"
   ],
   "note": "REFUTED as stated: the range is off by one, so two qubits are exchanged."
  },
  {
   "property": "C142",
   "status": "partial",
   "theorems": [
    "c142_add_partial",
    "c142_hash_partial",
    "c142_order_refuted",
    "c142_wide_refuted"
   ],
   "note": "REFUTED as stated: wrong for qubits not listed in the order of allocation; undefined behaviour for ADD in the default configuration. Proved for registers in the order of allocation after programs of C136."
  },
  {
   "property": "C143",
   "status": "partial",
   "theorems": [
    "c143_mul_refuted"
   ],
   "note": "REFUTED as stated for interleaved registers."
  },
  {
   "property": "C144",
   "status": "partial",
   "theorems": [
    "c144_lda_partial",
    "c144_lda_refuted",
    "c144_lda_low_partial"
   ],
   "note": "REFUTED as stated for interleaved registers. Proved for index register before value register in the order of allocation."
  },
  {
   "property": "C145",
   "status": "partial",
   "theorems": [
    "c145_mask_refuted",
    "c145_identity_refuted",
    "c145_single_partial"
   ],
   "note": "REFUTED as stated: IDs are used as positions for two or more operators, and the phase for the identity is wrong. Proved for one operator X, Y or Z with any controls."
  },
  {
   "property": "C146",
   "status": "partial",
   "theorems": [
    "c146_sorted_partial",
    "c146_two_partial",
    "c146_three_refuted"
   ],
   "note": "REFUTED as stated for three controls. Proved for sorted controls and for two controls."
  },
  {
   "property": "C147",
   "status": "partial",
   "theorems": [
    "c147_mall_partial",
    "c147_mall_refuted"
   ],
   "note": "REFUTED as stated after arithmetic. Proved after programs of C136."
  },
  {
   "property": "C148",
   "status": "proved",
   "theorems": [
    "c148_compose"
   ],
   "note": ""
  },
  {
   "property": "C149",
   "status": "proved",
   "theorems": [
    "c149_unpredict",
    "c149_cycle"
   ],
   "note": "For every neuron on distinct qubits, every state and every activation."
  },
  {
   "property": "C150",
   "status": "proved",
   "theorems": [
    "c150_predict",
    "c150_untrained"
   ],
   "note": "For every neuron and every state with the output qubit in state 0; erf and pow are arbitrary functions."
  },
  {
   "property": "C151",
   "status": "partial",
   "theorems": [
    "c151_learn_partial",
    "c151_sigmoid_partial",
    "c151_clamp_refuted"
   ],
   "note": "REFUTED as stated: LearnInternal reduces angles modulo 4 pi after the trial, which changes the activation for ReLU, Leaky_ReLU (and others). Proved for Sigmoid, and for every activation that the reduction does not change."
  },
  {
   "property": "C152",
   "status": "partial",
   "theorems": [
    "c152_basis_partial",
    "c152_superposition_refuted"
   ],
   "note": "REFUTED as stated for superpositions of the inputs. Proved for basis states with Sigmoid."
  },
  {
   "property": "C153",
   "status": "proved",
   "theorems": [
    "c153_training"
   ],
   "note": "For every boolean function, every list of examples, Learn and LearnPermutation; rate 1/2, Sigmoid."
  },
  {
   "property": "C154",
   "status": "partial",
   "theorems": [
    "c154_copies_partial",
    "c154_larger_refuted",
    "c154_smaller_refuted"
   ],
   "note": "REFUTED as stated for neurons with different numbers of inputs. Proved for equal numbers."
  },
  {
   "property": "C155",
   "status": "partial",
   "theorems": [
    "c155_unknown_partial",
    "c155_release_refuted",
    "c155_permutation_refuted"
   ],
   "note": "REFUTED as stated: release does not catch the exception, PermutationProb computes pow2(255). Proved for gates, SWAP, Prob and M with IDs below 256."
  },
  {
   "property": "C156",
   "status": "proved",
   "theorems": [
    "c156_joint"
   ],
   "note": "For every state of up to 64 qubits; ci and ch are any i and 1/sqrt 2."
  },
  {
   "property": "C157",
   "status": "proved",
   "theorems": [
    "c157_measure"
   ],
   "note": "For every state of up to 64 qubits and every choice of random numbers."
  },
  {
   "property": "C158",
   "status": "proved",
   "theorems": [
    "c158_permutation"
   ],
   "note": "For every state, up to 2^QBCAPPOW qubits."
  },
  {
   "property": "C159",
   "status": "partial",
   "theorems": [
    "c159_undefined_refuted",
    "c159_wrong_qubit_refuted",
    "c159_fsim_refuted",
    "c159_programs_partial",
    "c159_prob_partial"
   ],
   "note": "REFUTED as stated: a control that is certain to let the gate act sends the gate to the wrong qubit, or outside its unit; so does FSim. Proved for programs without such controls. The simulator of the units is exact (the tableau of QStabilizer is the subject of PropStab.v); how it answers about separability is arbitrary, under the contract sep_ok."
  },
  {
   "property": "C160",
   "status": "proved",
   "theorems": [
    "c160_prob"
   ],
   "note": "For every register that can be reached."
  },
  {
   "property": "C161",
   "status": "proved",
   "theorems": [
    "c161_measure"
   ],
   "note": "For every register that can be reached and every choice of random numbers."
  },
  {
   "property": "C162",
   "status": "partial",
   "theorems": [
    "c162_mask_refuted",
    "c162_one_partial"
   ],
   "note": "REFUTED as stated: probabilities of the units are added. Proved for one qubit."
  },
  {
   "property": "C163",
   "status": "partial",
   "theorems": [
    "c163_phase_refuted",
    "c163_compose_partial"
   ],
   "note": "REFUTED as stated: the phase of the second register is lost. Proved up to a phase."
  },
  {
   "property": "C164",
   "status": "partial",
   "theorems": [
    "c164_decompose_refuted"
   ],
   "note": "REFUTED as stated: the destination keeps positions of the old unit."
  },
  {
   "property": "C165",
   "status": "proved",
   "theorems": [
    "c165_xmask",
    "c165_zmask",
    "c165_rootmask",
    "c165_ymask",
    "c165_parity"
   ],
   "note": "The generic bodies, with the scalar that an engine with random global phase may drop."
  },
  {
   "property": "C166",
   "status": "proved",
   "theorems": [
    "c166_zero_flip"
   ],
   "note": "For registers of at least one qubit."
  },
  {
   "property": "C167",
   "status": "proved",
   "theorems": [
    "c167_csqrtswap",
    "c167_inverse"
   ],
   "note": "All four functions, and that they undo each other."
  },
  {
   "property": "C168",
   "status": "partial",
   "theorems": [
    "c168_evolve_partial",
    "c168_uniform_refuted",
    "c168_uniform_partial",
    "c168_exp"
   ],
   "note": "REFUTED as stated: uniformly controlled terms are exponentiated without the factor i. Proved for terms with one matrix, and for uniform terms given already multiplied by i."
  },
  {
   "property": "C169",
   "status": "partial",
   "theorems": [
    "c169_expectation_partial",
    "c169_variance_partial",
    "c169_all_partial",
    "c169_throws",
    "c169_empty_refuted"
   ],
   "note": "REFUTED as stated for the empty list, for which both return 1. Proved for every other list."
  },
  {
   "property": "C170",
   "status": "partial",
   "theorems": [
    "c170_expectation_partial",
    "c170_throws",
    "c170_variance_partial",
    "c170_variance_is_partial",
    "c170_variance_refuted",
    "c170_empty_refuted"
   ],
   "note": "REFUTED as stated: the variance for two or more bits is the mean of the product of the weights, and the empty list gives 1. Proved: the expectation value for every other list, the variance for one bit, and what is returned for more."
  },
  {
   "property": "C171",
   "status": "partial",
   "theorems": [
    "c171_restores",
    "c171_expectation_is_partial",
    "c171_one_partial",
    "c171_variance_is_partial",
    "c171_product_refuted",
    "c171_identity_refuted"
   ],
   "note": "REFUTED as stated: the expectation value is the sum instead of the product, the variance is the expectation value of the product, and identities may stay in the list as Z. Proved: one operator, what is returned for more, and that the state is restored."
  },
  {
   "property": "C172",
   "status": "proved",
   "theorems": [
    "c172_mask",
    "c172_bits"
   ],
   "note": "For every mask below 2^64 and every list; the register is a state vector."
  },
  {
   "property": "C173",
   "status": "partial",
   "theorems": [
    "c173_expectation_is_partial",
    "c173_variance_partial",
    "c173_default",
    "c173_product_refuted"
   ],
   "note": "REFUTED as stated: the sum of the single expectation values is returned instead of the expectation value of the product. Proved: what is returned, which is the value asked for with one qubit, the variance with one qubit, and that the state is restored."
  },
  {
   "property": "C174",
   "status": "partial",
   "theorems": [
    "c174_expectation_is_partial",
    "c174_hadamard_refuted"
   ],
   "note": "REFUTED as stated: negating the three angles is not the inverse of U, so the value is wrong and the state changes, e.g. for the angles of the Hadamard gate. Proved when phi equals lambda or sin (theta/2) is 0."
  },
  {
   "property": "C175",
   "status": "proved",
   "theorems": [
    "c175_rotation",
    "c175_addition",
    "c175_inverse",
    "c175_controlled",
    "c175_uniform"
   ],
   "note": "Angles enter by their cosines and sines; up to a global phase when the engine may drop it."
  },
  {
   "property": "C176",
   "status": "partial",
   "theorems": [
    "c176_rt_partial",
    "c176_rt_refuted",
    "c176_crx_partial",
    "c176_crx_refuted",
    "c176_exp_partial",
    "c176_exp_refuted"
   ],
   "note": "REFUTED as stated: RT multiplies by exp(+i theta/2), CRX turns the other way than RX, and ExpX, ExpY and ExpZ apply a multiple of the Pauli operator. Proved: what each of them applies. CRX and the exponentials are compiled only with ENABLE_ROT_API, and the call in CRX does not match the present signature of MCMtrx."
  },
  {
   "property": "C177",
   "status": "proved",
   "theorems": [
    "c177_u"
   ],
   "note": "Angles enter by cosine, sine and phases; AntiCU with at least one control."
  },
  {
   "property": "C178",
   "status": "proved",
   "theorems": [
    "c178_prepares",
    "c178_axes",
    "c178_inverse",
    "c178_controlled"
   ],
   "note": "Angles enter by their cosines and sines; division is a parameter that maps 1 to 1."
  },
  {
   "property": "C179",
   "status": "proved",
   "theorems": [
    "c179_counts",
    "c179_order",
    "c179_bound"
   ],
   "note": "For the body of QInterface, which QEngine, QUnit and QStabilizerHybrid override; which basis states MAll may return is a hypothesis."
  },
  {
   "property": "C180",
   "status": "partial",
   "theorems": [
    "c180_array_partial",
    "c180_wide_refuted"
   ],
   "note": "REFUTED as stated: samples are converted to unsigned int, so more than 32 qubits lose bits. Proved up to 32 qubits."
  },
  {
   "property": "C181",
   "status": "proved",
   "theorems": [
    "c181_left",
    "c181_right"
   ],
   "note": "For the bodies of QInterface over the CPU engine; shifts by at least the length of a register that is the whole engine (SetPermutation) are excluded."
  },
  {
   "property": "C182",
   "status": "partial",
   "theorems": [
    "c182_left_partial",
    "c182_right_partial",
    "c182_left_refuted",
    "c182_right_refuted"
   ],
   "note": "REFUTED as stated: ASL takes basis state 8 of four qubits to 4 and ASR takes 12 to 2, so neither of the last two bits is kept as a sign. What the functions do is proved."
  },
  {
   "property": "C183",
   "status": "partial",
   "theorems": [
    "c183_channel_partial",
    "c183_depolarizing_refuted"
   ],
   "note": "REFUTED as stated: the function dephases in the basis of X and never changes (|0> + |1>) / sqrt 2. What it does is proved for all states. On a state vector with exact gates; the angle enters by cosine and sine."
  },
  {
   "property": "C184",
   "status": "proved",
   "theorems": [
    "c184_strong"
   ],
   "note": "On a state vector with exact gates; the angle enters by cosine and sine."
  },
  {
   "property": "C185",
   "status": "partial",
   "theorems": [
    "c185_channel_partial",
    "c185_strength_refuted"
   ],
   "note": "REFUTED as stated: the three draws are independent, so the coefficient is (lambda/3)(1 - lambda/3). What it does is proved for all states."
  },
  {
   "property": "C186",
   "status": "proved",
   "theorems": [
    "c186_measure",
    "c186_force",
    "c186_lengths"
   ],
   "note": "For the body of QInterface (QEngine has its own, C69); the measurement of one qubit is a relation: an outcome that has amplitude and a scaled projection."
  },
  {
   "property": "C187",
   "status": "partial",
   "theorems": [
    "c187_state_partial",
    "c187_mask_refuted",
    "c187_impossible_refuted"
   ],
   "note": "REFUTED as stated: without values the packed outcomes are returned instead of the mask, and jointly impossible values are accepted. That the state does not change is proved."
  },
  {
   "property": "C188",
   "status": "proved",
   "theorems": [
    "c188_cnot",
    "c188_anticnot",
    "c188_ccnot",
    "c188_anticcnot"
   ],
   "note": "For registers of the engine; the target register is disjoint from the controls."
  },
  {
   "property": "C189",
   "status": "proved",
   "theorems": [
    "c189_two",
    "c189_classical",
    "c189_inplace_xor",
    "c189_throws"
   ],
   "note": "For registers of the engine (fewer than 64 qubits, so that the cast of bitSlice to 64 bits keeps the bit); the output register is disjoint from the inputs."
  },
  {
   "property": "C190",
   "status": "proved",
   "theorems": [
    "c190_swap"
   ],
   "note": "For registers of the engine that are disjoint or the same; ISwap and the square roots are not covered in their register forms."
  },
  {
   "property": "C191",
   "status": "partial",
   "theorems": [
    "c191_bits_partial",
    "c191_bits_refuted"
   ],
   "note": "REFUTED as stated: the bit is cast to the 64-bit bitCapIntOcl, so that bits from 64 on are read as 0 (the default capacity is 128 qubits). Up to 64 qubits it is proved."
  }
 ]
}