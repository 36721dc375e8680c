{"id": "C01", "title": "Wide-integer in-place addition, subtraction and increment are exact modulo 2^width", "statement": "For wide unsigned integers of any word size and any number of words, adding or subtracting a wide integer in place, or incrementing by one word, leaves exactly (a+b), (a-b) or (a+v) modulo 2^(total bits).", "quantifier": "every word width, every word count, every pair of operand values (all carry and borrow chains)", "why_tests_cant": "carry chains across k words need 2^(wk) operand pairs; a unit test samples a handful", "anchors": ["include/common/big_integer.hpp: bi_add_ip, bi_sub_ip, bi_increment"]}
{"id": "C02", "title": "Wide-integer operator+ and operator- are exact modulo 2^width", "statement": "a+b and a-b on wide integers return the mathematically exact result modulo 2^(total bits).", "quantifier": "every word width and count, every operand pair", "why_tests_cant": "same operand explosion; the wrong top word only shows for values above the lowest word", "anchors": ["include/common/big_integer.hpp: operator+, operator-"]}
{"id": "C03", "title": "Wide-integer decrement is exact modulo 2^width", "statement": "Decrementing a wide integer by one word leaves exactly (a-v) modulo 2^(total bits).", "quantifier": "every word width and count, every operand and subtrahend", "why_tests_cant": "only operands that borrow out of the lowest word matter, a vanishing fraction of random tests", "anchors": ["include/common/big_integer.hpp: bi_decrement, operator--", "include/common/qrack_functions.hpp: pow2Mask, bitRegMask"]}
{"id": "C04", "title": "Wide-integer bitwise operations and comparison agree with the integers", "statement": "AND, OR, XOR and NOT act bit by bit on the represented value, and comparison (general, against 0, against 1) returns the sign of the numeric difference.", "quantifier": "every word width and count, every operand pair", "why_tests_cant": "operand explosion", "anchors": ["include/common/big_integer.hpp: operator&, operator|, operator^, operator~, bi_compare, bi_compare_0, bi_compare_1"]}
{"id": "C05", "title": "Wide-integer shifts are multiplication and division by powers of two", "statement": "a<<s returns a*2^s modulo 2^(total bits) and a>>s returns floor(a/2^s), for every shift amount up to and beyond the width, and the in-place forms agree with the value-returning forms.", "quantifier": "every word width and count, every operand, every shift amount", "why_tests_cant": "the in-place word move misbehaves only for particular combinations of word count and shift", "anchors": ["include/common/big_integer.hpp: operator<<, operator>>, bi_lshift_ip, bi_rshift_ip, bi_lshift_word, bi_lshift_word_ip, bi_rshift_word, bi_rshift_word_ip"]}
{"id": "C06", "title": "Wide-integer multiplication is exact modulo 2^width", "statement": "Multiplying a wide integer by a half word, or by a wide integer, returns the product modulo 2^(total bits).", "quantifier": "every word width and count, every operand pair", "why_tests_cant": "operand explosion; special operands (0, large ones) take separate branches", "anchors": ["src/common/big_integer.cpp: operator*(BigInteger, half word), operator*(BigInteger, BigInteger)"]}
{"id": "C07", "title": "Wide-integer division satisfies Euclid's equation", "statement": "Division by a non-zero divisor terminates with quotient q and remainder r such that left = q*right + r and r < right.", "quantifier": "every word width and count, every dividend, every non-zero divisor", "why_tests_cant": "operand explosion, and termination cannot be tested", "anchors": ["src/common/big_integer.cpp: bi_div_mod_small, bi_div_mod"]}
{"id": "C08", "title": "Base-2 logarithm of a qubit-address integer", "statement": "log2 of any positive value of the wide address type is the index of its highest set bit.", "quantifier": "every positive address value the type can hold", "why_tests_cant": "values beyond the native 64-bit range need registers larger than a test can hold", "anchors": ["include/common/qrack_functions.hpp: log2Ocl, bi_log2, log2", "include/common/big_integer.hpp: bi_log2"]}
{"id": "C09", "title": "Printing and parsing wide integers round-trip", "statement": "Printing an address value terminates and yields its decimal digits, and reading these digits back yields the same value.", "quantifier": "every value of the address type", "why_tests_cant": "non-termination and all values cannot be covered by tests", "anchors": ["src/common/functions.cpp: operator<<(ostream, bitCapInt), operator>>(istream, bitCapInt)"]}
{"id": "C10", "title": "Spreading bits around skipped positions is an order-preserving bijection", "statement": "Inserting zero bits at a sorted list of positions maps 0..2^(n-k)-1 one to one and in order onto exactly the numbers below 2^n that are zero at all those positions.", "quantifier": "every sorted list of distinct positions, every input", "why_tests_cant": "the set of (positions, input) pairs is exponential in n", "anchors": ["src/common/functions.cpp: pushApartBits", "src/common/parallel_for.cpp: par_for_mask"]}
{"id": "C11", "title": "Signed overflow predicates are exact", "statement": "The overflow predicate for addition (subtraction) of two's complement numbers of any bit length is true exactly when the mathematical sum (difference) is outside the representable range.", "quantifier": "every bit length, every operand pair", "why_tests_cant": "operand explosion over all lengths", "anchors": ["src/common/functions.cpp: isOverflowAdd, isOverflowSub"]}
{"id": "C12", "title": "Range checks accept exactly the valid ranges", "statement": "The bit-range check accepts a start and length exactly when start+length does not exceed the qubit count, including values that wrap the native integer, and the identifier-list check accepts exactly duplicate-free in-range lists.", "quantifier": "every start, length, qubit count and identifier list", "why_tests_cant": "wrap-around inputs are rarely exercised", "anchors": ["include/common/qrack_functions.hpp: isBadBitRange, isBadPermRange, ThrowIfQbIdArrayIsBad"]}
{"id": "C13", "title": "Parallel loop visits every index exactly once", "statement": "A parallel loop over [begin, end) calls the kernel exactly once for each index whatever the number of threads, the stride and the interleaving of the threads' fetches of work.", "quantifier": "every begin/end, stride, thread count and every interleaving of atomic fetches", "why_tests_cant": "a test observes a handful of schedules out of exponentially many", "anchors": ["src/common/parallel_for.cpp: par_for, par_for_inc"]}
{"id": "C14", "title": "Parallel loop with skipped bits visits exactly the indices that are zero there", "statement": "The masked and skipping parallel loops visit, once each, exactly the indices below 2^n whose skipped bits are all zero.", "quantifier": "every qubit count, every set of skipped bits / skipped contiguous field, every schedule", "why_tests_cant": "exponential in n", "anchors": ["src/common/parallel_for.cpp: par_for_mask, par_for_skip"]}
{"id": "C15", "title": "Kernel writes commute: loop results do not depend on the schedule", "statement": "When loop iterations touch disjoint memory cells, the resulting memory is the same for every interleaving of the individual reads and writes of all iterations.", "quantifier": "every number of iterations, every interleaving at the granularity of single memory accesses", "why_tests_cant": "schedules cannot be enumerated by tests", "anchors": ["src/common/parallel_for.cpp: par_for_inc", "src/qengine/state.cpp: Apply2x2"]}
{"id": "C16", "title": "Parallel norm accumulates every amplitude exactly once", "statement": "The parallel norm equals the sum of the squared magnitudes of all amplitudes at or above the threshold for every schedule (in exact arithmetic).", "quantifier": "every vector, threshold, stride, thread count and schedule", "why_tests_cant": "schedules cannot be enumerated", "anchors": ["src/common/parallel_for.cpp: par_norm, par_norm_exact"]}
{"id": "C17", "title": "Waiting on the work queue waits for all earlier work", "statement": "Whenever finish returns and the queue was neither dumped nor destroyed, every operation dispatched before the call has completed; operations run one at a time in dispatch order, each exactly once.", "quantifier": "every interleaving of any number of client calls and worker steps", "why_tests_cant": "schedules and histories are unbounded", "anchors": ["src/common/dispatchqueue.cpp: dispatch, finish, dispatch_thread_handler"]}
{"id": "C18", "title": "Dumping the work queue leaves no operation running", "statement": "After dump followed by finish, no previously dispatched operation is still running or will run.", "quantifier": "every interleaving of client calls and worker steps", "why_tests_cant": "the violating schedule is a narrow race", "anchors": ["src/common/dispatchqueue.cpp: dump, finish"]}
{"id": "C19", "title": "A controlled single-qubit gate is the mathematical gate", "statement": "Applying a 2x2 matrix to a target with any set of controls, each with any required value, maps the amplitude vector to the tensor-product matrix acting on it: amplitudes whose control bits do not match are unchanged, others mix with their partner exactly by the matrix.", "quantifier": "every qubit count, target, control list, control value pattern, matrix and state, every schedule of the parallel kernel", "why_tests_cant": "exponentially many index/control combinations and continuous states", "anchors": ["src/qengine/state.cpp: QEngineCPU::Apply2x2", "include/qengine.hpp: MCMtrx, MACMtrx, UCMtrx", "src/qengine/qengine.cpp: ApplyControlled2x2, ApplyAntiControlled2x2"]}
{"id": "C20", "title": "Unitary gates preserve the norm and invert", "statement": "A (controlled) gate with a unitary matrix preserves the sum of squared magnitudes, and applying the gate and then the gate with the conjugate-transposed matrix restores the state.", "quantifier": "every qubit count, controls, unitary matrix and state", "why_tests_cant": "continuous state space", "anchors": ["src/qengine/state.cpp: QEngineCPU::Apply2x2"]}
{"id": "C21", "title": "Multi-qubit bit flip and phase-parity masks", "statement": "XMask flips exactly the masked bits of every basis state, and PhaseParity multiplies each basis amplitude by one of two conjugate phases according to the parity of the masked bits, leaving other amplitudes and magnitudes alone.", "quantifier": "every qubit count, mask, angle and state, every schedule", "why_tests_cant": "exponential index space", "anchors": ["src/qengine/state.cpp: QEngineCPU::XMask, QEngineCPU::PhaseParity"]}
{"id": "C22", "title": "Uniformly controlled gate selects the right matrix", "statement": "A uniformly controlled single-qubit gate applies to the target, in every basis state of the controls, the matrix listed for exactly that control value (with skip bits inserted as specified).", "quantifier": "every qubit count, ordered control list, target, matrix list and state", "why_tests_cant": "exponentially many control values", "anchors": ["src/qengine/state.cpp: QEngineCPU::UniformlyControlledSingleBit"]}
{"id": "C23", "title": "Composition is the tensor product", "statement": "Composing two engines gives the amplitude vector of the tensor product with the second operand in the higher bits (or inserted at the requested position).", "quantifier": "every pair of sizes, states and insertion positions", "why_tests_cant": "exponential index space", "anchors": ["src/qengine/state.cpp: QEngineCPU::Compose"]}
{"id": "C24", "title": "Disposing a register in a known basis state is the inverse of composing it", "statement": "Disposing qubits known to be in a permutation state returns exactly the remaining amplitudes: it undoes insertion of that basis state at any position.", "quantifier": "every size, position, permutation value and state", "why_tests_cant": "exponential index space", "anchors": ["src/qengine/state.cpp: QEngineCPU::Dispose(start, length, perm)"]}
{"id": "C25", "title": "Marginal probabilities are exact sums", "statement": "The probability of a qubit, register value or mask value is the sum of squared magnitudes of exactly the matching basis states, and register probabilities over all values sum to the total norm.", "quantifier": "every qubit count, register, mask, value and state", "why_tests_cant": "exponential index space and continuous states", "anchors": ["src/qengine/state.cpp: QEngineCPU::Prob, ProbReg, ProbMask, ProbRegAll"]}
{"id": "C26", "title": "Measurement projects and repeats", "statement": "After a measurement is applied with a given outcome, every non-matching amplitude is zero and every matching amplitude is the old one times a common factor; measuring the same qubits again can only give the same outcome.", "quantifier": "every qubit count, measured mask, outcome and state", "why_tests_cant": "continuous states, random outcomes", "anchors": ["src/qengine/state.cpp: QEngineCPU::ApplyM", "src/qengine/qengine.cpp: ForceM, ForceMReg"]}
{"id": "C27", "title": "Register measurement always returns a value with non-zero probability", "statement": "Measuring a register with any random draw in [0,1) returns a value whose probability is non-zero and never reads outside the distribution.", "quantifier": "every distribution and every random draw", "why_tests_cant": "the random draw is continuous; boundary draws are never sampled", "anchors": ["src/qengine/qengine.cpp: ForceMReg, ForceM(bits, length, values)"]}
{"id": "C28", "title": "INC adds modulo the register size", "statement": "INC on a register adds the constant modulo 2^length on that register in every basis state and changes no other qubit; the decrement with the same constant undoes it.", "quantifier": "every qubit count, start, length, constant (including larger than the register) and state", "why_tests_cant": "exponential index space", "anchors": ["src/qengine/arithmetic.cpp: QEngineCPU::INC", "src/qalu.cpp: QAlu::DEC"]}
{"id": "C29", "title": "Controlled INC acts only where all controls are set", "statement": "CINC adds modulo 2^length exactly in basis states where every control is 1 and is the identity elsewhere.", "quantifier": "every qubit count, register, control list, constant and state", "why_tests_cant": "exponential index space", "anchors": ["src/qengine/arithmetic.cpp: QEngineCPU::CINC"]}
{"id": "C30", "title": "Addition with carry computes the full sum", "statement": "INCC/DECC on a register and carry qubit produce the (length+1)-bit result of register plus constant plus incoming carry (register minus constant minus borrow) for every basis state.", "quantifier": "every length, constant, carry value and register value", "why_tests_cant": "the failing combinations are single points of an exponential space", "anchors": ["src/qalu.cpp: QAlu::INCC, QAlu::DECC", "src/qengine/arithmetic.cpp: QEngineCPU::INCDECC"]}
{"id": "C31", "title": "Signed addition sets the overflow phase exactly on overflow", "statement": "INCS adds modulo 2^length and flips the sign of the amplitude exactly for basis states with signed overflow while the overflow qubit is set.", "quantifier": "every length, constant and state", "why_tests_cant": "exponential index space", "anchors": ["src/qengine/arithmetic.cpp: QEngineCPU::INCS"]}
{"id": "C32", "title": "Rotating a register is a cyclic bit permutation", "statement": "ROL by s moves register bit j to bit (j+s) mod length in every basis state, leaves other qubits alone, and is inverted by ROR by s, for the engine kernel and for the generic implementation by reversals.", "quantifier": "every qubit count, register, shift and state", "why_tests_cant": "exponential index space", "anchors": ["src/qengine/arithmetic.cpp: QEngineCPU::ROL", "src/qinterface/qinterface.cpp: QInterface::ROL, QInterface::ROR"]}
{"id": "C33", "title": "MUL and DIV are mutually inverse on the double register", "statement": "MUL maps input x with zeroed carry register to the exact double-length product, and DIV applied afterwards restores the state.", "quantifier": "every length, multiplier and state with zero carry register", "why_tests_cant": "exponential index space", "anchors": ["src/qengine/arithmetic.cpp: QEngineCPU::MUL, QEngineCPU::DIV, MULDIV"]}
{"id": "C34", "title": "Modular multiplication into an output register is exact and invertible", "statement": "MULModNOut maps x to (x, x*m mod N) for zeroed output, and IMULModNOut restores the state.", "quantifier": "every length, multiplier, modulus and state", "why_tests_cant": "exponential index space; overflow only at large values", "anchors": ["src/qengine/arithmetic.cpp: QEngineCPU::MULModNOut, IMULModNOut, ModNOut", "src/qinterface/arithmetic.cpp: QInterface::MULModNOut"]}
{"id": "C35", "title": "Modular exponentiation into an output register is exact", "statement": "POWModNOut maps x to (x, base^x mod N) for zeroed output for every register value.", "quantifier": "every length, base, modulus and register value", "why_tests_cant": "exponents large enough to overflow the native integer are outside small tests", "anchors": ["src/qengine/arithmetic.cpp: QEngineCPU::POWModNOut", "src/common/functions.cpp: intPowOcl"]}
{"id": "C36", "title": "Controlled arithmetic is the identity where a control is not set", "statement": "Controlled multiply, divide and modular operations leave every basis state with an unset control unchanged, for every constant.", "quantifier": "every constant (including zero), control list and state", "why_tests_cant": "special constants take separate branches", "anchors": ["src/qengine/arithmetic.cpp: QEngineCPU::CMUL, CDIV, CModNOut"]}
{"id": "C37", "title": "Table look-up gates XOR/add exactly the table entry", "statement": "IndexedLDA/ADC/SBC and Hash act on each basis state by the indexed table entry (load, add with carry, subtract with borrow, permutation) and preserve all amplitude weight.", "quantifier": "every index/value width, position, table and state", "why_tests_cant": "exponential index space times table contents", "anchors": ["src/qengine/arithmetic.cpp: QEngineCPU::IndexedLDA, IndexedADC, IndexedSBC, Hash"]}
{"id": "C38", "title": "Phase flip if less marks exactly the smaller values", "statement": "PhaseFlipIfLess negates exactly the amplitudes of basis states whose register is below the bound (and whose flag qubit is set in the controlled form).", "quantifier": "every register, bound and state", "why_tests_cant": "exponential index space", "anchors": ["src/qengine/arithmetic.cpp: QEngineCPU::PhaseFlipIfLess, CPhaseFlipIfLess"]}
{"id": "C39", "title": "Generic ripple INC equals arithmetic addition", "statement": "The generic (gate-level) INC, CINC and their decrements act on every basis state as addition of the constant modulo 2^length on the register (when controls are set).", "quantifier": "every length, constant, position and basis state", "why_tests_cant": "exponential in the length", "anchors": ["src/qinterface/arithmetic.cpp: QInterface::INC, QInterface::DEC, QInterface::CINC"]}
{"id": "C40", "title": "Generic carry addition targets the carry qubit", "statement": "The generic INCDECC adds the constant to the register with carry-out placed in the given carry qubit and changes no other qubit.", "quantifier": "every register position, carry position, constant and basis state", "why_tests_cant": "only registers not starting at qubit 0 show the problem", "anchors": ["src/qinterface/arithmetic.cpp: QInterface::INCDECC"]}
{"id": "C41", "title": "Full adder and ripple adder circuits compute binary addition", "statement": "FullAdd, ADC (and their controlled and inverse forms) map basis states to the correct sum and carry bits, and the inverse forms undo them.", "quantifier": "every register length and basis state", "why_tests_cant": "exponential in the length", "anchors": ["src/qinterface/arithmetic.cpp: FullAdd, IFullAdd, CFullAdd, CIFullAdd, ADC, IADC, CADC, CIADC"]}
{"id": "C42", "title": "Generic modular multiplication is exact", "statement": "The generic MULModNOut maps x to (x, x*m mod N) on zeroed output.", "quantifier": "every length, multiplier, modulus and register value", "why_tests_cant": "exponential in the length; failing moduli are scattered", "anchors": ["src/qinterface/arithmetic.cpp: QInterface::MULModNOut, IMULModNOut"]}
{"id": "C43", "title": "Logic gates compute their truth table for every operand aliasing", "statement": "AND, OR, XOR, NAND, NOR, XNOR and their classical-input forms toggle the output by the Boolean function of the inputs in every basis state and change no other qubit.", "quantifier": "every choice of qubits (including repeated inputs) and basis state", "why_tests_cant": "all aliasing patterns times all basis states", "anchors": ["src/qinterface/logic.cpp: QInterface::AND, OR, XOR, NAND, NOR, XNOR, CLAND, CLOR, CLXOR, CLNAND, CLNOR, CLXNOR"]}
{"id": "C44", "title": "Swap family decompositions", "statement": "The generic Swap exchanges two qubits in every state; ISwap/IISwap and SqrtSwap/ISqrtSwap are mutually inverse, and SqrtSwap twice is Swap.", "quantifier": "every pair of qubits and state", "why_tests_cant": "continuous states", "anchors": ["src/qinterface/gates.cpp: QInterface::Swap, ISwap, IISwap, SqrtSwap, ISqrtSwap"]}
{"id": "C45", "title": "Control-value selection by X conjugation", "statement": "The generic gate with arbitrary control values acts exactly where the controls equal the required value and leaves all other amplitudes unchanged.", "quantifier": "every control list, control pattern and state", "why_tests_cant": "exponential in the number of controls", "anchors": ["src/qinterface/gates.cpp: QInterface::UCMtrx, UniformlyControlledSingleBit"]}
{"id": "C46", "title": "Inverse QFT undoes QFT", "statement": "IQFT after QFT (and the index-list forms) restores every state, for every register.", "quantifier": "every register and state", "why_tests_cant": "continuous states, exponential dimension", "anchors": ["src/qinterface/qinterface.cpp: QInterface::QFT, IQFT, QFTR, IQFTR"]}
{"id": "C47", "title": "Generic register probability sums exactly the matching basis states", "statement": "The generic ProbReg of a value is the sum of the probabilities of basis states whose register equals the value.", "quantifier": "every register position, length, value and state", "why_tests_cant": "only registers in particular positions fail", "anchors": ["src/qinterface/qinterface.cpp: QInterface::ProbReg"]}
{"id": "C48", "title": "Inserting a system at a position keeps existing qubits in order", "statement": "Generic Compose at a start index yields the product state with the new qubits at start..start+m-1 and the old ones around them in order, and returns the index of the first new qubit.", "quantifier": "every size and start index", "why_tests_cant": "exponential index space", "anchors": ["src/qinterface/qinterface.cpp: QInterface::Compose(toCopy, start)"]}
{"id": "C49", "title": "Gate fusion in circuits preserves the circuit's meaning", "statement": "Appending gates to a circuit object (with merging, commuting past and cancellation) gives a circuit whose run has the same effect as running the gates one after another.", "quantifier": "every sequence of gates of every length and every state", "why_tests_cant": "unbounded gate sequences", "anchors": ["src/qcircuit.cpp: QCircuit::AppendGate", "include/qcircuit.hpp: QCircuitGate::CanCombine, Combine, CanPass"]}
{"id": "C50", "title": "Circuit inverse undoes the circuit", "statement": "Running a circuit and then its inverse restores every state when all gates are unitary.", "quantifier": "every circuit and state", "why_tests_cant": "unbounded circuits", "anchors": ["include/qcircuit.hpp: QCircuit::Inverse"]}
{"id": "C51", "title": "Swap gates in circuits are executed", "statement": "Appending a swap to a circuit and running it exchanges the two qubits.", "quantifier": "every pair of qubits, every circuit prefix", "why_tests_cant": "requires reasoning about all later optimisations", "anchors": ["include/qcircuit.hpp: QCircuitGate(q1,q2), QCircuit::Swap", "src/qcircuit.cpp: AppendGate"]}
{"id": "C52", "title": "Circuit serialisation round-trips", "statement": "Writing a circuit to text and reading it back gives an equal circuit.", "quantifier": "every circuit", "why_tests_cant": "unbounded", "anchors": ["src/qcircuit.cpp: operator<<, operator>>"]}
{"id": "C53", "title": "Logical qubit swaps compose", "statement": "After any sequence of logical swaps the index map is a permutation equal to the composition of the transpositions, and its inverse map is its inverse.", "quantifier": "every sequence of swaps", "why_tests_cant": "unbounded histories", "anchors": ["include/qubitswapmap.hpp: QubitSwapMap::swap, map, inverseMap"]}
{"id": "C54", "title": "Shard map behaves like a list of qubits", "statement": "Any sequence of push, insert, erase, swap on the shard container is observationally the same sequence on a plain list.", "quantifier": "every history of operations", "why_tests_cant": "unbounded histories", "anchors": ["include/qengineshard.hpp: QEngineShardMap"]}
{"id": "C55", "title": "Stabilizer gates conjugate every generator", "statement": "For each Clifford gate of the stabilizer simulator, if a generator stabilizes a state then the updated generator stabilizes the state after the gate; hence the tableau follows the state through any circuit.", "quantifier": "every qubit count, generator, qubit choice, state and every sequence of gates", "why_tests_cant": "unbounded circuits, exponential states", "anchors": ["src/qstabilizer.cpp: CNOT, AntiCNOT, CY, AntiCY, CZ, AntiCZ, Swap, ISwap, IISwap, H, X, Y, Z, S, IS"]}
{"id": "C56", "title": "Stabilizer tableaus keep the symplectic invariant", "statement": "Every gate and every row operation preserves the commutation pattern of destabilizers and stabilizers (each anticommutes exactly with its partner).", "quantifier": "every circuit", "why_tests_cant": "unbounded circuits", "anchors": ["src/qstabilizer.cpp: gates, rowmult, gaussian"]}
{"id": "C57", "title": "Stabilizer row multiplication tracks the phase exactly", "statement": "Multiplying one generator by another yields the generator of the operator product with the exact power of i.", "quantifier": "every qubit count and pair of generators", "why_tests_cant": "exponentially many generators", "anchors": ["src/qstabilizer.cpp: clifford, rowmult"]}
{"id": "C58", "title": "Stabilizer measurement is the quantum measurement", "statement": "A random-outcome measurement replaces the generators by ones that stabilize the projected state, and a deterministic measurement returns the only possible outcome and leaves the state alone; measuring twice gives the same result.", "quantifier": "every reachable tableau, qubit and outcome", "why_tests_cant": "exponentially many tableaus", "anchors": ["src/qstabilizer.cpp: ForceM"]}
{"id": "C59", "title": "Gaussian elimination leaves the state unchanged", "statement": "Row reduction keeps the stabilized state, puts generators in echelon form and keeps the invariants.", "quantifier": "every reachable tableau", "why_tests_cant": "exponentially many tableaus", "anchors": ["src/qstabilizer.cpp: gaussian"]}
{"id": "C60", "title": "Disposing a separable qubit from a stabilizer state keeps the rest", "statement": "Removing separable qubits leaves a tableau describing exactly the reduced state of the remaining qubits.", "quantifier": "every reachable tableau with separable qubits", "why_tests_cant": "depends on the internal row order produced by elimination", "anchors": ["src/qstabilizer.cpp: DecomposeDispose, Dispose"]}
{"id": "C61", "title": "Composing stabilizer states is the tensor product", "statement": "Composing two stabilizer simulators (at any position) gives generators of the tensor product.", "quantifier": "every pair of tableaus, every start", "why_tests_cant": "exponentially many tableaus", "anchors": ["src/qstabilizer.cpp: Compose"]}
{"id": "C62", "title": "Paging is invisible: combining and separating pages", "statement": "Combining or separating pages never changes the concatenated amplitude vector.", "quantifier": "every page count, page size and state", "why_tests_cant": "exponential index space", "anchors": ["src/qpager.cpp: CombineEngines, SeparateEngines"]}
{"id": "C63", "title": "Gates on paged states equal gates on the flat state", "statement": "A (controlled) gate on any qubit of a paged simulator acts on the concatenated amplitude vector as on a single engine, whether target or controls lie within or across pages.", "quantifier": "every page layout, target, control set and state", "why_tests_cant": "exponential combinations", "anchors": ["src/qpager.cpp: SingleBitGate, MetaControlled, SemiMetaControlled, ApplyEitherControlledSingleBit"]}
{"id": "C64", "title": "A new paged simulator holds the requested basis state", "statement": "Constructing a paged simulator with an initial permutation yields exactly that basis state.", "quantifier": "every qubit count, page size, permutation", "why_tests_cant": "depends on every page configuration", "anchors": ["src/qpager.cpp: QPager constructor, Init"]}
{"id": "C65", "title": "Amplitude page access on paged simulators", "statement": "Reading or writing a range of amplitudes touches exactly that range of the concatenated vector.", "quantifier": "every offset, length and page layout", "why_tests_cant": "ranges straddling pages in all alignments", "anchors": ["src/qpager.cpp: GetSetAmplitudePage, GetAmplitudePage, SetAmplitudePage"]}
{"id": "C66", "title": "The running norm tracked during a gate is the norm of the new state", "statement": "When a single-qubit gate also accumulates the running norm, the value stored is the sum of squared magnitudes of the resulting state, in every build variant of the kernel.", "quantifier": "every qubit count, target, matrix, state and thread schedule", "why_tests_cant": "the error depends on the number of threads and items and is invisible while the norm is one", "anchors": ["src/qengine/state.cpp: QEngineCPU::Apply2x2, NORM_CALC_KERNEL, NORM_THRESH_KERNEL"]}
{"id": "C67", "title": "Decompose accumulates angles without losing updates", "statement": "The per-value phase sums computed while separating a register contain the contribution of every basis state, whatever the thread schedule.", "quantifier": "every register, state and schedule", "why_tests_cant": "lost updates depend on timing", "anchors": ["src/qengine/state.cpp: QEngineCPU::DecomposeDispose"]}
{"id": "C68", "title": "Decomposing a separable state returns its factors", "statement": "If a register is a tensor factor of the state, separating it leaves two states whose tensor product is the original up to one global phase.", "quantifier": "every register position and every pair of factors", "why_tests_cant": "continuous phases; failures occur only when phase sums cross pi", "anchors": ["src/qengine/state.cpp: QEngineCPU::DecomposeDispose"]}
{"id": "C69", "title": "Forced multi-qubit measurement gives the forced values", "statement": "ForceM on a list of qubits with given values returns exactly these values, and does not change the state when asked not to.", "quantifier": "every list of distinct qubits, values, state and draw", "why_tests_cant": "the wrong value appears only for some random draws", "anchors": ["src/qengine/qengine.cpp: QEngine::ForceM(bits, values, doApply)"]}
{"id": "C70", "title": "FSim is the fermionic simulation gate", "statement": "FSim(theta, phi) applies cos(theta), -i sin(theta) between the two one-excitation states and the phase exp(-i phi) on the doubly excited state.", "quantifier": "every angle, pair of qubits and state", "why_tests_cant": "special angles are skipped by a tolerance test", "anchors": ["src/qengine/qengine.cpp: QEngine::FSim"]}
{"id": "C71", "title": "Masked PhaseRootN is PhaseRootN on every masked qubit", "statement": "PhaseRootNMask(n, mask) multiplies each basis amplitude by the PhaseRootN(n) factor once per set masked bit.", "quantifier": "every qubit count, n, mask and state", "why_tests_cant": "exponential index space; sign conventions cancel for real phases", "anchors": ["src/qengine/state.cpp: QEngineCPU::PhaseRootNMask", "include/qinterface.hpp: PhaseRootN"]}
{"id": "C72", "title": "ZMask is the product of Z gates", "statement": "ZMask(mask) multiplies each basis amplitude by -1 exactly if an odd number of masked bits is set, leaving the others unchanged.", "quantifier": "every qubit count, mask and state", "why_tests_cant": "exponential index space", "anchors": ["include/qengine.hpp: QEngine::ZMask", "src/qengine/state.cpp: QEngineCPU::PhaseParity"]}
{"id": "C73", "title": "Signed addition with carry flips the sign exactly on overflow", "statement": "INCSC/DECSC produce the register sum (difference) with carry and negate exactly the amplitudes of basis states with signed overflow, gated by the overflow qubit in the form that takes one.", "quantifier": "every length, constant, carry value, register value and state", "why_tests_cant": "the failing combinations are single points of an exponential space", "anchors": ["src/qalu.cpp: QAlu::INCSC, QAlu::DECSC", "src/qengine/arithmetic.cpp: QEngineCPU::INCDECSC"]}
{"id": "C74", "title": "SetReg sets a register and nothing else", "statement": "SetReg measures the register, sets it to the value and leaves every other qubit and every relative amplitude unchanged.", "quantifier": "every qubit count, register, value and nonzero state", "why_tests_cant": "exponential index space", "anchors": ["src/qinterface/qinterface.cpp: QInterface::SetReg", "src/qengine/qengine.cpp: ForceMReg"]}
{"id": "C75", "title": "The adder kernel computes sum and carry and is undone by its inverse", "statement": "QEngineCPU::FullAdd replaces (sum, carry) by the sum and carry of three input bits in every basis state, and IFullAdd undoes it.", "quantifier": "every qubit count, four distinct qubits and state", "why_tests_cant": "exponential index space", "anchors": ["src/qengine/arithmetic.cpp: QEngineCPU::FullAdd, IFullAdd"]}
{"id": "C76", "title": "QFT is the discrete Fourier transform", "statement": "QFT of a register maps the state to its discrete Fourier transform over the register with the output index bit-reversed, and acts on nothing else.", "quantifier": "every register, qubit count and state", "why_tests_cant": "continuous states, exponential dimension", "anchors": ["src/qinterface/qinterface.cpp: QInterface::QFT"]}
{"id": "C77", "title": "Controlled swaps exchange exactly where the controls say", "statement": "CSwap exchanges two qubits exactly in the basis states where all controls are set, AntiCSwap where all are clear; CSwap is its own inverse.", "quantifier": "every control list, pair of qubits and state", "why_tests_cant": "exponential in the number of controls", "anchors": ["src/qinterface/gates.cpp: QInterface::CSwap, QInterface::AntiCSwap"]}
{"id": "C78", "title": "Circuit qubit count covers its gates", "statement": "The qubit count of a circuit object is above every target and control of its gates, so that Run allocates all qubits it needs.", "quantifier": "every gate sequence", "why_tests_cant": "unbounded sequences with merging and cancelling", "anchors": ["src/qcircuit.cpp: QCircuit::AppendGate", "include/qcircuit.hpp: QCircuit::GetQubitCount"]}
{"id": "C79", "title": "Past light cone keeps the outcome probabilities", "statement": "The circuit returned by PastLightCone gives every joint outcome on the given qubits the same probability as the full circuit; the returned set contains the given qubits and all qubits of kept gates.", "quantifier": "every circuit, set of qubits, outcome and state", "why_tests_cant": "exponential state space and unbounded circuits", "anchors": ["include/qcircuit.hpp: QCircuit::PastLightCone"]}
{"id": "C80", "title": "Addition circuits add", "statement": "QCircuit::INC appends a circuit that adds the constant to the register modulo 2^length and leaves other qubits alone.", "quantifier": "every constant, register position and length, circuit prefix and state", "why_tests_cant": "exponential in register length", "anchors": ["src/arithmetic_qcircuit.cpp: QCircuit::INC"]}
{"id": "C81", "title": "Removing a qubit in a known state keeps the circuit's effect", "statement": "DeletePhaseTarget(q, b) removes qubit q from the circuit without changing its effect on states in which q has value b, when no gate targets q non-diagonally.", "quantifier": "every circuit, qubit, value and state", "why_tests_cant": "unbounded circuits", "anchors": ["include/qcircuit.hpp: QCircuit::DeletePhaseTarget, QCircuitGate::PostSelectControl"]}
{"id": "C82", "title": "Joining circuits runs one after the other", "statement": "Append and Combine give a circuit whose run is the run of the first circuit followed by that of the second.", "quantifier": "every pair of circuits and every state", "why_tests_cant": "unbounded circuits", "anchors": ["include/qcircuit.hpp: QCircuit::Append, QCircuit::Combine"]}
{"id": "C83", "title": "Reindexing shards does not move qubits", "statement": "After reindex every logical qubit still refers to its shard, and the shards of a unit are numbered 0, 1, 2, ... in order.", "quantifier": "every container and history", "why_tests_cant": "depends on the history of swaps", "anchors": ["include/qengineshard.hpp: QEngineShardMap::reindex"]}
{"id": "C84", "title": "Stabilizer amplitudes are those of the described state", "statement": "GetAmplitude and the state readout of a stabilizer simulator report, up to one common factor, the unique state fixed by all generators, with 2^g nonzero amplitudes that are powers of i, each reported once.", "quantifier": "every reachable tableau, every basis state", "why_tests_cant": "exponentially many basis states and tableaus", "anchors": ["src/qstabilizer.cpp: seed, getBasisAmp, GetAmplitude, GetQuantumState"]}
{"id": "C85", "title": "Stabilizer separability tests are exact", "statement": "IsSeparable returns 1, 2 or 3 exactly if the qubit is a Z, X or Y eigenstate, 0 exactly if it is entangled with the rest, and does not change the state.", "quantifier": "every reachable tableau and qubit", "why_tests_cant": "exponentially many tableaus", "anchors": ["src/qstabilizer.cpp: IsSeparableZ, IsSeparableX, IsSeparableY, IsSeparable"]}
{"id": "C86", "title": "Stabilizer single-qubit probability", "statement": "Prob is 0, 1/2 or 1 and equals the weight of the outcome 1 in the described state.", "quantifier": "every reachable tableau and qubit", "why_tests_cant": "exponentially many tableaus", "anchors": ["src/qstabilizer.cpp: Prob"]}
{"id": "C87", "title": "Stabilizer SetPermutation yields the basis state", "statement": "SetPermutation gives a tableau of exactly the requested basis state.", "quantifier": "every qubit count up to 127 and every permutation", "why_tests_cant": "exponentially many permutations", "anchors": ["src/qstabilizer.cpp: SetPermutation"]}
{"id": "C88", "title": "CanDecomposeDispose answers exactly", "statement": "CanDecomposeDispose(start, length) is true exactly if the state is a product of the given qubits and the rest.", "quantifier": "every reachable tableau and range", "why_tests_cant": "depends on the internal row order", "anchors": ["src/qstabilizer.cpp: CanDecomposeDispose"]}
{"id": "C89", "title": "Stabilizer runs of gates and measurements follow quantum mechanics", "statement": "After any sequence of Clifford gates and measurements the tableau describes the state after the same gates and projections; impossible forced outcomes, and only those, throw.", "quantifier": "every sequence of gates and measurements", "why_tests_cant": "unbounded sequences", "anchors": ["src/qstabilizer.cpp: gates, ForceM"]}
{"id": "C90", "title": "Whole-state access on paged simulators", "statement": "SetPermutation yields the given basis state with the given phase; GetAmplitude and ProbAll read the concatenated vector; GetQuantumState and SetQuantumState copy exactly it.", "quantifier": "every page layout, state and index", "why_tests_cant": "exponential index space", "anchors": ["src/qpager.cpp: SetPermutation, SetQuantumState, GetQuantumState", "include/qpager.hpp: GetAmplitude, ProbAll"]}
{"id": "C91", "title": "SetAmplitude on paged simulators", "statement": "SetAmplitude(perm, amp) changes exactly the amplitude perm of the concatenated vector.", "quantifier": "every page layout, state, index and amplitude", "why_tests_cant": "depends on null pages", "anchors": ["include/qpager.hpp: SetAmplitude", "src/qengine/state.cpp: SetAmplitude, ZeroAmplitudes"]}
{"id": "C92", "title": "Masks on paged simulators", "statement": "XMask flips exactly the bits of the mask, PhaseParity multiplies by the phase of the parity under the mask, across page boundaries.", "quantifier": "every page layout, mask and state", "why_tests_cant": "exponential combinations", "anchors": ["src/qpager.cpp: XMask, PhaseParity"]}
{"id": "C93", "title": "Swaps and rotations on paged simulators", "statement": "Swap, ISwap, IISwap, ROL and ROR permute the qubits of the concatenated vector, within, across and above the pages.", "quantifier": "every page layout, pair of qubits, register and shift", "why_tests_cant": "exponential combinations", "anchors": ["src/qpager.cpp: Swap, EitherISwap, MetaSwap", "src/qinterface/qinterface.cpp: ROL, ROR"]}
{"id": "C94", "title": "Probability and measurement on paged simulators", "statement": "Prob of a qubit is the weight of the basis states with that bit set; the state after a measurement is the scaled projection.", "quantifier": "every page layout, qubit, outcome and state", "why_tests_cant": "exponential index space", "anchors": ["src/qpager.cpp: Prob, ForceM"]}
{"id": "C95", "title": "Composition of paged simulators", "statement": "Compose yields the tensor product of the two states, with the second operand's qubits at the end or at the given position.", "quantifier": "every pair of sizes and layouts", "why_tests_cant": "exponential combinations", "anchors": ["src/qpager.cpp: ComposeEither, Compose(start)"]}
{"id": "C96", "title": "Disposal of a known register of a paged simulator", "statement": "Dispose(start, length, perm) keeps exactly the amplitudes in which the register holds perm; composing with a basis state and disposing of it restores the state.", "quantifier": "every layout, register and value", "why_tests_cant": "exponential combinations", "anchors": ["src/qpager.cpp: Dispose(start, length, perm)"]}
{"id": "C97", "title": "Comparison of paged states", "statement": "SumSqrDiff is 1 - |<a|b>|^2 of the concatenated vectors.", "quantifier": "every pair of states and layouts", "why_tests_cant": "needs exact arithmetic", "anchors": ["src/qpager.cpp: SumSqrDiff", "src/qengine/state.cpp: SumSqrDiff"]}
{"id": "C98", "title": "Conversion between engine and paged simulator", "statement": "A paged simulator made from an engine holds its state, ReleaseEngine gives it back, and a circuit run in between acts as on the engine.", "quantifier": "every page threshold, circuit and state", "why_tests_cant": "unbounded circuits", "anchors": ["src/qpager.cpp: LockEngine, Init, ReleaseEngine"]}
{"id": "C99", "title": "Buffer bookkeeping of QEngineShard", "statement": "After any sequence of calls to the buffer functions of the shards, the map of every control and the map of its target hold the same buffer object, no shard buffers a gate with itself, phases have magnitude one, and no call dereferences a missing entry.", "quantifier": "every number of shards, every sequence of calls with valid arguments", "why_tests_cant": "unbounded call sequences over shared pointers", "anchors": ["include/qengineshard.hpp", "src/qengineshard.cpp"]}
{"id": "C100", "title": "Buffered gates compose with new gates", "statement": "AddPhaseAngles, AddAntiPhaseAngles, AddInversionAngles and AddAntiInversionAngles make the pending gates equal to the former pending gates followed by the given controlled gate.", "quantifier": "every shard state whose pending gates commute with each other and with the new gate, every phase of magnitude one", "why_tests_cant": "all states and phases", "anchors": ["include/qengineshard.hpp: AddPhaseAngles, AddAntiPhaseAngles, AddInversionAngles, AddAntiInversionAngles", "src/qengineshard.cpp: AddAngles"]}
{"id": "C101", "title": "Buffer optimizations keep the pending gates", "statement": "OptimizeControls, OptimizeTargets, OptimizeAntiControls, OptimizeAntiTargets, OptimizeBothTargets and CombineGates do not change the product of the pending gates.", "quantifier": "every shard state with commuting pending gates", "why_tests_cant": "all states, all states of the qubits", "anchors": ["src/qengineshard.cpp: OptimizeBuffer, OptimizeBothTargets, CombineBuffers"]}
{"id": "C102", "title": "FlipPhaseAnti carries an X gate through the buffers", "statement": "Applying X to a qubit and calling FlipPhaseAnti gives the state obtained by applying X behind the pending gates.", "quantifier": "every shard state with commuting pending gates, every state vector", "why_tests_cant": "all states", "anchors": ["src/qengineshard.cpp: SwapTargetAnti, FlipPhaseAnti"]}
{"id": "C103", "title": "CommutePhase carries a phase gate through the buffers", "statement": "Applying a diagonal gate to a qubit and calling CommutePhase gives the state obtained by applying that gate behind the pending gates.", "quantifier": "every shard state with commuting pending gates, every pair of phases", "why_tests_cant": "all states", "anchors": ["src/qengineshard.cpp: CommutePhase"]}
{"id": "C104", "title": "CommuteH carries an H gate through the buffers", "statement": "Applying H to a qubit and calling CommuteH gives the state obtained by applying H behind the pending gates.", "quantifier": "every shard state where the qubit controls nothing and its buffers have equal or opposite phases", "why_tests_cant": "all states", "anchors": ["src/qengineshard.cpp: CommuteH, RemoveIdentityBuffers"]}
{"id": "C105", "title": "Phase buffers do not matter for probabilities", "statement": "DumpPhaseBuffers and ClearInvertPhase leave the squared magnitude of every amplitude, and drop exactly the phase information of the qubit's buffers.", "quantifier": "every shard state, every state vector", "why_tests_cant": "all states", "anchors": ["src/qengineshard.cpp: RemovePhaseBuffers, ClearMapInvertPhase"]}
{"id": "C106", "title": "Buffers of a qubit in a basis state can be dropped", "statement": "DumpControlOf, DumpAntiControlOf, DumpSamePhaseControlOf, DumpSamePhaseAntiControlOf keep the state (up to a global phase for the last two) of a qubit that is in the corresponding basis state; DumpMultiBit drops all buffers of the qubit and no others.", "quantifier": "every shard state, every state vector with the qubit in the basis state", "why_tests_cant": "all states", "anchors": ["src/qengineshard.cpp: DumpBuffer, DumpSamePhaseBuffer, DumpMultiBit"]}
{"id": "C107", "title": "Removing a qubit keeps the buffers of the others", "statement": "Removing a shard without buffers from the container leaves the buffers of the other shards with the qubits they belong to.", "quantifier": "every shard state, every position", "why_tests_cant": "all states", "anchors": ["include/qengineshard.hpp: QEngineShardMap::erase"]}
{"id": "C108", "title": "QUnit: gate sequences compute the product of their matrices", "statement": "After any sequence of H, S, IS, Phase, Invert, Mtrx, controlled gates with any control values, and Swap on a QUnit that starts in a basis state, GetAmplitude returns the amplitudes of the product of the gates' matrices applied to that state, up to one global phase.", "quantifier": "all numbers of qubits, all sequences of gates with unitary matrices and distinct qubits in range, both values of randGlobalPhase", "why_tests_cant": "the number of interleavings of buffered gates, basis changes and separations is unbounded", "anchors": ["src/qunit.cpp: H, S, IS, Phase, Invert, Mtrx, UCPhase, UCInvert, UCMtrx, TrimControls, ApplyEitherControlled, RevertBasis2Qb, QCommuteH, GetAmplitude"]}
{"id": "C109", "title": "QUnit: every possible outcome of MAll occurs", "statement": "Every permutation whose amplitude is not zero is returned by MAll for some sequence of random numbers.", "quantifier": "all gate sequences, all permutations", "why_tests_cant": "needs all random sequences", "anchors": ["src/qunit.cpp: MAll, ForceM, SeparateBit, ProbBase"]}
{"id": "C110", "title": "QUnit: a measurement that is not applied leaves the state", "statement": "ForceM with doApply = false leaves all amplitudes as they were.", "quantifier": "all gate sequences, all qubits", "why_tests_cant": "all states", "anchors": ["src/qunit.cpp: ForceM", "include/qunit.hpp: ToPermBasisMeasure"]}
{"id": "C111", "title": "QUnit: the global phase is kept when it is not random", "statement": "With randGlobalPhase = false, GetAmplitude after a sequence of gates is exact, including the global phase.", "quantifier": "all gate sequences", "why_tests_cant": "all states", "anchors": ["src/qunit.cpp: EndEmulation, SeparateBit, TrimControls"]}
{"id": "C112", "title": "QUnit: programs with Hadamard gates before controls have the right amplitudes", "statement": "After a sequence of calls from a basis state in which H and matrices that are H, SH or HS^-1 up to a factor are applied only to qubits that have not been a control since the last SetPermutation or GetAmplitude, GetAmplitude returns the amplitudes that the matrices of the gates give, up to one global phase.", "quantifier": "all numbers of qubits, all initial basis states, all sequences of gates, Prob, GetAmplitude and SetPermutation in which H and matrices that are H, SH or HS^-1 up to a factor are applied only to qubits that have not been a control since the last SetPermutation, both values of randGlobalPhase, all random phases", "why_tests_cant": "the number of interleavings of buffered gates, basis changes, separations and reads is unbounded", "anchors": ["src/qunit.cpp: SetPermutation, H, S, IS, Phase, Invert, Mtrx, UCPhase, UCInvert, UCMtrx, ApplyEitherControlled, TrimControls, RevertBasis2Qb, ProbBase, SeparateBit, GetAmplitudeOrProb", "include/qunit.hpp: Swap, Prob, GetAmplitude"]}
{"id": "C113", "title": "QUnit: Prob is the marginal probability", "statement": "After such a sequence, Prob(q) is the sum of the squared magnitudes of the ideal amplitudes with bit q set.", "quantifier": "all numbers of qubits, all initial basis states, all sequences of gates, Prob, GetAmplitude and SetPermutation in which H and matrices that are H, SH or HS^-1 up to a factor are applied only to qubits that have not been a control since the last SetPermutation or GetAmplitude, both values of randGlobalPhase, all random phases; numbers with square roots of probabilities", "why_tests_cant": "the number of interleavings of buffered gates, basis changes, separations and reads is unbounded", "anchors": ["src/qunit.cpp: SetPermutation, H, S, IS, Phase, Invert, Mtrx, UCPhase, UCInvert, UCMtrx, ApplyEitherControlled, TrimControls, RevertBasis2Qb, ProbBase, SeparateBit, GetAmplitudeOrProb", "include/qunit.hpp: Swap, Prob, GetAmplitude"]}
{"id": "C114", "title": "QUnit: reading leaves the state", "statement": "After such a sequence, Prob and GetAmplitude change no amplitude, up to one global phase.", "quantifier": "all numbers of qubits, all initial basis states, all sequences of gates, Prob, GetAmplitude and SetPermutation in which H and matrices that are H, SH or HS^-1 up to a factor are applied only to qubits that have not been a control since the last SetPermutation or GetAmplitude, both values of randGlobalPhase, all random phases", "why_tests_cant": "the number of interleavings of buffered gates, basis changes, separations and reads is unbounded", "anchors": ["src/qunit.cpp: SetPermutation, H, S, IS, Phase, Invert, Mtrx, UCPhase, UCInvert, UCMtrx, ApplyEitherControlled, TrimControls, RevertBasis2Qb, ProbBase, SeparateBit, GetAmplitudeOrProb", "include/qunit.hpp: Swap, Prob, GetAmplitude"]}
{"id": "C115", "title": "QUnit: the state stays normalised", "statement": "After such a sequence, the squared magnitudes of all amplitudes have the sum 1.", "quantifier": "all numbers of qubits, all initial basis states, all sequences of gates, Prob, GetAmplitude and SetPermutation in which H and matrices that are H, SH or HS^-1 up to a factor are applied only to qubits that have not been a control since the last SetPermutation or GetAmplitude, both values of randGlobalPhase, all random phases", "why_tests_cant": "the number of interleavings of buffered gates, basis changes, separations and reads is unbounded", "anchors": ["src/qunit.cpp: SetPermutation, H, S, IS, Phase, Invert, Mtrx, UCPhase, UCInvert, UCMtrx, ApplyEitherControlled, TrimControls, RevertBasis2Qb, ProbBase, SeparateBit, GetAmplitudeOrProb", "include/qunit.hpp: Swap, Prob, GetAmplitude"]}
{"id": "C116", "title": "QUnit: engines and shards stay consistent", "statement": "After such a sequence, no null pointer has been followed, every qubit of an engine belongs to exactly one shard, every shard with an engine has its own qubit there, and the swap map is a permutation.", "quantifier": "all numbers of qubits, all initial basis states, all sequences of gates, Prob, GetAmplitude and SetPermutation in which H and matrices that are H, SH or HS^-1 up to a factor are applied only to qubits that have not been a control since the last SetPermutation or GetAmplitude, both values of randGlobalPhase, all random phases", "why_tests_cant": "the number of interleavings of buffered gates, basis changes, separations and reads is unbounded", "anchors": ["src/qunit.cpp: SetPermutation, H, S, IS, Phase, Invert, Mtrx, UCPhase, UCInvert, UCMtrx, ApplyEitherControlled, TrimControls, RevertBasis2Qb, ProbBase, SeparateBit, GetAmplitudeOrProb", "include/qunit.hpp: Swap, Prob, GetAmplitude"]}
{"id": "C117", "title": "QUnit: SetPermutation starts anew", "statement": "From every state of the simulator, SetPermutation(p) makes GetAmplitude return the basis state p, up to a phase.", "quantifier": "all states of the simulator in which no null pointer was followed, all p", "why_tests_cant": "the state holds buffers and engines of any shape", "anchors": ["src/qunit.cpp: SetPermutation, GetAmplitudeOrProb"]}
{"id": "C118", "title": "QUnit: outcomes of measurements have the right probabilities", "statement": "After gates as in C112, M(q) compares a random number with the probability of 1 that qubit q has in the ideal state, or returns the certain value; exactly the outcomes of nonzero probability are possible. In programs with measurements directly after GetAmplitude or SetPermutation (or before any controlled gate) every outcome is drawn with its conditional probability, and a second M of the same qubit returns the same outcome.", "quantifier": "all numbers of qubits, all initial basis states, all programs as in C112, both values of randGlobalPhase, all random phases and numbers", "why_tests_cant": "the number of interleavings of buffered gates, basis changes, separations, reads and measurements is unbounded, and wrong probabilities only show in statistics", "anchors": ["src/qunit.cpp: ForceM, ToPermBasisMeasure, RevertBasis2Qb, ProbBase", "include/qinterface.hpp: M"]}
{"id": "C119", "title": "QUnit: measurements project the state", "statement": "After a program of gates and measurements, GetAmplitude returns the state of the ideal program with the measured qubits projected to the outcomes and normalised, up to one global phase.", "quantifier": "all numbers of qubits, all initial basis states, all programs of gates, Prob, GetAmplitude, SetPermutation, M and ForceM to possible outcomes, both values of randGlobalPhase, all random phases and numbers", "why_tests_cant": "the number of interleavings of buffered gates, basis changes, separations, reads and measurements is unbounded", "anchors": ["src/qunit.cpp: ForceM, ToPermBasisMeasure, Flush1Eigenstate, RevertBasis2Qb, OptimizeTargets, SeparateBit", "include/qinterface.hpp: M"]}
{"id": "C120", "title": "QBdt: SetPermutation gives the basis state", "statement": "After SetPermutation(perm, phase) every amplitude is 0 except that of perm, which is the given phase, or a random phase of magnitude 1 if none is given and randGlobalPhase is set, or 1.", "quantifier": "all numbers of qubits of at least 1, all earlier states, all basis states, all phases", "why_tests_cant": "the state space is unbounded", "anchors": ["src/qbdt/tree.cpp: SetPermutation, GetAmplitude"]}
{"id": "C121", "title": "QBdt: programs of gates give the right amplitudes", "statement": "After any sequence of Mtrx, Phase, Invert, Swap, MCMtrx, MCPhase, MCInvert, MACMtrx, MACPhase and MACInvert with unitary matrices and different qubits in range, GetAmplitude returns the amplitudes of the ideal program, up to one factor of magnitude 1, which is 1 without randGlobalPhase; Prob and ProbAll return its probabilities.", "quantifier": "all numbers of qubits, all initial states, all programs, both values of randGlobalPhase", "why_tests_cant": "the trees, with their scales, sharing and pruning, are unbounded, and whether a skip in the loop over paths is right depends on the positions of the controls", "anchors": ["src/qbdt/tree.cpp: ApplySingle, ApplyControlledSingle, MCMtrx, MACMtrx, MCPhase, MCInvert, par_for_qbdt", "src/qbdt/node.cpp: Apply2x2, Branch, Prune, Normalize, PopStateVector, PushStateVector"]}
{"id": "C122", "title": "QBdt: probabilities and norm", "statement": "After any program of gates Prob(q) is the sum of the squared magnitudes of the amplitudes with a 1 at q that GetAmplitude returns, and the squared magnitudes of all amplitudes sum to 1.", "quantifier": "all numbers of qubits, all programs of gates in range, all qubits", "why_tests_cant": "the trees are unbounded", "anchors": ["src/qbdt/tree.cpp: Prob, ProbAll, GetAmplitude"]}
{"id": "C123", "title": "QBdt: SetQuantumState and GetQuantumState are inverse", "statement": "GetQuantumState and GetAmplitude after SetQuantumState return exactly the amplitudes given, whatever they are and whatever the simulator held before.", "quantifier": "all numbers of qubits, all vectors of amplitudes, all earlier states", "why_tests_cant": "the vectors are unbounded, with zeros anywhere in them", "anchors": ["include/qbdt.hpp: GetTraversal, SetTraversal, SetQuantumState, GetQuantumState", "src/qbdt/node.cpp: PopStateVector, Prune"]}
{"id": "C124", "title": "QBdt: measurement of one qubit", "statement": "M returns 1 with the probability of the amplitudes held, and then holds these amplitudes projected to the outcome and normalised; ForceM does the same for a given possible outcome.", "quantifier": "all numbers of qubits, all programs of gates before, all qubits, all random numbers", "why_tests_cant": "which branches are zero depends on the state", "anchors": ["src/qbdt/tree.cpp: ForceM, Prob"]}
{"id": "C125", "title": "QBdt: measurement of all qubits", "statement": "After any program of gates MAll draws each bit with its probability, in the amplitudes held, given the bits drawn before, returns an outcome with an amplitude other than 0, and leaves the basis state of the outcome; SampleClone draws the same way and does not change the state.", "quantifier": "all numbers of qubits, all programs of gates before, all random numbers, all lists of qubits to sample", "why_tests_cant": "the trees are unbounded", "anchors": ["src/qbdt/tree.cpp: MAllOptionalCollapse", "include/qbdt.hpp: SampleClone, MAll"]}
{"id": "C126", "title": "QBdt: Compose gives the product state", "statement": "Compose(other, start) gives the product of the two states with the qubits of the other inserted at start.", "quantifier": "all pairs of states, all positions from 0 to the number of qubits", "why_tests_cant": "the trees are unbounded", "anchors": ["src/qbdt/tree.cpp: Compose", "src/qbdt/node.cpp: InsertAtDepth"]}
{"id": "C127", "title": "QBdt: IsSeparable decides whether the state is a product", "statement": "IsSeparable(start) is true if and only if the state is a product of a state of the qubits below start and one of the others.", "quantifier": "all numbers of qubits, all programs of gates before, all start from 1 to the number of qubits less 1", "why_tests_cant": "the trees are unbounded", "anchors": ["src/qbdt/tree.cpp: IsSeparable"]}
{"id": "C128", "title": "QBdt: Prune shifts by less than the width of the type", "statement": "No call of Prune shifts a bitCapInt by its width or more.", "quantifier": "all states", "why_tests_cant": "the result of such a shift depends on the machine and the compiler, and is not used for some inputs", "anchors": ["src/qbdt/node.cpp: Prune", "include/qbdt_node_interface.hpp: SelectBit"]}
{"id": "C129", "title": "QTensorNetwork: gates and reads", "statement": "A program of gates (single-qubit, controlled, anti-controlled, swap) and reads on a basis state of a QTensorNetwork: no call fails, and the amplitudes read (up to one global phase) and the probabilities read are those of the state vector, for every layer stack and every threshold.", "quantifier": "all programs, all basis states, up to 126 qubits, all thresholds, both kinds of layer stack", "why_tests_cant": "programs and circuits are unbounded; the simplifications of QCircuit and the light cones depend on the whole program", "anchors": ["include/qtensornetwork.hpp: GetCircuit, RunAsAmplitudes, Mtrx, MCMtrx, MACMtrx, Prob, GetAmplitude", "src/qtensornetwork.cpp: MakeLayerStack"]}
{"id": "C130", "title": "QTensorNetwork: gates and measurements", "statement": "A program of gates, reads and measurements: the results of the measurements have the right probabilities, the amplitudes (up to a global phase) and probabilities read are those of the projected state, and a call fails only when a result of probability 0 is forced.", "quantifier": "all programs and random draws", "why_tests_cant": "the layers depend on the order of all gates and measurements; errors need gates after measurements in a certain order", "anchors": ["include/qtensornetwork.hpp: GetCircuit", "src/qtensornetwork.cpp: ForceM, MakeLayerStack", "include/qcircuit.hpp: DeletePhaseTarget"]}
{"id": "C131", "title": "QTensorNetwork: repeated measurement", "statement": "Measuring a qubit twice, with gates on other qubits in between, gives the same result twice.", "quantifier": "all programs and random draws", "why_tests_cant": "a wrong result appears only for some random draws", "anchors": ["src/qtensornetwork.cpp: ForceM, MakeLayerStack", "src/qengine/qengine.cpp: ForceM (list of bits)"]}
{"id": "C132", "title": "QTensorNetwork: measurement with more qubits than the threshold", "statement": "With more qubits than the threshold, measurements have results of the right probabilities and leave the projected state.", "quantifier": "all programs and random draws, more qubits than the threshold", "why_tests_cant": "needs many qubits with the default threshold", "anchors": ["include/qtensornetwork.hpp: RunAsAmplitudes", "src/qtensornetwork.cpp: ForceM, MakeLayerStack"]}
{"id": "C133", "title": "QTensorNetwork: MAll", "statement": "MAll returns a basis state with an amplitude that is not 0, and leaves that basis state.", "quantifier": "all programs and random draws", "why_tests_cant": "the result is random", "anchors": ["include/qtensornetwork.hpp: MAll"]}
{"id": "C134", "title": "QTensorNetwork: SetPermutation", "statement": "SetPermutation, after any calls, gives the basis state, with the phase given as an argument if there is one.", "quantifier": "all states before, all basis states, all programs of gates and reads after", "why_tests_cant": "the earlier calls are unbounded", "anchors": ["include/qtensornetwork.hpp: SetPermutation", "src/qtensornetwork.cpp: QTensorNetwork"]}
{"id": "C135", "title": "QTensorNetwork: Allocate", "statement": "Allocate inserts new qubits in state 0 at any position and leaves the state of the others.", "quantifier": "all programs before, all positions and lengths", "why_tests_cant": "all positions and lengths, after unbounded programs", "anchors": ["include/qtensornetwork.hpp: Allocate"]}
{"id": "C136", "title": "C interface: programs on named qubits", "statement": "A program of allocateQubit, release, gates with controls, SWAP, M and Prob on one simulator returns the results that a state vector of the named qubits allows, leaves that state, reports no error, and changes no other simulator.", "quantifier": "all states of the interface before, all programs with IDs in use", "why_tests_cant": "programs are unbounded, and the map from IDs to positions changes with every allocation and release", "anchors": ["src/pinvoke_api.cpp: allocateQubit, release, GetSimShardId", "src/pinvoke_api.cpp: M, Prob, SWAP, MCMtrx"]}
{"id": "C137", "title": "C interface: simulator IDs", "statement": "A new simulator gets an ID that was not used before, calls with an ID that is not valid report an error, and all other simulators stay.", "quantifier": "all states of the interface", "why_tests_cant": "the vector of simulators grows without bound", "anchors": ["src/pinvoke_api.cpp: init_count, destroy", "src/pinvoke_api.cpp: SIMULATOR_LOCK_GUARD"]}
{"id": "C138", "title": "C interface: init_clone", "statement": "A clone holds the same named qubits in the same state as the original.", "quantifier": "all programs before", "why_tests_cant": "the programs before are unbounded", "anchors": ["src/pinvoke_api.cpp: init_clone"]}
{"id": "C139", "title": "C interface: Dispose", "statement": "Dispose removes the listed qubits and leaves the names and the state of the others.", "quantifier": "all programs before, all lists of qubits", "why_tests_cant": "depends on the map of IDs", "anchors": ["src/pinvoke_api.cpp: Dispose"]}
{"id": "C140", "title": "C interface: Decompose", "statement": "Decompose moves the listed qubits into a new simulator and leaves the names and the state of the others.", "quantifier": "all programs before, all lists of qubits", "why_tests_cant": "depends on the map of IDs", "anchors": ["src/pinvoke_api.cpp: Decompose"]}
{"id": "C141", "title": "C interface: Separate", "statement": "Separate does not change the state of the named qubits.", "quantifier": "all programs before, all lists of qubits", "why_tests_cant": "depends on the map of IDs", "anchors": ["src/pinvoke_api.cpp: Separate"]}
{"id": "C142", "title": "C interface: ADD and Hash", "statement": "ADD and Hash act on the register of the listed qubits, the first one the lowest bit, and leave the other qubits.", "quantifier": "all programs before, all registers, all numbers and tables", "why_tests_cant": "all programs and orders of the listed qubits", "anchors": ["src/pinvoke_api.cpp: ADD, Hash, MapArithmetic, _combineA"]}
{"id": "C143", "title": "C interface: MUL", "statement": "MUL multiplies the register of the listed qubits into the second register.", "quantifier": "all programs before, all registers", "why_tests_cant": "all programs and orders of the listed qubits", "anchors": ["src/pinvoke_api.cpp: MUL, MapArithmetic2"]}
{"id": "C144", "title": "C interface: LDA", "statement": "LDA loads the table value of the index register into the value register.", "quantifier": "all programs before, all registers, all tables", "why_tests_cant": "all programs and orders of the listed qubits", "anchors": ["src/pinvoke_api.cpp: LDA, MapArithmetic3"]}
{"id": "C145", "title": "C interface: Exp and MCExp", "statement": "Exp applies the exponential of i phi times the product of the listed Pauli operators, MCExp does so when the controls are set.", "quantifier": "all lists of Pauli operators and qubits, all angles", "why_tests_cant": "real angles and all maps of IDs", "anchors": ["src/pinvoke_api.cpp: Exp, MCExp, RHelper, MCRHelper"]}
{"id": "C146", "title": "C interface: qcircuit_append_mc", "statement": "The gate that is appended is applied where control i has the value of bit i of the permutation.", "quantifier": "all lists of controls, all permutations, all states", "why_tests_cant": "all orders of the controls", "anchors": ["src/pinvoke_api.cpp: qcircuit_append_mc"]}
{"id": "C147", "title": "C interface: MAll", "statement": "MAll returns the values of the qubits, in the order of allocation, of an assignment with an amplitude that is not 0, and leaves that basis state.", "quantifier": "all programs before, all random draws", "why_tests_cant": "the result is random, the programs are unbounded", "anchors": ["src/pinvoke_api.cpp: MAll"]}
{"id": "C148", "title": "C interface: Compose", "statement": "Compose adds the qubits of a second simulator to the first one under new names; the state is the product, and the second simulator stays.", "quantifier": "all states of the first simulator, all programs of the second one, all new names", "why_tests_cant": "the programs are unbounded", "anchors": ["src/pinvoke_api.cpp: Compose"]}
{"id": "C149", "title": "QNeuron: Unpredict undoes Predict", "statement": "Unpredict after Predict restores the register as it was before (with a reset: after the reset); LearnCycle answers what Predict answers and does not change the register.", "quantifier": "all neurons on distinct qubits, activation functions, angles, states of the register", "why_tests_cant": "the states, angles and numbers of inputs are unbounded", "anchors": ["include/qneuron.hpp: Predict, Unpredict, LearnCycle"]}
{"id": "C150", "title": "QNeuron: the answer of Predict", "statement": "With the output qubit in state 0, Predict answers the mean, over the values of the inputs, of the squared sine of half of pi/2 plus the activation of the angle of this value; an untrained neuron answers 1/2.", "quantifier": "all neurons on distinct qubits, all states with the output qubit in state 0", "why_tests_cant": "the states and numbers of inputs are unbounded", "anchors": ["include/qneuron.hpp: Predict"]}
{"id": "C151", "title": "QNeuron: Learn does not make the answer worse", "statement": "Learn does not lower the probability that Predict then answers for the expected output, for any rate, and leaves the register as it is after the reset.", "quantifier": "all neurons, activation functions, rates, states", "why_tests_cant": "the angles and states are unbounded; the wrong cases need angles beyond 2 pi", "anchors": ["include/qneuron.hpp: Learn, LearnInternal, clampAngle"]}
{"id": "C152", "title": "QNeuron: LearnPermutation does not make the answer worse", "statement": "LearnPermutation does not lower the probability that Predict then answers for the expected output and the measured inputs.", "quantifier": "all neurons, rates, states, results of measurements", "why_tests_cant": "the angles and states are unbounded", "anchors": ["include/qneuron.hpp: LearnPermutation, LearnInternal"]}
{"id": "C153", "title": "QNeuron: training with rate 1/2", "statement": "A new neuron trained once with rate 1/2 on each of a list of basis states answers 1 for the expected output on each of them, and 1/2 on the others.", "quantifier": "all boolean functions of the inputs, all lists of examples, Learn and LearnPermutation", "why_tests_cant": "there are 2^(2^n) boolean functions, and the number of inputs is unbounded", "anchors": ["include/qneuron.hpp: Learn, LearnPermutation"]}
{"id": "C154", "title": "QNeuron: copies", "statement": "A copy of a neuron, and a neuron another one is assigned to, has the inputs, output, activation and angles of the other one.", "quantifier": "all neurons", "why_tests_cant": "the memory written past the array usually does not show", "anchors": ["include/qneuron.hpp: QNeuron(const QNeuron&), operator="]}
{"id": "C155", "title": "The C interface reports qubit IDs that are not in use", "statement": "For every simulator of the C interface and every qubit ID that is not in use there: a call with that ID (gates with the ID as target or control, SWAP, Prob, M, release, PermutationProb) returns, sets the error of that simulator, and changes neither the state nor anything else.", "quantifier": "for all states of the interface, all named states, all gates, all IDs", "why_tests_cant": "IDs are created and released at run time, so the combinations of live and dead IDs are unbounded; a call with a dead ID that hits another qubit or terminates the process only shows in that combination.", "anchors": ["src/pinvoke_api.cpp:277-308", "src/pinvoke_api.cpp:1326-1360", "src/pinvoke_api.cpp:2534-2556"]}
{"id": "C156", "title": "JointEnsembleProbability is the probability of odd parity of the product of Pauli operators", "statement": "For every named state of up to 64 qubits and every list of Pauli operators on different qubits, JointEnsembleProbability returns p with 2 p + <P> = 1, where <P> is the expectation value of the product of the operators, and leaves the state unchanged.", "quantifier": "for all states, all lists of Pauli operators, all allocation orders", "why_tests_cant": "The state space is continuous and the list of operators arbitrary; tests sample a few states with one basis.", "anchors": ["src/pinvoke_api.cpp:319-355", "src/pinvoke_api.cpp:1218-1266"]}
{"id": "C157", "title": "Measure is the projective measurement of a product of Pauli operators", "statement": "For every named state of up to 64 qubits and every list of Pauli operators on different qubits, Measure returns a result of nonzero probability (1 + <P>)/2 for 0 and (1 - <P>)/2 for 1, and leaves the normalised projection of the state on the eigenspace of the result.", "quantifier": "for all states, all lists of Pauli operators, all random numbers", "why_tests_cant": "Results are random and the state space is continuous; that the state after the measurement is the projection cannot be sampled.", "anchors": ["src/pinvoke_api.cpp:2121-2140", "src/qengine/state.cpp"]}
{"id": "C158", "title": "PermutationProb is the probability of the given values", "statement": "For every named state and every list of different qubits with values, PermutationProb returns the probability that every listed qubit has its value, and changes nothing.", "quantifier": "for all states, all lists of qubits and values, all allocation orders", "why_tests_cant": "The list, the state and the map from IDs to positions are arbitrary.", "anchors": ["src/pinvoke_api.cpp:2534-2565"]}
{"id": "C159", "title": "QUnitClifford runs every Clifford circuit exactly", "statement": "After every program of H, X, Y, Z, S, IS, Mtrx, CZ, CY, CNOT, their anti-controlled versions, MCMtrx and MACMtrx with at most one control, Swap, ISwap, IISwap and FSim from any basis state, GetAmplitude of every basis state is the amplitude of the ideal circuit, including the global phase.", "quantifier": "for all programs, all numbers of qubits, all basis states, all answers of the units about separability", "why_tests_cant": "Tests run fixed circuits; the number of gates, qubits and units is unbounded, and how units are joined and split depends on the whole history.", "anchors": ["include/qunitclifford.hpp:103-152", "include/qunitclifford.hpp:289-415", "include/qunitclifford.hpp:469", "include/qunitclifford.hpp:685-786"]}
{"id": "C160", "title": "QUnitClifford::Prob is the probability of the amplitudes", "statement": "In every register reached by gates, measurements and Compose the amplitudes that GetAmplitude returns are normalised, and Prob(q) is the sum of their squares over the basis states in which qubit q is set.", "quantifier": "for all registers that can be reached, all qubits", "why_tests_cant": "Tests compare Prob for a few states; the number of gates, qubits and units is unbounded, and how units are joined and split depends on the whole history.", "anchors": ["include/qunitclifford.hpp:617-622", "include/qunitclifford.hpp:469"]}
{"id": "C161", "title": "QUnitClifford::ForceM is the projective measurement", "statement": "In every register reached by gates, measurements and Compose, ForceM returns the forced result, or a result of nonzero probability, and leaves the normalised projection up to a phase; forcing a result of probability zero throws; with doApply = false no amplitude changes.", "quantifier": "for all registers that can be reached, all qubits, all results, all random numbers", "why_tests_cant": "Results are random, and the number of gates, qubits and units is unbounded, and how units are joined and split depends on the whole history.", "anchors": ["include/qunitclifford.hpp:439", "src/qunitclifford.cpp:571-620"]}
{"id": "C162", "title": "QUnitClifford::ProbMask is the probability of the masked values", "statement": "For every register that can be reached, every mask and every permutation, ProbMask returns the probability that the masked qubits have the bits of the permutation.", "quantifier": "for all registers that can be reached, all masks, all permutations", "why_tests_cant": "The masks and the divisions into units are exponentially many.", "anchors": ["src/qunitclifford.cpp:153-178"]}
{"id": "C163", "title": "QUnitClifford::Compose is the tensor product", "statement": "For all registers that can be reached and every position, Compose inserts the qubits of the second register at the position, and the amplitudes are the products of the amplitudes of both.", "quantifier": "for all registers that can be reached, all positions", "why_tests_cant": "The states and the divisions into units of both registers are arbitrary.", "anchors": ["include/qunitclifford.hpp:522-543"]}
{"id": "C164", "title": "QUnitClifford::Decompose hands over the qubits with their probabilities", "statement": "For every register that can be reached and every range of qubits in a product state with the rest, Decompose gives a destination in which Prob of every qubit is what it was before.", "quantifier": "for all registers that can be reached, all separable ranges", "why_tests_cant": "Which unit a qubit is in, and where, depends on the whole history of the register.", "anchors": ["src/qunitclifford.cpp:200-268", "include/qunitclifford.hpp:544-559"]}
{"id": "C165", "title": "The masked gates act on every qubit of their mask", "statement": "XMask, YMask, ZMask and PhaseRootNMask apply X, Y, Z and the root of Z to every qubit of the mask and to no other, YMask exactly when the global phase is not random; PhaseParity multiplies basis states by one of two phases according to the parity of the masked bits.", "quantifier": "for all masks, widths, states, phases, core counts and thread schedules", "why_tests_cant": "There are 2^n masks, and a wrong count of set bits or a wrong order in the chain of CNOTs shows only for some of them.", "anchors": ["src/qinterface/gates.cpp:101-164", "src/qinterface/gates.cpp:399-424"]}
{"id": "C166", "title": "ZeroPhaseFlip changes the sign exactly where the register is 0", "statement": "For every register of at least one qubit ZeroPhaseFlip negates the amplitudes of the basis states in which all its bits are 0 and leaves all others.", "quantifier": "for all registers, widths, states, core counts and thread schedules", "why_tests_cant": "The set of amplitudes that must change depends on the position and length of the register.", "anchors": ["src/qinterface/gates.cpp:84-99"]}
{"id": "C167", "title": "The controlled square roots of Swap", "statement": "CSqrtSwap, CISqrtSwap, AntiCSqrtSwap and AntiCISqrtSwap apply the square root of the exchange, or its inverse, exactly to the basis states whose controls are all 1 (all 0 for the AntiC forms), and CSqrtSwap and CISqrtSwap undo each other.", "quantifier": "for all lists of distinct controls, all pairs of qubits, widths and states", "why_tests_cant": "A sequence of fifteen controlled gates has to cancel exactly for every list of controls.", "anchors": ["src/qinterface/gates.cpp:282-397"]}
{"id": "C168", "title": "TimeEvolve applies the exponential of each term", "statement": "TimeEvolve applies for every term of the Hamiltonian, in order, the exponential of -i t H to the target qubit where the controls have the values asked for, also for uniformly controlled terms with the matrix selected by the controls; Exp applies the exponential of i H.", "quantifier": "for all Hamiltonians, time steps, widths and states", "why_tests_cant": "Hamiltonians are arbitrary lists of matrices, controls and toggles.", "anchors": ["src/qinterface/gates.cpp:426-485", "src/qinterface/rotational.cpp:231-245", "include/hamiltonian.hpp:27-65"]}
{"id": "C169", "title": "Expectation values and variances of integers", "statement": "ExpectationBitsFactorized and VarianceBitsFactorized return the mean and the variance of the offset plus the entry that each listed bit selects, ExpectationBitsAll and VarianceBitsAll those of the number that the listed bits hold plus the offset; lists with a repeated or nonexistent qubit, and too few entries, throw.", "quantifier": "for all widths, normalised states, lists of bits, entries and offsets whose sums fit into 128 bits", "why_tests_cant": "The value depends on every amplitude and on every list of bits and entries; one bit and several bits take different paths.", "anchors": ["src/qinterface/qinterface.cpp:540-616", "include/qinterface.hpp:210-220"]}
{"id": "C170", "title": "Expectation values and variances of real weights", "statement": "ExpectationFloatsFactorized and VarianceFloatsFactorized return the mean and the variance of the sum of the weights that the listed bits select.", "quantifier": "for all widths, normalised states, lists of bits and weights", "why_tests_cant": "One bit and several bits take different paths, and the weights are arbitrary.", "anchors": ["src/qinterface/qinterface.cpp:618-655", "src/qinterface/qinterface.cpp:769-803"]}
{"id": "C171", "title": "Expectation value and variance of a product of Pauli operators", "statement": "ExpectationPauliAll and VariancePauliAll return the expectation value and the variance of the tensor product of the listed Pauli operators, identities included, and leave the state as it was.", "quantifier": "for all widths, normalised states and lists of Pauli operators on distinct qubits", "why_tests_cant": "The lists mix four operators on any qubits of an entangled state.", "anchors": ["src/qinterface/qinterface.cpp:657-767"]}
{"id": "C172", "title": "ProbMaskAll and ProbBitsAll are marginal distributions", "statement": "The entry j of the array that ProbMaskAll (ProbBitsAll) fills is the probability that the bits of the mask (the listed bits), packed in order, hold j.", "quantifier": "for all widths, states, masks and lists of bits", "why_tests_cant": "The packing of bits depends on mask and list, and a list of all bits in order takes a shortcut.", "anchors": ["src/qinterface/qinterface.cpp:421-474"]}
{"id": "C173", "title": "ExpectationUnitaryAll and VarianceUnitaryAll with matrices", "statement": "Given a basis by a unitary matrix and two eigenvalues for every listed qubit, the calls return the expectation value and the variance of the tensor product of the observables with these eigenvectors and eigenvalues, and leave the state as it was; eigenvalues left out are 1 and -1.", "quantifier": "for all widths, normalised states, lists of distinct qubits, unitary matrices and eigenvalues", "why_tests_cant": "Bases and eigenvalues are arbitrary, and restoring the state requires that every inverse is applied exactly.", "anchors": ["src/qinterface/qinterface.cpp:476-507", "src/common/functions.cpp:204-211"]}
{"id": "C174", "title": "ExpectationUnitaryAll with angles", "statement": "Given the bases by the three angles of U, ExpectationUnitaryAll returns the expectation value of the tensor product of the observables with the columns of U as eigenvectors, and leaves the state as it was.", "quantifier": "for all widths, normalised states, lists of distinct qubits, angles and eigenvalues", "why_tests_cant": "Many angles hide the error: it shows only when phi and lambda differ.", "anchors": ["src/qinterface/qinterface.cpp:509-538", "src/qinterface/rotational.cpp:17-26"]}
{"id": "C175", "title": "Rotation gates about the axes", "statement": "RX, RY and RZ with the angle theta apply exp(-i theta/2 P) for the Pauli operator P of the axis; rotations about one axis add their angles and the negative angle undoes them; CRY and CRZ apply the rotation exactly where the control is 1, and the uniformly controlled forms the rotation with the angle selected by the controls.", "quantifier": "for all widths, states, qubits, lists of controls and angles", "why_tests_cant": "A wrong sign or half angle is invisible in the probabilities of basis states and in tests at special angles.", "anchors": ["src/qinterface/rotational.cpp:128-221", "include/qinterface.hpp:1480-1545"]}
{"id": "C176", "title": "The documented sense of RT, CRX and the Pauli exponentials", "statement": "RT rotates as exp(-i theta/2) around |1>, CRX is RX under a control, and ExpX, ExpY and ExpZ apply exp(-i theta P).", "quantifier": "for all widths, states, qubits and angles", "why_tests_cant": "A reversed rotation has the same probabilities on basis states; the optional gates are not in the default build.", "anchors": ["src/qinterface/rotational.cpp:170-174", "src/qinterface/rotational.cpp:247-284", "include/qinterface.hpp:1503-1508"]}
{"id": "C177", "title": "U, CU and AntiCU", "statement": "U applies the standard matrix of theta, phi and lambda; CU applies it exactly where every control is 1 and AntiCU exactly where every control is 0.", "quantifier": "for all widths, states, targets, lists of controls and angles", "why_tests_cant": "Three angles and any list of controls; phases do not show in probabilities.", "anchors": ["src/qinterface/rotational.cpp:17-50"]}
{"id": "C178", "title": "Azimuth and inclination", "statement": "AI takes |0> to cos(inclination/2)|0> + exp(i azimuth) sin(inclination/2)|1> and is RZ(azimuth) RY(inclination) RZ(-azimuth); IAI undoes it; the controlled and anti-controlled forms act so exactly where the control is 1, or 0, and their inverses undo them.", "quantifier": "for all widths, states, qubits and angles", "why_tests_cant": "The inverse is computed numerically; a transposed inverse is right for azimuth 0.", "anchors": ["src/qinterface/rotational.cpp:52-126", "include/qinterface.hpp:843-855"]}
{"id": "C179", "title": "Counts of repeated measurements", "statement": "MultiShotMeasureMask into a map returns, for every value of the listed qubits, the number of shots that showed it: the counts add up to the number of shots, every key is the value of the listed qubits (first one lowest) in a basis state of non-zero amplitude, and the order in which parallel shots finish does not matter.", "quantifier": "for all states, lists of qubits, orders of the shots, and numbers of shots below 2^31", "why_tests_cant": "Schedules and numbers of shots cannot be enumerated.", "anchors": ["src/qinterface/qinterface.cpp:805-821", "include/qinterface.hpp:191-204"]}
{"id": "C180", "title": "Outcomes of repeated measurements in an array", "statement": "MultiShotMeasureMask into an array stores at index j the value of the listed qubits in shot j, for up to 64 qubits, and writes nothing else.", "quantifier": "for all lists of at most 64 qubits, numbers of shots and orders of the shots", "why_tests_cant": "Tests with more than 32 qubits are rare.", "anchors": ["src/qinterface/qinterface.cpp:823-832", "include/qinterface.hpp:191-204"]}
{"id": "C181", "title": "Logical shifts", "statement": "LSL multiplies a register by 2^shift modulo 2^length and LSR divides it by 2^shift: the bits that leave the register are measured, zeros enter at the other end, and no other qubit changes; a shift by the length or more clears the register.", "quantifier": "for all register sizes, shifts, states and thread schedules", "why_tests_cant": "Superpositions, register places and shifts cannot be enumerated.", "anchors": ["src/qinterface/qinterface.cpp:368-396", "include/qinterface.hpp:2124-2128"]}
{"id": "C182", "title": "Arithmetic shifts keep the sign", "statement": "ASL and ASR by less than the length of the register keep its sign bit, which is one of the last two bits of the register (the other is the carry).", "quantifier": "for all register sizes, shifts and states", "why_tests_cant": "The meaning of the two bits is only visible on states in which they differ.", "anchors": ["src/qinterface/qinterface.cpp:332-366", "include/qinterface.hpp:2118-2122"]}
{"id": "C183", "title": "The weak channel of QInterface depolarizes", "statement": "DepolarizingChannelWeak1Qb(qubit, lambda), averaged over its random outcomes, is a depolarizing channel on the qubit: rho becomes (1 - 3 b) rho + b (X rho X + Y rho Y + Z rho Z) with b > 0 for lambda > 0.", "quantifier": "for all states, qubits and strengths", "why_tests_cant": "Averages over outcomes are only visible in statistics of many runs, and in more than one basis.", "anchors": ["src/qinterface/gates.cpp:487-507", "include/qinterface.hpp:3043-3048"]}
{"id": "C184", "title": "The strong channel of QInterface", "statement": "DepolarizingChannelStrong1Qb returns the index of the qubit that it adds and keeps the norm, and without that qubit the register is in the same mixed state as after DepolarizingChannelWeak1Qb.", "quantifier": "for all states, qubits and strengths", "why_tests_cant": "Mixed states cannot be compared by sampling a few runs.", "anchors": ["src/qinterface/gates.cpp:509-523", "include/qinterface.hpp:3050-3061"]}
{"id": "C185", "title": "The channel of QTensorNetwork", "statement": "DepolarizingChannelWeak1Qb(qubit, lambda) of QTensorNetwork, averaged over its random draws, maps rho to (1 - lambda) rho + (lambda / 3) (X rho X + Y rho Y + Z rho Z).", "quantifier": "for all states, qubits and strengths from 0 to 1", "why_tests_cant": "The deviation is of second order in lambda, below the noise of sampling tests.", "anchors": ["include/qtensornetwork.hpp:527-547"]}
{"id": "C186", "title": "Measuring a list of qubits", "statement": "M and ForceM of a list of qubits (QInterface) return a mask that has, at every listed qubit, its result, leave the state projected onto these results, and throw exactly when forced values have no amplitude or the lists have different lengths.", "quantifier": "for all states, lists of qubits, values and random outcomes", "why_tests_cant": "Joint outcomes of many qubits cannot be enumerated.", "anchors": ["src/qinterface/qinterface.cpp:226-259", "include/qinterface.hpp:2360-2364"]}
{"id": "C187", "title": "Measuring a list of qubits without applying", "statement": "ForceM of a list of qubits with doApply = false (QInterface) leaves the state unchanged, returns the same kind of mask as with doApply = true, and throws when the forced values have no amplitude.", "quantifier": "for all states, lists of qubits, values and random outcomes", "why_tests_cant": "The lists used in tests start at qubit 0, where the packed result and the mask agree.", "anchors": ["src/qinterface/qinterface.cpp:226-259", "include/qinterface.hpp:2363-2364"]}
{"id": "C188", "title": "Controlled NOT gates on registers", "statement": "The register forms of CNOT, AntiCNOT, CCNOT and AntiCCNOT (ENABLE_REG_GATES) add to the target register, modulo 2 and bit by bit, the control register, its complement, the conjunction of the control registers, and the conjunction of their complements; no other qubit changes.", "quantifier": "for all starts and lengths within the engine with the target register disjoint from the control registers, and the control registers not starting at the same qubit, all states and all schedules", "why_tests_cant": "The tests use single starts and lengths; every amplitude of every state is covered here.", "anchors": ["src/qinterface/qinterface.cpp:907-921", "src/qinterface/qinterface.cpp:973-983"]}
{"id": "C189", "title": "Logic gates on registers", "statement": "The register forms of AND, OR, XOR, NAND, NOR, XNOR and of CLAND, CLOR, CLXOR, CLNAND, CLNOR, CLXNOR (ENABLE_REG_GATES) add to the output register, bit by bit, the bitwise function of the input registers, or of the input register and the lowest bits of the classical number; no other qubit changes.", "quantifier": "for all starts and lengths within the engine with the output register disjoint from the input registers, all classical numbers, states and schedules", "why_tests_cant": "The tests use registers of one length and a few classical numbers.", "anchors": ["src/qinterface/qinterface.cpp:874-889", "src/qinterface/qinterface.cpp:1051-1091", "include/common/qrack_functions.hpp:145"]}
{"id": "C190", "title": "Swap on registers", "statement": "The register form of Swap (ENABLE_REG_GATES) exchanges the values of two registers and changes no other qubit.", "quantifier": "for all starts and lengths within the engine, with registers that have no common qubit or are the same, all states and all schedules", "why_tests_cant": "The tests use one pair of registers.", "anchors": ["src/qinterface/qinterface.cpp:866-872", "src/qinterface/qinterface.cpp:939-940"]}
{"id": "C191", "title": "Classical numbers of more than 64 bits in register gates", "statement": "In the register forms of CLAND, CLOR, CLXOR, CLNAND, CLNOR and CLXNOR (ENABLE_REG_GATES), the gate on qubit i of the register gets bit i of the classical number, for every length up to the capacity.", "quantifier": "for all classical numbers, starts and lengths up to 128 qubits (the default capacity)", "why_tests_cant": "The tests use registers of a few qubits.", "anchors": ["src/qinterface/qinterface.cpp:882-889", "include/common/qrack_functions.hpp:145", "include/common/qrack_types.hpp:56-73"]}
