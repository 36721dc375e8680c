# Formal model of Qrack in Rocq/Coq 8.16.1

This file says what is modelled, how each property of `properties.jsonl` is proved,
and what has to be trusted.  It was written before the proofs and is updated with them.

## Conventions

* `/repo` is read as text only.  Every model definition cites the file and lines it follows.
* Native integers are `N` (or `Z`), with wrap-around (`mod 2^64`, `mod 2^w`) written where it can matter.
* Amplitudes are elements of an arbitrary commutative ring with conjugation (`Amp.StarRing`, a record
  passed as an ordinary argument, not a module type or axiom).  Every theorem about amplitudes holds for all
  such rings, in particular for the complex numbers.  Floating-point rounding is NOT modelled.
  Examples and counterexamples are computed in the Gaussian integers.
* A state vector is a function from index to amplitude, compared index by index (no functional extensionality).
  A model function that iterates follows the loop of the code; parallel loops are folds over *any* permutation of
  the index set that the loop visits (the schedule is universally quantified).
* `Model*.v` / `M*.v` hold definitions only, `Spec*.v` the independent specifications,
  `P*.v` the proofs, `Prop*.v` only the final theorems with `Print Assumptions` and a concrete `Example` beside each.
* Where the code violates a property, the file contains `..._refuted` (an existential with a computed witness)
  together with the strongest positive statement that does hold (`..._partial` where it is a weakening).

## Plan per property

| id | modelled | method |
|----|----------|--------|
| C01-C07 | `BigInteger` as a list of words, word width and count arbitrary (`MBigInteger.v`) | induction on the words, carry-chain invariants |
| C08 | `log2Ocl`, `bi_log2` (both builds; `MFunctions.v`) | arithmetic |
| C09 | decimal printing/parsing (`MFunctions.v`) | termination as fuel independence |
| C10 | `pushApartBits` and the increment function of `par_for_mask` | bit-level induction on the skip list |
| C11 | `isOverflowAdd`, `isOverflowSub` | arithmetic |
| C12 | range checks with 8-bit / 64-bit wrap | arithmetic |
| C13-C16 | `par_for_inc` as a transition system with atomic fetch; `par_for_*` index functions; kernel bodies as read/write programs (`MParFor.v`, `MKernel.v`) | invariants over all schedules, permutation reasoning, race freedom |
| C17-C18 | dispatch queue as a transition system: any number of clients and the worker (`MDispatch.v`) | inductive invariant |
| C19-C27, C66-C72 | `QEngineCPU` kernels, probabilities, measurement, composition, decomposition (`MEngine.v`, `MMeasure.v`, `MDecompose.v`) | index bijections, generic kernel lemma over all schedules |
| C28-C38, C73 | ALU kernels of `QEngineCPU` and the `QAlu` wrappers (`MAlu.v`) | basis-state maps, injectivity, modular arithmetic |
| C39-C48, C74-C77 | generic `QInterface` circuits (`MCircuit.v`) | denotation of gate sequences on states, run on the engine model |
| C49-C52, C78-C82 | `QCircuit` and `QCircuitGate` (`MQCircuit.v`) | denotational semantics, induction on the circuit |
| C53-C54, C83 | swap map, shard map (`MMaps.v`) | refinement to lists |
| C55-C61, C84-C89 | `QStabilizer` tableau (`MStab.v`) | Pauli operators acting on state vectors, conjugation lemmas, invariants |
| C62-C65, C90-C98 | `QPager` on CPU engine pages (`MPager.v`, `MPager2.v`) | refinement to the flat vector |
| C99-C107 | gates buffered by `QUnit`: maps and shared `PhaseShard` objects of `QEngineShard` (`MShard.v`) | invariant (maps mirror each other and share buffers), product of pending gates as the observable |
| C108-C111 | `QUnit`: shards, separation, one-qubit bases, buffered two-qubit gates, trimming of controls, entangling, amplitudes, measurement (`MUnit.v`) | circuits on which the result is wrong, found by random testing of the model and evaluated in the field Q(zeta_8) (`AmpQ8.v`) |
| C112-C117 | `QUnit` programs: gates, Prob, GetAmplitude, SetPermutation | simulation: an invariant (`good` in `PUnit10.v`: layout, normalised engines, cached amplitudes with the right zeros and magnitudes, buffers that commute and whose controls have no certain value) with the meaning of the simulator (engines, cached amplitudes, bases, buffers) as abstraction function; every modelled function keeps the invariant and changes the meaning as it should |
| C118, C119 | `QUnit` programs with measurements (`M`, `ForceM`) | the same simulation with a state known up to a factor; a measurement projects the state, and the factor 1/sqrt(p) restores the norm; a circuit on which the state after a measurement is wrong |
| C120-C128 | `QBdt`: the tree, gates with controls, probabilities, measurement, Compose, IsSeparable, Set/GetQuantumState (`MBdt.v`) | refinement: every function keeps the invariant `tight` (`PBdt1.v`: squared magnitudes of the two branches sum to 1, zero nodes have no branches) and changes the amplitudes (`val`) as it should, by induction on the depth; the loops over paths visit every leaf once; wrong cases evaluated in Q(zeta_8) (`AmpBdt.v`; the square root there is exact for the numbers that occur) |
| C129-C135 | `QTensorNetwork`: layers of circuits and measurements, the layer stack, light cones, ForceM, MAll, SetPermutation, Allocate (`MTensor.v`) | an invariant (`inv` in `PTensor2.v`: the layers, replayed from the zero state, give a multiple of the state) kept by gates and by the first round of measurements, on top of the QCircuit proofs; uniqueness of the normalized multiple gives one global phase; programs outside the class `ordered` (`SpecTensor.v`) are refuted by examples |
| C136-C148 | the C interface: simulator and qubit IDs, gates, M, MAll, Prob, allocateQubit, release, Compose, Decompose, Dispose, Separate, ADD, Hash, MUL, LDA, Exp, qcircuit_append_mc (`MApi.v`), over exact simulators | refinement: the vector read through the map of IDs is a state of named qubits (`SpecApi.v`); each call keeps the relation `holds` (`SpecApi2.v`), programs by induction, with the order of allocation as a further invariant for MAll, arithmetic and Compose; calls that break it are refuted by evaluation |
| C149-C154 | `QNeuron`: Predict, Unpredict, LearnCycle, Learn, LearnPermutation, copies (`MNeuron.v`) | over any commutative ring with angles that satisfy the laws `trig` (`SpecNeuron.v`; instances over the complex numbers and over Q(zeta_8)); training by induction over the list of examples with the invariant `knows` (`PNeuron4.v`); refutations by evaluation in Q(zeta_8) |
| C155-C158 | the C interface: IDs that are not in use, JointEnsembleProbability, Measure, PermutationProb (`MApi2.v`, `MApi.v`) | the change of basis turns the product of Pauli operators into signs by parity (`PApi9.v`); inner products are kept by unitary gates; transfer to named qubits (`PApi10.v`, `SpecApi3.v`) |
| C159-C164 | `QUnitClifford`: shards and units, Entangle, TrySeparate, gates, controlled gates, swaps, FSim, ForceM, Prob, ProbMask, GetAmplitude, Compose, Decompose (`MUCliff.v`), over exact units | an invariant (`good` in `PUCliff2.v`: the shards place every qubit once in the units; units are normalised) with the state as the product of the units, on top of the placement proofs of QUnit (`PUnit1.v` to `PUnit9.v`); `reached` in `SpecUCliff.v` is the set of registers that calls can produce; gates on a wrong qubit are kept inside it, so that C160, C161 hold without condition; refutations by evaluation in Q(zeta_8) |
| C165-C168 | the bodies of `QInterface` for XMask, YMask, ZMask, PhaseRootNMask, PhaseParity, ZeroPhaseFlip, the controlled square roots of Swap, TimeEvolve and Exp with a matrix (`MCircuit2.v`, `MCircuit.v`) | meaning of a list of primitive calls with the scalars an engine with random global phase drops (`crun_phase` in `PCircuit14.v`); a circuit with further controls acts as the circuit where they are set (`ctl_sem` in `PCircuit16.v`); the matrix exponential exp2x2 is a parameter of the model |
| C169-C172 | the bodies of `QInterface` for ExpectationBitsFactorized, VarianceBitsFactorized, ExpectationBitsAll, VarianceBitsAll, ExpectationFloatsFactorized, VarianceFloatsFactorized, ExpectationPauliAll, VariancePauliAll, ProbMaskAll, ProbBitsAll (`MExpect.v`) on a state vector with exact probabilities and gates | means over the distribution of the basis states (`SpecExpect.v`); the change of basis of `PApi9.v` turns Pauli operators into signs (`PExpect3.v`); not modelled: the Rdm forms |
| C173, C174 | ExpVarUnitaryAll with matrices and with angles, inv2x2 (`MExpect2.v`) | lists of gates on distinct qubits commute, a diagonal observable is moved through the change of basis (`PExpect4.v`); angles enter by their cosines, sines and phases; the division in inv2x2 is a parameter |
| C175-C178 | `rotational.cpp`: RT, RX, RY, RZ, CRY, CRZ, UniformlyControlledRY, UniformlyControlledRZ, U, CU, AntiCU, AI, IAI and their controlled forms, and of the optional part Exp, ExpX, ExpY, ExpZ, CRX (`MRot.v`) as lists of calls run on the CPU engine | matrices over the angles' cosines and sines against cos t - i sin t P (`SpecRot.v`); runs up to a phase (`PRot.v`); not modelled: the library functions cos and sin, the Dyad forms |
| C179, C180 | SampleClone and both forms of MultiShotMeasureMask of `QInterface` (`MShots.v`); std::map as a list in the order of its keys, the int counts with overflow | counts per outcome (`SpecShots.v`), for every order of the shots (`PShots.v`); not modelled: the random choice of MAll, the threads beyond the order of the lock |
| C181, C182 | LSL, LSR, ASL, ASR of `QInterface` (`MShift.v`), with ROL, ROR and Swap as lists of calls (`MCircuit.v`) and SetReg of `MAlu.v` | the register times or divided by a power of two (`SpecShift.v`); a permutation before or after a measurement (`PShift.v`); not modelled: SetReg of the whole engine |
| C183-C185 | DepolarizingChannelWeak1Qb, DepolarizingChannelStrong1Qb of `QInterface`, DepolarizingChannelWeak1Qb of `QTensorNetwork` (`MNoise.v`) on a state vector with exact gates | mixtures as density matrices, Pauli channels (`SpecNoise.v`); random outcomes as weighted end states; not modelled: asin and pow, Dispose of the measured qubit beyond its effect |
| C186, C187 | M and ForceM of a list of qubits of `QInterface` (`MForce.v`) on a state vector, with the measurement of one qubit as a relation | masks and projections (`SpecForce.v`), induction on the list (`PForce.v`); not modelled: tolerances |
| C188-C191 | the register forms of the logic gates, Swap and controlled NOT gates of `QInterface` (`MRegs.v`) | words of bits (`SpecRegs.v`); induction on the length, each gate toggles one bit of the output (`PRegs.v`); not modelled: register forms of the other gates (except H), the effect on states of 64 qubits and more |

## What is modelled, file by file

The comment at the head of each `M*.v` file lists its sources and its simplifications; each definition cites the lines it
follows.  In short:

* `MAlu.v`: Model of the arithmetic kernels of the CPU engine.  Sources: `src/qalu.cpp`, `src/qengine/arithmetic.cpp`.
* `MApi.v`: The C interface: simulators, qubits and circuits are named by numbers ("IDs").  Sources: `include/common/qrack_functions.hpp`, `src/pinvoke_api.cpp`, `src/qengine/state.cpp`.
* `MApi2.v`: The C interface, continued: Measure and PermutationProb.  Sources: `include/qparity.hpp`, `src/pinvoke_api.cpp`, `src/qengine/state.cpp`.
* `MBdt.v`: QBdt: the state as a binary decision tree.  Sources: `include/qbdt.hpp`, `include/qbdt_node_interface.hpp`, `src/qbdt/node.cpp`, `src/qbdt/node_interface.cpp`, `src/qbdt/tree.cpp`, `src/qinterface/gates.cpp`.
* `MBigInteger.v`: Model of the wide-integer layer of Qrack (used for the qubit-address type when the build asks for more than 128 qubits, QBCAPPOW >= 8).  Sources: `include/common/big_integer.hpp`, `src/common/big_integer.cpp`.
* `MCircuit.v`: Model of the generic (gate-level) implementations of the base class QInterface.  Sources: `include/qinterface.hpp`, `src/qinterface/{arithmetic,logic,gates,qinterface}.cpp`.
* `MCircuit2.v`: More of the generic gate bodies of /repo/src/qinterface/gates.cpp: YMask, PhaseRootNMask, the controlled square roots of Swap and TimeEvolve, in the form of MCircuit.v (a list of primitive calls).  Sources: `src/qinterface/gates.cpp`.
* `MDecompose.v`: Model of QEngineCPU::DecomposeDispose.  Sources: `src/qengine/state.cpp`.
* `MDispatch.v`: Model of the work queue as a transition system.  Sources: `include/common/dispatchqueue.hpp`, `src/common/dispatchqueue.cpp`.
* `MEngine.v`: Model of the CPU state-vector engine, exact amplitudes.  Sources: `include/common/parallel_for.hpp`, `include/qengine.hpp`, `include/statevector.hpp`, `src/qengine/qengine.cpp`, `src/qengine/state.cpp`.
* `MExpect.v`: Expectation values and variances of QInterface.  Sources: `include/common/qrack_functions.hpp`, `include/qinterface.hpp`, `src/qinterface/qinterface.cpp`.
* `MExpect2.v`: ExpVarUnitaryAll of QInterface (ExpectationUnitaryAll and VarianceUnitaryAll).  Sources: `src/common/functions.cpp`, `src/qinterface/qinterface.cpp`, `src/qinterface/rotational.cpp`.
* `MForce.v`: M and ForceM of a list of qubits, as QInterface has them (/repo/src/qinterface/qinterface.cpp:226-259 and /repo/include/qinterface.hpp:2361); QEngine has its own (C69).  Sources: `include/qinterface.hpp`, `src/qinterface/qinterface.cpp`.
* `MFunctions.v`: Model of the native integer helpers.  Sources: `include/common/qrack_functions.hpp`, `include/common/qrack_types.hpp`, `src/common/functions.cpp`.
* `MKernel.v`: Kernel bodies as programs over a shared array, and their interleaved execution.  Sources: `include/statevector.hpp`, `src/common/parallel_for.cpp`, `src/qengine/state.cpp`.
* `MMaps.v`: Model of the logical-swap containers: QubitSwapMap of /repo/include/qubitswapmap.hpp and QEngineShardMap of /repo/include/qengineshard.hpp.  Sources: `include/qengineshard.hpp`, `include/qubitswapmap.hpp`.
* `MMeasure.v`: Choosing a measurement outcome from a distribution and a random draw.  Sources: `src/qengine/qengine.cpp`, `src/qengine/state.cpp`.
* `MNeuron.v`: QNeuron: a rotation of an output qubit, with an angle for each value of the input qubits, and its training.  Sources: `include/common/qneuron_activation_function.hpp`, `include/qinterface.hpp`, `include/qneuron.hpp`, `src/qinterface/rotational.cpp`.
* `MNoise.v`: The depolarizing channels: DepolarizingChannelWeak1Qb and DepolarizingChannelStrong1Qb of QInterface (/repo/src/qinterface/gates.cpp:487-523) and DepolarizingChannelWeak1Qb of QTensorNetwork (/repo/include/qtensornetwork.hpp:527-547).  Sources: `include/qtensornetwork.hpp`, `src/qengine/utility.cpp`, `src/qinterface/gates.cpp`.
* `MPager.v`: Model of QPager on CPU engine pages.  Sources: `include/qpager.hpp`, `src/qpager.cpp`.
* `MPager2.v`: Model of QPager, continued: rotations, composition and disposal of qubits; /repo/src/qpager.cpp and the generic bodies of /repo/include/qinterface.hpp and /repo/src/qinterface/qinterface.cpp that QPager inherits.  Sources: `include/qinterface.hpp`, `src/qinterface/qinterface.cpp`, `src/qpager.cpp`.
* `MParFor.v`: Model of the parallel loops.  Sources: `src/common/parallel_for.cpp`.
* `MQCircuit.v`: Model of the circuit optimiser: QCircuitGate and QCircuit of /repo/include/qcircuit.hpp.  Sources: `include/common/qrack_types.hpp`, `include/qcircuit.hpp`, `src/arithmetic_qcircuit.cpp`, `src/qcircuit.cpp`, `src/qengine/utility.cpp`.
* `MRegs.v`: The register forms of the logic gates, of Swap and of the controlled NOT gates of QInterface (/repo/src/qinterface/qinterface.cpp:864-1091, compiled with ENABLE_REG_GATES): one gate for each index below the length.  Sources: `include/common/qrack_functions.hpp`, `src/qinterface/qinterface.cpp`.
* `MRot.v`: The rotation gates of /repo/src/qinterface/rotational.cpp (lines below without a file name), in the form of MCircuit.v (a list of primitive calls).  Sources: `src/qinterface/rotational.cpp`.
* `MShard.v`: Model of the buffers of two-qubit gates kept by QUnit for its qubits: PhaseShard and QEngineShard of /repo/include/qengineshard.hpp and /repo/src/qengineshard.cpp.  Sources: `include/common/qrack_types.hpp`, `include/qengineshard.hpp`, `src/qengineshard.cpp`.
* `MShift.v`: The shifts of QInterface (/repo/src/qinterface/qinterface.cpp:333-396): ASL, ASR, LSL and LSR.  Sources: `src/qinterface/qinterface.cpp`.
* `MShots.v`: SampleClone and MultiShotMeasureMask of QInterface (/repo/include/qinterface.hpp:191-204.  Sources: `include/qinterface.hpp`, `src/qinterface/qinterface.cpp`.
* `MStab.v`: Model of the stabilizer simulator QStabilizer.  Sources: `include/common/qrack_functions.hpp`, `include/qinterface.hpp`, `include/qstabilizer.hpp`, `src/qinterface/gates.cpp`, `src/qstabilizer.cpp`.
* `MTensor.v`: QTensorNetwork: gates are kept in circuit objects, measurements in layers between them, and everything is run on another simulator (the "layer stack") when amplitudes are needed.  Sources: `include/qinterface.hpp`, `include/qtensornetwork.hpp`, `src/qcircuit.cpp`, `src/qengine/qengine.cpp`, `src/qengine/utility.cpp`, `src/qinterface/gates.cpp`, `src/qinterface/qinterface.cpp`, `src/qtensornetwork.cpp`.
* `MUCliff.v`: QUnitClifford: qubits of a stabilizer simulation kept apart as long as possible.  Sources: `include/qinterface.hpp`, `include/qunitclifford.hpp`, `src/qstabilizer.cpp`, `src/qunitclifford.cpp`.
* `MUnit.v`: QUnit: qubits kept apart as long as possible.  Sources: `include/qengineshard.hpp`, `include/qunit.hpp`, `src/qengineshard.cpp`, `src/qunit.cpp`.

## Not modelled

* Floating-point rounding, tolerances (`IS_NORM_0`, `FP_NORM_EPSILON` comparisons are exact), denormals, overflow of `real1`.
* OpenCL and CUDA kernels, SIMD code paths (`ComplexX2`), sparse state vectors, device selection.
* Random number quality: a random draw is an arbitrary number of its range.
* Operating-system threading primitives beyond mutex, condition variable and atomic increment (taken as in the C++
  standard, sequentially consistent); memory allocation failure.
* Sharing of objects through pointers (`Copy`, gates shared between circuits), `Clone`.
* The running norm and `doNormalize = true` (except C66), BCD arithmetic (`ENABLE_BCD`).
* `QStabilizer`: `phaseOffset` (the global phase), two-qubit gates on equal qubits.
* `QPager`: devices, host pointers, the choice of the default threshold, `Decompose`.
* `QUnit`: arithmetic, Compose, Decompose, SetAmplitude, TrySeparate, ProbParity, CUniformParityRZ, sampling (`MultiShotMeasureMask`), copying.
* `QBdt`: sharing of nodes (trees are values, so that effects of shared nodes on `Clone` are not seen), attached engines, Dispose, ALU calls, the threshold for zero.
* `QTensorNetwork`: Compose, Decompose, Dispose, GetProbs, MultiShotMeasureMask, the layer stacks themselves (a state vector with the calls of QEngine or QInterface; C04 to C66 are about QEngine).
* `QNeuron`: GeLU and the power of `Generalized_Logistic` are arbitrary functions of the angle; real numbers are exact; the register is a state vector with exact gates.
* `QUnitClifford`: the stabilizers of its units (a unit is an exact state vector; when it finds a qubit separable is a parameter), sampling, GetQuantumState, copying.
* `QUnitMulti`, `QHybrid`, `QStabilizerHybrid`,
  `QInterfaceNoisy` and the C interfaces, except where a property names them.

## Findings: where the code violates its property

Each line names the theorem that exhibits the violation (a computed witness, or a statement for all inputs).

* `c30_incc_refuted` (`PropAlu.v`): The carry is lost: 0 + 1 + carry on a one-qubit register must give 0 with carry set, and gives 0 with carry clear.
* `c30_decc_refuted` (`PropAlu.v`): 0 - 0 without borrow must leave the carry set, and clears it.
* `c33_mul_refuted` (`PropAlu.v`): With a multiplier above 2^len several basis states are written to the same place: here |0> is erased.
* `c34_mulmodnout_refuted` (`PropAlu.v`): The product wraps around at 64 bits before the reduction: 2 * (2^63 + 1) mod 5 is 3, and 2 is written.
* `c35_powmodnout_refuted` (`PropAlu.v`): The power wraps around at 64 bits: 3^41 mod 5 is 3, and another value is written.
* `c35_powmodnout_one_refuted` (`PropAlu.v`): Base one is a special case that writes 1 even when the modulus is one.
* `c36_cmul_zero_refuted` (`PropAlu.v`): CMUL by zero clears the register whatever the controls.
* `c36_cdiv_refuted` (`PropAlu.v`): CDIV drops amplitudes with nonzero carry register although the control is unset.
* `c36_cimulmodnout_refuted` (`PropAlu.v`): CIMULModNOut likewise.
* `c36_cpowmodnout_refuted` (`PropAlu.v`): CPOWModNOut likewise (it does not clear the output register first).
* `c37_indexed_sbc_refuted` (`PropAlu.v`): IndexedSBC skips as many qubits from the carry on as the value register has; basis states with one of them set are erased.
* `c38_phase_flip_if_less_refuted` (`PropAlu.v`): A bound of 2^64 is truncated to zero and flips nothing.
* `c73_incsc_refuted` (`PropAlu.v`): The carry is added to the constant before the overflow test, which then sees a constant of the wrong sign.
* `c73_decsc_refuted` (`PropAlu.v`): The carry is added to the constant before the overflow test, which then sees a constant of the wrong sign.
* `c136_large_refuted` (`PropApi.v`): C136 fails for IDs of 256 and more: they are cut to eight bits when they are looked up. With the qubits 0 and 256, X on 256 flips qubit 0.
* `c137_bound_refuted` (`PropApi.v`): C137 fails at the end of the range: the number of simulators is taken for a valid ID by every call (`sid > simulators.size()`), which reads behind the vector; larger IDs set the error code.
* `c137_reuse_refuted` (`PropApi.v`): C137 fails for destroyed IDs: the comment of destroy says that the ID will not be reused, but the next new simulator gets it when all lower IDs are in use.
* `c138_clone_refuted` (`PropApi.v`): C138 fails in general: the clone numbers its qubits from 0 by position. With the qubits 1 and 0, allocated in this order, and X on qubit 0, the simulator has qubit 0 set and its clone has qubit 1 set.
* `c139_dispose_refuted` (`PropApi.v`): C139 fails: the disposed qubits are exchanged with the last ones, but the map of IDs is changed as if the gap had been closed. Of three qubits with qubit 1 set, after Dispose of qubit 0, which is clear, qubit 2 is set and qubit 1 is clear.
* `c140_decompose_refuted` (`PropApi.v`): C140 fails in the same way: after Decompose of qubit 0 into a new simulator, qubits 1 and 2 are exchanged.
* `c141_separate_refuted` (`PropApi.v`): C141 fails: the range that is taken out starts one qubit too low. Of two qubits with qubit 0 set, Separate of qubit 1 leaves qubit 1 set and qubit 0 clear.
* `c142_order_refuted` (`PropApi.v`): C142 fails for qubits that are not listed in the order of allocation: ADD of 1 to the clear register [1; 0] sets qubit 0, which is its high bit, and leaves qubit 1 clear; the same for Hash.
* `c142_wide_refuted` (`PropApi.v`): C142 fails with bitCapInt wider than 64 bits, which is the default (QBCAPPOW 7): the words of the number are combined with a shift by the width of the type, which is undefined.
* `c143_mul_refuted` (`PropApi.v`): C143 fails for registers that are interleaved: of four qubits, MUL by 3 of the register [0; 2] with value 1 into [1; 3] should set qubits 0 and 2, but sets qubits 0 and 1.
* `c144_lda_refuted` (`PropApi.v`): C144 fails for registers that are interleaved: of four qubits, with index register [0; 2] of value 1 and value register [1; 3], loading the table value 1 should set qubit 1, but sets qubit 2.
* `c145_mask_refuted` (`PropApi.v`): C145 fails for two or more Pauli operators: the mask and the controls of the parity rotation are IDs, not positions. With the qubits 2, 0, 1 allocated in this order, Exp of X on qubits 2 and 0 with the angle pi/2 should flip both, but leaves qubit 0.
* `c145_identity_refuted` (`PropApi.v`): C145 fails for the identity: MCExp of the identity with the angle phi should multiply by exp(i phi) when the controls are set, but multiplies by exp(-i phi / 2). With phi = pi/2, twice between two H gates on the control, the control should be set with certainty; its probability is 1/2.
* `c146_three_refuted` (`PropApi.v`): C146 fails for three controls: the bits of the permutation are moved by the inverse of the right permutation. With the controls 2, 0, 1 and the permutation 1 (control 2 is set, controls 0 and 1 are clear), X is not applied where control 2 is set but where control 1 is set.
* `c147_mall_refuted` (`PropApi.v`): C147 fails after arithmetic: the qubits of a register are moved next to each other. Of three qubits, after Hash of qubits 0 and 2 with the identity as table, and X on qubit 1, which was allocated second, MAll returns 4 instead of 2.
* `c155_release_refuted` (`PropApi2.v`): C155 fails for release: the exception of Prob is not caught.
* `c155_permutation_refuted` (`PropApi2.v`): C155 fails for PermutationProb: the result of the search that says that nothing was found, 255, is used as a power of 2, which is undefined for integers of up to 128 bits.
* `c121_gates_refuted` (`PropBdt.v`): H on qubits 0, 1, 2 of four, then MACMtrx with the controls 0 and 2 and the matrix of H on 3: the loop over the paths skips by the mask of the controls, also where the bits of the controls are not next to each other.
* `c124_collapse_refuted` (`PropBdt.v`): H(0), CNOT(0, 1), ForceM(1, true): the simulator still holds the Bell pair, the probability of 1 for qubit 1 is 1/2, and a second measurement may return 0. A node whose branch for the outcome is zero keeps the other branch.
* `c126_insert_refuted` (`PropBdt.v`): Compose of a qubit in |0> at position 1 into two qubits of which the second is in |1>: the norm is not 1, and what was behind the position is lost.
* `c126_phase_refuted` (`PropBdt.v`): Without randGlobalPhase, Compose at the end drops the phase of the second state: i|1> appended to |0>.
* `c127_no_refuted` (`PropBdt.v`): H(0), S(0), H(1): the state is a product, but IsSeparable(1) says no. The nodes of qubit 1 differ in the phase of their scale.
* `c128_shift_refuted` (`PropBdt.v`): SetQuantumState with the state |1> on a simulator of one qubit: Prune shifts a 128-bit number by 255, which has no defined result.
* `c02_plus_refuted` (`PropBigInteger.v`): The unrestricted statement fails in the real configuration with two words: the top word of the left operand is dropped, and a carry into an all-ones word is lost (third clause, three words).
* `c02_plus_lost_carry_refuted` (`PropBigInteger.v`): A carry into an all-ones word is lost.
* `c02_minus_refuted` (`PropBigInteger.v`): `operator-` drops the top word of the left operand: 2^128 - 0.
* `c03_decrement_refuted` (`PropBigInteger.v`): A borrow from the lowest word is mishandled: 2^128 - 1.
* `c05_shift_left_in_place_refuted` (`PropBigInteger.v`): Missing cases fail: shifting four words (QBCAPPOW = 9) left by one word in place smears the lowest word, and a shift past the width leaves the array.
* `c06_mul_by_zero_refuted` (`PropBigInteger.v`): 5 * 0 gives 5.
* `c06_mul_overflow_refuted` (`PropBigInteger.v`): 2^255 * 3 gives 0 instead of 2^255 modulo 2^256.
* `c07_div_refuted` (`PropBigInteger.v`): The exact equation fails: 2^255 / (2^254 + 1) gives quotient 5 in the real configuration (the correction of rightLog2 at big_integer.cpp:283-285 tests a condition that is never true).
* `c40_incdecc_refuted` (`PropCircuits.v`): The carry misses the given qubit: 1 + 1 in qubit 1 with carry qubit 2 sets qubit 3.
* `c41_adc_refuted` (`PropCircuits.v`): 1 + 1 on two-qubit registers does not give 2.
* `c42_mul_refuted` (`PropCircuits.v`): 3 * 4 mod 5 is 2; the circuit leaves 7.
* `c43_toggle_refuted` (`PropCircuits.v`): AND(q, q, q) does not toggle q: |1> stays.
* `c43_classical_refuted` (`PropCircuits.v`): With output and quantum input the same qubit, CLAND follows neither reading: (q AND true) is not toggled into q, and q is not replaced by (q AND false).
* `c47_probreg_refuted` (`PropCircuits.v`): Qubit 0 of |10> is 0, yet the probability of value 1 comes out as two.
* `c48_index_refuted` (`PropCircuits.v`): Composing at position 0 returns 1.
* `c168_uniform_refuted` (`PropCircuits2.v`): REFUTED for a uniformly controlled term: TimeEvolve (gates.cpp:458-463) exponentiates -t H_k without the factor i that it applies to every other term (465-467). A projector H_k = diag(1, 0), evolved for a time t, multiplies an amplitude by exp(-t): the norm of the state is not kept. [e] is the exponential of scalars.
* `c67_parallel_sum_refuted` (`PropDecompose.v`): In parallel an update can be lost.
* `c68_decompose_refuted` (`PropDecompose.v`): With wrapping arguments the factors do not recombine to the state.
* `c18_finish_after_dump_refuted` (`PropDispatch.v`): C18 as stated fails: dump() marks the queue finished while an operation is still running, so a following finish() returns before it completed.
* `c21_uniform_parity_rz_refuted` (`PropEngine.v`): With the 32-bit population count of the C++11 build the parity of qubits above 31 is ignored.
* `c24_dispose_all_refuted` (`PropEngine.v`): Disposing every qubit leaves an engine that claims one qubit while its vector has one amplitude.
* `c25_prob_parity_refuted` (`PropEngine.v`): The 32-bit population count misses qubits above 31.
* `c66_running_norm_refuted` (`PropEngine.v`): The portable kernel assigns instead of adding: the running norm is wrong after one gate.
* `c70_fsim_refuted` (`PropEngine.v`): At theta = pi the sign flip of the one-excitation states is lost.
* `c71_mask_is_product_refuted` (`PropEngine.v`): PhaseRootN(2, q) is the S gate, PhaseRootNMask(2, 2^q) its inverse.
* `c72_zmask_refuted` (`PropEngine.v`): With a fixed (not random) global phase the amplitudes differ from those of the Z gates.
* `c169_empty_refuted` (`PropExpect.v`): For no bits, the value is the offset and its variance is 0, but both calls return 1.
* `c170_variance_refuted` (`PropExpect.v`): The sum of two constants has variance 0, but VarianceFloatsFactorized returns their product, e.g. 6 for the constants 2 and 3 on |00>.
* `c170_empty_refuted` (`PropExpect.v`): The sum of no weights is 0, but ExpectationFloatsFactorized returns 1.
* `c171_product_refuted` (`PropExpect.v`): Z on each of two qubits in |00> has expectation value 1 and variance 0; ExpectationPauliAll returns 2 and VariancePauliAll 1.
* `c171_identity_refuted` (`PropExpect.v`): Two identities on |01> (qubit 0 is 1) have expectation value 1, but ExpectationPauliAll returns -1: the loop that removes identities shortens the list while counting from its end, misses one of them, and the rest is measured as Z.
* `c173_product_refuted` (`PropExpect2.v`): Two factors with the computational basis and eigenvalues 1, -1 in |00>: the product has expectation value 1, and ExpectationUnitaryAll returns 2.
* `c174_hadamard_refuted` (`PropExpect2.v`): For the angles (pi/2, 0, pi), whose U is the Hadamard gate, the observable is X. In the state with both amplitudes h, its expectation value is 1, but ExpectationUnitaryAll returns -1, and the call turns the state into its opposite (amplitudes -h and h): negating the three angles does not invert U.
* `c187_mask_refuted` (`PropForce.v`): Without values and with doApply = false, ForceM returns not a mask of the results but the packed outcomes of MultiShotMeasureMask (qinterface.cpp:254-258): for the list of qubit 1 in the state |10> every run with doApply returns 2, and every run without returns 1.
* `c187_impossible_refuted` (`PropForce.v`): With values and doApply = false every qubit is checked alone: in a state with the amplitudes of |00> and |11> only, forcing the values 0 and 1 returns the mask of these values, although no basis state of non-zero amplitude has them; with doApply = true an exception is thrown (c186_force).
* `c08_log2_default_build_refuted` (`PropFunctions.v`): The default build truncates to 64 bits before counting.
* `c09_print_diverges_refuted` (`PropFunctions.v`): Printing never terminates for any non-zero value: no number of iterations suffices.
* `c83_pending_swap_refuted` (`PropMaps.v`): With a pending swap reindex exchanges the two qubits: the swap is undone although the shards stay where they are.
* `c119_collapse_refuted` (`PropMeas.v`): H(1), CZ(1, 2), H(0), ForceM(1, true), CZ(0, 2) on three qubits: the amplitudes at 010 and 011 should be equal, but one is 0. The measurement turns the waiting CZ round and keeps it with the control 2, which is certainly 0; a later read stores qubit 0 as a basis state of PauliX, which is then read as one of PauliZ.
* `c27_register_zero_draw_refuted` (`PropMeasure.v`): The draw zero selects the last value whatever its probability.
* `c27_bits_zero_draw_refuted` (`PropMeasure.v`): For a list of bits the draw zero selects value 0 even if its probability is zero.
* `c69_forced_single_bit_refuted` (`PropMeasure.v`): One forced bit: the forced value is ignored.
* `c69_forced_no_apply_refuted` (`PropMeasure.v`): Asking not to collapse the state (doApply = false) is ignored when several values are forced.
* `c151_clamp_refuted` (`PropNeuron.v`): With other activations Learn lowers it. LearnInternal (include/qneuron.hpp:326-330) reduces the angle by multiples of 4 pi after the trial that reached the goal; the activation of the reduced angle is another one. Leaky_ReLU with alpha 3 and angle 3 pi: 1/2 before Learn(1/2), 0 after it. ReLU with angle 2 pi: the trial with 5/2 pi reaches 1, but the angle becomes -3/2 pi and the answer stays 1/2; calling Learn again changes nothing.
* `c152_superposition_refuted` (`PropNeuron.v`): In a superposition of the inputs it does: the answers after the measurement of the inputs are compared with the mean before the measurement (include/qneuron.hpp:302-315). Two inputs in an equal superposition, the value 0 of the inputs gives 1 and the others 0; the measurement gives 0; then both trials give 1/2, which is more than 1/4, and one of them is kept.
* `c154_larger_refuted` (`PropNeuron.v`): Assigning a new neuron with more inputs writes past the end of the array of angles (include/qneuron.hpp:109).
* `c154_smaller_refuted` (`PropNeuron.v`): After assigning a new neuron with fewer inputs, GetInputPower does not fit GetInputCount, and copying the result writes past the end of the new array (include/qneuron.hpp:98-103).
* `c183_depolarizing_refuted` (`PropNoise.v`): The documentation (qinterface.hpp:3043-3048) calls it a depolarizing noise channel. It equals none: for every strength lambda (the angle), and every channel (1 - 3 b) rho + b (X rho X + Y rho Y + Z rho Z) other than the identity, the two differ on the state (|0> + |1>) / sqrt 2, which the function never changes.
* `c185_strength_refuted` (`PropNoise.v`): The comment in the code (qtensornetwork.hpp:533-536) says that the channel is (1 - p) rho + (p / 3) (X rho X + Y rho Y + Z rho Z) for the argument p. The three independent draws can cancel: from |0> the probability of 1 is not 2 p / 3 unless (p / 3)^2 = 0 or 2 = 0.
* `c63_controlled_refuted` (`PropPager.v`): CNOT from qubit 9 to qubit 0 of a 10-qubit simulator with one-qubit pages leaves 10 0000 0000 unchanged.
* `c64_constructor_refuted` (`PropPager.v`): In particular the requested basis state is never produced.
* `c65_get_refuted` (`PropPager.v`): Reading amplitudes 4 and 5 of a 3-qubit simulator: the caller's array is untouched.
* `c65_set_refuted` (`PropPager.v`): Writing amplitudes 4 and 5 of a 3-qubit simulator has no effect.
* `c91_set_amplitude_refuted` (`PropPager.v`): After SetPermutation(0) on a simulator with several pages, setting an amplitude in the second page to a nonzero value reads a null state vector, for every layout (ZeroAmplitudes leaves the norm tracked).
* `c93_swap_refuted` (`PropPager.v`): Swap of qubits 0 and 9 of a 10-qubit simulator with one-qubit pages turns 0 into 10 0000 0001.
* `c97_pages_refuted` (`PropPager.v`): A normalized two-page state differs from itself (computed as a separate copy): the sum over pages of 1 - |inner product of the pages|^2 is 1, not 0.
* `c98_far_refuted` (`PropPager.v`): Fails for a control nine places above the page size: engine to pager, CNOT from qubit q + 8 to a qubit inside the pages, and back, does not flip the target of the basis state in which only the control is set.
* `c49_exact_refuted` (`PropQCircuit.v`): Without the phase the statement fails even when the engine keeps global phases: a gate that is a phase times the identity is dropped.
* `c51_swap_gate_refuted` (`PropQCircuit.v`): In a collapsing circuit a gate made by the swap constructor is taken for the identity and dropped, whatever the circuit; on |01> the run is wrong.
* `c52_wide_key_refuted` (`PropQCircuit.v`): A key of 2^64 or more is cut to 64 bits when it is written: a gate on 65 controls comes back as a different gate.
* `c52_precision_refuted` (`PropQCircuit.v`): An entry that printing does not preserve (the stream prints six digits) does not come back.
* `c78_uncollapsed_refuted` (`PropQCircuit.v`): Without collapsing the count stays what it was: a fresh circuit reports no qubits and Run does not allocate any.
* `c81_null_matrix_refuted` (`PropQCircuit.v`): A CNOT whose control is known to be 0 leaves a gate with neither controls nor matrices: Run reads a null pointer.
* `c81_swap_refuted` (`PropQCircuit.v`): A doubly controlled X with one control known to be 0 becomes a swap gate.
* `c81_phase_refuted` (`PropQCircuit.v`): A controlled phase gate on the qubit is dropped although it gives the control a phase.
* `c191_bits_refuted` (`PropRegs.v`): Within 128 qubits, CLAND of 65 qubits with the number 2^64, which has bit 64 set, calls no gate, although the gate for bit 64 is a CNOT.
* `c176_rt_refuted` (`PropRot.v`): The documentation (qinterface.hpp:1503-1508, rotational.cpp:170) says that RT "rotates as e^(-i theta/2) around |1>"; with theta = pi it multiplies |1> by i and not by -i, which shows on a superposition even up to a global phase.
* `c176_crx_refuted` (`PropRot.v`): CRX (rotational.cpp:276-284) is not RX under a control: RX has -i sin off the diagonal (177-184) and CRX has +i sin.
* `c176_exp_refuted` (`PropRot.v`): ExpX, ExpY and ExpZ (rotational.cpp:248-266) are documented to apply exp(-i t P) (qinterface.hpp:1586-1607); with the angle 0 that is the identity, and they apply the Pauli operator.
* `c103_commute_phase_refuted` (`PropShard.v`): CommutePhase returns at the first buffer that does not invert, so that the inverting buffers behind it are not changed: after a phase gate i on qubit 0, with a controlled -1 from 1 to 0 and a CNOT from 2 to 0, the result is wrong.
* `c107_erase_refuted` (`PropShard.v`): Removing a shard without buffers: the shards behind it move, but the maps still name their old addresses, so that a buffer between two of them belongs to the wrong pair or to none.
* `c182_left_refuted` (`PropShift.v`): ASL of a register of four qubits by 1 takes basis state 8 (last two bits 0 and 1) to basis state 4 (last two bits 1 and 0): both bits change, so whichever of them is the sign is not kept.
* `c182_right_refuted` (`PropShift.v`): ASR of a register of four qubits by 1 takes basis state 12 (last two bits both 1) to basis state 2 (both 0): whichever of them is the sign is not kept.
* `c180_wide_refuted` (`PropShots.v`): The array holds 64-bit numbers, but MultiShotMeasureMask (qinterface.cpp:823-832) converts every sample to unsigned int: with 33 qubits listed, a shot in which only the last of them is 1 is reported as 0.
* `c55_wide_refuted` (`PropStab.v`): With 128 qubits the 8-bit row count is 0 and gates do nothing: after X on qubit 0 of state 0 the qubit measures 0, whatever the random bit.
* `c60_dispose_refuted` (`PropStab.v`): Qubits 0 and 2 in state +, qubit 1 in state 0: qubit 1 is separable, but Dispose(1, 1) loses a generator. The rest should be ++; afterwards the tableau also describes +0, and measuring the last qubit always gives 0.
* `c88_no_refuted` (`PropStab.v`): It says no for qubit 1 of + 0 +, which is a product.
* `c130_layers_refuted` (`PropTensor.v`): C130 fails: on |000>, measuring qubit 0, then X on 0, CNOT 0 1 and CNOT 1 2 should give |111>, but CNOT 1 2 has no measured qubit and is put into the layer before the measurement (GetCircuit, include/qtensornetwork.hpp:51-77), before the gates on which it depends: the state read is |011>. No superposition is needed, and every layer stack is affected.
* `c130_phase_refuted` (`PropTensor.v`): C130 fails: ForceM deletes every gate of a later layer that only puts a phase on the measured qubit (DeletePhaseTarget), although its controls still see the phase. H on 0, measure 1, H on 1, CZ with control 1 and target 0, measure 0 with result 1, H on 1, measure 1: the last result must be 1, the code gives 0.
* `c130_stuck_refuted` (`PropTensor.v`): C130 fails: after H on 2, measure 0, X on 0, CNOT 0 1, measure 1, measure 0, X on 2 no call fails, but reading any amplitude throws (with an engine as layer stack: divides by zero), since the rebuilt layers hold contradicting measurements.
* `c131_repeat_refuted` (`PropTensor.v`): C131 fails with an engine as layer stack: measuring qubit 0, then X on qubit 2, then measuring qubit 0 again. The X drops the layer stack; replaying the single measurement calls ForceM with the list of one qubit, which QEngine hands to ForceM without forcing the value (src/qengine/qengine.cpp:123-125 drops the result), so the first result is drawn anew.
* `c132_second_refuted` (`PropTensor.v`): C132 fails: with more qubits than the threshold, H on 0, H on 1, measure 0, measure 1 (nothing forced): the second measurement throws, since the light cone of qubit 1 leaves out the gates on qubit 0 but replays its measurement.
* `c132_bell_refuted` (`PropTensor.v`): C132 fails with an engine as layer stack: the two qubits of a Bell pair (1/sqrt 2 times |00> plus |11>), measured one after the other with more qubits than the threshold, give different results.
* `c133_mall_refuted` (`PropTensor.v`): C133 fails with more qubits than the threshold: MAll after H on 0 and H on 1 throws.
* `c134_phase_refuted` (`PropTensor.v`): C134, the phase argument of SetPermutation and of the constructor is stored and never used: SetPermutation(1, i) leaves the amplitude 1, although random global phases are switched off.
* `c135_allocate_refuted` (`PropTensor.v`): C135 fails: reading an amplitude builds the layer stack; Allocate at the end does not drop it or enlarge it, and reading the probability of the new qubit throws.
* `c130_null_refuted` (`PropTensor.v`): C130 fails: on |000>, measure 1, CNOT 0 1, measure 0, X on 2: no call fails, but reading an amplitude then uses a null pointer. Fixing the control of the CNOT to 0 leaves a gate without controls and without payload (PostSelectControl, include/qcircuit.hpp:573-598), whose matrix QCircuit::Run reads from the empty map (src/qcircuit.cpp:222). No superposition is needed, and every layer stack is affected.
* `c133_basis_refuted` (`PropTensor.v`): C133 fails with more qubits than the threshold already for basis states: MAll after SetPermutation(3) throws (with an engine as layer stack and three qubits or more, SetPermutation(7): divides by zero). The light cone of the second qubit has no gate on the first one, but its result 1 is forced.
* `c159_undefined_refuted` (`PropUCliff.v`): C159 is false. X on qubit 0 and CNOT with control 0 and target 1, on two qubits: CGate sees that the control is certain and calls Mtrx(mtrx, target) of the unit of the target, but target is the number of the qubit in the register and not in its unit. The unit has one qubit; the stabilizer reads and writes bit 1 of its rows.
* `c159_wrong_qubit_refuted` (`PropUCliff.v`): C159 is false, also where nothing is undefined: after H on qubits 0 and 1 and CZ between them (control 1, target 0), CNOT with qubit 2, which is 1, as control and qubit 0 as target applies X to qubit 1. The amplitudes of the result differ from the ideal ones by more than a phase.
* `c159_fsim_refuted` (`PropUCliff.v`): C159 is false for FSim with theta = -pi/2: it joins the units of both qubits, but calls FSim of the joined unit with the numbers of the qubits in the register instead of their positions in the unit. For the qubits 1 and 2 of three qubits the joined unit has no qubit 2.
* `c162_mask_refuted` (`PropUCliff.v`): C162 is false. ProbMask adds the probabilities of the qubits of the mask instead of combining them: two qubits that are 0 have the values 00 with probability 1 + 1, and the empty mask has probability 0.
* `c163_phase_refuted` (`PropUCliff.v`): C163 is false with the phase: Compose drops phaseOffset of the register that is added. A qubit with amplitude i, added to a qubit with amplitude 1, gives the amplitude 1.
* `c164_decompose_refuted` (`PropUCliff.v`): C164 is false. Three qubits in (|000> + |111>) / sqrt 2, qubit 0 measured as 1, qubit 2 decomposed: the unit of the qubits 1 and 2 is split, but the shard that the destination gets keeps the position 1 in a unit of one qubit. Prob(0) of the destination throws, and Prob(2) was 1.
* `c108_gates_refuted` (`PropUnitBug.v`): Thirteen gates on five qubits: H, controlled H, X, controlled phases and CNOT, the last one H(2). Amplitude 6 is 0 but should not be. QCommuteH applies a controlled phase whose control has become separable, which turns it into a gate on qubit 2 itself and changes the basis that H then reads.
* `c109_outcomes_refuted` (`PropUnitBug.v`): After H(0) and a controlled H from 0 to 1, the outcome 11 has probability 1/4, but MAll never returns it, whatever the random numbers: the measurement of qubit 0 leaves qubit 1 alone in the state |+>, which ProbBase stores as a basis state of PauliX, and MAll reads the stored amplitudes as if the basis were PauliZ.
* `c110_no_collapse_refuted` (`PropUnitBug.v`): ForceM with doApply = false after H(0), H(1), CZ(0, 1): the buffered CZ is thrown away by ToPermBasisMeasure.
* `c111_phase_refuted` (`PropUnitBug.v`): Without random global phases, X(0), then -1 (both values of the qubit), then CNOT(0, 1): the amplitude of 11 is 1 instead of -1.

## Trusted base

* Coq 8.16.1's kernel (and `coqchk`), including its `vm_compute` conversion.
* The faithfulness of the transcription described above.
* `Print Assumptions` stands under each of the 537 property theorems in the `Prop*.v` files.  For every one of them it
  prints "Closed under the global context": no axiom at all, neither of the standard library nor of this development.
* Only the instance of the amplitude ring by the complex numbers (`AmpC.v`, Coq's `Reals`) depends on the axioms of the
  standard library's reals (`ClassicalDedekindReals.sig_forall_dec`, `sig_not_dec`,
  `FunctionalExtensionality.functional_extensionality_dep`); no property theorem uses it, only `Example`s do.
* No `Admitted`, no axioms, no module types or functors, no plugin, no kernel check switched off.

## Mutation tests

`seeded/LOG.jsonl` records wrong variants of the model definitions, one per line: the edit, the claim it breaks, the
theorems that failed to check, and theorems that were tightened because nothing failed.
