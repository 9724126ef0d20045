# Formal model of zones_convolver in Rocq (Coq 8.16.1)

## Layout

* `rocq/theories/Model/*.v`   the model, one file per source file, no proofs of properties. Every
  definition cites the file and lines of /repo it models and says what is simplified.
* `rocq/theories/Spec/*.v`    small, independent specifications (linear convolution, DFT, bit
  reversal, ring windows, abstract queue, linear ramp ...) that do not mention the model.
* `rocq/theories/Proofs/*.v`  lemmas.
* `rocq/theories/Props/*.v`   the property theorems only: statement, `exact lemma`,
  `Print Assumptions`, and beside each an `Example` that meets its hypotheses.

## Modelling decisions

* **Outcomes.** Every modelled operation returns `res A`: `Ok a`, `Undef` (undefined behaviour: an
  out-of-range access, division by zero, `back()` of an empty vector ... and also every violated
  `jassert`), or `Diverge` (a C++ loop that does not terminate within the fuel the model gives it).
  Theorems say `= Ok ...`, so absence of UB and termination are part of them.
* **Numbers.** Samples (C++ `float`) are elements of an abstract arithmetic `arith` (a record of
  operations: ring operations, 1/2, 1/n, and the pairs cos/sin(2 pi/2^k)). Complex numbers are pairs.
  The laws (`arith_laws`: commutative ring, 1/2+1/2=1, the unit-circle points satisfy
  w_{k+1}^2 = w_k, w_1 = -1, |w_k| = 1) are a hypothesis of the theorems about signals; they are
  proved for the real numbers of the standard library (`Model/ArithReal.v`). So these theorems are
  about exact arithmetic. Since the model is the same for every `arith`, it can be run over single precision
  as well (`Model/ArithSingle.v`: real numbers, every operation rounded to binary32): C56-C61, C64, C65 and the float part of C75 are about that (C72 and C73 carry it over to floats with overflow and NaN). C62 and C63 assume
  nothing of the arithmetic, and so hold for IEEE floats with NaN and infinities (`Model/ArithIEEE.v`). A finite field
  F_{8191}[i] gives an executable instance used for the examples and tests.
* **Index arithmetic in float.** The places where the code computes sizes in `float`
  (partition counts, fade lengths) are modelled exactly with an executable binary32
  round-to-nearest-even on rationals (`Model/Float32.v`).
* **Integers** are unbounded `nat`/`Z` (C++ `int`/`size_t`), except where the property is about
  overflow; see the per-file comments.
* **JUCE** (external, not in /repo) is modelled from its documented behaviour: `AudioBlock`
  (views, copyFrom/add/clear/getSubBlock), `AudioBuffer`, `dsp::FFT` real transforms (an oracle with
  a contract `rfft_ok`, plus a concrete reference implementation meeting it), `AbstractFifo`,
  `LinearSmoothedValue`, `ThreadPool::removeAllJobs/addJob`. These are part of the trusted base.
* **Threads.** The command queue is modelled at the granularity of its atomic loads and stores
  (sequentially consistent), the loader at the granularity of lock, check, push. Data races outside
  these are not modelled.

## Plan per property

| id | model | proof |
|----|-------|-------|
| C01 C02 | `Model/FFT.v`: the in-place triple loops over an array | loops = recursive DIF FFT by pointwise characterisation of disjoint in-place butterflies; induction on k gives the DFT formula; butterflies are inverted structurally |
| C03 C04 | `Model/FFTDecomposition.v` | pointwise characterisation of one step; levels commute with splitting the array in halves |
| C05 C06 | `Model/DecompositionSchedule.v` | invariant by recursion on the depth over "which blocks are final at which phase" |
| C07 | FFT + ComplexBuffer | DFT of circular convolution = product, then C02 |
| C08 C09 | `Model/ComplexBuffer.v`; C09 with an explicit heap of allocations | pointwise; C09 refuted by witness |
| C10 C11 | `StageBuffers`, `Model/FrequencyDelayLine.v` | invariant over histories |
| C12 C13 | `Model/CircularBuffer.v`, `Model/SplitBlock.v` | list lemmas |
| C14-C17 | `Model/Partitioning.v`, `Model/PartitionSchemes.v` (the tables verbatim), `Model/Float32.v` | finite check over the table entries, symbolic in the IR length; rounding lemma |
| C18 | `Model/Convolver.v` | integer induction |
| C19 | `Model/UniformPartitionedConvolver.v` | invariant relating ring, delay line and counters to the input history (overlap-save) |
| C20-C22 | `Model/TimeDistributedUPC.v`, `Model/TimeDistributedUPCMulti.v` | pipeline invariant per (partition, phase), overlap-add |
| C23 | `Model/TimeDistributedNUPC.v` | result-ring invariant + C19 + C20 + C14/C15 |
| C24-C27 | `Model/Convolver.v` | corollaries of the block-level simulation |
| C28 | constructors on an empty IR | refuted by computation: outcome `Undef` |
| C29 C30 | `Model/VisitorQueue.v`, small-step interleaving | invariant over all interleavings |
| C31-C39 | `Model/ConvolutionEngine.v`, sequential state machine over an abstract convolver interface, ownership by identifiers | invariants over operation lists; refutations by computation |
| C40-C45 | `Model/Loader.v`, interleaving model of LoadIR, pool, workers, mutex | invariants over all schedules; refutations by explicit schedules |
| C46 | the same state machine, `legal` histories of `Spec/Engine.v` | invariant "every owned convolver accepts blocks of w channels, fade counters agree with the announced sizes" over all operation lists |
| C47 | engine over the convolvers of C24 | C36/C37 composed with the convolution theorem of each of the two convolvers |
| C48-C51 | `Model/Loader.v` | trace invariants over all schedules; C51 refuted by an explicit schedule (deadlock: the lock is never released again) |
| C52 | engine over any convolver, then over those of C24 | invariant `jnv` (`Proofs/EngineOrigin.v`): every convolver in the engine is one that was delivered, fed a suffix of the input since its last reset; with C33 and C24: a convolution forgets what is older than its response |
| C53 | loader and engine together (`Spec/Together.v`: `same_execution` relates the two models by what was pushed and prepared) | C40, C41, C49 give what was delivered last and of what it was built; C52 gives what is heard; the defect by an explicit execution |
| C54 | the tables (`Model/PartitionSchemes.v`), admissible divisions and their cost (`Spec/Optimal.v`) | a lower bound by dynamic programming over (sum, last size), proved sound for all divisions by induction (`Proofs/GarciaTables.v`), compared with the cost of each entry by computation |
| C55 | the Python script function by function (`Model/GarciaOptimal.v`): graph, relaxation, leafs, way back, counting | layer by layer: every node holds the least cost of the divisions that end there, with one edge to where it came from (`Proofs/GarciaSearch.v`); no node before the last layer is a dead end, since two equal partitions can always replace a change of size; the way back spells out the division |
| C56 | the engine over `Single` (`Model/ArithSingle.v`): real numbers, every operation rounded to binary32 by Flocq's `round` | the theorems about what the engine multiplies and adds (`Proofs/EngineFade.v`) hold over any arithmetic; error bounds for repeated rounded addition by induction (`Proofs/SingleProof.v`); the overshoot is computed with Flocq's executable floats and carried over by `Bplus_correct` (`Proofs/SingleCompute.v`) |
| C57 | the time-distributed convolver over `SingleWith pow` (`Model/ArithSingle.v`), `pow` being whatever `std::pow` computes, right within `tau` (`Spec/Precision.v: pow_accurate`) | the state invariant of C20/C21 needs no ring laws (only 0+0=0, 0-0=0, 0*0=0), so the output is a fixed expression in the float operations (`Proofs/TDUPCStream.v: tdy`); forward error analysis of that expression: energies (L2) through the forward transform, Cauchy-Schwarz over the product of spectra, sums (L1) through the inverse (`Proofs/Norms.v`, `SingleFFT.v`, `SingleTD.v`) |
| C58 | `FFT.v`, `FFTDecomposition.v` over `SingleWith pow` | induction on the passes: each multiplies the energy by sqrt 2 and adds a relative error (`Proofs/SingleFFT.v`) |
| C59 | `UniformPartitionedConvolver.v` over `SingleWith pow` with any real transform that keeps `Spec/Precision.v: rfft_accurate` | state invariant without ring laws (`Proofs/UPCFloat.v`: every output sample is one inverse transform of a fixed sum of products), then the error analysis of C57 with the contract in place of the transforms (`Proofs/SingleUPC.v`); the radix-2 transform keeps the contract (`Proofs/SingleReal.v`) |
| C60 | `TimeDistributedNUPC.v` over `SingleWith pow` | the state invariant without ring laws (`Proofs/NUPCFloat.v`: an output sample is one output of the first convolver plus, added one by one, outputs of the others one block earlier; `Proofs/NUPCMake.v`: what a new convolver consists of); errors of the parts by C57 and C59, added up along the scheme (`Proofs/SingleNUPC.v`); the bound is `Spec/PrecisionScheme.v: scheme_error` |
| C61 | `Convolver.v` over `SingleWith pow` | routing as a sum in fixed order without ring laws (`Proofs/ConvolverFloat.v`), then C60 |
| C62 | the convolver and the engine over any `arith`, without laws | relational parametricity of the whole convolution stack (`Proofs/Param.v`): a run over one arithmetic succeeds exactly if the run over another does, with the same shapes; it does succeed over the arithmetic of time stamps (`Proofs/Stamp.v`), by the law-free invariants of C57-C61 |
| C63 | the same | an arithmetic of time stamps computes the age of the oldest input an output sample depends on; two runs side by side are a run over pairs, related to the run over stamps by "equal wherever the stamp is recent" (`Proofs/MemoryProof.v`); spec in `Spec/Memory.v`; examples in IEEE binary32 with special values (`Model/ArithIEEE.v`) |
| C64 | the loader, the engine and the convolver over `SingleWith pow` | C61 for every convolver a load can make (`made_within`), through the arithmetic-free part of C53 (`load_in_charge`) and the law-free convergence of the engine; bound in `Spec/PrecisionEngine.v` |
| C65 | the engine with two convolvers over `SingleWith pow` | the law-free statement of what a fade multiplies (`Proofs/EngineGains.v`), the rounded ramp of C56 and C61 for both convolvers |
| C66 | `Model/VisitorQueue.v`, small steps; the atomic queue is `Spec/Linear.v` | forward simulation on top of the invariant of C29/C30; linearization points: the read of the read position (a push that fails), the store of the write position (a push that succeeds), the read of the write position (the number of commands a Service visits), the store of the read position (places free again). The engine model (C31-C39) uses exactly this atomic queue: accepted iff `length e_commands + e_cmd_busy < queue_capacity` |
| C67 | two engines over the same arbitrary arithmetic | lockstep relation of the two engines (`Proofs/EngineMemory.v`): same queues, log and gains; each pair of convolvers was given the same last k samples, except one that will not be heard again (the old one in the second half of an in/out fade), using C63 for each convolver |
| C68 | two engines with different background schedules | lockstep relation (`Props/BackgroundProps.v`): everything equal except the notification queue and the destruction entries of the log; each operation preserves it |
| C69 | three engines in lockstep | `Proofs/EngineFamily.v`: a family of engines given the same calls; a relation on samples that the convolvers, the mixing and the scaling of fades keep is kept by the engine. `Proofs/ConvolverFamily.v`: convolvers made from the same response are such a family (from C24). Here the relation is `z = a x + b y` |
| C70 | one engine over the reals; two for the second part | the same family theorem with the relation `|x| <= p` in, `|x| <= G p` out; the two levels of a cross-fade are non-negative and add up to at most 1 at every sample; the second part follows from C69 with `a = 1, b = -1` |
| C71 | two engines | the same family theorem; the relation is equality on the channels concerned |
| C72 | the convolver with IEEE binary32 numbers (`Model/ArithIEEE.v`) beside the same convolver with rounded reals (`Model/ArithSingle.v`) | `Proofs/Ext*.v`: the convolver is run in a third arithmetic, rounded reals where a result above 2^127 becomes `None`; bounds on every partial result (2^114 at most) show that `None` never occurs. `Proofs/ExtParam.v`: relational (parametricity) proof that a run without `None` has the same values in the other two arithmetics; `Proofs/IEEESingle.v` relates the operations by Flocq's correctness theorems. With C61 this gives the accuracy of the IEEE run. `Proofs/OverflowExample.v`: a library that meets all the contracts |
| C73 | the engine with IEEE binary32 numbers beside the engine with rounded reals, run on the same calls and schedule | `Proofs/EngineHet.v`: a generic lockstep theorem for two engines in different arithmetics, given relations between input samples, convolver outputs, fade levels and engine outputs that the operations keep; `Proofs/IEEESmooth.v`: the smoothed values in both arithmetics agree and stay below 3/2 for fades up to 2^22 samples (1 MHz), products and sums of a fade stay below 2^127; the convolvers by C72, with the bound 21*2^121 on their outputs. Accuracy: with C64 and, during fades, C65. From LoadIR to sound (`Props/OverflowLoadProps.v`): from the IEEE loader trace and history a history in rounded reals is constructed (every convolver handed over was built from the arguments of a LoadIR call, C49, so its counterpart can be built from their values), the lockstep theorem carries the hypotheses over (lines of equal length, equal logs), C64 applies |
| C74 | `Model/IntArith.v`: the integers of the constructors and of one time-distributed block again, every int operation checked against 32 bits; `Model/IntLoops.v`: those of the Process loops, the delay lines, the schedules and the transforms | `Proofs/IntProof.v`: bounds on every operand from the layout facts of C14/C15 (the checked partitioning equals the unchecked one); `Proofs/IntLink.v`: partition counts and delays are those of the convolver of `Model/Convolver.v`; `Proofs/IntLoopsProof.v`: every loop of the convolver and the loop over its integers run in step, with an invariant of the kept integers |
| C75 | the convolver with rounded reals, and with IEEE binary32 numbers, run twice on the same samples cut into blocks in two ways | both runs are within the error of C61 (C72 with IEEE numbers) of the exact output, which depends only on the samples of each session |
| C76 | the engine (`Model/ConvolutionEngine.v`) with the real convolvers, run on two histories | one block from the same state: the service of the queue does not look at the block, so both runs are in the same one of four cases (no fade, cross-fade, two halves of an in/out fade); gains depend only on the position; a used convolver is causal by its convolution formula (C24, C26) |
| C77 | as C76, run on the same samples in two sequences of blocks | C39 and C36 give the output by what the convolvers put out for these blocks; a used convolver puts out the same for both by C24. The in/out fade is computed on an example |
| C78 | the engine with any convolvers and its two queues (`Model/ConvolutionEngine.v`); the engines, callers and pool (`Model/Loader.v`) | invariant of the two queues through every call, interruption and load; invariant of the pool: the waiting jobs and the LoadIR calls between `removeAllJobs` and `addJob` are together at most as many as there are engines, since such a call holds its engine's lock and `removeAllJobs` leaves nothing waiting. The bound says nothing about the message thread's own queue of callbacks |
| C79 | the engine with the real convolvers, in two runs with different histories; exact and in `float` | both outputs are given by C52 (exactly) and by C64 (within the convolver's error) from the same recording: the formula mentions neither blocks nor sampling rate |
| C80 | one engine over the reals; for `C80_change` and the counter-example with the real convolvers | from the formulas of C36, C37 and C47: consecutive levels of a ramp differ by at most 1/n, the two levels of a cross-fade add up to 1; a convolution moves by at most the sum of the moduli of the response times what its input, preceded by silence, moves by; the counter-example is computed from C47 |

Nothing is planned as "not applicable".

## Trusted base

* Coq 8.16.1's kernel (and `coqchk`, which re-checks the compiled files), plus `vm_compute` in
  concrete examples and in the finite check over the partition tables.
* `Print Assumptions` is run below every property theorem. For every theorem in MANIFEST.json except
  those of C56-C61, C64, C65, C70, C72, C73, C75, C79 (`C79_hosts_agree_in_float`) and C80 it prints **"Closed under the global context"**: no axioms. Those theorems are about
  real numbers (all but C70 and C80 also about Flocq's rounding), and use the standard library's axioms
  `ClassicalDedekindReals.sig_forall_dec`, `ClassicalDedekindReals.sig_not_dec`,
  `FunctionalExtensionality.functional_extensionality_dep` and `Classical_Prop.classic` (C70 and C80 without the last). The first three
  are also used in `Model/ArithReal.v`, to show that the exact arithmetic assumed by the signal theorems
  has the real numbers as an instance. No other axioms are used, and none are added.
* The rendering of C++ into the model, by hand; each definition cites what it renders.
* The models of JUCE (external; /repo/cmake/AddJuce.cmake asks for origin/master, at least 8.0.3; rendered from 8.0.3): `Model/Juce.v`
  (AudioBlock, AudioBuffer), the real FFT contract `rfft_ok` (`Model/UniformPartitionedConvolver.v`,
  `Spec/RealFFT.v`), `AbstractFifo` (`Model/VisitorQueue.v`), `LinearSmoothedValue`
  (`Model/SmoothedValue.v`), `ThreadPool` and `MessageManager::callAsync` (`Model/Loader.v`).

## What is modelled

| source | model |
|--------|-------|
| zones_convolver/util/FFT.{h,cpp} | `Model/FFT.v` |
| zones_convolver/util/ComplexBuffer.{h,cpp} | `Model/ComplexBuffer.v`, ownership in `Model/ComplexBufferHeap.v` |
| zones_convolver/util/CircularBuffer.h, SplitBlock.h, FrequencyDelayLine | `Model/CircularBuffer.v`, `Model/SplitBlock.v`, `Model/FrequencyDelayLine.v` |
| zones_convolver/PartitionSchemes.cpp | `Model/PartitionSchemes.v` (the tables verbatim), `Model/Partitioning.v` |
| zones_convolver/UniformPartitionedConvolver | `Model/UniformPartitionedConvolver.v` |
| zones_convolver/time_distributed/* | `Model/FFTDecomposition.v`, `Model/DecompositionSchedule.v`, `Model/TimeDistributedUPC.v`, `Model/TimeDistributedUPCMulti.v`, `Model/TimeDistributedNUPC.v` |
| zones_convolver/Convolver | `Model/Convolver.v` |
| zones_convolver/ConvolutionEngine | `Model/VisitorQueue.v` (queue), `Model/ConvolutionEngine.v` (engine), `Model/Loader.v` (LoadIR, jobs, mutex, IsLoading, listeners) |
| the `int` arithmetic of the constructors, the Process loops, the delay lines, the schedules and the transforms | `Model/IntArith.v`, `Model/IntLoops.v` (signed 32-bit; overflow is undefined) |
| garcia_optimal_partitioning/*.py | `Model/GarciaOptimal.v` (the search; `to_scheme` for convert_results.py) |

## What is not modelled

* Rounding of samples and twiddle factors, except in C56-C65, C72, C73 and C75: the other theorems about signals are about exact
  arithmetic (any commutative ring with halves and roots of unity). The theorems of C56-C61, C64 and C65 leave out overflow and NaN (C72 and C73 show that none occurs for samples up to 65536), fused
  multiply-add and denormals-are-zero modes. C62 and C63 include overflow and NaN (complex
  products are the textbook formula: the special treatment of infinite factors some C++ libraries add is left out). Sizes computed in `float` are exact.
* Overflow of C++ integers inside JUCE (those of the library itself: C74). `size_t` subtraction is modelled where it can go below zero (as `Undef`).
* Allocation failure, exceptions, the cost of operations (C22 counts which steps run in which call, not
  the time they take).
* Weak memory: atomics and the mutex are sequentially consistent. For the queue this loses nothing: the `juce::Atomic<int>`s inside
  `AbstractFifo` are `seq_cst` (part of the trusted model of JUCE), C29 shows that the plain slots are free of data races in every
  interleaving, and a C++ program whose sequentially consistent executions are free of races, with `seq_cst` atomics only, has only
  those executions. That holds of the queue; where C50 finds a race elsewhere, C++ gives the program no meaning. Plain members accessed by several
  threads (`spec_`, `is_loading_`) are accessed atomically in the model, and C50 says which of these
  accesses race.
* The ThreadPool destructor, juce::Thread start-up and scheduling delay; the background thread is any
  sequence of services of its queue.
* In the Python scripts: plotting, timing, JSON and the text of the generated files; Python floats, `math.log2` and
  `math.ceil` are exact in the model.
* `test/`, the CMake files, the packaging header `zones_convolver.h`.
