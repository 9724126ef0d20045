{"id": "C01", "title": "Forward unordered FFT is the DFT", "statement": "ForwardFFTUnordered, called on a buffer of num_points = 2^k complex points, terminates, touches only that buffer and leaves in position p the discrete Fourier coefficient X[bitreverse_k(p)] = sum_j x[j] exp(-2 pi i j bitreverse_k(p) / 2^k) of the points it was given.", "quantifier": "every k and every buffer content", "why_tests_cant": "tests compare a handful of sizes on one ramp with a 40% tolerance", "anchors": ["zones_convolver/util/FFT.cpp: ForwardFFTUnordered"]}
{"id": "C02", "title": "Inverse unordered FFT inverts the forward one", "statement": "InverseFFTUnordered after ForwardFFTUnordered, and ForwardFFTUnordered after InverseFFTUnordered, give back the original buffer, with the 1/N scaling included.", "quantifier": "every power-of-two length and every buffer content", "why_tests_cant": "only sampled on ramps; the property is an identity over all complex vectors", "anchors": ["zones_convolver/util/FFT.cpp: ForwardFFTUnordered, InverseFFTUnordered"]}
{"id": "C03", "title": "Splitting a decomposition pass into steps does not change it", "statement": "Running all steps 0..num_steps-1 of SegmentedForwardDecompositionRadix2 (or the inverse) in any order gives the same buffer as a single call with num_steps = 1, and a single step touches only the points of that step in every segment.", "quantifier": "every power-of-two num_points, num_segments, num_steps that divide, every order of the steps, every buffer", "why_tests_cant": "the unit test tries ascending order and one segment only", "anchors": ["zones_convolver/util/FFTDecomposition.cpp: SegmentedForwardDecompositionRadix2, SegmentedInverseDecompositionRadix2"]}
{"id": "C04", "title": "Decomposition depth does not change the transform", "statement": "Decomposing a 2^k buffer nd <= k levels deep and then running ForwardFFTUnordered on each of the 2^nd sub-buffers gives exactly ForwardFFTUnordered of the whole buffer; InverseFFTUnordered on every sub-buffer followed by the inverse levels nd-1..0 gives exactly InverseFFTUnordered of the whole buffer. Hence channels with different schedules can share one frequency domain filter.", "quantifier": "every k, nd <= k, buffer", "why_tests_cant": "tests fix three decomposition levels and three sizes", "anchors": ["zones_convolver/util/FFT.cpp", "zones_convolver/util/FFTDecomposition.cpp"]}
{"id": "C05", "title": "Streaming forward schedule completes the decomposition", "statement": "If a partition arrives one block per phase into the first half of a zero-padded stage buffer and ForwardDecompositionSchedule is called once per phase, then after the last phase the buffer equals the complete nd-level decomposition of the complete zero-padded partition; no butterfly ever consumes a point that has not arrived or is not at the right level.", "quantifier": "every number of phases 2^m, every power-of-two block size, every nd <= m, every partition content", "why_tests_cant": "the schedule is exercised for one size (64 phases of 128) only", "anchors": ["zones_convolver/util/DecompositionSchedule.cpp: ForwardDecompositionSchedule"]}
{"id": "C06", "title": "Inverse schedule is just in time", "statement": "After phase p of InverseDecompositionSchedule on a buffer holding nd-level decomposed data, blocks 0..p of the first half and of the second half already hold their final time-domain values (and after the last phase the whole buffer does).", "quantifier": "every number of phases 2^m, power-of-two block size, nd <= m, phase, buffer", "why_tests_cant": "checked for one size", "anchors": ["zones_convolver/util/DecompositionSchedule.cpp: InverseDecompositionSchedule"]}
{"id": "C07", "title": "Spectral product is circular convolution", "statement": "Multiplying point by point the unordered spectra of two 2^k buffers (each possibly produced with a different decomposition depth), accumulating several such products, and inverting, yields the sum of the circular convolutions of the buffers.", "quantifier": "every k, every number of accumulated products, every content", "why_tests_cant": "an identity over all vectors", "anchors": ["zones_convolver/util/FFT.cpp", "zones_convolver/util/ComplexBuffer.cpp: ComplexMultiplyFrom, ComplexMultiplyAccumulateFrom, AddFrom"]}
{"id": "C08", "title": "Complex buffers act point by point and channel by channel", "statement": "ComplexMultiplyFrom/AddFrom/ComplexMultiplyAccumulateFrom/Clear/CopyFromAudioBlock compute exactly the pointwise product/sum/product-sum/zero/real-to-complex copy in each channel, keep the dimensions, and CopyFromAudioBlock leaves points beyond the block's length unchanged.", "quantifier": "every number of channels, points, contents and block lengths", "why_tests_cant": "dimensions and contents are unbounded", "anchors": ["zones_convolver/util/ComplexBuffer.cpp"]}
{"id": "C09", "title": "Moving keeps a complex buffer, copying aliases it", "statement": "A move-constructed ComplexBuffer reads exactly as its source did. A copy-constructed one is not independent of its source: after any history, a value written through the copy's GetWritePointer is read back from the original through its read pointer, while the storage the copy's own arithmetic works on is unchanged. (So the class must not be copied; this is a defect of the defaulted copy operations.)", "quantifier": "every buffer with at least one point, every write", "why_tests_cant": "aliasing is invisible unless a test writes after copying", "anchors": ["zones_convolver/util/ComplexBuffer.h: channel_pointers_, channel_data_", "zones_convolver/util/ComplexBuffer.cpp: ComplexBuffer"]}
{"id": "C10", "title": "Stage buffers rotate", "statement": "The three stage buffers are always pairwise distinct and one PromoteStages call makes the A buffer the B buffer, the B buffer the C buffer and the C buffer the A buffer, contents unchanged, for any number of promotions.", "quantifier": "every history of promotions and writes", "why_tests_cant": "unbounded history", "anchors": ["zones_convolver/util/DecompositionSchedule.cpp: StageBuffers::GetStage, StageBuffers::PromoteStages"]}
{"id": "C11", "title": "Frequency delay line returns the block of i pushes ago", "statement": "After any sequence of GetNextBlock pushes (each followed by writing the returned block), GetBlockWithOffset(i) returns what was written i pushes ago, for every i below the number of blocks, and zeros if fewer than i+1 blocks were written since construction or Clear.", "quantifier": "every line length >= 1, every sequence of pushes, writes and clears", "why_tests_cant": "unbounded histories with wrap-around", "anchors": ["zones_convolver/util/FrequencyDelayLine.cpp"]}
{"id": "C12", "title": "Circular buffer views are ring windows", "statement": "GetNext(delay, advance) returns two views which, read one after the other, are exactly the whole ring starting at (head + delay) modulo its length, never out of bounds; it moves the head only if advance is true (or in the one-argument form).", "quantifier": "every ring length >= 1, head, delay and ring content", "why_tests_cant": "wrap positions are data dependent and unbounded", "anchors": ["zones_convolver/util/CircularBuffer.cpp"]}
{"id": "C13", "title": "Split blocks act like one contiguous block", "statement": "CopyFrom/AddFrom/CopyTo/AddTo/Clear/GetSubBlock on a split view have exactly the effect of the same operation on the concatenation of its two parts: samples are transferred in order, everything outside the transferred range is unchanged, and nothing is accessed out of bounds when the lengths fit.", "quantifier": "every pair of lengths, every content, every block length that fits", "why_tests_cant": "tests try 25 combinations", "anchors": ["zones_convolver/util/SplitBlock.cpp"]}
{"id": "C14", "title": "A partition scheme always covers the impulse response", "statement": "For every internal block size the library has a table for and every impulse response length between 1 and 2^24 samples, choosing a partition scheme terminates without undefined behaviour and returns a non-empty layout whose partitions together are at least as long as the response and overshoot it by less than one block plus one partition of the last segment.", "quantifier": "every table block size, every IR length in 1..2^24", "why_tests_cant": "millions of lengths times nine tables", "anchors": ["zones_convolver/util/Partitioning.cpp: GetPartitionScheme, ExtendSchemeToFitIR, ReduceSchemeToFitIR", "zones_convolver/PartitionSchemes.cpp"]}
{"id": "C15", "title": "Every time-distributed segment has enough clearance", "statement": "In every chosen scheme each segment after the first starts at least 2 partitions (of its own size) plus one block into the response, its partition size is a power of two of at least 2 blocks, and it starts strictly inside the response; so its result is ready before it is needed whatever the host block size, and all segment delays fit the result ring.", "quantifier": "every table block size, every IR length in 1..2^24, every segment", "why_tests_cant": "a violated clearance only shows with particular lengths and block splits", "anchors": ["zones_convolver/util/Partitioning.cpp", "zones_convolver/time_distributed/TimeDistributedNUPC.cpp: TimeDistributedNUPC"]}
{"id": "C16", "title": "Nearest pre-computed scheme is chosen", "statement": "The scheme chosen before resizing is one whose size is at minimal distance from the IR length among all schemes of the table (the smaller one on a tie).", "quantifier": "every table, every IR length", "why_tests_cant": "all lengths", "anchors": ["zones_convolver/util/Partitioning.cpp: FindNearestPartitionScheme"]}
{"id": "C17", "title": "Single precision partition counts are exact", "statement": "The number of partitions computed in single precision, ceil(float(segment)/float(partition)), equals the exact ceiling for all segment lengths up to 2^24 and all partition sizes, so no sample of the segment is left out. (False above 2^24.)", "quantifier": "every segment length in 1..2^24, every partition size", "why_tests_cant": "float rounding errors occur at isolated values", "anchors": ["zones_convolver/util/Partitioning.h: GetNumPartitionsRequiredForSegment", "zones_convolver/util/Partitioning.cpp: ExtendSchemeToFitIR, ReduceSchemeToFitIR"]}
{"id": "C18", "title": "Internal block size is a supported power of two", "statement": "Provided the smaller of host maximum and requested size (0 = none) is at most 2^30, the internal block size of a Convolver is computed in finitely many steps, is a power of two between 32 and 2048, is the largest power of two not above that smaller size when it lies in [32, 2048], and always has a table of partition schemes. Above 2^30, unless it is a power of two, the computation never ends (defect).", "quantifier": "every host block size and requested internal size below 2^30", "why_tests_cant": "all integers, including negatives and non powers of two", "anchors": ["zones_convolver/Convolver.cpp: powerOfTwoEqualOrBelow, Convolver::Convolver"]}
{"id": "C19", "title": "Uniform convolver is exact linear convolution", "statement": "A UniformPartitionedConvolver fed blocks of any sizes outputs, with no latency, the linear convolution of everything fed so far with the impulse response, on every channel (channel c using response channel c mod its channel count); no access is out of bounds.", "quantifier": "every IR of 1..2^24 samples, every partition size >= 1 (power of two or not), every channel count, every input, every sequence of block sizes including 0 and larger than the maximum", "why_tests_cant": "infinitely many block splits and signals; tests feed one impulse with four splits", "anchors": ["zones_convolver/UniformPartitionedConvolver.cpp"]}
{"id": "C20", "title": "Time-distributed convolver is convolution delayed by two partitions", "statement": "A TimeDistributedUPC called once per block outputs exactly the linear convolution of its input with its segment, delayed by exactly two partitions, whatever its decomposition depth and transform offset (within the schedule), the number of filter partitions, and whatever phase it is in when reset.", "quantifier": "every partition size 2^m blocks, block size, depth, offset, segment, number of calls, input", "why_tests_cant": "the stage/phase pipeline only shows errors at particular phases; tests of this class are empty (TDUPC, TDUPCMULTI cases just break)", "anchors": ["zones_convolver/time_distributed/TimeDistributedUPC.cpp"]}
{"id": "C21", "title": "Multi-channel schedule is valid for every channel count", "statement": "For every number of channels and every even power-of-two partition size, every channel gets exactly one time-distributed convolver whose active phases fit in one partition period, with the response channel c mod (number of response channels); each channel's output depends only on its own input.", "quantifier": "every channel count, partition size, number of response channels", "why_tests_cant": "unbounded channel counts", "anchors": ["zones_convolver/time_distributed/TimeDistributedUPCMulti.cpp"]}
{"id": "C22", "title": "Load distribution", "statement": "In every state a multi-channel time-distributed convolver can reach, in every group of 2^g channels it was built from, exactly max(1, 2^g / (phases/2)) channels use a sub-transform in the next call, and each of them uses only one kind of sub-transform (forward or inverse) in that call; all other channels of the group use none.", "quantifier": "every group, channel count, partition size, segment, every history of calls and resets", "why_tests_cant": "quantifies over all schedules", "anchors": ["zones_convolver/time_distributed/TimeDistributedUPCMulti.cpp", "zones_convolver/time_distributed/TimeDistributedUPC.cpp"]}
{"id": "C23", "title": "Non-uniform convolver is exact linear convolution", "statement": "A TimeDistributedNUPC fed blocks of any sizes outputs with no latency the linear convolution of its input with the whole impulse response on every channel.", "quantifier": "every IR of 1..2^24 samples, every block size it can be prepared with, every channel count, every input, every sequence of block sizes", "why_tests_cant": "unbounded inputs, lengths and splits", "anchors": ["zones_convolver/time_distributed/TimeDistributedNUPC.cpp"]}
{"id": "C24", "title": "Convolver with routing", "statement": "Convolver::Process replaces each output channel o by the sum over the response channels c with output_routing[c] = o of the convolution of response channel c with the history of input channel input_routing[c]; unrouted output channels become silent; nothing else is written.", "quantifier": "every IR, routing with valid channels, host block size, requested internal block size, input, sequence of block sizes", "why_tests_cant": "unbounded", "anchors": ["zones_convolver/Convolver.cpp"]}
{"id": "C25", "title": "Output does not depend on how the input is cut into blocks", "statement": "Feeding the same samples in two different sequences of block sizes to two identically constructed convolvers yields the same output samples.", "quantifier": "every pair of ways to cut every input, for UPC, NUPC and Convolver", "why_tests_cant": "infinitely many splits", "anchors": ["zones_convolver/UniformPartitionedConvolver.cpp", "zones_convolver/time_distributed/TimeDistributedNUPC.cpp", "zones_convolver/Convolver.cpp"]}
{"id": "C26", "title": "Reset forgets the past", "statement": "After Reset, at any moment, a convolver (UPC, TimeDistributedUPC, NUPC, Convolver) behaves for all subsequent input exactly like a newly constructed one, although ring heads and phases are not reset.", "quantifier": "every history before Reset, every continuation", "why_tests_cant": "the leftover phase differs at every reset moment", "anchors": ["UniformPartitionedConvolver::Reset", "TimeDistributedUPC::Reset", "TimeDistributedNUPC::Reset", "Convolver::Reset"]}
{"id": "C27", "title": "Causality, linearity and time invariance of the convolver", "statement": "Output samples depend only on input samples not later than them; the response to a*x + b*y is a times the response to x plus b times the response to y; an IR of a single 1 reproduces the input; delaying the input delays the output.", "quantifier": "every IR, inputs, block splits", "why_tests_cant": "universally quantified algebraic laws", "anchors": ["zones_convolver/Convolver.cpp", "zones_convolver/time_distributed/TimeDistributedNUPC.cpp"]}
{"id": "C28", "title": "Empty impulse responses are not rejected", "statement": "Constructing a convolver from an empty impulse response never succeeds: it violates an assertion, and in a build without assertions choosing the partition scheme takes the last element of an empty layout (undefined behaviour) for every supported block size. So a caller must never pass an empty response (defect: there is no clean rejection).", "quantifier": "every block size, zero samples", "why_tests_cant": "needs the undefined-behaviour semantics, a test would just crash or not", "anchors": ["zones_convolver/util/Partitioning.cpp: ReduceSchemeToFitIR", "zones_convolver/time_distributed/TimeDistributedNUPC.cpp"]}
{"id": "C29", "title": "Command queue is a FIFO under concurrency", "statement": "With one pushing and one servicing thread, under every interleaving of their atomic steps: no access is out of range; what is handed to the visitor are, in order and each exactly once, a prefix of the commands whose push returned true or is about to return true; when a Service call returns, every command whose push had returned true before that call has been handled; and the slot being written is never the slot being read.", "quantifier": "every interleaving, every number of operations", "why_tests_cant": "schedules", "anchors": ["zones_convolver/ConvolutionEngine.h: ConvolutionVisitorQueue"]}
{"id": "C30", "title": "Queue capacity and rejected pushes", "statement": "PushCommand returns false exactly when 399 commands are waiting (for a queue not being serviced during the push), and a rejected push leaves the queue and the caller's command unchanged. Under any interleaving at most 399 commands wait, and a push is rejected only if, when it was called, 399 accepted commands had not been handled by a Service that had returned.", "quantifier": "every reachable queue state", "why_tests_cant": "boundary states after wrap-around", "anchors": ["zones_convolver/ConvolutionEngine.h: ConvolutionVisitorQueue::PushCommand, kMaxQueueSize"]}
{"id": "C31", "title": "Convolvers are neither leaked, duplicated nor used after disposal", "statement": "After any history of calls (prepare, process, reset, Clear, deliveries by loader jobs, runs of the background thread, and such steps of the other threads in the middle of a call), every convolver handed to the engine is in exactly one place: the active, fading or pending slot, one of the two queues, or destroyed. When the engine is destroyed, every convolver handed to it has been destroyed exactly once.", "quantifier": "every sequence of prepare/process/reset/Clear/load/background operations", "why_tests_cant": "ownership over all histories", "anchors": ["zones_convolver/ConvolutionEngine.cpp"]}
{"id": "C32", "title": "The audio callback does not free convolvers", "statement": "If the notification queue has room for one more entry plus one for each waiting command, then process destroys no convolver on the calling thread: every convolver that leaves the engine in that call waits in the notification queue or was destroyed by the background thread. Without that room process does destroy one on the audio thread: a legal history in which 400 convolvers are delivered before one process call and the background thread does not run shows it.", "quantifier": "every history and block", "why_tests_cant": "needs every reachable state of both queues", "anchors": ["zones_convolver/ConvolutionEngine.cpp: process, operator()(EngineReadyCommand&)"]}
{"id": "C33", "title": "The most recently loaded impulse response wins", "statement": "If whenever prepare, reset or Clear was called at most two convolvers were in line (active, fading, pending or queued), then, once no further load is delivered and settling_time samples (twice the longest possible fade plus two blocks) have been processed, the only convolver left in any slot or in the command queue is the one last delivered since the last Clear, and from then on process gives exactly its output, with no fade. Histories without reset, Clear or a second prepare need no condition. (With more convolvers in line at a reset the code violates it: see C34.)", "quantifier": "every sequence of load completions interleaved with process calls of any sizes", "why_tests_cant": "interleavings of loads and fades", "anchors": ["zones_convolver/ConvolutionEngine.cpp: operator(), process, reset, BeginFade"]}
{"id": "C34", "title": "reset keeps the newest impulse response and ends fades", "statement": "If at most two convolvers are in line when reset (or prepare) is called, then afterwards no fade is running and the active convolver is the newest in line with its history silenced; process then gives exactly its output. This condition is sharp: with three or more in line a fade is still running after reset. If a fade is running, another convolver is pending and the queue is empty, reset leaves a state in which the first process call throws away the newest convolver and the older, fading one is heard from then on (defect).", "quantifier": "every reachable engine state", "why_tests_cant": "state dependent", "anchors": ["zones_convolver/ConvolutionEngine.cpp: reset"]}
{"id": "C35", "title": "Clear removes every impulse response", "statement": "If at most two convolvers are in line when Clear is called, then afterwards the engine holds none, and process leaves every block unchanged until another arrives. This condition is sharp. If a fade is running and another convolver is pending, then after Clear and one process call the fading convolver is still heard, for ever (defect).", "quantifier": "every reachable engine state", "why_tests_cant": "state dependent", "anchors": ["zones_convolver/ConvolutionEngine.cpp: Clear, reset"]}
{"id": "C36", "title": "Crossfade is a complementary linear ramp", "statement": "During a crossfade of N samples, sample k (k = 1..N) is (1 - k/N) times the output of the old convolver plus k/N times that of the new one, in every channel and for every cut of the samples into blocks; after sample N the output is the new convolver's alone. Every fade that runs in a history in which prepare, reset and Clear are never called while a second convolver waits in the queue is such a crossfade or an in/out fade (C37), at a definite position. (That condition is needed: after a reset or prepare that found one convolver playing and one waiting in the queue, the change after it is made abruptly, from one sample to the next, without any fade; this defect is proved too.)", "quantifier": "every N, every cut into blocks, every pair of convolvers and input", "why_tests_cant": "unbounded cuts", "anchors": ["zones_convolver/ConvolutionEngine.cpp: process, BeginFade, ResetFade, SetFadeTime", "zones_convolver/ConvolutionEngine.cpp: reset, ResetFade"]}
{"id": "C37", "title": "In/out fade never mixes", "statement": "During an in/out fade of N samples, the output is the old convolver's alone with gain 1 - k/N at its k-th sample up to the end of the block that contains sample N (gain 0 after N); from the next block on it is the new convolver's alone with gain k/N, k = 1..N, then 1. The new convolver is not fed during the first half nor the old one during the second; the two are never heard together.", "quantifier": "every N and cut into blocks", "why_tests_cant": "unbounded cuts", "anchors": ["zones_convolver/ConvolutionEngine.cpp: process"]}
{"id": "C38", "title": "Fade length and strategy selection", "statement": "For every sample rate in (0, 100 MHz] the fade bounds are computed without overflow and 0 < lower <= upper, so the clamp is well defined; for integer rates r up to 800 kHz they are exactly ceil(r/10), 4r, 10r and ceil(4r/10) samples although computed in float. A fade is a crossfade exactly if the response asks for one and is shorter than ten seconds; its length lies between the bounds and equals 14% of the response length, clamped (exactly, for responses up to 599186 samples), and it is monotone in the response length; in/out fades always take the fixed length.", "quantifier": "every positive integer sample rate and IR length", "why_tests_cant": "single precision arithmetic over all values", "anchors": ["zones_convolver/ConvolutionEngine.cpp: prepare, BeginFade"]}
{"id": "C39", "title": "First impulse response and no impulse response", "statement": "With no convolver in line, process leaves the block unchanged. If the only convolver in line is one waiting in the queue, the next process call gives exactly its output, from the first sample at full level with no fade, and so do the following ones until another is delivered.", "quantifier": "every engine state with no convolver, every block", "why_tests_cant": "all states", "anchors": ["zones_convolver/ConvolutionEngine.cpp: process, operator()"]}
{"id": "C40", "title": "Loads are delivered in order, only the latest", "statement": "Whatever the interleaving of LoadIR calls, pool workers and other engines on the same pool: whenever a response is delivered to an engine it is that of the latest LoadIR call on that engine so far (in the order in which they obtained the mutex), no response is delivered twice, deliveries are in the order of the calls, and once a LoadIR call has returned nothing older is ever delivered.", "quantifier": "every schedule, any number of engines, callers and workers", "why_tests_cant": "thread schedules", "anchors": ["zones_convolver/ConvolutionEngine.cpp: LoadIR, LoadIRJob::runJob"]}
{"id": "C41", "title": "The last load is delivered and everything comes to rest", "statement": "Once no LoadIR call and no job is in progress, the response of every LoadIR call that was made on a prepared engine and after which no other LoadIR call (on any engine with the same pool) removed the jobs has been pushed to the engine's queue, built from the arguments of that call, and IsLoading is false; with a pool of its own this is the last call. And if nobody makes further calls, then after finitely many rounds in which every thread gets a turn nothing is in progress any more and no notification is waiting.", "quantifier": "every schedule; every sufficiently long sequence of fair rounds", "why_tests_cant": "thread schedules", "anchors": ["zones_convolver/ConvolutionEngine.cpp: LoadIR, LoadIRJob::runJob"]}
{"id": "C42", "title": "IsLoading is accurate unless the engine is reset", "statement": "While nobody is inside LoadIR of the engine and no job is just delivering to it: if IsLoading is true then the latest LoadIR call queued a job and its response has not been delivered; if the engine was not reset (or prepared) while loading since that call, the converse holds too; before the first LoadIR it is false. Defect: a reset, Clear or prepare while a load is in progress makes IsLoading false although the response is still delivered later.", "quantifier": "every schedule", "why_tests_cant": "schedules", "anchors": ["zones_convolver/ConvolutionEngine.cpp: IsLoading, reset, LoadIR"]}
{"id": "C43", "title": "Engines sharing a thread pool cancel each other's loads (defect)", "statement": "LoadIR of one engine cancels the loads of every other engine on the same pool: a response queued by engine e that is not delivered yet, nor just being delivered, when another engine calls LoadIR is never delivered, whatever happens afterwards, and IsLoading of e stays true until e itself is loaded again or reset. Loads after which no other engine calls LoadIR are delivered (C41).", "quantifier": "every schedule of any number of engines, all continuations", "why_tests_cant": "needs two engines and a race", "anchors": ["zones_convolver/ConvolutionEngine.cpp: LoadIR"]}
{"id": "C44", "title": "A response loaded before prepare is lost (defect)", "statement": "A LoadIR call that returns before the engine is first prepared (as in the README's example) is dropped: its response is never delivered, also not after prepare. A LoadIR call made on a prepared engine always queues a job.", "quantifier": "every schedule, all continuations", "why_tests_cant": "history dependent", "anchors": ["zones_convolver/ConvolutionEngine.cpp: LoadIR", "README.md"]}
{"id": "C45", "title": "Destroying an engine", "statement": "If every engine is destroyed only when no LoadIR call, no job and no notification of it is in progress, and is not used afterwards, then nothing undefined happens in any schedule. Without that condition it does (defect: the destructor waits for none of these): destroying an engine while a worker constructs a convolver for it makes the worker lock a destroyed mutex, and destroying it while a notification waits for the message thread makes that thread call a destroyed engine.", "quantifier": "every schedule with destruction of engines", "why_tests_cant": "schedules", "anchors": ["zones_convolver/ConvolutionEngine.cpp: ~ConvolutionEngine, LoadIRJob::runJob"]}
{"id": "C46", "title": "The engine never fails in a legal history", "statement": "In every history in which prepare comes before process, reset and Clear, blocks have the prepared number of channels and at most the announced length, and delivered convolvers accept such blocks, no call of the engine fails: no failed assertion, out-of-range access, invalid clamp or empty slot dereferenced; and every process call returns a block of the same shape. Every convolver the library constructs and that has processed such blocks is one that accepts such blocks.", "quantifier": "all legal histories of engine calls, all interleavings of deliveries and background runs between and inside the calls, all block lengths up to the maximum", "why_tests_cant": "ranges over all histories and interleavings", "anchors": ["zones_convolver/ConvolutionEngine.cpp: ConvolutionEngine::process, prepare, reset, Clear", "zones_convolver/Convolver.cpp"]}
{"id": "C47", "title": "Engine end to end: two responses and the fade between them", "statement": "After prepare and the delivery of a convolver for response h0, process outputs exactly the convolution of the input with h0 routed to the channels; after the delivery of a second convolver for h1, the output is exactly the crossfade (C36) or in/out fade (C37) of the convolution of the whole input with h0 and the convolution of the new input with h1, for every cut of the input into blocks.", "quantifier": "all responses, inputs, routings, sample rates, block sizes and cuts into blocks", "why_tests_cant": "ranges over all inputs and block cuts", "anchors": ["zones_convolver/ConvolutionEngine.cpp: ConvolutionEngine::process", "zones_convolver/Convolver.cpp: Convolver::Process"]}
{"id": "C48", "title": "Listeners learn the loading state", "statement": "When no LoadIR call, job or notification is in progress, the value of IsLoading that a listener saw when it was last notified is the current one, if the engine was never reset while loading. Defect: a reset while loading changes IsLoading without notifying the listeners, so they go on believing the engine is loading.", "quantifier": "every schedule", "why_tests_cant": "ranges over all interleavings of callers, workers and the message thread", "anchors": ["zones_convolver/ConvolutionEngine.cpp: LoadIRJob::runJob, ConvolutionEngine::LoadIR, prepare, reset, EmitLoadingEvent, IsLoading"]}
{"id": "C49", "title": "A delivered convolver is built from its LoadIR call", "statement": "Every convolver delivered to an engine was constructed from the impulse response and convolver specification passed to the LoadIR call it belongs to, and from the process specification with which that engine was last prepared when that call queued its job (which may be older than the latest prepare).", "quantifier": "every schedule", "why_tests_cant": "ranges over all interleavings", "anchors": ["zones_convolver/ConvolutionEngine.cpp: LoadIRJob::runJob, ConvolutionEngine::LoadIR, prepare, reset, EmitLoadingEvent, IsLoading"]}
{"id": "C50", "title": "Which accesses are synchronised", "statement": "Steps of LoadIR calls and of loading jobs never access the loading flag, the stored process specification or the command queue of an engine at the same time as each other. Defect: prepare, reset and Clear do not take the lock, so a reset can run at the same time as a job stores the loading flag and a prepare at the same time as LoadIR reads the specification (data races, undefined in C++).", "quantifier": "every reachable state, every pair of threads", "why_tests_cant": "a race must be excluded in every reachable state", "anchors": ["zones_convolver/ConvolutionEngine.cpp: LoadIRJob::runJob, ConvolutionEngine::LoadIR, prepare, reset, EmitLoadingEvent, IsLoading"]}
{"id": "C51", "title": "A listener must not call LoadIR (defect)", "statement": "LoadIR notifies the listeners while it holds the engine's mutex: a LoadIR call on the same engine made or awaited by a listener during that notification never gets the mutex, in any schedule in which the listener has not returned.", "quantifier": "every schedule", "why_tests_cant": "ranges over all schedules in which the listener does not return", "anchors": ["zones_convolver/ConvolutionEngine.cpp: LoadIRJob::runJob, ConvolutionEngine::LoadIR, prepare, reset, EmitLoadingEvent, IsLoading"]}
{"id": "C52", "title": "What is heard is the convolution with the response delivered last", "statement": "Take any history of prepare, process, reset and Clear calls and deliveries in which at most two convolvers are in line whenever one of prepare, reset, Clear is called, and let no more convolvers arrive. After the settling time process does exactly what the convolver delivered last since the last Clear does; and once further samples as long as its impulse response have passed, the output equals, sample for sample, the convolution of everything that was ever passed to process with that response, mixed according to its routing, however many convolvers, fades, resets and prepares came before.", "quantifier": "every legal history, every environment, all block sizes, every response", "why_tests_cant": "ranges over all histories and inputs", "anchors": ["zones_convolver/ConvolutionEngine.cpp: process, reset, prepare, Clear, operator() (ReadyEngineCommand), LoadIRJob::runJob, LoadIR", "zones_convolver/Convolver.cpp: Convolver::Process"]}
{"id": "C53", "title": "From LoadIR to sound", "statement": "If LoadIR was called on a prepared engine, no other LoadIR call on the engine or its pool followed, nothing is in progress any more, the command queue accepted the convolver and Clear was not called after that, then the settling time and the length of the response later the output is the convolution of the whole input with the response passed to that LoadIR call, mixed as its specification says. Defect: Clear does not cancel a load that is in progress: LoadIR returns, Clear is called and returns, nothing else is called, and yet afterwards that response is heard.", "quantifier": "every schedule of the loading threads, every matching engine history, every response and input", "why_tests_cant": "ranges over all schedules, histories and inputs", "anchors": ["zones_convolver/ConvolutionEngine.cpp: process, reset, prepare, Clear, operator() (ReadyEngineCommand), LoadIRJob::runJob, LoadIR", "zones_convolver/Convolver.cpp: Convolver::Process"]}
{"id": "C54", "title": "The built-in partition tables are optimal", "statement": "Call a division of a response into partitions admissible if the first partition is one block, all are powers of two of a block, none is shorter than the one before, and each starts late enough for its result to be in time (at least twice its length minus one block). With the cost of the project's own cost model (4 per partition after the first, and 4 * 1.7 * log2 (2 * block size * partition size) more for each new size), no admissible division that covers the response of an entry of the built-in tables costs less than the division in that entry, for every block size and every entry; and a response exactly as long as an entry gets that division (with one more partition in front). Limit: for responses between the sizes of the tables the layout need not be the cheapest.", "quantifier": "every block size with a table, every entry, all admissible divisions", "why_tests_cant": "ranges over all the divisions of a response, exponentially many", "anchors": ["zones_convolver/PartitionSchemes.cpp: kGarciaResults16 ... kGarciaResults4096", "zones_convolver/util/Partitioning.cpp: GetPartitionScheme", "garcia_optimal_partitioning/garcia_optimal_partitioning.py: get_transition_cost, is_transition_viable"]}
{"id": "C55", "title": "The search for the tables is right", "statement": "For every block size, every response of at least two blocks and every cost model with a positive cost for each partition and a cost that is not negative for each new size, find_optimum terminates without an exception and returns at least one division, and every division it returns is an admissible one (see C54) that covers the response and than which no other is cheaper. For shorter responses it returns nothing.", "quantifier": "all block sizes, responses and cost models", "why_tests_cant": "ranges over all sizes and costs; the search prunes, and that no pruned division was better is not visible in its output", "anchors": ["garcia_optimal_partitioning/garcia_optimal_partitioning.py: find_optimum, get_next_sequence, get_viable_transitions, get_transition_cost, get_graph_leafs, trace_backward", "garcia_optimal_partitioning/convert_results.py: normalise_result"]}
{"id": "C56", "title": "Fades in single precision", "statement": "In IEEE single precision, for every fade of up to 2^22 samples, whatever the blocks and the two convolvers: sample t of a cross-fade over n samples is the mix of what the two convolvers make of the input in the proportion (t+1)/n, up to (t+3) 2^-23 of their levels; sample t of the halves of an in/out fade is the sample of the one convolver at level 1-(t+1)/n, resp. (t+1)/n, up to (t+2) 2^-23. The levels are monotonic until the last sample, which has exactly the levels 0 and 1, and exact if n is a power of two. Limit: the rounding errors of the levels add up. At 48 kHz, the in/out fade overshoots: when two convolvers that return their input are exchanged and the input is 1, a sample of the output is 1.000103... and one is negative.", "quantifier": "all histories, fade lengths up to 2^22 samples, blocks, inputs and convolvers, in single precision", "why_tests_cant": "ranges over all fade lengths and signals; rounding errors depend on the length in no regular way", "anchors": ["zones_convolver/ConvolutionEngine.cpp: ConvolutionEngine::process, BeginFade, ResetFade", "zones_convolver/ConvolutionEngine.h: smoothed values", "juce::LinearSmoothedValue (external)"]}
{"id": "C57", "title": "Time-distributed convolver: accuracy in single precision", "statement": "The multi-channel time-distributed convolver, with every float operation rounded, puts out for every input, block by block and with resets anywhere, the linear convolution with the response two partitions late, up to the error (1+tau+12u)^(3k) (1+2u)^(K+3) - 1 (about 3k(tau+12u) + 2(K+3)u) of the level 2 sqrt(P) X sum_r |h_r|: u = 2^-24, P samples per partition, K partitions, 2^k = 2P, X above the peak of the input, |h_r| the energies of the partitions of the response, and tau the error of the twiddle factors std::pow computes. The bound does not grow with the length of the input.", "quantifier": "all inputs, block sequences and resets, channel counts, partition sizes, responses, and implementations of std::pow accurate within tau <= 1/4", "why_tests_cant": "rounding errors depend on all input values at once, and might accumulate over an unbounded run", "anchors": ["zones_convolver/time_distributed/TimeDistributedUPC.cpp", "zones_convolver/time_distributed/TimeDistributedFFTDecomposition*", "zones_convolver/util/FFT.cpp"]}
{"id": "C58", "title": "FFT: accuracy in single precision", "statement": "With every float operation rounded, the forward transform of 2^k points is the discrete Fourier transform, all errors together being at most (1+tau+12u)^k - 1 (about k(tau+12u)) of its energy; forward and inverse transform give back every point up to (1+tau+12u)^(2k) - 1 of the energy of the data. The decomposed transforms, at any depth, put out the same floats as the plain ones.", "quantifier": "all sizes 2^k, all data, all depths of decomposition, all implementations of std::pow accurate within tau <= 1/4", "why_tests_cant": "holds for all data and sizes; the worst case cannot be found by sampling", "anchors": ["zones_convolver/util/FFT.cpp: ForwardFFTUnordered, InverseFFTUnordered", "zones_convolver/util/FFTDecomposition.cpp"]}
{"id": "C59", "title": "Uniformly partitioned convolver: accuracy in single precision", "statement": "The uniformly partitioned convolver, with every float operation rounded and any real FFT that keeps an accuracy contract (all errors of a forward transform together at most a fraction delta of the energy, inverse likewise), puts out for every input, in blocks of any sizes and with resets anywhere, the linear convolution with the response without delay, up to the error (1+delta)^3 (1+2u)^(K+3) - 1 (about 3 delta + 2(K+3)u) of the level 2 sqrt(N) X sum_r |h_r|: u = 2^-24, N the transform size, K partitions, X above the peak of the input, |h_r| the energies of the partitions of the response. The bound does not grow with the length of the input. The radix-2 transform in float, used for real signals, keeps the contract.", "quantifier": "all inputs, sequences of block sizes and resets, channel counts, partition sizes, responses, and real FFTs accurate within delta", "why_tests_cant": "rounding errors depend on all input values at once, and might accumulate over an unbounded run", "anchors": ["zones_convolver/UniformPartitionedConvolver.cpp"]}
{"id": "C60", "title": "Non-uniform convolver: accuracy in single precision", "statement": "The non-uniform convolver, with every float operation rounded, any accurate real FFT for the first partitions and powers of roots of unity right within tau for the others, puts out for every input, in blocks of any sizes and with resets anywhere, the linear convolution with the response without delay, up to an explicit error: for each group of partitions of the scheme a relative error (about 3 delta + 2(K+3+G)u for the first group, 3 log2(2P)(tau+12u) + 2(K+3+G)u for a group of K partitions of P samples; G groups, u = 2^-24) times the level 2 sqrt(P) X sum_r |h_r| of the group. The bound does not grow with the length of the input.", "quantifier": "all inputs, sequences of block sizes and resets, channel counts, internal block sizes, responses, accurate real FFTs and power functions", "why_tests_cant": "rounding errors depend on all input values at once, and might accumulate over an unbounded run", "anchors": ["zones_convolver/TimeDistributedNUPC.cpp", "zones_convolver/UniformPartitionedConvolver.cpp", "zones_convolver/time_distributed/TimeDistributedUPC.cpp"]}
{"id": "C61", "title": "Convolver with routing: accuracy in single precision", "statement": "A convolver in float puts out on each channel, for every input in blocks of any sizes and with resets anywhere, the sum over the response channels routed to it of the convolution with the routed input channel, up to the sum of the errors of C60 for these response channels (with one more rounding per channel added); a channel that nothing is routed to is exactly silent.", "quantifier": "all inputs, sequences of block sizes and resets, responses, routings, block size settings, accurate real FFTs and power functions", "why_tests_cant": "rounding errors depend on all input values at once, and might accumulate over an unbounded run", "anchors": ["zones_convolver/Convolver.cpp: Convolver, Process, Reset"]}
{"id": "C62", "title": "No sample value can make a call fail", "statement": "Whatever the response and the input contain (NaN, infinities, values that overflow) and whatever numbers the real FFT returns: a convolver is constructed from every response of an admissible size, and no later call of Process or Reset fails (no access out of range, no undefined operation, no endless loop), every block coming back in its own shape; the same holds for the whole engine with such convolvers, for every legal sequence of calls and every schedule.", "quantifier": "all arithmetics for samples, all real FFTs that keep the array size, responses, routings, block size settings, inputs, sequences of block sizes, resets, engine calls and schedules", "why_tests_cant": "special values can meet anywhere in the computation; tests cover a few of them", "anchors": ["zones_convolver/Convolver.cpp", "zones_convolver/time_distributed/", "zones_convolver/UniformPartitionedConvolver.cpp", "zones_convolver/ConvolutionEngine.cpp"]}
{"id": "C63", "title": "Finite memory: every input sample is forgotten", "statement": "In any arithmetic, hence also in float with NaN and infinities: if two runs of a convolver with blocks of the same sizes get inputs that agree from sample T after the last reset on, then their outputs agree exactly from sample T + 5m/2 + 5B on (m the length of the response, B the internal block size), whatever they got earlier; if they agree since the reset, the outputs agree since the reset. So a NaN or a click never lingers, and a reset removes it at once.", "quantifier": "all arithmetics, real FFTs that keep the array size, responses, routings, block size settings, pairs of histories with the same block sizes, times T", "why_tests_cant": "a stale value could survive in one of many buffers for a particular phase of a particular partition size, and show much later", "anchors": ["zones_convolver/Convolver.cpp: Process, Reset", "zones_convolver/time_distributed/TimeDistributedNUPC.cpp", "zones_convolver/time_distributed/TimeDistributedUPC.cpp", "zones_convolver/UniformPartitionedConvolver.cpp"]}
{"id": "C64", "title": "The engine in single precision: what was loaded last is what is heard, within a computable error", "statement": "In float arithmetic: from the LoadIR call to the sound, across calls, worker threads and timers in any order, the output of the engine, once a new response is fully faded in and its length has passed, is at every sample within convolver_error of the exact convolution of everything played with the response given to the last LoadIR, routed as that call said; the bound is proportional to the peak of the input and is a closed formula in the response, the block size and the accuracies of the library's FFT and power functions.", "quantifier": "all histories of calls, schedules, worker pools, responses, routings, inputs, block sizes, real FFTs and power functions that keep the stated accuracy", "why_tests_cant": "the error accumulates differently for every response, scheme and input; and the schedule decides which convolver is heard", "anchors": ["zones_convolver/ConvolutionEngine.cpp: LoadIR, process, prepare", "zones_convolver/Convolver.cpp", "zones_convolver/ConvolutionEngine.cpp: LoadIRJob"]}
{"id": "C65", "title": "A change of response in single precision, from the first response to the second", "statement": "In float arithmetic, with a first response playing and a second one delivered: before the change the output is within the first convolver's error of the exact convolution with the first response; during and after the fade it is, at sample t of a fade of n samples, within the same mix of both convolvers' errors, plus (t+3)/2^23 of the levels, of the exact mix of the exact convolution of everything played with the first response and the exact convolution of what was played since the change with the second; an in/out fade falls and rises likewise.", "quantifier": "all rates, pairs of responses, routings, fade strategies and lengths up to 2^22 samples, inputs, block sizes, real FFTs and power functions that keep the stated accuracy", "why_tests_cant": "two independently rounded convolvers and two independently rounded gain ramps are added; the worst case depends on all of them", "anchors": ["zones_convolver/ConvolutionEngine.cpp: BeginFade, process", "zones_convolver/Convolver.cpp"]}
{"id": "C66", "title": "The lock-free queue is linearizable", "statement": "However the single memory accesses of a thread calling PushCommand and a thread calling Service are interleaved, the calls, results and visits seen from outside are those of a queue on which every PushCommand takes effect in one instant during the call, and is accepted exactly if at that instant fewer than size-1 (399 here) commands are waiting or being handled by a running Service, and on which every Service fixes in one instant how many commands it will visit, takes them out one at a time in order, and frees their places in one instant at its end. When nobody is inside, the contents are those of that queue.", "quantifier": "all sizes from 2, all schedules of the single memory accesses of both threads, any number of calls, any commands", "why_tests_cant": "needs every interleaving of the accesses of two threads", "anchors": ["zones_convolver/ConvolutionEngine.h: VisitorQueue::PushCommand, VisitorQueue::Service"]}
{"id": "C67", "title": "The engine forgets: a NaN does not stay in the output", "statement": "Two runs of the engine that differ only in the samples of the blocks (same calls, same block sizes, same loads at the same moments): the same convolvers are delivered, rejected, destroyed and in the slots, and from D samples after the inputs agree the outputs are the same bit for bit, where D is a bound on 5m/2+5B over the loaded responses (m samples, blocks of B). In particular a NaN or infinity in the input is gone from the output D samples later, also when convolvers are exchanged, faded, reset or cleared meanwhile.", "quantifier": "all arithmetics (also IEEE floats with NaN), all transforms that keep the array size, all histories of calls and schedules of other threads, all inputs", "why_tests_cant": "ranges over all pairs of inputs, histories and schedules", "anchors": ["zones_convolver/ConvolutionEngine.cpp: process, reset, prepare, Clear", "zones_convolver/Convolver.cpp: Process, Reset"]}
{"id": "C68", "title": "The background thread cannot change the sound", "statement": "Two runs of the engine with the same calls, the same blocks and the same convolvers pushed by loading jobs at the same moments; only the background thread, which disposes of old convolvers, runs at different moments, late, or never. Then both runs fail or neither; every output sample is the same; the same convolvers are accepted and rejected by the command queue; the same convolvers are active, fading in, pending and waiting.", "quantifier": "all histories of calls, all pairs of schedules that differ in the background thread, all convolvers and arithmetics", "why_tests_cant": "ranges over all schedules of the background thread", "anchors": ["zones_convolver/ConvolutionEngine.cpp: run, process, reset, Clear", "zones_convolver/ConvolutionEngine.h: VisitorQueue"]}
{"id": "C69", "title": "The whole engine is linear", "statement": "Three runs of the engine with the same calls, the same loads at the same moments and blocks of the same sizes, where every block of the third is a times the block of the first plus b times the block of the second. Then none of them fails, and every block that comes out of the third is a times that of the first plus b times that of the second, also in the middle of fades and after resets, clears and exchanges of responses.", "quantifier": "all histories of calls and deliveries, all responses and routings, all block sizes, all a and b, all exact arithmetics", "why_tests_cant": "ranges over all inputs and all schedules", "anchors": ["zones_convolver/ConvolutionEngine.cpp: process, prepare, reset, Clear, BeginFade, ResetFade", "zones_convolver/Convolver.cpp: Convolver::Process"]}
{"id": "C70", "title": "The engine is stable", "statement": "If no input sample is larger than p in modulus, and for every response that is loaded and every output channel the moduli of the response samples routed to that channel add up to at most G, with G at least 1, then no output sample is larger than G p, whatever is loaded, exchanged, cleared or reset at whatever moment: a cross-fade is never louder than the louder of its two responses allows. Likewise, if two runs with the same calls get inputs that differ by at most d in every sample, their outputs differ by at most G d.", "quantifier": "all histories of calls and deliveries, all responses with that bound, all routings, all block sizes, all inputs up to p (exact real arithmetic)", "why_tests_cant": "a bound over all inputs and all moments at which responses are exchanged", "anchors": ["zones_convolver/ConvolutionEngine.cpp: process, BeginFade, ResetFade", "zones_convolver/Convolver.cpp: Convolver::Process"]}
{"id": "C71", "title": "The engine keeps channels apart", "statement": "An output channel only depends on the input channel with the same number (what passes when nothing is loaded) and on the input channels that the loaded responses route to it. Two runs with the same calls and loads whose inputs agree on these channels put out the same blocks on that channel, sample for sample, whatever is on the other channels.", "quantifier": "all histories of calls and deliveries, all responses and routings, all output channels, all pairs of inputs that agree on the channels concerned, all exact arithmetics", "why_tests_cant": "non-interference: ranges over pairs of inputs and all schedules", "anchors": ["zones_convolver/ConvolutionEngine.cpp: process", "zones_convolver/Convolver.cpp: Convolver::Process"]}
{"id": "C72", "title": "No infinity and no NaN comes out of a convolver", "statement": "A Convolver in IEEE 754 single precision, for a response of at most 1024 channels and 2^24 samples with finite samples of size at most 65536, fed finite samples of size at most 65536 in blocks of any sizes with resets anywhere: every output sample is a finite number, no intermediate result overflows, and the output is within the error bound of C61 of the exact convolution.", "quantifier": "all responses, routings and inputs within these sizes, all sequences of block sizes and resets; any real FFT that is finite and at most twice the exact range, any std::exp and std::pow accurate within tau", "why_tests_cant": "ranges over all inputs up to a size: overflow depends on the worst case of every partial sum in the transforms", "anchors": ["zones_convolver/Convolver.cpp: Convolver::Process, Reset", "zones_convolver/UniformPartitionedConvolver.cpp", "zones_convolver/time_distributed/TimeDistributedUPC.cpp", "zones_convolver/util/FFT.cpp"]}
{"id": "C73", "title": "No infinity and no NaN comes out of the engine", "statement": "A ConvolutionEngine in IEEE 754 single precision, at sample rates up to 1 MHz, with responses of at most 1024 channels and 2^24 samples and with responses and inputs made of finite samples of size at most 65536: whatever prepare, process, reset, Clear and loads come in whatever order and schedule, no call fails and every output sample is a finite number, also during fades; convolvers are delivered, refused and destroyed as in exact arithmetic. Once the last delivered response is fully faded in and its length has passed, every output sample is within the error of C64 of the exact convolution of everything played with that response. During a change of response, every output sample is within the error of C65 of the exact cross-fade (or fade out and in) of the two convolutions. From LoadIR on: when the last LoadIR call was made after prepare and neither it nor what it loads is cancelled, refused or cleared, what is put out once the settling time and the length of the response passed to that call have passed is, within that error, the convolution with that response.", "quantifier": "all histories of calls and schedules of the other threads, all responses, routings, fade strategies and inputs within these sizes; any real FFT that is finite and at most twice the exact range, any std::exp and std::pow accurate within tau", "why_tests_cant": "ranges over all inputs up to a size, all histories and schedules: overflow depends on the worst case of every partial sum, and a NaN would stay in the delay lines for ever", "anchors": ["zones_convolver/ConvolutionEngine.cpp: process, prepare, reset, Clear, BeginFade", "zones_convolver/Convolver.cpp: Convolver::Process, Reset", "zones_convolver/ConvolutionEngine.cpp: BeginFade, ResetFade"]}
{"id": "C74", "title": "No signed integer overflow", "statement": "For every response of at most 2^24 samples and 2^29 channels, every requested block size up to 2^30 and every internal block size, no int operation of the construction of a convolver (choice and resizing of the scheme, offsets, delays, partition counts, channel phases) overflows; after any history of blocks and resets none does in a call of Process with a block of up to 2^31-1 samples (positions, collected samples, delay line heads), and none in a time-distributed convolver's block at any phase with its schedules and transforms; the values computed are those the convolver is built with and keeps. Near 2^31 samples of response one does overflow.", "quantifier": "all response lengths and channel counts within these bounds, all block sizes, all histories of calls, all phases of every sub-convolver", "why_tests_cant": "overflow is undefined behaviour that may leave no visible trace, and the sizes form products and sums that depend on all of length, block size, channel count and table", "anchors": ["zones_convolver/util/Partitioning.cpp: GetPartitionScheme", "zones_convolver/util/Partitioning.h: GetSubConvolverSizeSamples, GetNumPartitionsRequiredForSegment", "zones_convolver/time_distributed/TimeDistributedNUPC.cpp: constructor, Process", "zones_convolver/time_distributed/TimeDistributedUPCMulti.cpp: constructor", "zones_convolver/time_distributed/TimeDistributedUPC.cpp: constructor, Process", "zones_convolver/UniformPartitionedConvolver.cpp: Process", "zones_convolver/Convolver.cpp: Process", "zones_convolver/util/FrequencyDelayLine.cpp: GetNextBlock", "zones_convolver/util/FFT.cpp", "zones_convolver/util/DecompositionSchedule.cpp"]}
{"id": "C75", "title": "Cutting the input differently changes only rounding", "statement": "In single precision, feeding a convolver the same input cut into blocks in two different ways, with resets at the same samples, gives outputs of which every sample differs by at most twice the error of C61. With IEEE 754 numbers, and inputs and responses of size at most 65536, both outputs moreover consist of finite numbers.", "quantifier": "all responses, routings, inputs, ways of cutting them into blocks, resets; any real FFT accurate within delta, any std::pow accurate within tau", "why_tests_cant": "the two runs round differently at every step, so equality cannot be tested and the size of the difference must be bounded for every input and every pair of block sequences", "anchors": ["zones_convolver/Convolver.cpp: Convolver::Process, Reset", "zones_convolver/UniformPartitionedConvolver.cpp: Process", "zones_convolver/time_distributed/TimeDistributedNUPC.cpp: Process"]}
{"id": "C76", "title": "The engine is causal", "statement": "Take two histories of calls and loads with the same past and the same behaviour of the other threads, in which the blocks passed to process next have the same shape and agree in their first n samples, and in which everything after that may differ. Then everything that came out before is the same, and what comes out for these two blocks agrees in the first n samples of every channel, also in the middle of a fade, a start or an exchange of responses: no output sample depends on a later input sample or a later call.", "quantifier": "all histories, schedules, responses, routings, blocks and positions n, all states of fades", "why_tests_cant": "ranges over all pairs of histories and all positions within a block; FFT convolution looks at whole blocks, so that no dependence on later samples remains is a fact about exact cancellation for every input", "anchors": ["zones_convolver/ConvolutionEngine.cpp: process", "zones_convolver/Convolver.cpp: Convolver::Process"]}
{"id": "C77", "title": "How the host cuts the sound does not matter to the engine, except in an in/out fade", "statement": "From a moment at which nothing is loaded, or one response is there (playing or about to be taken up), or a cross-fade is about to begin, and with no further load: the same samples in two different sequences of blocks give the same output samples, through the whole fade and after it. An in/out fade does depend on the blocks: its second half begins at a block boundary (a state, an input and two ways of cutting it with different output are exhibited).", "quantifier": "all histories leading there, responses, routings, inputs and pairs of ways of cutting them into blocks of at most the announced size", "why_tests_cant": "ranges over all inputs and all pairs of block sequences, and over all reachable states of delay lines and fades", "anchors": ["zones_convolver/ConvolutionEngine.cpp: process, BeginFade", "zones_convolver/Convolver.cpp: Convolver::Process"]}
{"id": "C78", "title": "The memory that loading takes is bounded", "statement": "However many responses are loaded, in whatever order and from however many threads, also when the audio thread or the background threads never run: an engine never owns more than 3 + 2 * 399 convolvers, and the pool never holds more waiting jobs than there are engines, nor more jobs than there are worker threads and engines together.", "quantifier": "all histories of calls, loads and schedules, any number of engines, callers and workers", "why_tests_cant": "a bound that holds for every number of loads and every schedule cannot be seen from finitely many runs; the pool's bound rests on which calls hold the engine's lock at which point", "anchors": ["zones_convolver/ConvolutionEngine.h: VisitorQueue, kMaxQueueSize", "zones_convolver/ConvolutionEngine.cpp: ConvolutionEngine::LoadIR, LoadIRJob::runJob"]}
{"id": "C79", "title": "Two hosts hear the same", "statement": "Two hosts that run the library with different sampling rates, announced block sizes, sequences of blocks, timing of threads, earlier responses, restarts and fades have loaded the same response with the same routing last. If the same samples have gone into both engines since they were constructed, then, once both have processed as many samples as a fade can last and then as many as the response is long, the outputs are equal sample for sample; in single precision they differ by at most the sum of the error bounds of the two convolvers.", "quantifier": "all pairs of histories of calls, loads and schedules, all responses, routings, block sizes and inputs", "why_tests_cant": "ranges over all pairs of histories, partitionings and ways of cutting an unbounded input into blocks", "anchors": ["zones_convolver/ConvolutionEngine.cpp: prepare, process", "zones_convolver/Convolver.cpp: Convolver::Convolver, Convolver::Process"]}
{"id": "C80", "title": "A fade adds no click of its own", "statement": "If neither what the old convolver puts out nor what the new one puts out changes by more than D from one sample to the next, and neither exceeds P, then what is heard changes by no more than D + 2P/n from one sample to the next in a cross-fade over n samples, and by no more than D + P/n in an in/out fade over n samples: where the fade begins, in it, at the joint between its halves, where it ends and after it. In terms of the input: if it moves by no more than D (also where it begins), stays below P, is within D of silence when the new convolver is taken up, and neither response can make the channel more than G times louder, then the output moves by no more than G D + 2 G P/n throughout a cross-fade, and by no more than G D + G P/n throughout an in/out fade. (The new convolver starts with an empty past, so a response that is silent at first makes what it puts out jump: an example in which a cross-fade between two responses that both let a constant input through falls to 0 and jumps back to 1 is exhibited, and the claim that the output is free of clicks whenever input and responses are smooth is refuted by it.)", "quantifier": "all histories leading to the fade, inputs, sequences of blocks, fade lengths, bounds D and P", "why_tests_cant": "a bound on every step of the output, for every input and every way in which block boundaries fall into the fade", "anchors": ["zones_convolver/ConvolutionEngine.cpp: process, BeginFade, SetFadeTime", "zones_convolver/Convolver.cpp: Convolver::Process"]}
