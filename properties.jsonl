{"id": "C01", "title": "Gate calls act as their textbook unitaries", "statement": "After any sequence of gate calls on allocated, distinct qubits (x,y,z,h,s,sadj,t,tadj,rx,ry,rz, all their multi-controlled forms and mcphase), the quantum state observed through get_state equals, up to one global phase of modulus 1, the product of the textbook controlled 2x2 matrices applied in call order to the state before the calls.", "quantifier": "every number of qubits, every starting state reachable through the API, every finite sequence of gate calls, every angle, every hash-map iteration order", "why_tests_cant": "the simulator defers H, Rx, Ry and permutation/phase gates in four interacting queues; the interaction depends on the whole history of calls, so finitely many call sequences cannot cover it", "anchors": ["sparsesim/src/lib.rs:QuantumSim::x..mcry, flush_queue, apply_mch, mcrotation, apply_ops"]}
{"id": "C02", "title": "Deferred gates are invisible: when the simulator flushes does not matter", "statement": "Forcing any pending operations to be applied (any flush point: probability query, qubit_is_zero, get_state, queue limit) never changes the logical quantum state: the state before and after the flush is the same vector.", "quantifier": "every reachable simulator state and every set of qubits flushed at every level", "why_tests_cant": "flush points are chosen by the history and by an internal limit of 10000 operations; tests see only a few interleavings", "anchors": ["sparsesim/src/lib.rs:flush_queue, maybe_flush_queue, enqueue_op, QUEUE_LIMIT"]}
{"id": "C03", "title": "Valid calls never panic", "statement": "Every gate, measurement, probability, allocation, release, swap and state call that names only allocated qubits, each at most once per call, returns normally, in every reachable state.", "quantifier": "every finite history of valid calls, every RNG", "why_tests_cant": "panics depend on deferred operations resolved much later than the call that queued them", "anchors": ["sparsesim/src/lib.rs:resolve_and_check_qubits, take_ops, check_for_duplicates, swap_qubit_ids"]}
{"id": "C04", "title": "Single-qubit measurement follows the Born rule", "statement": "measure(q) returns true exactly when the drawn sample in [0,1) is below the probability of q being 1 in the current logical state, so true has exactly the Born probability under a uniform sample.", "quantifier": "every reachable state, every allocated qubit, every sample", "why_tests_cant": "statistical tests cannot establish an exact threshold for every state", "anchors": ["sparsesim/src/lib.rs:measure, check_joint_probability"]}
{"id": "C05", "title": "Measurement collapses to the normalised projection", "statement": "After measure(q)=r the logical state is the projection of the previous state onto q=r divided by the square root of the outcome probability; it is again normalised, and measuring q again returns r with certainty and leaves the state unchanged.", "quantifier": "every reachable state, qubit and sample; any second sample", "why_tests_cant": "ranges over all states and both outcomes", "anchors": ["sparsesim/src/lib.rs:measure, joint_collapse"]}
{"id": "C06", "title": "Joint measurement measures parity", "statement": "joint_measure(ids) returns true with the Born probability of odd parity of the given distinct qubits, and collapses to the normalised projection on that parity class, leaving superpositions inside the class intact. joint_probability returns the same probability without changing the logical state.", "quantifier": "every reachable state and every list of distinct allocated qubits (including the empty list)", "why_tests_cant": "ranges over all states and subsets of qubits", "anchors": ["sparsesim/src/lib.rs:joint_measure, joint_probability, joint_collapse"]}
{"id": "C07", "title": "Total probability stays one", "statement": "The squared amplitudes reported by get_state always sum to 1, the state is never empty, and every reported probability lies in [0,1].", "quantifier": "every reachable state of every valid history", "why_tests_cant": "an invariant over unbounded histories", "anchors": ["sparsesim/src/lib.rs:get_state, joint_probability, mcrotation, apply_mch, joint_collapse"]}
{"id": "C08", "title": "Every basis state is reported at most once", "statement": "get_state and dump list each basis-state index at most once, in strictly increasing order, and every listed index uses only bits below the number of allocated qubits.", "quantifier": "every reachable state, any truncation threshold, any hash-map iteration order", "why_tests_cant": "key uniqueness is an invariant across all operations, including fold/merge code paths driven by hash maps", "anchors": ["sparsesim/src/lib.rs:get_state, dump, apply_mch, mcrotation, apply"]}
{"id": "C09", "title": "get_state is ordered by qubit identifier and complete", "statement": "Bit i of an index reported by get_state is the value of the i-th smallest allocated qubit identifier; the reported amplitude of each index is the amplitude of that assignment in the logical state, and an assignment that is not listed has amplitude zero. Calling get_state does not change the logical state.", "quantifier": "every reachable state, including non-contiguous identifiers and arbitrary internal locations", "why_tests_cant": "the permutation of internal locations depends on the allocation/release/swap history", "anchors": ["sparsesim/src/lib.rs:get_state, dump, swap_qubit_state"]}
{"id": "C10", "title": "allocate returns the lowest free identifier and a fresh |0> qubit", "statement": "allocate returns the smallest identifier not currently allocated, gives it an internal location no other qubit uses, leaves the state of all other qubits unchanged, and the new qubit is |0> (probability of 1 is zero and it is unentangled).", "quantifier": "every reachable history of allocations, releases, gates, swaps", "why_tests_cant": "allocation reuses holes in two independent spaces (ids and locations); hole patterns are unbounded", "anchors": ["sparsesim/src/lib.rs:allocate", "sparsesim/src/index_map.rs"]}
{"id": "C11", "title": "release measures and frees only the named qubit", "statement": "release(q) of an allocated qubit collapses q as a measurement would, leaves the other qubits in the corresponding post-measurement state, and removes exactly q from the allocated set. Releasing an identifier that is not allocated panics.", "quantifier": "every reachable state and every identifier", "why_tests_cant": "ranges over all states; the documented panic must hold for every unallocated identifier and every number of allocated qubits", "anchors": ["sparsesim/src/lib.rs:release"]}
{"id": "C12", "title": "Releasing the last qubit resets the simulator", "statement": "When the only allocated qubit is released, the simulator is back in the state of a new one (no pending operations, amplitude exactly 1 on the empty register, no accumulated phase).", "quantifier": "every history ending with one allocated qubit", "why_tests_cant": "pending queues of unbounded content must be discarded", "anchors": ["sparsesim/src/lib.rs:release, new"]}
{"id": "C13", "title": "swap_qubit_ids is the SWAP gate", "statement": "swap_qubit_ids(a,b) exchanges the roles of a and b in the logical state and changes nothing else, whatever operations are pending on either.", "quantifier": "every reachable state, all a and b allocated (including a=b)", "why_tests_cant": "depends on pending operations in all queues", "anchors": ["sparsesim/src/lib.rs:swap_qubit_ids", "backend/src/lib.rs:__quantum__qis__swap__body"]}
{"id": "C14", "title": "Misuse of identifiers is reported", "statement": "A gate call naming an unallocated identifier, or naming the same qubit twice, never silently changes the state of any qubit: it panics at the call or at the first later call that observes the state; a released identifier causes an error if used.", "quantifier": "every reachable state and every bad argument list", "why_tests_cant": "checks are deferred to flush time, so the error depends on later history", "anchors": ["sparsesim/src/lib.rs:resolve_and_check_qubits, release (doc), h, rx, ry"]}
{"id": "C15", "title": "force_collapse and qubit_is_zero", "statement": "force_collapse(v,q) returns the Born probability of q=v and, if that probability is not (nearly) zero, leaves the normalised projection on q=v, otherwise leaves the logical state unchanged; qubit_is_zero(q) is true exactly when the probability of q=1 is (nearly) zero and does not change the logical state.", "quantifier": "every reachable state, qubit and value", "why_tests_cant": "ranges over all states", "anchors": ["sparsesim/src/lib.rs:force_collapse, qubit_is_zero"]}
{"id": "C16", "title": "The operation queue is bounded", "statement": "At most 10000 deferred operations are ever pending, and reaching the limit does not change the logical state.", "quantifier": "every finite sequence of calls", "why_tests_cant": "needs sequences of unbounded length", "anchors": ["sparsesim/src/lib.rs:enqueue_op, QUEUE_LIMIT"]}
{"id": "C17", "title": "Exp is the exponential of a Pauli product", "statement": "exp/mcexp(ctls,paulis,theta,targets) applies cos(theta) I + i sin(theta) P controlled on ctls, where P is the tensor product of the given Paulis on the given distinct targets.", "quantifier": "every reachable state, every Pauli list, every angle, every distinct controls and targets", "why_tests_cant": "the code uses mask arithmetic with separate branches; every Pauli word must be right", "anchors": ["sparsesim/src/exp.rs:mcexp", "backend/src/exp.rs"]}
{"id": "C18", "title": "apply multiplies by the given matrix", "statement": "apply(U,targets,controls) with a square matrix of size 2^|targets| on distinct allocated qubits applies U to the targets (first target most significant) conditioned on all controls being 1.", "quantifier": "every reachable state, matrix, target and control list", "why_tests_cant": "ranges over all matrices and location layouts", "anchors": ["sparsesim/src/lib.rs:apply, controlled"]}
{"id": "C19", "title": "Adjoints undo", "statement": "s;sadj, t;tadj, rx(a);rx(-a), ry, rz, r;r__adj, exp;exp__adj, x;x, y;y, z;z, h;h, and the same with controls, return the logical state they started from (up to global phase).", "quantifier": "every reachable state, angle and control list", "why_tests_cant": "ranges over all states with arbitrary pending operations", "anchors": ["sparsesim/src/lib.rs", "backend/src/lib.rs:__quantum__qis__r__adj, __quantum__qis__exp__adj"]}
{"id": "C20", "title": "Composite backend gates are the named unitaries", "statement": "sx, rzz, rxx, ryy, r (each axis) and r__ctl (including the identity axis as a controlled phase) act as the matrices sqrt(X), exp(-i t/2 ZZ), exp(-i t/2 XX), exp(-i t/2 YY), exp(-i t/2 P) and their controlled forms.", "quantifier": "every reachable state, angle, distinct qubits", "why_tests_cant": "decompositions go through the queueing simulator from any state", "anchors": ["backend/src/lib.rs:__quantum__qis__sx__body, rzz, rxx, ryy, r__body, r__ctl"]}
{"id": "C21", "title": "Pauli-basis measurement is projective measurement of the Pauli product", "statement": "measure__body(paulis,qubits) returns One with the Born probability of the -1 eigenspace of the Pauli product and leaves the normalised projection on the observed eigenspace; identity entries are ignored; arrays of different lengths fail.", "quantifier": "every reachable state and Pauli/qubit lists", "why_tests_cant": "ranges over all states and Pauli words", "anchors": ["backend/src/lib.rs:__quantum__qis__measure__body, map_to_z_basis, unmap_from_z_basis"]}
{"id": "C22", "title": "assertmeasurementprobability only observes", "statement": "assertmeasurementprobability__body fails exactly when the Born probability of the stated outcome differs from the expected one by more than the tolerance, and when it does not fail the logical state is unchanged.", "quantifier": "every reachable state, lists, expected value and tolerance", "why_tests_cant": "ranges over all states", "anchors": ["backend/src/lib.rs:__quantum__qis__assertmeasurementprobability__body"]}
{"id": "C23", "title": "reset and mresetz leave |0>", "statement": "After reset(q) or mresetz(q,r), q is |0> with certainty and unentangled, and the rest of the register is in the post-measurement state of the recorded outcome.", "quantifier": "every reachable state, qubit, sample", "why_tests_cant": "ranges over all states", "anchors": ["backend/src/lib.rs:__quantum__qis__reset__body, __quantum__qis__mresetz__body"]}
{"id": "C24", "title": "Static qubits are allocated on demand with the requested identifiers", "statement": "In a program that uses only static qubit identifiers (no dynamic allocate/release), after any call naming identifier q all of 0..q (and nothing above the largest named) are allocated with exactly those identifiers, and untouched ones are |0>.", "quantifier": "every sequence of static-qubit calls in any order", "why_tests_cant": "order of first use is arbitrary", "anchors": ["backend/src/lib.rs:ensure_sufficient_qubits, __quantum__qis__*"]}
{"id": "C25", "title": "Dynamic allocation never hands out a live qubit", "statement": "qubit_allocate and qubit_allocate_array return identifiers not currently live, pairwise distinct, of the requested count; live identifiers keep their state.", "quantifier": "every interleaving of allocate, allocate_array, release, release_array and gates", "why_tests_cant": "unbounded histories", "anchors": ["backend/src/lib.rs:__quantum__rt__qubit_allocate, __quantum__rt__qubit_allocate_array, __quantum__rt__qubit_release_array"]}
{"id": "C26", "title": "Result store is last-write-wins with default false", "statement": "read_result(i) returns the value of the last mz/mresetz/write_result to i in this shot, or false if there was none; writing one result never changes another.", "quantifier": "every sequence of writes and reads over arbitrary result identifiers", "why_tests_cant": "the backing bit vector is resized implicitly; histories are unbounded", "anchors": ["backend/src/lib.rs:__quantum__qis__mz__body, __quantum__qis__read_result__body, __quantum__rt__write_result"]}
{"id": "C27", "title": "Recorded result equals the read result", "statement": "result_record_output(i) prints 1 exactly when read_result(i) would return true (static results), and for programs using only dynamic results prints 1 exactly for the One result.", "quantifier": "every history of result operations and every identifier", "why_tests_cant": "the static/dynamic choice depends on the whole history", "anchors": ["backend/src/lib.rs:__quantum__rt__result_record_output, legacy_output"]}
{"id": "C28", "title": "Shots are isolated", "statement": "Each shot starts from a fresh simulator, an empty result store and an empty output buffer; the only thing carried from one shot to the next is the state of the random generator.", "quantifier": "every program and number of shots", "why_tests_cant": "global thread-local state could leak after arbitrary programs", "anchors": ["backend/src/lib.rs:__quantum__rt__initialize", "runner/src/lib.rs:run_module"]}
{"id": "C29", "title": "A fixed seed fixes the run", "statement": "With a seed given, the output of a run is a function of the program, the number of shots and the seed.", "quantifier": "every program, seed and number of shots", "why_tests_cant": "hidden entropy sources cannot be excluded by repeated runs", "anchors": ["runner/src/lib.rs:run_bytes, run_module", "backend/src/lib.rs:set_rng_seed", "stdlib/src/math.rs:__quantum__qis__drawrandomint__body"]}
{"id": "C30", "title": "Reference counting frees exactly at zero", "statement": "For arrays, tuples, callables, strings and big integers: after creation and any sequence of reference-count updates whose running total stays positive the object is alive with that count, and it is freed exactly when the total reaches zero.", "quantifier": "every sequence of updates of arbitrary size", "why_tests_cant": "unbounded sequences; use-after-free is not observable reliably by tests", "anchors": ["stdlib/src/lib.rs:update_counts", "stdlib/src/arrays.rs", "stdlib/src/tuples.rs", "stdlib/src/strings.rs", "stdlib/src/bigints.rs"]}
{"id": "C31", "title": "Alias counts protect against sharing and never go wrong silently", "statement": "array_copy/tuple_copy/callable_copy returns a distinct object with equal contents when forced or when the alias count is positive, and otherwise the same object with reference count plus one; decreasing an alias count below zero fails as documented.", "quantifier": "every count state and flag", "why_tests_cant": "depends on count history; the negative case is memory-unsafe", "anchors": ["stdlib/src/arrays.rs:__quantum__rt__array_copy", "stdlib/src/tuples.rs", "stdlib/src/callables.rs", "stdlib/include/qir_stdlib.h"]}
{"id": "C32", "title": "Releasing a qubit array reclaims the array", "statement": "qubit_release_array releases every qubit of the array and drops the array's reference, so that a program pairing allocate_array with release_array leaks nothing and frees nothing twice.", "quantifier": "every array size and count history", "why_tests_cant": "leaks and double frees are invisible to functional tests", "anchors": ["backend/src/lib.rs:__quantum__rt__qubit_release_array"]}
{"id": "C33", "title": "Array concatenation and slicing", "statement": "concatenate(a,b) has the elements of a followed by those of b and fails exactly when the element sizes differ; slice_1d(a,start..step..end) has exactly the elements at indices start, start+step, ... up to and including end (descending for negative steps), and fails when any index is out of bounds or step is zero. The operands are unchanged.", "quantifier": "every element size, content, range", "why_tests_cant": "index arithmetic is on byte offsets in i64; all sizes and ranges matter", "anchors": ["stdlib/src/arrays.rs:__quantum__rt__array_concatenate, quantum__rt__array_slice_1d"]}
{"id": "C34", "title": "Array element access", "statement": "create_1d gives count zeroed elements; a write through the element pointer of index i is read back at i and nowhere else, for every in-range index; get_size is the count.", "quantifier": "every element size, count and pair of indices", "why_tests_cant": "ranges over all sizes", "anchors": ["stdlib/src/arrays.rs:__quantum__rt__array_create_1d, __quantum__rt__array_get_element_ptr_1d, __quantum__rt__array_get_size_1d"]}
{"id": "C35", "title": "Callable invocation selects the specialisation and flattens controls", "statement": "callable_invoke calls the adjoint variant iff the adjoint functor was applied an odd number of times and the controlled variant iff it was controlled at least once, passes the control arrays concatenated from the outermost to the innermost, and the innermost arguments.", "quantifier": "every callable, every number and order of functor applications, every control array", "why_tests_cant": "nesting depth is unbounded", "anchors": ["stdlib/src/callables.rs:__quantum__rt__callable_invoke, __quantum__rt__callable_make_adjoint, __quantum__rt__callable_make_controlled"]}
{"id": "C36", "title": "Callable invocation balances reference counts", "statement": "callable_invoke leaves the reference counts of the caller's argument tuple, result tuple and control arrays as they were and frees every temporary it creates.", "quantifier": "every nesting depth", "why_tests_cant": "leaks do not show up in results", "anchors": ["stdlib/src/callables.rs:__quantum__rt__callable_invoke"]}
{"id": "C37", "title": "Big integers compute and round-trip", "statement": "Addition, subtraction, multiplication, negation, power and the comparisons are those of the integers, with the operands in the order of the C header. A big integer made from a 64-bit number is that number; bytes are two's complement, least significant first; creating a big integer from the bytes of get_data gives the same number; divide/modulus satisfy a = (a/b)*b + a mod b with |a mod b| < |b| and the sign of a; shifts multiply by and floor-divide by powers of two; bit operations act on two's complement.", "quantifier": "all integers", "why_tests_cant": "infinite domain", "anchors": ["stdlib/src/bigints.rs"]}
{"id": "C38", "title": "Numbers printed can be read back", "statement": "int_to_string, bigint_to_string and range_to_string produce decimal text that determines the value: different values print differently, and parsing the text gives the value back.", "quantifier": "all integers and ranges", "why_tests_cant": "infinite domain", "anchors": ["stdlib/src/strings.rs", "stdlib/src/bigints.rs:__quantum__rt__bigint_to_string", "stdlib/src/range_support.rs"]}
{"id": "C39", "title": "Output records keep their framing", "statement": "Each record call appends exactly one line made of the documented tab-separated fields, in call order; message text is escaped so that it occupies one line and can be recovered; two different sequences of records give different output.", "quantifier": "every sequence of record calls, values, tags and messages", "why_tests_cant": "values and tags are arbitrary strings", "anchors": ["stdlib/src/output_recording.rs", "stdlib/src/strings.rs:__quantum__rt__message"]}
{"id": "C40", "title": "Shot framing of the runner output", "statement": "For n shots the runner writes n blocks START, METADATA lines of the entry point in order, the shot's records, END 0, in order and nothing else.", "quantifier": "every number of shots, attribute list, per-shot output", "why_tests_cant": "unbounded shots and outputs", "anchors": ["runner/src/lib.rs:run_module"]}
{"id": "C41", "title": "Entry point selection", "statement": "A run uses the unique function carrying the entry_point (or EntryPoint) attribute and matching the requested name; it fails when there is none or more than one, before any output.", "quantifier": "every module and every requested name", "why_tests_cant": "ranges over all modules", "anchors": ["runner/src/lib.rs:choose_entry_point, is_entry_point"]}
{"id": "C42", "title": "Entry points with parameters or results are rejected", "statement": "A run returns an error, without executing the program or writing output, if the entry point has parameters or a non-void return type.", "quantifier": "every entry point signature and number of shots", "why_tests_cant": "ranges over signatures", "anchors": ["runner/src/lib.rs:run_entry_point, run_file (doc)"]}
{"id": "C43", "title": "Linking accepts exactly the supported declarations", "statement": "A module links if and only if every external declaration is a supported name with the parameter count of its implementation; unknown names, wrong counts and mixed legacy/labelled output are rejected, and every name documented as implemented can be linked.", "quantifier": "every set of declarations", "why_tests_cant": "ranges over all declaration sets", "anchors": ["runner/src/lib.rs:bind_functions, bind_output_record", "README.md"]}
{"id": "C44", "title": "Module loading dispatches on content and extension", "statement": "Input bytes are parsed as bitcode exactly when they begin with one of the two LLVM magic numbers, as textual IR otherwise, and input shorter than four bytes is an error; files load by extension .ll or .bc (any other is an error).", "quantifier": "every byte string and path", "why_tests_cant": "ranges over all inputs", "anchors": ["runner/src/lib.rs:run_bytes, run_input, load_file"]}
{"id": "C45", "title": "Random draws stay in range", "statement": "drawrandomint(lo,hi) and drawrandomdouble(lo,hi) return a value in [lo,hi] and fail exactly when lo > hi.", "quantifier": "all bounds and all random choices", "why_tests_cant": "infinite domain", "anchors": ["stdlib/src/math.rs"]}
{"id": "C46", "title": "ieeeremainder is the IEEE remainder", "statement": "ieeeremainder(x,y) is x - n*y with n the integer nearest x/y (ties to even), so its magnitude is at most |y|/2.", "quantifier": "all x and nonzero y", "why_tests_cant": "infinite domain; ties are rare", "anchors": ["stdlib/src/math.rs:__quantum__qis__ieeeremainder__body"]}
{"id": "C47", "title": "Index map behaves as a finite map", "statement": "The identifier map returns the last value inserted for a key and not since removed, and iterates over present keys in increasing order, each once.", "quantifier": "every sequence of insert, remove, get, iteration", "why_tests_cant": "unbounded histories", "anchors": ["sparsesim/src/index_map.rs"]}
{"id": "C48", "title": "Truncation error is bounded", "statement": "With the nearly-zero threshold tol (1e-10 in the code), after a sequence of gate calls the reported state differs in norm from the exact state by at most a stated multiple of tol that is linear in the number of applied operations.", "quantifier": "every gate sequence, every state, every threshold", "why_tests_cant": "rounding small amplitudes to zero accumulates over unbounded histories", "anchors": ["sparsesim/src/nearly_zero.rs", "sparsesim/src/lib.rs:apply_mch, mcrotation"]}
{"id": "C49", "title": "Valid backend programs do not abort", "statement": "A program whose calls name existing, distinct qubits and arrays of matching lengths runs to its end; the only way to stop early is a failing assertmeasurementprobability or an explicit fail. In particular qubits created on demand, released and allocated again never make the simulator panic.", "quantifier": "every interleaving of all backend entry points, every seed, every threshold", "why_tests_cant": "the bookkeeping of on-demand qubits, dynamic allocation and simulator identifiers is a relational invariant over unbounded histories", "anchors": ["backend/src/lib.rs:ensure_sufficient_qubits", "backend/src/lib.rs:__quantum__rt__qubit_allocate", "sparsesim/src/lib.rs:allocate, release"]}
{"id": "C50", "title": "Runtime strings are their bytes up to the first NUL", "statement": "string_create stores the bytes before the first NUL; string_concatenate has the bytes of both operands in order; string_equal is true exactly for equal contents; string_get_length is the number of bytes. The operands are unchanged.", "quantifier": "all strings and states of memory", "why_tests_cant": "Tests use a few literals; the claim is for all contents and every state of memory.", "anchors": ["stdlib/src/strings.rs:13-68"]}
{"id": "C51", "title": "Truncation never lengthens the state", "statement": "For every threshold up to 1/2, after any history of gates, rotations, exponentials, measurements, forced collapses, allocations, releases and id swaps on allocated qubits, the amplitudes listed by get_state have total squared magnitude at most one, so that dropping nearly-zero amplitudes can lose weight but never create it.", "quantifier": "every history without apply, every threshold in [0,1/2], every hash order, every sequence of samples", "why_tests_cant": "unit tests compare a few states with a tolerance; the claim is an invariant over unbounded histories and all thresholds", "anchors": ["sparsesim/src/lib.rs:mcrotation, h_transform, flush_queue", "sparsesim/src/nearly_zero.rs", "sparsesim/src/lib.rs:joint_collapse, normalize"]}
{"id": "C52", "title": "No panic and exact bookkeeping whatever the numbers are", "statement": "For any types of amplitudes, angles, probabilities and samples with any operations on them (exact, rounding, overflowing, NaN-producing), every history of public simulator calls that names allocated, distinct qubits runs to its end: allocation gives the smallest free identifier, measure, joint_measure and release (of a qubit that is not the last) draw exactly one sample each and nothing else draws, get_state and dump list each basis state of the allocated qubits at most once in increasing order with no index out of range and the right qubit count, and at most 10000 operations are queued. The only panic is apply with a matrix that leaves no amplitude above the threshold.", "quantifier": "every arithmetic, every hash order, every generator, every valid history of calls", "why_tests_cant": "unit tests use benign angles and exact-looking states; the claim covers NaN and infinite angles, every rounding and every threshold over unbounded histories", "anchors": ["sparsesim/src/lib.rs:all public functions", "sparsesim/src/exp.rs", "sparsesim/src/nearly_zero.rs"]}
{"id": "C53", "title": "Tests of doubles and square root", "statement": "isnan answers true exactly for what is unequal to itself, isinf exactly for what lies above every finite double, isnegativeinfinity exactly for what lies below every finite double; nan and infinity pass their tests. sqrt of a finite non-negative double is finite and no finite double is nearer to the exact root; of a negative number or NaN it is NaN, of infinity infinity.", "quantifier": "every binary64 value", "why_tests_cant": "2^64 values; signed zeros, NaN payloads and subnormals are rarely sampled", "anchors": ["stdlib/src/math.rs:20-43, 94-97"]}
{"id": "C54", "title": "A program runs as on an ideal quantum machine", "statement": "Take any program, with control flow that depends on measured results, drawn integers, read results and listings. Run it in the runner, and on an ideal machine that has an exact state vector, static results, text printed and the same source of samples, but no queues, maps or thresholds. If its calls on the ideal machine name existing, distinct qubits, and rotations avoid the known defect of pending X rotations under Y rotations, then the shot ends as the ideal run does (return, failure with the same message, or still running), prints the same text record by record and leaves the generators in the same state. A run of a module prints the framed blocks of that many ideal shots, one after another.", "quantifier": "every program (any state machine), number of steps, number of shots, sequence of samples, hash order", "why_tests_cant": "integration tests compare a few programs with recorded output for one seed; the claim relates every program and every sample sequence to an independent semantics", "anchors": ["runner/src/lib.rs:run_module", "backend/src/lib.rs", "sparsesim/src/lib.rs"]}
{"id": "C55", "title": "Rounding errors of sequences of gates and matrices grow at most linearly", "statement": "Run the simulator in IEEE double arithmetic (rounding to nearest, complex products by the textbook formula, nearly-zero amplitudes dropped) on a valid sequence of allocations, gates, controlled gates, phases, length-preserving matrices with entries rounded to within 10 units, Pauli exponentials, relabellings and queries, with finite angles whose sum is within the range where the platform's cosine and sine are accurate. Leave aside single-qubit Y rotations over a pending X rotation close to an odd multiple of pi (see C01). As long as the bound below is at most 1, nothing panics, no amplitude overflows or becomes NaN, and the listed state is, in Euclidean distance and up to one global phase, within (number of rounding steps) * (1e-10 + 2^(k-38)) * sqrt(2 * 2^w) of the exact result, where w bounds the qubit identifiers, angles are up to 2^(8+k), and the number of steps charged to a call is linear in the number of qubits it names, and for a matrix also in its size.", "quantifier": "every valid sequence of such calls, every number of qubits, all angles in range, every hash order, every cosine and sine within 2^-50", "why_tests_cant": "unit tests compare a few small circuits with a tolerance; the claim bounds the error for every circuit and says how it grows", "anchors": ["sparsesim/src/lib.rs", "sparsesim/src/exp.rs", "sparsesim/src/nearly_zero.rs"]}
{"id": "C56", "title": "Measurement outcomes with rounding agree with the exact machine", "statement": "Run the simulator in IEEE double arithmetic on any valid history of calls, including matrices, measurements, joint measurements, forced collapses and releases, with finite random samples. Compare it with an exact machine that has real state vectors and draws the same samples. If along the exact run every outcome has a probability of at least p, and no sample is closer than t to the probability it is compared with, then every measurement of the simulator returns the outcome of the exact machine, every probability it returns is within t, and every listed state is within t in Euclidean distance, up to one global phase. Here t = (4/p)^m * (3 n (1e-10 + 2^(k-38)) sqrt(2*2^w) + (m+1) (2*2^w+1) 2^-49), with m the number of projecting calls and n the number of rounding steps, and t must be at most 1/2 and p/2. A finer bound that follows the actual probabilities is the ledger.", "quantifier": "every valid history, with length-preserving matrices, every number of qubits, all angles in range, all finite samples, every hash order, every cosine and sine within 2^-50", "why_tests_cant": "tests with a few measured circuits cannot show that rounding never flips an outcome away from the threshold, nor how errors are amplified by renormalisation", "anchors": ["sparsesim/src/lib.rs", "sparsesim/src/exp.rs", "sparsesim/src/nearly_zero.rs"]}
{"id": "C57", "title": "The printed text of a double identifies it", "statement": "The text that double_to_string and the DOUBLE records print for a double, read as a decimal number and rounded to the nearest double, is this double again, sign of zero included; NaN and the infinities have their own texts. So different doubles print differently, and equal outputs come from equal records, doubles included (a legacy result counting as the integer 0 or 1). A finite double is printed with the ending .0 exactly if it is a whole number, the text is never that of an integer, and for other doubles no text with fewer decimals reads back, and none with as many is nearer.", "quantifier": "every binary64 value, every sequence of records with one-line tags", "why_tests_cant": "there are 2^64 doubles; tests with a few values miss subnormals, powers of two, ties, huge whole numbers and the epsilon comparison", "anchors": ["stdlib/src/strings.rs:90-98", "stdlib/src/output_recording.rs"]}
{"id": "C58", "title": "Every front end shows the same text", "statement": "Whatever calls (Python run, run_bytes, main, with or without a callback) have returned before in the process, asking for the same program, entry point, number of shots and seed by any of the front ends (command line with a file or standard input, Python with or without output_fn) gives the same outcome and the same text, provided the generators are in the same state or a seed is given: without a callback all of it on standard output, with a callback all of it, concatenated, through the callback and nothing on standard output. The text is that of the shots, each run as in a new process.", "quantifier": "every history of returning calls, every module, task, generator state and pair of front ends", "why_tests_cant": "the output switch and the buffer are global and survive calls; tests use one front end per process, a few programs and only ASCII tags", "anchors": ["pip/src/python.rs:36-150", "runner/src/cli.rs:47-79", "stdlib/src/output_recording.rs:24-60", "runner/src/lib.rs:191-227"]}
{"id": "C59", "title": "The command line means what it says", "statement": "A command line is accepted exactly when it gives each of file, entrypoint, shots and rngseed at most once, in any order, each written in one of the five usual ways (--name v, --name=v, -n v, -n=v, -nv), with a non-empty path, a number of shots up to 2^32-1 and a seed up to 2^64-1; what runs is then exactly the named file (standard input if it is missing or \"-\"), entry point, number of shots (1 if missing) and seed. It never has two meanings. Help or version asked for before anything wrong, or standard input that is a terminal, runs nothing and succeeds; everything else is an error and runs nothing.", "quantifier": "every list of arguments", "why_tests_cant": "the arguments are unbounded strings: attached values, equals signs inside values, values that look like options, overflow, signs, repetitions and their order combine without limit", "anchors": ["runner/src/cli.rs:16-79"]}
{"id": "C60", "title": "What a program prints has the chances of quantum mechanics", "statement": "Follow a program along every sequence of measurement results, projecting the state vector at each result; the squared length of the vector is the chance of that path. These chances are positive and add up to 1. The sequences of samples in [0,1) that the simulator may draw are divided into boxes (a range for each of the first samples), one box per path: they do not overlap and cover all sequences, the volume of a box is the chance of its path, and with samples in the box the shot ends as the path does and prints its text. So with independent, uniform samples every text is printed with exactly its quantum chance. For n shots the chances multiply, and a run of a module prints the framed texts of a path with the path's chance. For example rx(th) and a measurement print 1 with chance sin^2(th/2), and two entangled qubits always print equal results, each pair with chance 1/2.", "quantifier": "every program (any state machine whose calls are valid on every path of positive chance, without listings and outside the known rotation defect), number of steps, number of shots, sequence of samples, hash order", "why_tests_cant": "tests draw a few hundred shots and compare frequencies within a margin, or fix the seed; the claim is the exact measure of the set of sample sequences for each output of every program", "anchors": ["sparsesim/src/lib.rs:measure", "sparsesim/src/lib.rs:release", "backend/src/lib.rs", "runner/src/lib.rs:run_module"]}
{"id": "C61", "title": "A dump can be read back and looking does not disturb", "statement": "The text that dump returns (and dumpmachine prints) for a state determines every basis state and every amplitude in it bit for bit: read the labels as decimal numbers and each part of an amplitude as the double nearest to the decimal number, signs of zeros, infinities and NaN included, and you get the entries back; no text stands for two lists of entries. Once the state has been dumped, any number of further dumps, listings and probability queries in any order give the same replies, identical to the last bit, and leave the simulator unchanged. With binary64 numbers the amplitudes read from the text are within the bound of C55 of those of quantum mechanics.", "quantifier": "every list of entries with labels of any size and any doubles; every valid history, arithmetic, hash order and sequence of queries", "why_tests_cant": "labels and amplitudes range over all numbers and doubles; tests look at a few printed states, and never at the text of values with many digits, negative zeros or infinities", "anchors": ["sparsesim/src/lib.rs:216-275", "sparsesim/src/lib.rs:118-145", "backend/src/lib.rs:1020-1050"]}
{"id": "C62", "title": "Tuples keep what is written and captured values are counted by the callable's own functions", "statement": "tuple_create(size) gives a new tuple of exactly size zero bytes, with one reference and no alias. Writing a pointer to a slot changes the eight bytes of that slot only: all other bytes, the counts of the tuple and all other objects stay as they were. capture_update_reference_count and capture_update_alias_count call the first and second function of the callable's memory table once, with the captured tuple the callable was created with and the update asked for, whatever functors were applied to the callable and for its copies as well; they do nothing if there is no table or no such function.", "quantifier": "every size below 2^63 - 8, memory, tuple, slot, pointer, callable, memory functions, update and sequence of functors", "why_tests_cant": "ranges over all sizes, slots and memory states; a write that overlaps the next slot or a wrong table entry shows only in programs that use them", "anchors": ["stdlib/src/tuples.rs:10-25", "stdlib/src/callables.rs:57-78", "stdlib/src/callables.rs:163-189"]}
{"id": "C63", "title": "With rounding, the odds of measurement results are nearly those of quantum mechanics", "statement": "Take a program that makes simulator calls and chooses the next call by the results of its measurements, with at most m measurements. In quantum mechanics each sequence of results has a weight, the product of its conditional probabilities. For the simulator with a rounding arithmetic, each sequence of results that all have a probability above p has a box of samples (a range for each sample drawn): with samples in the box the simulator returns these results without a panic, and probabilities and listed amplitudes within t of the exact ones. Boxes do not overlap. For every set of sequences, the volume of the boxes, and the share of them among samples that are multiples of 2^-53, is at most the weight and falls short of it by at most m(p + 2t + 2^-52); if results with a probability between 0 and p do not occur, by at most m(2t + 2^-52). In binary64 t is an explicit number computed from the counts of calls, gates and qubits.", "quantifier": "every adaptive program whose branches meet the stated limits (angles, number of qubits, no force_collapse, outside the known rotation defect), every threshold p, every set of result sequences, every generator state, hash order, library functions cos/sin within their bound", "why_tests_cant": "a bias of the sampling caused by rounding and by the removal of small amplitudes is far below what a test can see in frequencies, and depends on the whole history of measurements", "anchors": ["sparsesim/src/lib.rs:measure", "sparsesim/src/lib.rs:joint_measure", "sparsesim/src/lib.rs:release", "sparsesim/src/lib.rs:collapse", "sparsesim/src/lib.rs:joint_probability"]}
{"id": "C64", "title": "Strings are printed as they are and only if they are text", "statement": "message, message_record_output and fail print a runtime string exactly if its bytes are UTF-8: one line of INFO, a tab and printable characters from which the text can be read back; different strings give different lines; joining two strings with string_concatenate joins what is printed; plain text (no quotes, backslashes, control characters) is printed unchanged. If the bytes are not UTF-8 the program stops and nothing is printed. The conversions of integers, big integers, qubits, ranges and doubles to strings give plain text from which the value can be read back; bool, Result and Pauli have their names. No string ever contains a NUL, so string_get_data shows all of it and string_create on that memory gives an equal string.", "quantifier": "every memory, string, byte sequence, value, output so far, and for the last part every history of memory calls", "why_tests_cant": "ranges over all byte sequences, including malformed UTF-8 and characters outside of ASCII; the unit tests print a few ASCII strings", "anchors": ["stdlib/src/strings.rs:13-123", "stdlib/src/lib.rs:83-106", "stdlib/src/output_recording.rs:159-171", "stdlib/src/range_support.rs:16-25", "backend/src/result_bool.rs:31-47"]}
{"id": "C65", "title": "With rounding, what a program prints has nearly the chances of quantum mechanics", "statement": "Take a program that calls the backend (gates, measurements, allocation, result records, messages) and chooses its next call by the replies. With exact numbers the backend gives the same replies, texts and endings as the backend of C60. With rounding, if every history the program can take stays within the error bounds, there are non-overlapping boxes of samples, each with a way of ending (memory, printed text, or the panic): with samples in the box the shot ends in that way. For every set of endings, the volume of its boxes, and the share of them among samples that are multiples of 2^-53, is at most the chance of that set in quantum mechanics (C60) and falls short of it by at most (1 - k) + m(2u + 2^-52), where m bounds the measurements of a shot, u is the error bound and k >= 1 - m q is the probability of runs whose results all have probability above q. For example, two entangled qubits in binary64 print 11 and 00 with shares within 1/2000 of 1/2.", "quantifier": "every arithmetic with bounded rounding (binary64 with any cosine and sine within an ulp bound among them), every program over the backend's calls, every fuel, memory, generator and set of endings", "why_tests_cant": "ranges over all programs and all sequences of samples, and compares a floating-point simulation with exact probabilities; a test can only sample one program a few times", "anchors": ["backend/src/lib.rs:73-716", "backend/src/exp.rs:16-137", "sparsesim/src/lib.rs:measure", "sparsesim/src/lib.rs:joint_measure", "sparsesim/src/lib.rs:release", "sparsesim/src/lib.rs:collapse", "sparsesim/src/lib.rs:joint_probability"]}
{"id": "C66", "title": "With rounding, what several shots print has nearly the chances of quantum mechanics", "statement": "Run a program for n shots, one after the other, with one generator of samples and one memory. With exact numbers this is the shot loop of the runner. With rounding, if every shot stays within the error bounds whatever memory it starts with, there are non-overlapping boxes of samples, each with the list of the texts the shots print (or the fact that some shot fails): with samples in a box the shots print that list. For every set of such lists, the volume of its boxes, and the share of them among samples that are multiples of 2^-53, is at most the chance of that set in quantum mechanics (C60) and falls short of it by at most n(l + m(2u + 2^-52)), where m bounds the measurements of a shot, u is the error bound and l <= m q is the probability of results of probability at most q. For example, n shots of two entangled qubits in binary64 print any given sequence of equal pairs with a share within n/2000 of 2^-n.", "quantifier": "every arithmetic with bounded rounding, every program over the backend's calls, every number of shots, fuel, memory, generator and set of lists of texts", "why_tests_cant": "ranges over all programs, all numbers of shots and all sequences of samples, and compares a floating-point simulation with exact probabilities of whole runs", "anchors": ["runner/src/lib.rs:203-227", "backend/src/lib.rs:73-716", "sparsesim/src/lib.rs:measure", "sparsesim/src/lib.rs:joint_measure"]}
{"id": "C67", "title": "Calls that take arrays and tuples do what their contents say and give their own memory back", "statement": "Controlled gates take their controls in an array; controlled rotations, exponentials and assertions take the other arguments in a tuple; exponentials, joint measurements and assertions take Paulis and qubits in arrays; assertions take their message as a string. If the arrays hold these qubits (by pointer or by number) and Paulis, the tuple these bytes in the layout of the argument structure, and the string this text, then the call has exactly the effect of the call on these values: same simulator state, result store, output, reply, failure. No object that existed is changed, no count of references moves, and every object the call makes for itself (the tuples of r__ctl, r__ctladj and exp__ctladj) has been dropped and freed when it returns. The memory determines what a call means. An allocated array of qubits holds the allocated qubits. A joint measurement with unequal numbers of Paulis and qubits fails with a message before any gate.", "quantifier": "every memory, every call of these functions, every backend state, both overflow modes", "why_tests_cant": "ranges over all memories and all backend states; leaked temporaries and changed counts are invisible to tests of results", "anchors": ["backend/src/lib.rs:79-128", "backend/src/lib.rs:303-420", "backend/src/lib.rs:517-610", "backend/src/lib.rs:746-866", "backend/src/exp.rs:36-165", "stdlib/src/tuples.rs", "stdlib/src/arrays.rs"]}
{"id": "C68", "title": "A program that uses runtime memory correctly runs as if it passed values, over all shots", "statement": "A program calls the backend with values or with pointers to arrays, tuples and strings, allocates and releases arrays of qubits, makes and drops arrays, tuples, strings and big integers, turns values into strings, invokes callables whose functions are again code of the program, has the counts of captured values updated by its own functions, prints and fails. If each call is given memory of the kind it expects, the run has no undefined behaviour, and it ends exactly as a program that keeps the memory to itself and passes only values: same globals and memory at the end, same simulator, same output, same failure. This holds for any number of shots, each starting with a new simulator and the memory the last one left, and for a module whose entry point is such a program: it runs the asked number of shots and prints one block for each with what the program prints. A value turned into a string and printed appears as a text from which it can be read back.", "quantifier": "every program, every memory, every backend state, every number of steps and shots, both overflow modes", "why_tests_cant": "ranges over all programs and all interleavings of memory and gate calls; correctness of every other claim for programs with arrays rests on it", "anchors": ["runner/src/lib.rs:230-300", "backend/src/lib.rs:79-128", "backend/src/lib.rs:303-420", "backend/src/lib.rs:946-1007", "stdlib/src/lib.rs:83-105", "stdlib/src/strings.rs", "stdlib/src/arrays.rs", "stdlib/src/tuples.rs", "stdlib/src/callables.rs:37-189"]}
{"id": "C69", "title": "Invoking a callable does its operation with all its functors and leaves no trace in memory", "statement": "If the four functions of a callable's table do an operation, its adjoint, and the two under the control of the qubits of an array, then after any sequence of Adjoint and Controlled functors callable_invoke does the operation, or the adjoint if Adjoint was applied an odd number of times, under the control of all qubits of all nested control arrays, outermost first; without Controlled it does the uncontrolled form. Afterwards every object that existed is exactly as it was, counts included, and every object made for the call has been dropped and freed; a failure of the function ends the call in the same way. For a gate on one qubit the quantum state afterwards is the matrix of the gate, or its conjugate transpose, controlled by all these qubits, applied to the state before.", "quantifier": "every operation, every layout of its arguments, every sequence of functors, every nesting and number of controls below 2^60, every memory and backend state", "why_tests_cant": "ranges over all functor sequences, nestings and memories; leaks and wrong counts of the merged control arrays are invisible in the output", "anchors": ["stdlib/src/callables.rs:37-142", "stdlib/src/arrays.rs", "stdlib/src/tuples.rs", "backend/src/lib.rs:303-328"]}
{"id": "C70", "title": "Inside a program, invoking a callable does its operation and the program goes on", "statement": "A program invokes a callable, or updates the counts of its captured values, at any point, also inside a function that was itself called in this way, to any depth. If the functions of the callable's table, each run on its own as code of the program, carry out an operation (with its adjoint and controlled forms), use memory correctly and return, then the invocation returns: the program goes on where it left off, with the backend as the operation under all functors and controls leaves it, and all memory as before; if the operation fails, the program stops with its failure and output. What other calls are waiting makes no difference, and correct use of memory after the call makes the whole correct. For gates on one qubit the quantum state afterwards is the matrix, or its conjugate transpose, controlled by all controls. An update of the counts of captured values does to memory what the program's memory function does on its own.", "quantifier": "every program, every operation, every depth of calls that have not returned, every nesting of controls below 2^60, every memory and backend state", "why_tests_cant": "ranges over all programs, all call stacks and all memories; a test sees single invocations", "anchors": ["stdlib/src/callables.rs:37-189", "runner/src/lib.rs:230-300", "backend/src/lib.rs:303-328"]}
{"id": "C71", "title": "A settled qubit keeps its value whatever the numbers are", "statement": "Whatever the arithmetic does (exact, rounding, overflowing, NaN-producing): once a qubit has been measured with result r, or has just been allocated (value 0), every basis state that get_state or dump lists later shows r at the place of that qubit, through any further calls that do not turn it: gates on other qubits, also controlled by it, diagonal gates, phases and exponentials with I or Z on it, measurements of any qubits, allocation, release of others, swaps of identifiers (which rename it), dumps; X and Y on it, which exactly invert the value. The probability of reading 1 from a qubit with value 0 is exactly zero, and measuring a settled qubit again returns the same result. The probability that joint_probability reports is the one that a measurement made next compares its sample with.", "quantifier": "every arithmetic, every hash order, every history of valid calls, every sample sequence", "why_tests_cant": "ranges over all numbers, orders and histories; a repeated measurement fails with probability 2^-52, which no test sees", "anchors": ["sparsesim/src/lib.rs:312-327", "sparsesim/src/lib.rs:367-459", "sparsesim/src/lib.rs:118-242", "sparsesim/src/exp.rs:34-203"]}
{"id": "C72", "title": "Assertions on probabilities decide correctly despite rounding", "statement": "After any valid history of calls in which rounding decides no measurement: assertmeasurementprobability on Pauli operators passes if the exact probability of the named result differs from the expected one by at most the tolerance less the margin of rounding, and stops the program with its message, printed, if it differs by more than the tolerance plus the margin; a passing assertion leaves the exact state as it was and prints nothing. qubit_is_zero answers true if the exact probability of One is below 1e-10 less the margin and false if it is above 1e-10 plus the margin. With exact numbers the margin vanishes and both are the functions of C22. In binary64 the margin is given as a formula in the number of calls, qubits and measurements. An assertion whose expected probability or tolerance is NaN passes whatever the state.", "quantifier": "every arithmetic within the stated error laws (binary64 included), every valid history, every list of Paulis and qubits, every expected probability and tolerance", "why_tests_cant": "ranges over all histories, probabilities and roundings; tests compare a few probabilities with generous tolerances", "anchors": ["backend/src/lib.rs:784-791", "backend/src/lib.rs:793-866", "sparsesim/src/lib.rs:312-365"]}
{"id": "C73", "title": "Classical programs run exactly, whatever the seed and their length", "statement": "A program that uses only X, Y, Z, S, the inverse of S and their controlled forms, with allocation, release, exchange of qubits, measurement, joint measurement, probabilities, forced measurement and listing of the state, does on the simulator what it does on bits: no call panics, every measurement gives the value of the bit or the parity of the bits, every probability is exactly zero or one, and the state listed is the one basis state with an amplitude that is exactly a power of i. This holds for every seed, every order of the hash table and any number of calls; rounding never shows. A whole shot that runs on bits ends for every seed with the same results and the same text.", "quantifier": "every arithmetic in which products of ones and right angles are exact (binary64 and the real numbers are proved to be such), every seed whose samples lie in [0,1), every program of any length", "why_tests_cant": "a test runs one circuit with one seed; the claim is for circuits of any length and for every seed and hash order", "anchors": ["sparsesim/src/lib.rs:312-408", "sparsesim/src/lib.rs:435-459", "sparsesim/src/lib.rs:634-866", "sparsesim/src/lib.rs:1297-1312", "backend/src/lib.rs:624-744"]}
{"id": "C74", "title": "What is known about qubits is true, whatever the numbers are", "statement": "Someone who sees the calls of a program and their replies can note which qubits have a known value: fresh qubits are 0, measured ones have the value read, X and Y invert it, also with controls that are known to be all 1 (with one known to be 0 no controlled gate or exponential changes anything), a swap exchanges it, other calls that turn the qubit make it unknown. Whatever the arithmetic does: a qubit known to be 0 reads 0, in particular after a reset or a measurement with reset, even if it has served as control or under diagonal gates since; a joint measurement of known qubits of which an even number is 1 reads 0 and its probability is exactly zero; every state listed shows the known values. So every shot of a program ends in one of the ways that are possible when each call is answered by what is known.", "quantifier": "every arithmetic, every hash order, every seed whose samples are not below zero, every program", "why_tests_cant": "ranges over all programs, numbers and seeds; a wrong reading after a reset would need a rare sample to show", "anchors": ["backend/src/lib.rs:624-744", "sparsesim/src/lib.rs:312-408", "sparsesim/src/lib.rs:435-459", "sparsesim/src/lib.rs:118-242"]}
{"id": "C75", "title": "An exception in the callback stops the run there and leaves nothing behind", "statement": "A run from Python passes its text to the callback piece by piece. Whatever the callback does, the pieces it gets are, in order, the beginning of the text that the same task shows on the console. It gets no piece after one for which it raises. The call returns as on the console, the whole text having been passed on if the run returns; otherwise it was stopped by the callback raising, or by text that is not UTF-8. A callback that never raises gets the whole UTF-8 text of every run that returns. Calls made later in the same process, also after calls that were stopped in this way, give the same outcome, text and generators as in any other process with the same seed or generators.", "quantifier": "every callback (any function of the texts received so far), every module, task and generator state, every history of calls that return or are stopped by their callback", "why_tests_cant": "ranges over all callbacks, programs and histories of calls; records left in the thread-local buffer by a stopped run would appear only in a later call", "anchors": ["pip/src/python.rs:36-59", "pip/src/python.rs:74-130", "runner/src/lib.rs:191-227"]}
{"id": "C76", "title": "Callbacks may call the runner if their calls have callbacks too", "statement": "A Python callback may itself call run and run_bytes, and the callbacks of those calls may do so again. As long as all of these inner calls have callbacks, they do not disturb the outer call: if it returns, its callback has got exactly the blocks (head, records, end) of the shots asked for, in order, each the output of the program in a fresh simulator with the program's memory from the shot before; nothing goes to the console and no records are left for later calls. If it panics, the callback has got the beginning of such text, and either raised for the last text or the text is not UTF-8. If the text of the program does not depend on random numbers, it is the text the console shows. Calls made while the callback is given the records panic at once and change nothing. An inner call without a callback is different: it sends the outer call's records to the console instead of its callback.", "quantifier": "every callback, every depth of calls within calls, every module, number of shots, seed and history of earlier calls", "why_tests_cant": "callbacks are arbitrary programs that call back into shared thread-local state, to any depth and at any text", "anchors": ["pip/src/python.rs:36-59", "pip/src/python.rs:75-130", "runner/src/lib.rs:191-227", "stdlib/src/output_recording.rs:19-76", "backend/src/lib.rs:43-70"]}
{"id": "C77", "title": "Every object and every block of memory is its own", "statement": "What a program stores in an array, a tuple or a block from memory_allocate is there until it is overwritten, whatever other calls are made in between: calls change only the objects they are documented to change, and of those only the counts unless they write. After any history of calls an array or tuple that is still alive holds, at each byte, what was last written there by an access through its own pointers, and otherwise what it held before; a callable has exactly the functors applied to it since; strings and big integers never change. memory_allocate returns a new block of exactly the size asked for, all zero, which no other block or object shares, which is never freed, and which keeps every byte last stored in it; sizes of 2^63 and more panic.", "quantifier": "every history of library calls, loads and stores, every state, every size, both build profiles", "why_tests_cant": "aliasing between objects shows only for particular interleavings of calls; a test can look at a few of them", "anchors": ["stdlib/src/lib.rs:31-59", "stdlib/src/lib.rs:73-81", "stdlib/src/arrays.rs:22-105", "stdlib/src/tuples.rs:10-44", "stdlib/src/callables.rs:111-142", "stdlib/src/strings.rs:13-69", "stdlib/src/bigints.rs:8-174"]}
{"id": "C78", "title": "Calls on qubits that are no longer used have no consequences", "statement": "A gate, a reset or a measurement on qubits that the program does not use any more, and whose reply makes no difference to it, does not change the chance of any way the program may end: what it prints, the memory it leaves, the error it stops with, or that it does not return in time. So such calls can be left out anywhere, in any number, also when the qubits are entangled with others. In the simulator: the samples that a shot may meet are divided into boxes that decide how it ends, and for every set of endings the boxes have the same total volume with and without those calls. The question whether a qubit is certainly zero is an exception: with it a program can tell whether the other half of an entangled pair was measured.", "quantifier": "every program over the backend's calls, every path through it, every set of endings, all amplitudes and angles", "why_tests_cant": "compares the distributions of two programs over all samples, for all programs and all entangled states; a test sees a few samples", "anchors": ["backend/src/lib.rs:73-795", "sparsesim/src/lib.rs:283-420", "sparsesim/src/lib.rs:measure", "sparsesim/src/lib.rs:joint_measure"]}
{"id": "C79", "title": "Unrelated calls can be made in either order", "statement": "Two calls - gates, resets or measurements of any kind - that have no qubit and no static result in common can be exchanged: every ending of the program has the same chance, also if what follows depends on the results of both, and also if the qubits are entangled. So it does not matter in which order the parts of an entangled state are measured, or whether a measurement is made before or after gates on other qubits. Any number of exchanges, and of omissions of calls on qubits that are no longer used, leaves the chances of all endings as they are; in the simulator, the volumes of the samples that lead to them.", "quantifier": "every program over the backend's calls, every path through it, every pair of such calls, every set of endings", "why_tests_cant": "compares the distributions of two programs over all samples, for all programs and states; single runs with the same seed differ, since the samples are used for different measurements", "anchors": ["backend/src/lib.rs:73-781", "sparsesim/src/lib.rs:283-420", "sparsesim/src/lib.rs:measure", "sparsesim/src/lib.rs:joint_measure"]}
{"id": "C80", "title": "Circuits that do the same can replace each other", "statement": "An optimiser may replace a sequence of gate calls by another that leads to the same state up to a global phase (H Z H by X, two S by Z, a controlled X by H, controlled Z and H, three controlled X by a swap, two rotations by one, Z and X by Y, a rotation by pi by the gate, X and Z pushed through controlled gates, controlled gates that pass each other, and so on). Whatever the program does before and after, measurements, branches on results, assertions and questions about qubits included, it ends in every way with the same chance as before; in the simulator the samples that lead to a set of endings have the same volume, and in binary64 the shares of samples differ by at most the rounding error.", "quantifier": "all programs, all states reached, all sequences of valid gates with the same effect up to a global phase, all tests of the ending; the named identities on all qubits and all angles", "why_tests_cant": "The sequences, the states they are applied to, the phases and the programs around them are unlimited, and equality of chances cannot be observed in finitely many runs.", "anchors": ["backend/src/lib.rs:73-781", "sparsesim/src/lib.rs:283-420", "sparsesim/src/lib.rs:measure", "sparsesim/src/lib.rs:joint_measure"]}
{"id": "C81", "title": "Measurements can be deferred", "statement": "A program that measures a qubit and makes some gates if the result is 1 can instead make the gates with the qubit as a further control and measure it afterwards (and the other way round): every ending has the same chance, whether the result is returned by the measurement or read from a static result, and whatever the program does before and after. In the simulator the samples that lead to a set of endings have the same volume; in binary64 their shares differ by at most the rounding error.", "quantifier": "every program, every state reached, every qubit measured, every sequence of gates (plain, controlled, rotations, Pauli exponentials) on other qubits, every set of endings", "why_tests_cant": "compares the distributions of two programs over all samples, for all programs, states and gates; with the same seed single runs may differ", "anchors": ["backend/src/lib.rs:73-781", "sparsesim/src/lib.rs:measure", "backend/src/result_bool.rs"]}
{"id": "C82", "title": "Result values stand for what was measured", "statement": "The result that m or measure returns is equal (result_equal) to result_get_one exactly if 1 was measured and to result_get_zero exactly if 0 was measured; result_to_string gives One and Zero accordingly; two results of a program are equal exactly if their texts are; and result_record_output prints the measured value of such a result, so two results are equal exactly if their records are.", "quantifier": "every history of calls and every two results returned in it", "why_tests_cant": "what a record prints depends on whether a static result was used anywhere before", "anchors": ["backend/src/result_bool.rs", "backend/src/lib.rs:__quantum__qis__m__body, __quantum__qis__measure__body, __quantum__rt__result_record_output"]}
