# Design of the formal model of qir-runner

Everything is in Rocq/Coq 8.16.1 under `rocq/theories` (logical prefix `Verif`).
The Rust sources in `/repo` were read as text and not run.

## Shape of the development

| layer | files | content |
|---|---|---|
| numbers | `Arith.v`, `ArithR.v`, `ArithF.v`, `Binary64.v`, `Cx.v` | record of the numeric operations the simulator uses; exact instance over the reals (proofs); machine-float instance (tests only); binary64 instance (C55, C56) |
| model | `IndexMap.v`, `Sim.v`, `SimExp.v`, `SimApply.v`, `Text.v`, `Backend.v`, `BackAny.v`, `AssertAny.v`, `Heap.v`, `Memory.v`, `Captures.v`, `Strings.v`, `QubitArray.v`, `Args.v`, `Invoke.v`, `Runner.v`, `Mixed.v`, `Front.v`, `Listen.v`, `Nested.v`, `Math.v`, `DoubleText.v` | function-by-function transcription; each definition cites file and lines |
| specification | `Spec*.v`, `SimRun.v` (histories of calls) | definitions that do not mention the model's helpers (state vectors, 2x2 matrices, controlled gates, projections, line formats, ownership histories, declaration tables) |
| proofs | `*Lemmas.v`, `*Thms.v`, `Gates*.v`, `Meas.v`, `Abs.v`, `Run*.v`, `Back*.v`, ... | lemmas |
| examples | `World.v`, `*Ex.v` | concrete worlds and programs for the non-vacuity examples |
| results | `P_*.v` | only the property theorems, each with its non-vacuity example and `Print Assumptions` |

### Numbers
`Arith` is a record of operations: amplitudes, angles, probabilities, the near-zero tests, cos/sin.
The model is polymorphic in it.
The proofs use the instance `RArith tol` over the stdlib reals (amplitudes are pairs of reals).
`tol` is the near-zero threshold of `nearly_zero.rs` (1e-10 in the code).
The equations between states are exact. C55 relates them to arithmetic with rounding: `SpecRound.v` says what an operation may be wrong by, `Round*.v` bounds the distance from the exact result, and `Binary64*.v` shows that binary64 (Flocq, rounding to nearest even, num-complex's formulas) meets the bounds. Measurement and release are the subject of C56 (`SpecLedger.v`, `RoundMeas.v`, `RoundLedger.v`, `LedgerBound.v`, `Binary64Prob.v`). Both include `apply` with matrices that preserve lengths (`RoundApply.v`).
C52 (`SpecAny.v`, `Any.v`, `AnyRun.v`) holds for every instance of the record, so it covers rounding, infinities and NaNs, but says nothing about amplitudes. C71 (`SpecSettled.v`, `Settled.v`) adds that qubits that were measured or just allocated keep their value, and that X and Y invert it. C74 (`SpecKnown.v`, `Known.v`) keeps track of all known qubits at once, for whole programs.
Bookkeeping results (uniqueness of keys, ids, locations, panics) are proved for every `tol`.
Equations between state vectors are proved for `tol = 0`; the effect of `tol > 0` is the subject of C48.
The machine-float instance is only used to run the repository's own unit tests against the model.

### Simulator state
`state` is a list of (index : N, amplitude).
Hash-map iteration order is a parameter of the model: any function returning a permutation.
The random generator is a parameter: any function from generator state to sample and next state.
A Rust panic is an explicit `Panic` outcome.
The mutual recursion mcrotation -> mcx -> flush_queue -> mcrotation is unrolled: the inner calls have no controls, where mcx is x.

### Specification of the quantum state
A quantum state is a function from basis assignments (N, bit i = value of the qubit with identifier i) to complex numbers.
Unallocated qubits are 0 in every assignment of non-zero amplitude.
A gate is `ctrl ctls (gate1 U t)` with U a 2x2 matrix.
The abstraction function `abs` reads the list through the id map, applies the operation queue, then each qubit's pending H, Rx, Ry.

### Backend
`Backend.v` models the `__quantum__qis__*` and `__quantum__rt__*` functions of backend/src/lib.rs as calls on one record: simulator, result store, highest static identifier, output buffer. `ResultBool.v` has the constants and the comparison of backend/src/result_bool.rs.
A call returns a reply or an error; an error carries the output written so far (the process ends).
The text of a double is a parameter (`Doubles`), and so is the drawing of a state (`Shows`). `DoubleText.v` gives the text for binary64 (C57) and `DumpText.v` the text of a dumped state of binary64 amplitudes (C61).
`BackAny.v` is the backend again, over any arithmetic: each function is the tree of simulator calls it makes. C65_backend shows that it is `Backend.v` when the numbers are exact. The four functions whose effect depends on a computed probability or amplitude are not in it; two of them, the assertion on a probability and `qubit_is_zero`, are in `AssertAny.v` (C72).

### Memory
`Heap.v` models the reference-counted objects of stdlib: one heap of boxes with the counts of `Rc` and the alias counts kept by the library.
Freed boxes are never reused, so a use after free is visible as an error value.
Integers passed across the C interface wrap as i32 or i64 do.
`Captures.v` adds the memory functions of callables, which are parameters.
`Strings.v` adds the conversions to strings and the printing of strings, from bytes.
`Args.v` models the backend functions that take arrays, tuples or strings by pointer, reading their arguments from the heap byte by byte; `SpecArgs.v` says which call on lists such a call means.
`Invoke.v` is the invocation of a callable whose functions use the simulator as well as the memory; `SpecInvoke.v` says what it means that they do an operation.
`Mixed.v` models programs that call all of these functions, the heap being kept by the runtime, with a stack of the functions of the program that the runtime has called; `SpecCalled.v` says what it means that such a function carries out an operation; `SpecMixed.v` says when such a program uses memory correctly. C68 shows that `Runner.v` loses nothing by counting the heap as part of the program.

### Runner
`Runner.v` models runner/src/lib.rs.
A compiled program is a parameter: any step function over local state and over a memory that outlives the shot (module globals, leaked runtime memory).
A step makes one backend call, draws one random integer, traps, or ends. Execution takes fuel; running out is the separate outcome `RRunning`.
LLVM (both parsers, the passes before linking) and the file system are parameters (`Llvm`).
The table of bound functions was generated from the source and is checked against a separate table of the parameter counts of the implementations.
A run yields a list of writes tagged with their destination, since records go to standard output and frames to the given writer.

### Front ends
`Front.v` models the command line and the Python functions. clap's treatment of the four options of cli.rs is modelled from its documented rules: arguments are read from left to right, the first error, help or version decides. The Python side is the output switch, the receiver that passes text to a callback (and panics if it is not UTF-8), and the sequence of calls in one process. `Listen.v` has the callbacks that may raise: any function of the texts received so far; a raise stops the run by a panic, which Python sees as an exception (the workspace does not set panic=abort), and the process goes on (C75). `Nested.v` has callbacks that call the runner themselves: these calls share the simulator, the buffer and the output switch with the run around them, and panic while the records are written, since `OUTPUT` is borrowed then.

### Doubles
`Math.v` uses Flocq's binary64, so C45 and C46 are about real double arithmetic. The simulator in the same binary64 is the subject of C55 and C56.
`DoubleText.v` models `double_to_string` on binary64. Rust's two formats are library code and are modelled by what they document: `{:.1}` is the exact value rounded to one decimal, `{}` the shortest decimal number that reads back, the nearest of these. Reading a decimal number means rounding its exact value to the nearest double, ties to even (`SpecDouble.v`).
`DumpText.v` models the text of a dumped state: labels in decimal, amplitudes as num-complex's `Display` prints them (its source), in the plain format of doubles.
The elementary functions of math.rs are one-line calls of the Rust library and are not modelled.

### Trusted base
* Coq's kernel (and `vm_compute`, used in examples).
* Axioms: those that `Print Assumptions` prints below each theorem in `P_*.v`. They come from the stdlib only: the classical reals (`ClassicalDedekindReals.sig_forall_dec`, `ClassicalDedekindReals.sig_not_dec`), `functional_extensionality_dep`, for C45 (doubles), C46, C53, C57, C61, C64, C67, C68, C70, C71_repeat_refuted and C73 (binary64) and examples of C74 also `Classical_Prop.classic`, which Flocq's lemmas use, and for C48, C51, C55, C56, C63, C65, C66 and C72 `Classical_Prop.classic`. The examples of C52 compute with primitive floats.
* That the model matches the code: see the citation on each definition.
* Libraries used besides the stdlib: Flocq (definitions and lemmas of binary64, in the Math, Binary64, Double, Dump, Odds, Shot and String files only).
* For C55 and C56 in binary64, the hypothesis `libm_ok` on the platform's cosine and sine: finite and within 2^-50 on arguments up to 2^17, and cosine even. It is a hypothesis of the theorem, not an axiom; `ref_libm` shows that it can be met.
* Not modelled: the algorithms of cosine and sine, FxHash, StdRng's algorithm, LLVM/inkwell parsing and JIT, Python callbacks that call `main`, the wording of help and errors of the command line, the difference between a panic, an abort and exit across `extern "C"` (all end the run), allocation failure, usize overflow of identifiers.

## Plan per property

| id | modelled by | method |
|---|---|---|
| C01 | Sim, Spec | refinement: one lemma per gate that `abs` commutes with the textbook operator up to phase; induction over the call list. The full statement is false for the code when an Rx of odd multiple of pi is pending under a pending Ry; prove `_refuted` and the theorem with that case excluded |
| C02 | Sim | `abs (flush s) = abs s`, induction over the qubit list |
| C03 | Sim | invariant (ids of pending operations allocated, distinct) implies progress |
| C04-C07 | Sim | from refinement, sums over the key list |
| C08 | Sim | NoDup invariant for every threshold and iteration order |
| C09 | Sim | loop invariant of the location permutation |
| C10-C13 | Sim | refinement; C11 full statement refuted for one allocated qubit |
| C14 | Sim | refuted by witnesses (h on an unallocated id leaks into a later allocation); the part that holds is proved |
| C15, C16 | Sim | refinement, invariant |
| C17 | SimExp | mask arithmetic against tensor product of Paulis |
| C18 | SimApply | refuted for holes in the location space; proved otherwise |
| C19 | Spec, Sim | from refinement and matrix identities |
| C20-C23 | Backend | from refinement |
| C24, C25 | Backend | invariant over histories |
| C26, C27 | Backend | list lemmas over histories; C27 refuted for unwritten static result 1 |
| C28, C29 | Runner, Backend | runner as a fold over shots with explicit generator and entropy; C29 refuted for drawrandom |
| C30-C32 | Heap | counts against ownership histories; C31, C32 documented behaviour refuted |
| C33, C34 | Heap | byte-list semantics with i64 wrap-around; refuted for overflow in release builds |
| C35, C36 | Heap, QubitArray | heap model, induction over nesting |
| C37 | Heap | Z arithmetic; byte lists by induction, each byte a quotient modulo 256; 64-bit numbers fit in eight bytes, and get_data is the shortest spelling |
| C38, C39 | Text | printing/parsing inverse |
| C40-C44 | Runner | fold/decision procedures against declarative specs; C42, C43 documented behaviour refuted |
| C45, C46 | Math | Z and binary64 arithmetic with error bounds from Flocq; C45 refuted for unordered or infinite bounds, C46 at ties and for large quotients |
| C47 | IndexMap | refinement to partial functions |
| C48 | Sim | each call is a contraction composed with a bounded number of truncating steps, each moving the vector by at most tol*sqrt(2*2^w) (SpecNear, Near*); induction over the calls. With `apply` and measurements: exact reals with the threshold are a rounding arithmetic without rounding (SpecRoundR, RoundR), so C55 and C56 apply. False near the `rx`(odd pi) defect (C48_refuted) |
| C49 | Backend | invariant over histories of legal calls: no abort |
| C50 | Heap | strings as byte lists |
| C51 | Sim | contraction invariant over apply-free histories |
| C52 | Sim, SimExp, SimApply | invariant over histories (keys unique and in range, pending gates on allocated qubits, locations injective) that uses no law of arithmetic |
| C53 | Math | the tests stated by comparisons only; sqrt by Flocq's Bsqrt_correct and optimality of rounding to nearest |
| C54 | Backend, Runner | an ideal machine (`SpecIdeal.v`: state vector, results, text, samples) with its own runs of programs; a relation between the backend and the machine kept by every call (`Ideal.v`), then induction on the steps of the program |
| C55 | Sim, SimExp, SimApply in any rounding arithmetic, Binary64 | as C48: each call is a contraction composed with a bounded number of steps that truncate or round, each moving the vector by at most (thr + 32 dlt) sqrt(2*2^w); induction over the calls; then the laws for binary64 from Flocq's error bounds |
| C56 | Sim, SimExp, SimApply in any rounding arithmetic, Binary64 | a ledger of two numbers is carried along: the distance of the computed vector from a multiple of the exact one, and how far that multiple's squared modulus is from 1. A projection on an outcome of probability q divides both by about q. The computed probability is within `prob_err` of the exact one, so a sample farther away gives the same outcome. Induction over the calls; then a closed form for outcomes of probability at least p, and the laws of probabilities for binary64 |
| C57 | DoubleText, Text | the numbers that read as a double are those between the midpoints to its neighbours (Flocq's rounding to nearest even), which the search tests exactly; reading back the digits; then C39 for the records |
| C58 | Front, Runner | induction over the shots: two processes with the same generators and empty buffers show the same text whatever the switch; UTF-8 can be cut at ASCII characters, so the pieces of a valid text are valid; the buffer is empty after every call that returns |
| C59 | Front | an independent grammar of command lines (`SpecFront.v`); the reader accepts exactly its sentences, induction over the arguments |
| C60 | Backend, Runner | a semantics without samples (`SpecChance.v`: unnormalised vectors, one branch per result); for each call the boxes of samples that lead to each branch, by the identity that projections split the squared length; boxes of successive calls are concatenated, induction on the steps of the program; then C54 |
| C61 | DumpText, Any, Binary64 | reading is a relation on texts (`SpecDump.v`), shown to hold of the printed text and to be functional by the characters that can occur in numbers; after a dump nothing is pending and qubits and entries are in order, so every further query leaves the simulator as it is, in any arithmetic; accuracy from C55 |
| C62 | Heap, Captures | contents of a spliced list, position by position; the callable's record is followed through functors (C35) and copies (C31) |
| C63 | Sim, SimExp (any rounding arithmetic) | boxes of samples that keep a distance t from the exact probability of each measurement (`SpecOdds.v`); C56's ledger decides every result in a box, induction over the plan; volumes and weights by multiplying out factors that differ by at most 2t |
| C64 | Heap, Strings | the check and the decoder against the encoding table (case analysis on the lead byte, arithmetic in base 64); escapes read back (C38); an invariant of all memory calls for NUL |
| C65 | BackAny (backend over any arithmetic), Sim | the backend's calls as trees of simulator calls, equal to Backend.v with exact numbers; a shot's tree is a plan of C63; the boxes of C63 carry the endings of the shot; the weights of the exact tree are compared with the chances of C60 through the volume of the samples with a given ending, which is the same for every way to divide the samples into boxes (finer and finer grids) |
| C66 | BackAny (`shots`: the shot loop over any arithmetic) | the boxes of one shot are followed by boxes for the rest, since a shot in a box draws one sample for each side of it; two weightings that are close on all sets of endings are close in the mean of every function between 0 and 1 (cut it into levels), so the errors of the shots add up; with exact numbers the loop is that of Runner |
| C67 | Args, QubitArray | each load is computed from the layout; loops over elements by induction; the temporaries of a call are the cells after the old heap, and each is dropped by its last reference; with the memory read, the call is the one of Backend |
| C68 | Mixed, Args, QubitArray, Strings, Runner | the step of the Runner program reads the memory and issues the call on values; simulation by induction on the fuel, case by case with C67; shots and modules through the theorems of Runner; strings made and printed by C64 |
| C69 | Invoke, Heap, Args | the memory before the call (invariant of the merging of controls, C35), the function called by hypothesis, the clean-up computed; functors by C35; gates by C20 |
| C70 | Mixed, Invoke, Captures | a run above other calls that have not returned is the run on its own with the stack below it (induction on the fuel, for running and for correct use of memory); runs have one end; then the two halves of `callable_invoke` as in C69 |
| C71 | Sim, SimExp, SimApply | invariant over calls that spare the qubit (nothing pending on it, what the queued operations make of every key has its bit), using no law of arithmetic; the result 1 followed by 0 computed in binary64 |
| C72 | AssertAny, BackAny | the assertion is a known list of simulator calls around one comparison; C56 for the history followed by these calls; the calls turn the exact vector and turn it back; the exact vector has length one, so that the compared numbers are small; the comparison in binary64 by Flocq's error of subtraction |
| C73 | Sim, BackAny | invariant: the state is one entry whose key, after the queued operations, holds the bits and whose amplitude is a turned one; nothing else is ever queued; one call on the simulator is one step on bits; trees of calls by induction; binary64 by cases on the four turned ones and the signs of zero |
| C74 | Sim, SimExp, SimApply, BackAny | the invariant of C71 for every known qubit together with that of C52; parity of several known qubits from their bits; trees of calls by induction |
| C75 | Listen, Front, Runner | induction over the shots, the writes of a shot one by one; a part that is not UTF-8 lies between ASCII characters, so the whole is not UTF-8; the buffer is empty after every call that returns or panics in its callback |
| C76 | Nested, Listen, Front | a callback is a tree of calls and replies; calls within calls up to any depth; invariant by induction on the depth: after calls with callbacks the buffer is empty, the switch off and the console untouched; induction over the shots. Without inner callbacks it is false (`C76_console`) |
| C77 | Memory, Heap | memory_allocate beside the objects; one lemma per call on what it does to the cell of any object (nothing unless named; the value only by writes), then induction over the history; the last write that reached a byte counts |
| C78 | Backend, SpecChance | operators that act on some qubits only form an algebra, and commute with those on other qubits; an ordinary call is a family of such operators whose squared lengths add up, so summing over the family gives back every chance, by induction on the rest of the run; the trimmed program by induction on the comparison, the simulator through C60 |
| C79 | Backend, SpecChance | each call is a list of replies, results and operators that does not depend on the path; operators on different qubits commute (as for C78), the notes of different results commute, and the double sum over both lists can be exchanged; paths of chance zero between the two calls have only descendants of chance zero; then induction on the congruence, the simulator through C60, binary64 through C65 |
| C80 | Backend, SpecChance | the operators of gates, projections and removals are linear, and lengths do not see a phase of length one, so by induction on the steps a program ends alike from two states that differ by a phase; gates keep lengths, so a circuit is run through without branching; then induction on the congruence, the simulator through C60, binary64 through C65; for several shots by induction on their number, where equal chances of all tests give equal averages of all functions of the ending; the identities by 2x2 matrices and by cases on the bits of the assignment |
| C81 | Backend, SpecChance | an operator on other qubits commutes with the projection on the result, and the controlled operator followed by the projection is the operator after the projection on 1 and nothing on 0; so both orders lead to the same two paths; the rest through the congruence of C80 |
| C82 | ResultBool, Backend, Strings | cases on the calls for the values a result can have; the outcome through the theorems of C21 and C26; records through C27; false with static results in the same program, with a witness that is wrong whichever value is measured |

This table is revised as results come in; `MANIFEST.json` has the status of each property.
