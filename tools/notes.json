{
 "C01": "Exact arithmetic (threshold 0), for every history. The full claim is false: a single-qubit ry over a pending rx of an odd multiple of pi turns the other way (C01_refuted). The partial theorems cover everything else and say exactly what happens there.",
 "C02": "Flushing is invisible from every reachable state. Removing an observer can change later results only through the ry defect (C02_refuted).",
 "C03": "For every threshold without matrix application; with it in exact arithmetic.",
 "C04": "Exact arithmetic, for every stream of samples.",
 "C05": "Exact arithmetic.",
 "C06": "Exact arithmetic.",
 "C07": "Exact arithmetic.",
 "C08": "For every threshold.",
 "C09": "Exact arithmetic; the listing equals the ideal state, up to one global phase, of the history with some ry angles negated, of the same history under no_odd_pi.",
 "C10": "State in exact arithmetic, locations for every threshold.",
 "C11": "False when exactly one qubit is allocated and another identifier is released (C11_refuted).",
 "C12": "Reset for every threshold; later behaviour in exact arithmetic, for later histories without the ry defect.",
 "C13": "Exact arithmetic.",
 "C14": "False for h, rx, ry on unallocated identifiers and after the release of the only qubit (C14_refuted). Otherwise a panic is certain.",
 "C15": "Exact arithmetic.",
 "C16": "The bound holds for every threshold and every history, valid or not.",
 "C17": "Exact arithmetic.",
 "C18": "False when a released qubit left a hole below (C18_refuted).",
 "C19": "Exact arithmetic, including ry in every reachable state.",
 "C20": "Exact arithmetic. Rotations about Y are false behind a pending odd multiple of pi of rx (C20_refuted), and proved otherwise (C20_y_partial).",
 "C21": "Exact arithmetic; failure on different lengths for every state and threshold.",
 "C22": "Exact arithmetic.",
 "C23": "Exact arithmetic.",
 "C24": "Identifiers for every threshold, untouched qubits in exact arithmetic.",
 "C25": "Identifiers for every threshold, states in exact arithmetic.",
 "C26": "For every threshold and every program that runs; the value stored by mz and mresetz in exact arithmetic.",
 "C27": "False for a static result 1 when no result has been written or read (C27_refuted); proved once the store is used, and for programs with dynamic results only.",
 "C28": "Proved: every shot of a run begins from a new simulator, empty result store and empty buffer, and for programs that keep nothing in module globals and draw nothing with drawrandom the records of each shot are those of running it alone from the generator state it starts with (C28_isolated_partial, C28_initialize_partial). Missing because false: module globals outlive a shot (C28_globals_refuted).",
 "C38": "Rust's decimal formatting of integers is the stdlib decimal printer; doubles are the subject of C57.",
 "C39": "Proved for tags without a newline and for any text of doubles that is never an integer; C57 has the actual text. A newline in a tag forges records, and legacy integers 0/1 print like results (C39_refuted). Unix line ending.",
 "C47": "All operations of the map, all interleavings of iteration from both ends.",
 "C49": "For every threshold. Matrix application is not an entry point of the backend.",
 "C30": "All sequences of calls that name objects they hold; counters are unbounded and freed memory is not used again in the model.",
 "C31": "Copies proved. Decreasing an alias count of zero does not fail: it frees the memory under the remaining references, for every object (C31_alias_refuted).",
 "C32": "The qubits are released and nothing else is touched (C32_release_partial). The array is not reclaimed: its memory is given back undropped with its reference left, for every size (C32_pair_refuted).",
 "C33": "Concatenation in full; slices as long as byte offsets fit in 64 bits. Without overflow checks larger ranges wrap and succeed (C33_wrap_refuted). With or without them an empty range that starts far out panics (C33_empty_refuted).",
 "C34": "Arrays whose size fits. Without overflow checks a size that does not fit wraps, and arrays of elements of size zero cannot be asked for their size (C34_size_refuted).",
 "C35": "Callables with and without controls, any nesting, any function called.",
 "C36": "For functions called that give back what they take; the invocation goes wrong only where the function does.",
 "C37": "num_bigint is modelled by Z, with its two's complement byte conversions written out. C37_create: from a 64-bit number; C37_data and C37_parse: the order of the bytes, for spellings of any length.",
 "C50": "Strings are byte sequences.",
 "C29": "Proved for programs that do not call drawrandomint (C29_seed_partial); those draw from the thread generator, which the seed does not reach (C29_draws_refuted).",
 "C40": "Output to the writer and to standard output is told apart. A failing shot is C40_abort, termination from terminating shots is C40_finishes. Failing writes are not modelled.",
 "C41": "Attributes are compared as LLVM gives them, first attribute list of the function; module preparation (LLVM passes) is a parameter.",
 "C42": "Parameters are refused if there is at least one shot, after START and METADATA were written. False in full: a return type is never refused (C42_refuted).",
 "C43": "Exact characterisation of what links; it agrees with the implemented parameter counts for every name outside the list `departs`. False in full (C43_refuted).",
 "C44": "LLVM's parsers and the file system are parameters. Paths are Unix paths without trailing slash or dots.",
 "C45": "Under the contract of rand's random_range (draws_ok, doubles_drawn_ok: assumptions on an external crate, stated as hypotheses and satisfiable). Integers in full. Doubles: false in full, bounds that are NaN, infinite or too far apart pass the check and panic (C45_doubles_refuted).",
 "C46": "On IEEE binary64 (Flocq): exact whenever both arguments are multiples of one unit 2^e, the dividend by less than 2^52; it is the IEEE remainder except halfway. False in full: halfway cases, large quotients, overflow (C46_refuted).",
 "C48": "Bound (calls+2)*(7w+4)*sqrt(2*2^w)*tol, after any apply-free history and for every tol <= 1/2; finer per-call count in C48_steps_partial; probabilities and measurement thresholds in C48_probability_partial. With matrices from the start: C48_matrices_partial, and with measurements, forced outcomes and releases C48_measured_partial. Missing: a single-qubit ry near the rx(odd pi) defect acts with its angle negated, so the full statement is false (C48_refuted, at the threshold of the code).",
 "C51": "Histories without apply; tol <= 1/2.",
 "C52": "No law of arithmetic is used (closed under the global context), so it covers the binary64 arithmetic that the real-number theorems leave out. Amplitude values are not constrained.",
 "C53": "On IEEE binary64 (Flocq); f64::sqrt is taken to be IEEE square root rounded to nearest even, as Rust documents.",
 "C54": "Exact arithmetic. Listings (capture_quantum_state, dumpmachine) show the ideal state up to one global phase; without them the outcome is determined (C54_determined). C54_teleport is an application: a teleportation program, for all angles and all samples.",
 "C55": "C55_rounding is for any arithmetic with the stated error bounds; C55_binary64 is for IEEE binary64 with the numbers filled in, assuming the platform's cosine and sine are within 2^-50 on arguments up to 2^17 and cosine is even. Histories of allocations, gates, matrices, exponentials, relabellings and queries; measurement and release are the subject of C56. Matrices are isometries given up to 10 units of rounding; that apply does not panic for want of a nonzero amplitude is part of the result. A single-qubit ry over a pending rx near an odd multiple of pi acts as its inverse (C01_refuted), which clear_of_odd_pi excludes.",
 "C56": "C56_ledger follows the errors call by call for any arithmetic with the stated error bounds; C56_bound is a closed form; C56_binary64 is for IEEE binary64 with the numbers filled in, assuming finite samples, and of cosine and sine what C55 assumes. The exact machine draws the values of the simulator's samples. A single-qubit ry over a pending rx near an odd multiple of pi is excluded by clear_of_odd_pi, as in C55; matrices as in C55.",
 "C57": "Rust's formats {} and {:.1} are library code, modelled by what they document (exact value to one decimal; shortest decimal that reads back). C57_shortest derives this description of the search from reading alone. Overflow does not occur in reading back: the value read is the double itself.",
 "C58": "Holds for runs that return and text that is UTF-8. False in full: a tag that is not UTF-8 makes the callback panic where the console prints it (C58_utf8_refuted), and a run that stops the process loses the records of its last shot when there is a callback (C58_stop_refuted). Callbacks that raise are not modelled.",
 "C59": "clap is a dependency; its rules for these four options are modelled (left to right, first error or help wins). The texts of help, version and errors are not modelled.",
 "C60": "In exact arithmetic, as C54. That the samples of the generator are independent and uniform is not modelled: the theorem says which sets of samples give which text, and how large they are.",
 "C61": "The text of complex numbers is num-complex's Display, modelled by its source; the text of doubles is that of C57 (plain format). On Windows lines end with a carriage return as well, which is not modelled. The printed list of results (Global Results) is still a parameter of the backend model.",
 "C62": "The memory functions are parameters (they are code of the program). Slots are addressed in units of eight bytes, as the library itself does; other writes to tuples are done by the program directly and not modelled.",
 "C63": "Sequences with a result of probability between 0 and p are not followed (a collapse onto such a result magnifies errors, C56); their weight is the term m p. That the samples are independent and uniform is not modelled: the theorem counts them. Calls of force_collapse are excluded by not_forced, since they choose a result without a sample.",
 "C64": "The check of UTF-8 and the decoding are those of Rust's core library, modelled from their source; the theorem compares them with the encoding table of the Unicode standard. In Backend.v messages are given decoded (RecMessage); this file is where bytes are decoded.",
 "C65": "The functions whose effect depends on a computed probability or amplitude (dumpmachine, qubit_is_zero, capture_quantum_state, assertmeasurementprobability) are not among the calls of this program model; they are in Backend.v. The factor exp(-i theta/2) of a controlled R about I is num-complex's exp, modelled as cosine and sine of the rounded -theta/2. That samples are independent and uniform is not modelled: the theorem counts them.",
 "C66": "As for C65: the four functions whose effect depends on a computed probability or amplitude are not among the calls of this program model, and samples are counted, not modelled as random. The requirement on the shots is stated for every memory a shot may start with.",
 "C67": "Angles and probabilities in memory are finite doubles taken at their exact value; infinities and NaNs are outside the model (Backend.v is over the reals). Bytes that are not a valid Pauli are undefined behaviour in the source and in the model. Theorems of other claims about calls on lists hold for calls on pointers through C67_args.",
 "C68": "Functions of the program that the runtime calls (those of callables and of captured values) run on a stack of calls that have not returned; what an invocation does is C70. Correct use is required of each call that is reached: pointers with the contents the call reads, strings that exist, no undefined memory access; failures and panics are allowed. The Runner program is given by its step function, which exists for every program; through it C28, C29, C40 to C44, C58 to C60 apply to programs with memory. C68_text and C68_message follow one value: the string made for it has a plain text from which the value is read back, and printing the string prints that text.",
 "C69": "The functions of the table are code of the program and a parameter; what they do is a hypothesis, met by the example code for gates. The tuple of results is passed on and left out. The quantum part (C69_gates) is in exact arithmetic and for gates without angles; the rest is for every arithmetic threshold.",
 "C70": "The code of the functions is part of the program; that it carries out the operation when run on its own is a hypothesis, met by the example program, for which a whole run is shown. A function that changes the globals of the module is not an operation in this sense. C70_gates is in exact arithmetic and for gates without angles.",
 "C71": "Everything but the repeated result 1 is proved for every arithmetic without axioms. Repeating a measurement is proved whenever the value is 0 (C71_repeat_partial; no sample is below zero) and refuted for the result 1 in binary64 (C71_repeat_refuted): the rounded probability can be 1 - 2^-52, and the largest samples of the generator then give 0 and leave an empty state, because measure has no guard like that of force_collapse. In exact arithmetic C05 has the full statement; with rounding, C56 covers all samples that are not within the error bound of the probability. Matrices given to apply must not have the qubit among their controls.",
 "C72": "C72_assert and C72_is_zero hold for every arithmetic that meets the error laws of C55 and C56 and the law asserts_ok of the comparison; C72_binary64_laws proves that law for binary64 and C72_binary64 fills in the numbers. The hypotheses on the history are those of C56_bound, for the history followed by the calls the assertion makes (SpecAssert.peek_a). C72_exact: with exact numbers the model is that of Backend.v. C72_nan: NaN arguments never fail. Expected probabilities above 8 in absolute value are not covered (the error of the subtraction grows with them).",
 "C73": "C73_calls is for every arithmetic that meets turns_ok (products of ones turned by right angles, their squares, scaling by one); C73_binary64_laws and C73_real_laws prove that binary64 (whatever cos and sin are) and the reals do. C73_binary64_samples: samples of the form k/2^53 lie in [0,1); that the generator gives such samples is an assumption on the rand crate. C73_shot lifts it to programs on the backend, for calls that do not list amplitudes; SpecBits.bits_shot runs the program without a simulator. In binary64 the sign of the zero part of the amplitude is left open.",
 "C74": "Proved for every arithmetic without axioms. C74_shot relates the shot (BackAny) to SpecKnown.may, which runs the program without a simulator and lets every unknown reply be anything; C74_reset, C74_mresetz and C74_mz say what reset and measurement do there. A matrix given to apply makes all its qubits and controls unknown, even if a control is known to be 0; nothing is said after a call that names unallocated or repeated qubits. That a qubit known to be 1 reads 1 is false in binary64 (C71_repeat_refuted).",
 "C75": "The callback is modelled as a function from the texts received in this call to whether it returns. A run that ends the process (RAbort) has told a beginning of the text only (C58_stop_refuted). Callbacks that call the runner themselves are the subject of C76.",
 "C76": "C76_nested, with C76_same_text for programs whose text does not depend on the generators and C76_quiet for calls made during records. C76_console: an inner call without a callback makes the outer callback lose its records, which go to the console, though both calls return. The generators that the shots start with are left open, since inner calls may draw from or reseed the simulator's generator. Not modelled: callbacks that call main.",
 "C77": "C77_frame: objects and blocks not named are exactly as before; C77_values: by kind, what the last writes left; C77_allocate, C77_block: memory_allocate. Histories in which a call panics, fails or is undefined behaviour end there. That distinct allocations do not overlap is the allocator's guarantee and part of the model (positions); what is proved is that no function of the library writes elsewhere.",
 "C78": "C78_idle: one call; C78_trims: any number of calls anywhere, replies may be looked at if what follows comes to the same; C78_shot: through C60, volumes of the simulator's samples, in exact arithmetic and for programs that are valid on every path, without listings, and away from the defect of C01_refuted (the condition careful). C78_peek: asking whether a qubit is certainly zero does notice. Calls that open qubits by naming them for the first time are not left out, since they change how many qubits there are; later assertions on probabilities and listings are excluded as the question for certainty is.",
 "C79": "C79_cross: one exchange at any point of a run; C79_alike: the congruence generated by exchanges and by the omissions of C78; C79_shot: through C60, in exact arithmetic, for programs that are valid on every path, without listings, and away from the defect of C01_refuted (the condition careful). The calls must name qubits that already exist; calls that name a qubit for the first time are not exchanged. C79_binary64: in binary64, with samples that are equally likely multiples of 2^-53, two alike programs reach every set of endings for shares of the samples that differ by at most the larger of their two errors in C65 (shown for two entangled qubits measured in either order: at most 1/2000).",
 "C80": "C80_rules: the named identities, each up to a phase of its own; C80_phase: a global phase never changes how a program may end; C80_rewritten: the congruence generated by replacements of circuits, by the exchanges of C79, the omissions of C78 and the deferred measurements of C81, where circuits need to agree only on the state at hand; C80_shot: through C60, in exact arithmetic, for programs that are valid on every path, without listings (a listing shows the phase), and away from the defect of C01_refuted (the condition careful); C80_series: the same for any number of shots, with the memory that the program carries from shot to shot, for every test of the list of printed texts; C80_module: the whole run of two modules whose entry points are rewritten into each other, through C60_module; C80_shots64: any number of shots with rounding, through C66 (errors add up); C80_binary64: through C65, with rounding, for any libm and hash order within the stated conditions (shown for an entangled pair made in two ways: shares of samples differ by at most 1/2000).",
 "C81": "C81_defer: one deferral at any point of a run, with the result as the reply of the measurement or read from a static result; C81_more: steps beyond the end make no difference (a branch that skips the gates is shorter); whole programs, the simulator and binary64 through the relation rewritten of C80_rewritten, C80_shot and C80_binary64, of which deferral is one of the rules; C81_ex shows it for a shot. The qubits must exist before (a gate of one branch only may not open a static qubit).",
 "C82": "C82_m, C82_measure: in exact arithmetic, for valid programs; C82_text: any arithmetic state the model over R reaches; C82_record_partial: for programs without static results. Missing: programs that use both kinds of results, where the statement is false (C82_record_refuted): after a static result has been used, a result value is taken for the identifier of a static result, and the other value may be printed."
}