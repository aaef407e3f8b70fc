(** * runner/src/lib.rs: loading a module, linking it, choosing the entry point, running the shots

    Not modelled: LLVM (parsing, verification, passes, code generation appear as the parameters of [Llvm]),
    failing writes to the output, errors of reading standard input, text that is not UTF-8. *)
From Coq Require Import String Ascii List NArith ZArith Reals Bool.
From Verif Require Import Cx Bits Arith ArithR IndexMap Sim SimExp SimApply Spec SpecRun SimRun Text Backend.
Import ListNotations.

(** The random generators: [StdRng::seed_from_u64] (sparsesim/src/lib.rs:104-107) and [rand::rng()], the generator of the
    thread, which no seed reaches, with [random_range(lo..=hi)] (stdlib/src/math.rs:116). *)
Class Rand {T : Tol} {EN : Env} := {
  seeded : N -> gen;
  tgen : Type;
  draw_range : Z -> Z -> tgen -> Z * tgen
}.

Section Runner.
Context {T : Tol} {EN : Env} {D : Doubles} {SW : Shows} {RN : Rand}.

(** ** Programs
    What compiled code does: it computes and calls.  [pmem] is the memory that outlives a call of the entry point (mutable globals of
    the module, and the arrays, tuples, strings of the runtime, whose functions neither output nor touch the simulator and so count
    here as computation of the program); [ploc] is everything a running call knows. *)
(** Not in the source: what the code started at runner/src/lib.rs:244-255 does next. *)
Inductive action (M L : Type) :=
| ADone (m : M)                          (* the entry point returns *)
| ACall (c : bcall) (k : breply -> L)    (* a function of the backend *)
| ARandom (lo hi : Z) (k : Z -> L)       (* drawrandomint *)
| ATrap.                                 (* a panic outside the backend, a trap *)
(** The code started at runner/src/lib.rs:244-255. *)
Record program := { pmem : Type; ploc : Type; pinit : pmem; pstart : pmem -> ploc; pstep : ploc -> action pmem ploc }.

(** What the thread holds: the backend (with the buffer of [OUTPUT]) and the thread's generator. *)
(** The thread-locals of backend/src/lib.rs:42-48 and stdlib/src/output_recording.rs:78-80; [rand::rng] at stdlib/src/math.rs. *)
Record world := mkWorld { wback : back; wtgen : tgen }.
(** How the process ends inside [run_function], runner/src/lib.rs:250. *)
Inductive stop := StopErr (e : berr) | StopTrap.
Inductive prun (M : Type) :=
| PDone (m : M) (w : world)
| PStop (e : stop) (out : text)          (* the process aborts: panics do not leave extern "C" functions *)
| PMore (out : text).                    (* still running when the fuel is used up *)
Arguments PDone {M} m w. Arguments PStop {M} e out. Arguments PMore {M} out.

(** stdlib/src/math.rs:110-117. *)
Definition draw_int (lo hi : Z) (w : world) : (Z * world) + text :=
  if (hi <? lo)%Z then inr (bout (wback w) ++ render (RecMessage (codes "Invalid Argument: minimum > maximum")))
  else let (z, t) := draw_range lo hi (wtgen w) in inl (z, mkWorld (wback w) t).

Fixpoint run_from (p : program) (fuel : nat) (l : ploc p) (w : world) : prun (pmem p) :=
  match fuel with
  | O => PMore (bout (wback w))
  | S fuel' =>
    match pstep p l with
    | ADone _ _ m => PDone m w
    | ACall _ _ c k =>
      match bcall1 c (wback w) with
      | BOk r b => run_from p fuel' (k r) (mkWorld b (wtgen w))
      | BErr e o => PStop (StopErr e) o
      end
    | ARandom _ _ lo hi k =>
      match draw_int lo hi w with
      | inl (z, w') => run_from p fuel' (k z) w'
      | inr o => PStop (StopErr (EFail (codes "Invalid Argument: minimum > maximum"))) o
      end
    | ATrap _ _ => PStop StopTrap (bout (wback w))
    end
  end.

(** ** Modules, after the passes of lib.rs:301-329 *)
Record func := {
  fname : string;
  fparams : nat;                         (* number of parameters *)
  fvoid : bool;                          (* returns nothing *)
  fbody : bool;                          (* has basic blocks *)
  fattrs : list (string * string);       (* string attributes of the function *)
  fprog : program
}.
(** runner/src/lib.rs:292-299. *)
Definition has_attr (k : string) (f : func) : bool := existsb (fun a => String.eqb (fst a) k) (fattrs f).
(** lib.rs:292-299. *)
Definition is_entry_point (f : func) : bool := has_attr "entry_point" f || has_attr "EntryPoint" f.
(** lib.rs:258-274. *)
Definition choose_entry_point (fs : list func) (name : option string) : func + string :=
  match filter (fun f => is_entry_point f && match name with Some n => String.eqb (fname f) n | None => true end) fs with
  | [] => inr "No matching entry point found."%string
  | [f] => inl f
  | _ => inr "Multiple matching entry points found."%string
  end.

(** ** Linking, lib.rs:331-627 *)
Inductive binding :=
| BLegacy (n : string)                   (* legacy_output!, 369-382 *)
| BBind (n : string) (k : nat)           (* bind!, 352-367 *)
| BRecord (n : string)                   (* bind_output_record!, 384-403, and 495-516 *)
| BM (n : string).                       (* 518-538 *)
Local Open Scope string_scope.
(** lib.rs:405-605, in order. *)
Definition bindings : list binding := [
  BLegacy "__quantum__rt__array_end_record_output"; BLegacy "__quantum__rt__array_start_record_output";
  BLegacy "__quantum__rt__tuple_end_record_output"; BLegacy "__quantum__rt__tuple_start_record_output";
  BBind "__quantum__rt__initialize" 1; BBind "__quantum__qis__arccos__body" 1; BBind "__quantum__qis__arcsin__body" 1;
  BBind "__quantum__qis__arctan__body" 1; BBind "__quantum__qis__arctan2__body" 2;
  BBind "__quantum__qis__assertmeasurementprobability__body" 6;
  BBind "__quantum__qis__assertmeasurementprobability__ctl" 6; BBind "__quantum__qis__barrier__body" 0;
  BBind "__quantum__qis__ccx__body" 3; BBind "__quantum__qis__cnot__body" 2; BBind "__quantum__qis__cos__body" 1;
  BBind "__quantum__qis__cosh__body" 1; BBind "__quantum__qis__cx__body" 2; BBind "__quantum__qis__cy__body" 2;
  BBind "__quantum__qis__cz__body" 2; BBind "__quantum__qis__drawrandomdouble__body" 2;
  BBind "__quantum__qis__drawrandomint__body" 2; BBind "__quantum__qis__dumpmachine__body" 1;
  BBind "__quantum__qis__exp__body" 3; BBind "__quantum__qis__exp__adj" 3; BBind "__quantum__qis__exp__ctl" 2;
  BBind "__quantum__qis__exp__ctladj" 2; BBind "__quantum__qis__h__body" 1; BBind "__quantum__qis__h__ctl" 2;
  BBind "__quantum__qis__ieeeremainder__body" 2; BBind "__quantum__qis__infinity__body" 0;
  BBind "__quantum__qis__isinf__body" 1; BBind "__quantum__qis__isnan__body" 1;
  BBind "__quantum__qis__isnegativeinfinity__body" 1; BBind "__quantum__qis__log__body" 1;
  BBind "__quantum__qis__measure__body" 2; BBind "__quantum__qis__mresetz__body" 2;
  BBind "__quantum__qis__mz__body" 2; BBind "__quantum__qis__nan__body" 0; BBind "__quantum__qis__r__adj" 3;
  BBind "__quantum__qis__r__body" 3; BBind "__quantum__qis__r__ctl" 2; BBind "__quantum__qis__r__ctladj" 2;
  BBind "__quantum__qis__read_result__body" 1; BBind "__quantum__qis__reset__body" 1;
  BBind "__quantum__qis__rx__body" 2; BBind "__quantum__qis__rx__ctl" 2; BBind "__quantum__qis__rxx__body" 3;
  BBind "__quantum__qis__ry__body" 2; BBind "__quantum__qis__ry__ctl" 2; BBind "__quantum__qis__ryy__body" 3;
  BBind "__quantum__qis__rz__body" 2; BBind "__quantum__qis__rz__ctl" 2; BBind "__quantum__qis__rzz__body" 3;
  BBind "__quantum__qis__s__adj" 1; BBind "__quantum__qis__s__body" 1; BBind "__quantum__qis__s__ctl" 2;
  BBind "__quantum__qis__s__ctladj" 2; BBind "__quantum__qis__sx__body" 1; BBind "__quantum__qis__sin__body" 1;
  BBind "__quantum__qis__sinh__body" 1; BBind "__quantum__qis__sqrt__body" 1; BBind "__quantum__qis__swap__body" 2;
  BBind "__quantum__qis__t__adj" 1; BBind "__quantum__qis__t__body" 1; BBind "__quantum__qis__t__ctl" 2;
  BBind "__quantum__qis__t__ctladj" 2; BBind "__quantum__qis__tan__body" 1; BBind "__quantum__qis__tanh__body" 1;
  BBind "__quantum__qis__x__body" 1; BBind "__quantum__qis__x__ctl" 2; BBind "__quantum__qis__y__body" 1;
  BBind "__quantum__qis__y__ctl" 2; BBind "__quantum__qis__z__body" 1; BBind "__quantum__qis__z__ctl" 2;
  BBind "__quantum__rt__array_concatenate" 2; BBind "__quantum__rt__array_copy" 2;
  BBind "__quantum__rt__array_create_1d" 2; BBind "__quantum__rt__array_record_output" 2;
  BBind "__quantum__rt__tuple_record_output" 2; BRecord "__quantum__rt__bool_record_output";
  BRecord "__quantum__rt__double_record_output"; BRecord "__quantum__rt__int_record_output";
  BRecord "__quantum__rt__result_record_output"; BM "__quantum__qis__m__body";
  BBind "__quantum__rt__array_get_element_ptr_1d" 2; BBind "__quantum__rt__array_get_size_1d" 1;
  BBind "quantum__rt__array_slice_1d" 3; BBind "__quantum__rt__array_update_alias_count" 2;
  BBind "__quantum__rt__array_update_reference_count" 2; BBind "__quantum__rt__bigint_add" 2;
  BBind "__quantum__rt__bigint_bitand" 2; BBind "__quantum__rt__bigint_bitnot" 1;
  BBind "__quantum__rt__bigint_bitor" 2; BBind "__quantum__rt__bigint_bitxor" 2;
  BBind "__quantum__rt__bigint_create_array" 2; BBind "__quantum__rt__bigint_create_i64" 1;
  BBind "__quantum__rt__bigint_divide" 2; BBind "__quantum__rt__bigint_equal" 2;
  BBind "__quantum__rt__bigint_get_data" 1; BBind "__quantum__rt__bigint_get_length" 1;
  BBind "__quantum__rt__bigint_greater" 2; BBind "__quantum__rt__bigint_greater_eq" 2;
  BBind "__quantum__rt__bigint_modulus" 2; BBind "__quantum__rt__bigint_multiply" 2;
  BBind "__quantum__rt__bigint_negate" 1; BBind "__quantum__rt__bigint_power" 2;
  BBind "__quantum__rt__bigint_shiftleft" 2; BBind "__quantum__rt__bigint_shiftright" 2;
  BBind "__quantum__rt__bigint_subtract" 2; BBind "__quantum__rt__bigint_to_string" 1;
  BBind "__quantum__rt__bigint_update_reference_count" 2; BBind "__quantum__rt__bool_to_string" 1;
  BBind "__quantum__rt__callable_copy" 2; BBind "__quantum__rt__callable_create" 3;
  BBind "__quantum__rt__callable_invoke" 3; BBind "__quantum__rt__callable_make_adjoint" 1;
  BBind "__quantum__rt__callable_make_controlled" 1; BBind "__quantum__rt__callable_update_alias_count" 2;
  BBind "__quantum__rt__callable_update_reference_count" 2; BBind "__quantum__rt__capture_update_alias_count" 2;
  BBind "__quantum__rt__capture_update_reference_count" 2; BBind "__quantum__rt__double_to_string" 1;
  BBind "__quantum__rt__fail" 1; BBind "__quantum__rt__int_to_string" 1; BBind "__quantum__rt__memory_allocate" 1;
  BBind "__quantum__rt__message" 1; BBind "__quantum__rt__pauli_to_string" 1; BBind "__quantum__rt__qubit_allocate" 0;
  BBind "__quantum__rt__qubit_allocate_array" 1; BBind "__quantum__rt__qubit_release" 1;
  BBind "__quantum__rt__qubit_release_array" 1; BBind "__quantum__rt__qubit_to_string" 1;
  BBind "__quantum__rt__read_result" 1; BBind "__quantum__rt__result_equal" 2; BBind "quantum__rt__range_to_string" 1;
  BBind "__quantum__rt__result_get_one" 0; BBind "__quantum__rt__result_get_zero" 0;
  BBind "__quantum__rt__result_to_string" 1; BBind "__quantum__rt__result_update_reference_count" 2;
  BBind "__quantum__rt__string_concatenate" 2; BBind "__quantum__rt__string_create" 1;
  BBind "__quantum__rt__string_equal" 2; BBind "__quantum__rt__string_get_data" 1;
  BBind "__quantum__rt__string_get_length" 1; BBind "__quantum__rt__string_update_reference_count" 2;
  BBind "__quantum__rt__tuple_copy" 2; BBind "__quantum__rt__tuple_create" 1;
  BBind "__quantum__rt__tuple_update_alias_count" 2; BBind "__quantum__rt__tuple_update_reference_count" 2;
  BBind "__quantum__rt__write_result" 2].
Local Close Scope string_scope.

(** [declarations]: names are unique in a module, so removing by name is removing the entry. *)
(** runner/src/lib.rs:333-350. *)
Definition decl := (string * nat)%type.
Definition find_decl (n : string) (ds : list decl) : option nat :=
  option_map snd (find (fun d => String.eqb (fst d) n) ds).
Definition remove_decl (n : string) (ds : list decl) : list decl := filter (fun d => negb (String.eqb (fst d) n)) ds.
(** lib.rs:333-350. *)
Definition declarations (fs : list func) : list decl :=
  map (fun f => (fname f, fparams f)) (filter (fun f => negb (fbody f) && negb (String.prefix "llvm." (fname f))) fs).
Definition bind_name (b : binding) : string := match b with BLegacy n | BBind n _ | BRecord n | BM n => n end.
(** One step: [Some u] continues with [u] appended to [uses_legacy] if it is some; the remaining declarations. *)
(** runner/src/lib.rs:352-404. *)
Definition bind_step (b : binding) (ds : list decl) : option (option bool * list decl) :=
  match find_decl (bind_name b) ds with
  | None => Some (None, ds)
  | Some k =>
    match b with
    | BLegacy n => Some (Some true, remove_decl n ds)
    | BBind n c => if Nat.eqb k c then Some (None, remove_decl n ds) else None
    | BRecord n => Some (Some (Nat.eqb k 1), remove_decl n ds)
    | BM n => if Nat.eqb k 2 || Nat.eqb k 1 then Some (None, remove_decl n ds) else None
    end
  end.
(** runner/src/lib.rs:406-606. *)
Fixpoint bind_all (bs : list binding) (ds : list decl) : option (list bool * list decl) :=
  match bs with
  | [] => Some ([], ds)
  | b :: bs' =>
    match bind_step b ds with
    | None => None
    | Some (u, ds') =>
      match bind_all bs' ds' with
      | None => None
      | Some (us, rest) => Some (match u with Some v => v :: us | None => us end, rest)
      end
    end
  end.
(** The error text of a link failure (355-362, 532-535, 610, 614-625) is reduced to its kind. *)
(** runner/src/lib.rs:331-627. *)
Inductive link := Linked | Mismatched | Mixed | Unlinked (names : list string).
Definition bind_functions (fs : list func) : link :=
  match bind_all bindings (declarations fs) with
  | None => Mismatched
  | Some (us, rest) =>
    if negb (forallb (fun v => v) us || forallb negb us) then Mixed
    else match rest with [] => Linked | _ => Unlinked (map fst rest) end
  end.

(** ** Running *)
(** Where bytes go: the [output_writer] of the caller, or standard output through [OUTPUT]. *)
(** runner/src/lib.rs:192-226, stdlib/src/output_recording.rs:24-31. *)
Inductive sink := ToWriter | ToStdout.
Definition event := (sink * text)%type.
(** The state of the process: the world and [use_std_out] of [OUTPUT] (stdlib/src/output_recording.rs:19-22, 46-53). *)
Record proc := mkProc { pworld : world; pstd : bool }.
Inductive failure := FInput (m : string) | FParse (m : text) | FModule (m : text) | FLink (l : link) | FEntry (m : string) | FSignature.
Inductive outcome :=
| ROk
| RErr (f : failure)                     (* the function returns Err *)
| RAbort (e : stop)                      (* the process ends *)
| RRunning.                              (* not finished within the fuel *)

(** Not in the source: the buffer of stdlib/src/output_recording.rs replaced. *)
Definition with_wout (w : world) (o : text) : world := mkWorld (with_out (wback w) o) (wtgen w).
(** Running code that records output: to standard output, the buffer being left alone, or to the buffer
    (output_recording.rs:24-40). *)
Definition run_code (p : program) (fuel : nat) (m : pmem p) (std : bool) (w : world) : list event * prun (pmem p) :=
  if std then
    match run_from p fuel (pstart p m) (with_wout w []) with
    | PDone m' w' => ([(ToStdout, bout (wback w'))], PDone m' (with_wout w' (bout (wback w))))
    | PStop e o => ([(ToStdout, o)], PStop e o)
    | PMore o => ([(ToStdout, o)], PMore o)
    end
  else ([], run_from p fuel (pstart p m) w).

(** lib.rs:192-207. *)
Definition metadata (a : string * string) : text :=
  lit "METADATA" ++ [TAB] ++ lit (fst a) ++ (if String.eqb (snd a) "" then [] else [TAB] ++ lit (snd a)) ++ [NL].
Definition header (attrs : list (string * string)) : list event :=
  (ToWriter, lit "START" ++ [NL]) :: map (fun a => (ToWriter, metadata a)) attrs.
(** lib.rs:209, backend/src/lib.rs:60-70. *)
Definition initialize (w : world) : world :=
  mkWorld (match rt_initialize (wback w) with BOk _ b => b | BErr _ _ => wback w end) (wtgen w).

(** lib.rs:191-227, 244-256: the shots still to run, with the memory of the program. *)
Fixpoint run_shots (f : func) (fuel n : nat) (m : pmem (fprog f)) (p : proc) : list event * outcome * proc :=
  match n with
  | O => ([], ROk, p)
  | S n' =>
    let hd := header (fattrs f) in
    let w := initialize (pworld p) in
    if Nat.eqb (fparams f) 0 then
      match run_code (fprog f) fuel m (pstd p) w with
      | (ev, PDone m' w') =>
        let tl := [(ToWriter, bout (wback w')); (ToWriter, lit "END" ++ [TAB] ++ lit "0"); (ToWriter, [NL])] in
        let '(evs, r, p') := run_shots f fuel n' m' (mkProc (with_wout w' []) (pstd p)) in
        (hd ++ ev ++ tl ++ evs, r, p')
      | (ev, PStop e o) => (hd ++ ev, RAbort e, p)
      | (ev, PMore o) => (hd ++ ev, RRunning, p)
      end
    else (hd, RErr FSignature, mkProc w (pstd p))
  end.

(** LLVM: the parsers, and verification, target set-up, passes and creation of the execution engine (lib.rs:148-168). *)
Class Llvm := {
  parse_bitcode : list N -> list func + text;
  parse_text : list N -> list func + text;
  prepare : list func -> list func + text;
  read_file : string -> list N + text
}.
Context {LL : Llvm}.

(** lib.rs:142-229. *)
Definition run_module (fs : list func) (name : option string) (fuel shots : nat) (p : proc) : list event * outcome * proc :=
  match prepare fs with
  | inr e => ([], RErr (FModule e), p)
  | inl fs =>
    match bind_functions fs with
    | Linked =>
      match choose_entry_point fs name with
      | inr e => ([], RErr (FEntry e), p)
      | inl f => run_shots f fuel shots (pinit (fprog f)) p
      end
    | l => ([], RErr (FLink l), p)
    end
  end.

(** backend/src/lib.rs:51-57, sparsesim/src/lib.rs:104-107. *)
Definition set_rng_seed (g : N) (p : proc) : proc :=
  let b := wback (pworld p) in let s := bsim b in
  mkProc (mkWorld (with_sim b (mkSim (state s) (id_map s) (seeded g) (h_flag s) (rx_queue s) (ry_queue s) (op_queue s))) (wtgen (pworld p))) (pstd p).
Definition seed_opt (seed : option N) (p : proc) : proc := match seed with Some g => set_rng_seed g p | None => p end.

(** LLVM's [isBitcode]. *)
(** runner/src/lib.rs:137, 237 through [create_module_from_ir]; the same bytes as in 126. *)
Definition magic (bytes : list N) : bool :=
  match bytes with
  | a :: b :: c :: d :: _ =>
    (N.eqb a 222 && N.eqb b 192 && N.eqb c 23 && N.eqb d 11) || (N.eqb a 66 && N.eqb b 67 && N.eqb c 192 && N.eqb d 222)
  | _ => false
  end.
(** LLVMParseIRInContext: bitcode by its magic number, otherwise text, which must be followed by a NUL (the parser runs past the end
    without it, an outcome that has no value here). *)
(** runner/src/lib.rs:136-140, 236-238. *)
Inductive parsed := Parsed (fs : list func) | ParseErr (m : text) | PastEnd.
Definition of_sum (x : list func + text) : parsed := match x with inl fs => Parsed fs | inr e => ParseErr e end.
Definition create_module_from_ir (bytes : list N) (nul : bool) : parsed :=
  if magic bytes then of_sum (parse_bitcode bytes) else if nul then of_sum (parse_text bytes) else PastEnd.

(** lib.rs:125-126. *)
Definition is_bitcode (bytes : list N) : bool :=
  let start := firstn 4 bytes in
  if list_eq_dec N.eq_dec start [222; 192; 23; 11]%N then true
  else if list_eq_dec N.eq_dec start [66; 67; 192; 222]%N then true else false.
Inductive loaded := LRun (r : list event * outcome * proc) | LPastEnd.
(** lib.rs:105-140. *)
Definition run_bytes (bytes : list N) (name : option string) (fuel shots : nat) (seed : option N) (p : proc) : loaded :=
  let p := seed_opt seed p in
  if (length bytes <? 4) then LRun ([], RErr (FInput "byte array is too short"), p)
  else match create_module_from_ir bytes (negb (is_bitcode bytes)) with
       | Parsed fs => LRun (run_module fs name fuel shots p)
       | ParseErr e => LRun ([], RErr (FParse e), p)
       | PastEnd => LPastEnd
       end.
(** lib.rs:67-82, 90-97. *)
Definition run_input (bytes : list N) (name : option string) (fuel shots : nat) (seed : option N) (p : proc) : loaded :=
  match bytes with
  | [] => LRun ([], RErr (FInput "Input is empty"), p)
  | _ => run_bytes bytes name fuel shots seed p
  end.
Definition run_bitcode (bytes : list N) (name : option string) (fuel shots : nat) (p : proc) : loaded :=
  run_bytes bytes name fuel shots None p.

(** Rust's [Path::extension] on unix: the last component that is not empty or a single dot, unless it is two dots; what follows its
    last dot, if there is a dot that is not its first character. *)
(** runner/src/lib.rs:233. *)
Fixpoint split_at (c : ascii) (s : string) : list string :=
  match s with
  | EmptyString => [EmptyString]
  | String a s' =>
    if Ascii.eqb a c then EmptyString :: split_at c s'
    else match split_at c s' with [] => [String a EmptyString] | w :: ws => String a w :: ws end
  end.
(** runner/src/lib.rs:233. *)
Definition file_name (path : string) : option string :=
  match rev (filter (fun w => negb (String.eqb w "") && negb (String.eqb w ".")) (split_at "/" path)) with
  | [] => None
  | w :: _ => if String.eqb w ".." then None else Some w
  end.
Fixpoint after_last_dot (s : string) : option string :=
  match s with
  | EmptyString => None
  | String a s' => match after_last_dot s' with Some e => Some e | None => if Ascii.eqb a "." then Some s' else None end
  end.
Definition extension (path : string) : option string :=
  match file_name path with
  | None => None
  | Some EmptyString => None
  | Some (String _ s) => after_last_dot s
  end.
(** lib.rs:231-242; LLVM's own reading of a file adds the NUL. *)
Definition load_file (path : string) : parsed :=
  match extension path with
  | Some "ll"%string => match read_file path with inl bytes => create_module_from_ir bytes true | inr e => ParseErr e end
  | Some "bc"%string => match read_file path with inl bytes => of_sum (parse_bitcode bytes) | inr e => ParseErr e end
  | _ => ParseErr (lit "Unsupported file extension")
  end.
(** lib.rs:44-57. *)
Definition run_file (path : string) (name : option string) (fuel shots : nat) (seed : option N) (p : proc) : loaded :=
  let p := seed_opt seed p in
  match load_file path with
  | Parsed fs => LRun (run_module fs name fuel shots p)
  | ParseErr e => LRun ([], RErr (FParse e), p)
  | PastEnd => LPastEnd
  end.
End Runner.
Arguments ADone {D M L} m. Arguments ACall {D M L} c k. Arguments ARandom {D M L} lo hi k. Arguments ATrap {D M L}.
Arguments PDone {T EN RN M} m w. Arguments PStop {T EN RN M} e out. Arguments PMore {T EN RN M} out.
