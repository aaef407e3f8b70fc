(** * Specification of the runner: shots in fresh processes, framing of the output, supported declarations *)
From Coq Require Import String Ascii List NArith ZArith Reals Bool.
From Verif Require Import Cx Bits Arith ArithR IndexMap Sim SimExp SimApply Spec SpecRun SimRun Text Backend Runner.
Import ListNotations.

Section SpecRunner.
Context {T : Tol} {EN : Env} {D : Doubles} {SW : Shows} {RN : Rand}.

(** What arrives at the caller's writer, at standard output, and at a terminal that is both. *)
Definition is_writer (e : event) : bool := match fst e with ToWriter => true | ToStdout => false end.
Definition at_writer (evs : list event) : text := concat (map snd (filter is_writer evs)).
Definition at_stdout (evs : list event) : text := concat (map snd (filter (fun e => negb (is_writer e)) evs)).
Definition at_both (evs : list event) : text := concat (map snd evs).

(** Lines of tab-separated fields. *)
Fixpoint fields (l : list text) : text := match l with [] => [] | [w] => w | w :: l' => w ++ [TAB] ++ fields l' end.
Definition line (l : list text) : text := fields l ++ [NL].
Definition preamble (attrs : list (string * string)) : text :=
  line [lit "START"] ++
  concat (map (fun a => line (lit "METADATA" :: lit (fst a) :: match lit (snd a) with [] => [] | v => [v] end)) attrs).
(** The block of one shot. *)
Definition block (attrs : list (string * string)) (records : text) : text :=
  preamble attrs ++ records ++ line [lit "END"; lit "0"].

(** The generators and the buffer of a process. *)
Definition pgen (p : proc) : gen := rng (bsim (wback (pworld p))).
Definition ptgen (p : proc) : tgen := wtgen (pworld p).
Definition pbuffer (p : proc) : text := bout (wback (pworld p)).

(** One shot of a program in a process that has just started: a new simulator, no results, no output;
    only the two generators and the memory of the program come from outside and go on. *)
Definition fresh_run (f : func) (fuel : nat) (m : pmem (fprog f)) (g : gen) (t : tgen) : prun (pmem (fprog f)) :=
  run_from (fprog f) fuel (pstart (fprog f) m) (mkWorld (back_default g) t).
Inductive shots_of (f : func) (fuel : nat) : nat -> pmem (fprog f) -> gen -> tgen -> list text -> pmem (fprog f) -> gen -> tgen -> Prop :=
| shots_none : forall m g t, shots_of f fuel 0 m g t [] m g t
| shots_more : forall n m g t m1 w recs m' g' t',
    fresh_run f fuel m g t = PDone m1 w ->
    shots_of f fuel n m1 (rng (bsim (wback w))) (wtgen w) recs m' g' t' ->
    shots_of f fuel (S n) m g t (bout (wback w) :: recs) m' g' t'.

(** The program never asks for [drawrandomint]; nothing of it survives a shot. *)
Definition draws_nothing (p : program) : Prop := forall l lo hi k, pstep p l <> ARandom lo hi k.
Definition keeps_nothing (p : program) : Prop := forall m m' : pmem p, m = m'.

(** Shots each of which is the run of the program alone in a new process, whatever the generator of the thread:
    its output depends on nothing but the generator it starts with. *)
Inductive alone (f : func) (fuel : nat) : gen -> list text -> gen -> Prop :=
| alone_none : forall g, alone f fuel g [] g
| alone_more : forall g r g1 recs g',
    (forall m t, exists m1 w, fresh_run f fuel m g t = PDone m1 w /\ bout (wback w) = r /\ rng (bsim (wback w)) = g1) ->
    alone f fuel g1 recs g' -> alone f fuel g (r :: recs) g'.
(** How the records of complete shots arrive: on standard output while the shot runs, so that a terminal sees the blocks but another
    writer sees empty ones; or in the blocks. *)
Definition arrives (std : bool) (attrs : list (string * string)) (recs : list text) (evs : list event) : Prop :=
  at_both evs = concat (map (block attrs) recs) /\
  at_writer evs = concat (map (block attrs) (if std then map (fun _ => []) recs else recs)) /\
  at_stdout evs = if std then concat recs else [].

(** Entry points that match a request. *)
Definition carries (k : string) (f : func) : Prop := exists v, In (k, v) (fattrs f).
Definition wanted (name : option string) (f : func) : Prop :=
  (carries "entry_point" f \/ carries "EntryPoint" f) /\ (forall n, name = Some n -> fname f = n).
Definition only_one (P : func -> Prop) (fs : list func) (f : func) : Prop :=
  exists l1 l2, fs = l1 ++ f :: l2 /\ P f /\ (forall x, In x (l1 ++ l2) -> ~ P x).
Definition several (P : func -> Prop) (fs : list func) : Prop :=
  exists l1 f l2 f' l3, fs = l1 ++ f :: l2 ++ f' :: l3 /\ P f /\ P f'.

(** ** The functions of the runtime and their number of parameters
    Read from the signatures of the [extern "C"] functions in stdlib/src and backend/src (those made by macros included);
    __quantum__qis__m__body stands for __quantum__qis__mz__body when it has two parameters (runner/src/lib.rs:518-538). *)
Local Open Scope string_scope.
Definition implementations : list (string * nat) := [
  ("__quantum__qis__arccos__body", 1); ("__quantum__qis__arcsin__body", 1); ("__quantum__qis__arctan2__body", 2);
  ("__quantum__qis__arctan__body", 1); ("__quantum__qis__assertmeasurementprobability__body", 6);
  ("__quantum__qis__assertmeasurementprobability__ctl", 2); ("__quantum__qis__barrier__body", 0);
  ("__quantum__qis__ccx__body", 3); ("__quantum__qis__cnot__body", 2); ("__quantum__qis__cos__body", 1);
  ("__quantum__qis__cosh__body", 1); ("__quantum__qis__cx__body", 2); ("__quantum__qis__cy__body", 2);
  ("__quantum__qis__cz__body", 2); ("__quantum__qis__drawrandomdouble__body", 2);
  ("__quantum__qis__drawrandomint__body", 2); ("__quantum__qis__dumpmachine__body", 1);
  ("__quantum__qis__exp__adj", 3); ("__quantum__qis__exp__body", 3); ("__quantum__qis__exp__ctl", 2);
  ("__quantum__qis__exp__ctladj", 2); ("__quantum__qis__h__body", 1); ("__quantum__qis__h__ctl", 2);
  ("__quantum__qis__ieeeremainder__body", 2); ("__quantum__qis__infinity__body", 0);
  ("__quantum__qis__isinf__body", 1); ("__quantum__qis__isnan__body", 1);
  ("__quantum__qis__isnegativeinfinity__body", 1); ("__quantum__qis__log__body", 1); ("__quantum__qis__m__body", 1);
  ("__quantum__qis__measure__body", 2); ("__quantum__qis__mresetz__body", 2); ("__quantum__qis__mz__body", 2);
  ("__quantum__qis__nan__body", 0); ("__quantum__qis__r__adj", 3); ("__quantum__qis__r__body", 3);
  ("__quantum__qis__r__ctl", 2); ("__quantum__qis__r__ctladj", 2); ("__quantum__qis__read_result__body", 1);
  ("__quantum__qis__reset__body", 1); ("__quantum__qis__rx__body", 2); ("__quantum__qis__rx__ctl", 2);
  ("__quantum__qis__rxx__body", 3); ("__quantum__qis__ry__body", 2); ("__quantum__qis__ry__ctl", 2);
  ("__quantum__qis__ryy__body", 3); ("__quantum__qis__rz__body", 2); ("__quantum__qis__rz__ctl", 2);
  ("__quantum__qis__rzz__body", 3); ("__quantum__qis__s__adj", 1); ("__quantum__qis__s__body", 1);
  ("__quantum__qis__s__ctl", 2); ("__quantum__qis__s__ctladj", 2); ("__quantum__qis__sin__body", 1);
  ("__quantum__qis__sinh__body", 1); ("__quantum__qis__sqrt__body", 1); ("__quantum__qis__swap__body", 2);
  ("__quantum__qis__sx__body", 1); ("__quantum__qis__t__adj", 1); ("__quantum__qis__t__body", 1);
  ("__quantum__qis__t__ctl", 2); ("__quantum__qis__t__ctladj", 2); ("__quantum__qis__tan__body", 1);
  ("__quantum__qis__tanh__body", 1); ("__quantum__qis__x__body", 1); ("__quantum__qis__x__ctl", 2);
  ("__quantum__qis__y__body", 1); ("__quantum__qis__y__ctl", 2); ("__quantum__qis__z__body", 1);
  ("__quantum__qis__z__ctl", 2); ("__quantum__rt__array_concatenate", 2); ("__quantum__rt__array_copy", 2);
  ("__quantum__rt__array_create_1d", 2); ("__quantum__rt__array_get_element_ptr_1d", 2);
  ("__quantum__rt__array_get_size_1d", 1); ("__quantum__rt__array_record_output", 2);
  ("__quantum__rt__array_update_alias_count", 2); ("__quantum__rt__array_update_reference_count", 2);
  ("__quantum__rt__bigint_add", 2); ("__quantum__rt__bigint_bitand", 2); ("__quantum__rt__bigint_bitnot", 1);
  ("__quantum__rt__bigint_bitor", 2); ("__quantum__rt__bigint_bitxor", 2); ("__quantum__rt__bigint_create_array", 2);
  ("__quantum__rt__bigint_create_i64", 1); ("__quantum__rt__bigint_divide", 2); ("__quantum__rt__bigint_equal", 2);
  ("__quantum__rt__bigint_get_data", 1); ("__quantum__rt__bigint_get_length", 1);
  ("__quantum__rt__bigint_greater", 2); ("__quantum__rt__bigint_greater_eq", 2); ("__quantum__rt__bigint_modulus", 2);
  ("__quantum__rt__bigint_multiply", 2); ("__quantum__rt__bigint_negate", 1); ("__quantum__rt__bigint_power", 2);
  ("__quantum__rt__bigint_shiftleft", 2); ("__quantum__rt__bigint_shiftright", 2);
  ("__quantum__rt__bigint_subtract", 2); ("__quantum__rt__bigint_to_string", 1);
  ("__quantum__rt__bigint_update_reference_count", 2); ("__quantum__rt__bool_record_output", 2);
  ("__quantum__rt__bool_to_string", 1); ("__quantum__rt__callable_copy", 2); ("__quantum__rt__callable_create", 3);
  ("__quantum__rt__callable_invoke", 3); ("__quantum__rt__callable_make_adjoint", 1);
  ("__quantum__rt__callable_make_controlled", 1); ("__quantum__rt__callable_update_alias_count", 2);
  ("__quantum__rt__callable_update_reference_count", 2); ("__quantum__rt__capture_update_alias_count", 2);
  ("__quantum__rt__capture_update_reference_count", 2); ("__quantum__rt__double_record_output", 2);
  ("__quantum__rt__double_to_string", 1); ("__quantum__rt__fail", 1); ("__quantum__rt__initialize", 1);
  ("__quantum__rt__int_record_output", 2); ("__quantum__rt__int_to_string", 1); ("__quantum__rt__memory_allocate", 1);
  ("__quantum__rt__message", 1); ("__quantum__rt__message_record_output", 1); ("__quantum__rt__pauli_to_string", 1);
  ("__quantum__rt__qubit_allocate", 0); ("__quantum__rt__qubit_allocate_array", 1);
  ("__quantum__rt__qubit_release", 1); ("__quantum__rt__qubit_release_array", 1);
  ("__quantum__rt__qubit_to_string", 1); ("__quantum__rt__read_result", 1); ("__quantum__rt__result_equal", 2);
  ("__quantum__rt__result_get_one", 0); ("__quantum__rt__result_get_zero", 0);
  ("__quantum__rt__result_record_output", 2); ("__quantum__rt__result_to_string", 1);
  ("__quantum__rt__result_update_reference_count", 2); ("__quantum__rt__string_concatenate", 2);
  ("__quantum__rt__string_create", 1); ("__quantum__rt__string_equal", 2); ("__quantum__rt__string_get_data", 1);
  ("__quantum__rt__string_get_length", 1); ("__quantum__rt__string_update_reference_count", 2);
  ("__quantum__rt__tuple_copy", 2); ("__quantum__rt__tuple_create", 1); ("__quantum__rt__tuple_record_output", 2);
  ("__quantum__rt__tuple_update_alias_count", 2); ("__quantum__rt__tuple_update_reference_count", 2);
  ("__quantum__rt__write_result", 2); ("quantum__rt__array_slice_1d", 2); ("quantum__rt__range_to_string", 1);
  ("__quantum__qis__m__body", 2)].
(** The functions without labels: stdlib/src/output_recording.rs:173-229, backend/src/lib.rs:868-899. *)
Definition legacy_implementations : list (string * nat) := [
  ("__quantum__rt__array_end_record_output", 0); ("__quantum__rt__array_record_output", 1);
  ("__quantum__rt__array_start_record_output", 0); ("__quantum__rt__bool_record_output", 1);
  ("__quantum__rt__double_record_output", 1); ("__quantum__rt__int_record_output", 1);
  ("__quantum__rt__result_record_output", 1); ("__quantum__rt__tuple_end_record_output", 0);
  ("__quantum__rt__tuple_record_output", 1); ("__quantum__rt__tuple_start_record_output", 0)].
(** The names of runner/README.md. *)
Definition documented : list string := [
  "__quantum__qis__arccos__body"; "__quantum__qis__arcsin__body"; "__quantum__qis__arctan2__body";
  "__quantum__qis__arctan__body"; "__quantum__qis__assertmeasurementprobability__body";
  "__quantum__qis__assertmeasurementprobability__ctl"; "__quantum__qis__barrier__body"; "__quantum__qis__ccx__body";
  "__quantum__qis__cnot__body"; "__quantum__qis__cos__body"; "__quantum__qis__cosh__body"; "__quantum__qis__cx__body";
  "__quantum__qis__cy__body"; "__quantum__qis__cz__body"; "__quantum__qis__drawrandomdouble__body";
  "__quantum__qis__drawrandomint__body"; "__quantum__qis__dumpmachine__body"; "__quantum__qis__exp__adj";
  "__quantum__qis__exp__body"; "__quantum__qis__exp__ctl"; "__quantum__qis__exp__ctladj"; "__quantum__qis__h__body";
  "__quantum__qis__h__ctl"; "__quantum__qis__ieeeremainder__body"; "__quantum__qis__infinity__body";
  "__quantum__qis__isinf__body"; "__quantum__qis__isnan__body"; "__quantum__qis__isnegativeinfinity__body";
  "__quantum__qis__log__body"; "__quantum__qis__m__body"; "__quantum__qis__measure__body";
  "__quantum__qis__mresetz__body"; "__quantum__qis__mz__body"; "__quantum__qis__nan__body"; "__quantum__qis__r__adj";
  "__quantum__qis__r__body"; "__quantum__qis__r__ctl"; "__quantum__qis__r__ctladj";
  "__quantum__qis__read_result__body"; "__quantum__qis__reset__body"; "__quantum__qis__rx__body";
  "__quantum__qis__rx__ctl"; "__quantum__qis__rxx__body"; "__quantum__qis__ry__body"; "__quantum__qis__ry__ctl";
  "__quantum__qis__ryy__body"; "__quantum__qis__rz__body"; "__quantum__qis__rz__ctl"; "__quantum__qis__rzz__body";
  "__quantum__qis__s__adj"; "__quantum__qis__s__body"; "__quantum__qis__s__ctl"; "__quantum__qis__s__ctladj";
  "__quantum__qis__sin__body"; "__quantum__qis__sinh__body"; "__quantum__qis__sqrt__body";
  "__quantum__qis__swap__body"; "__quantum__qis__sx__body"; "__quantum__qis__t__adj"; "__quantum__qis__t__body";
  "__quantum__qis__t__ctl"; "__quantum__qis__t__ctladj"; "__quantum__qis__tan__body"; "__quantum__qis__tanh__body";
  "__quantum__qis__x__body"; "__quantum__qis__x__ctl"; "__quantum__qis__y__body"; "__quantum__qis__y__ctl";
  "__quantum__qis__z__body"; "__quantum__qis__z__ctl"; "__quantum__rt__array_concatenate";
  "__quantum__rt__array_copy"; "__quantum__rt__array_create_1d"; "__quantum__rt__array_get_element_ptr_1d";
  "__quantum__rt__array_get_size_1d"; "__quantum__rt__array_record_output"; "__quantum__rt__array_update_alias_count";
  "__quantum__rt__array_update_reference_count"; "__quantum__rt__bigint_add"; "__quantum__rt__bigint_bitand";
  "__quantum__rt__bigint_bitnot"; "__quantum__rt__bigint_bitor"; "__quantum__rt__bigint_bitxor";
  "__quantum__rt__bigint_create_array"; "__quantum__rt__bigint_create_i64"; "__quantum__rt__bigint_divide";
  "__quantum__rt__bigint_equal"; "__quantum__rt__bigint_get_data"; "__quantum__rt__bigint_get_length";
  "__quantum__rt__bigint_greater"; "__quantum__rt__bigint_greater_eq"; "__quantum__rt__bigint_modulus";
  "__quantum__rt__bigint_multiply"; "__quantum__rt__bigint_negate"; "__quantum__rt__bigint_power";
  "__quantum__rt__bigint_shiftleft"; "__quantum__rt__bigint_shiftright"; "__quantum__rt__bigint_subtract";
  "__quantum__rt__bigint_to_string"; "__quantum__rt__bigint_update_reference_count";
  "__quantum__rt__bool_record_output"; "__quantum__rt__bool_to_string"; "__quantum__rt__callable_copy";
  "__quantum__rt__callable_create"; "__quantum__rt__callable_invoke"; "__quantum__rt__callable_make_adjoint";
  "__quantum__rt__callable_make_controlled"; "__quantum__rt__callable_update_alias_count";
  "__quantum__rt__callable_update_reference_count"; "__quantum__rt__capture_update_alias_count";
  "__quantum__rt__capture_update_reference_count"; "__quantum__rt__double_record_output";
  "__quantum__rt__double_to_string"; "__quantum__rt__fail"; "__quantum__rt__int_record_output";
  "__quantum__rt__int_to_string"; "__quantum__rt__memory_allocate"; "__quantum__rt__message";
  "__quantum__rt__message_record_output"; "__quantum__rt__pauli_to_string"; "__quantum__rt__qubit_allocate";
  "__quantum__rt__qubit_allocate_array"; "__quantum__rt__qubit_release"; "__quantum__rt__qubit_release_array";
  "__quantum__rt__qubit_to_string"; "__quantum__rt__read_result"; "__quantum__rt__result_equal";
  "__quantum__rt__result_get_one"; "__quantum__rt__result_get_zero"; "__quantum__rt__result_record_output";
  "__quantum__rt__result_to_string"; "__quantum__rt__result_update_reference_count";
  "__quantum__rt__string_concatenate"; "__quantum__rt__string_create"; "__quantum__rt__string_equal";
  "__quantum__rt__string_get_data"; "__quantum__rt__string_get_length";
  "__quantum__rt__string_update_reference_count"; "__quantum__rt__tuple_copy"; "__quantum__rt__tuple_create";
  "__quantum__rt__tuple_record_output"; "__quantum__rt__tuple_update_alias_count";
  "__quantum__rt__tuple_update_reference_count"; "__quantum__rt__write_result"].

(** Where linking departs from the implementations: no test of the number of parameters; another number; never linked. *)
Definition legacy_names : list string :=
  ["__quantum__rt__array_start_record_output"; "__quantum__rt__array_end_record_output";
   "__quantum__rt__tuple_start_record_output"; "__quantum__rt__tuple_end_record_output"].
Definition either_names : list string :=
  ["__quantum__rt__bool_record_output"; "__quantum__rt__double_record_output"; "__quantum__rt__int_record_output";
   "__quantum__rt__result_record_output"].
Definition other_count : list (string * nat) :=
  [("__quantum__qis__assertmeasurementprobability__ctl", 6); ("quantum__rt__array_slice_1d", 3)].
Definition never_linked : list string := ["__quantum__rt__message_record_output"].
Definition departs : list string := legacy_names ++ either_names ++ map fst other_count ++ never_linked.
Local Close Scope string_scope.

Definition external (f : func) : Prop := fbody f = false /\ String.prefix "llvm." (fname f) = false.
(** What is accepted, for one declaration. *)
Definition accepted (n : string) (k : nat) : Prop :=
  In n legacy_names \/ In n either_names \/ In (n, k) other_count \/ (In (n, k) implementations /\ ~ In n departs).
Definition uses_legacy (f : func) : Prop := In (fname f) legacy_names \/ (In (fname f) either_names /\ fparams f = 1).
Definition uses_labels (f : func) : Prop := In (fname f) either_names /\ fparams f <> 1.
Definition mixed (fs : list func) : Prop :=
  exists f f', In f fs /\ In f' fs /\ external f /\ external f' /\ uses_legacy f /\ uses_labels f'.

(** ** Loading *)
Definition begins_with (l bytes : list N) : Prop := exists rest, bytes = l ++ rest.
Definition bitcode_magic (bytes : list N) : Prop :=
  begins_with [222; 192; 23; 11]%N bytes \/ begins_with [66; 67; 192; 222]%N bytes.
(** A path whose last component is a name with this extension. *)
Definition no_slash (s : string) : Prop := forall i, String.get i s <> Some "/"%char.
Definition has_extension (ext path : string) : Prop :=
  exists dir base, path = (dir ++ base ++ "." ++ ext)%string /\ base <> ""%string /\ no_slash base /\ no_slash ext /\
    (forall i, String.get i ext <> Some "."%char) /\ (dir = ""%string \/ exists d, dir = (d ++ "/")%string).
(** A path whose last component has no dot after its first character. *)
Definition no_extension (path : string) : Prop :=
  exists dir a base, path = (dir ++ String a base)%string /\ no_slash (String a base) /\ (forall i, String.get i base <> Some "."%char) /\
    String a base <> "."%string /\ (dir = ""%string \/ exists d, dir = (d ++ "/")%string).
End SpecRunner.
