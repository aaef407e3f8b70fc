(** * stdlib/src/strings.rs, output_recording.rs: text of values and output records *)
From Coq Require Import String Ascii List NArith ZArith DecimalString HexadecimalString Bool.
From Verif Require Import SimExp.
Import ListNotations.

(** Bytes.  [String::as_bytes] of Rust strings, all of them ASCII here except for tags. *)
(** stdlib/src/output_recording.rs:12-50, the bytes of the buffer. *)
Definition text := list ascii.
Definition lit (s : string) : text := list_ascii_of_string s.
Definition TAB : ascii := "009"%char.
Definition NL : ascii := "010"%char.

(** Rust's [Display] for [i64] and for [BigInt] (stdlib/src/strings.rs:86-88, 121-123): decimal. *)
Definition show_Z (z : Z) : text := lit (DecimalString.NilZero.string_of_int (Z.to_int z)).
(** Rust's [Display] for [bool] (strings.rs:106-108). *)
Definition show_bool (b : bool) : text := lit (if b then "true" else "false").

(** [f64] values are abstract: the test of strings.rs:91 and Rust's two formats. *)
Class Doubles := {
  dbl : Type;
  dbl_whole : dbl -> bool;        (* (input.floor() - input.ceil()).abs() < EPSILON *)
  dbl_show1 : dbl -> text;        (* format!("{input:.1}") *)
  dbl_show : dbl -> text          (* format!("{input}") *)
}.
(** strings.rs:90-98 [double_to_string]. *)
Definition double_to_string {D : Doubles} (d : dbl) : text :=
  if dbl_whole d then dbl_show1 d else dbl_show d.

(** Lower-case hexadecimal digits without leading zeros. *)
(** stdlib/src/output_recording.rs:167, through [escape_default]. *)
Definition show_hex (c : N) : text := lit (HexadecimalString.NilZero.string_of_uint (N.to_hex_uint c)).

(** Rust's [char::escape_default]. *)
(** stdlib/src/output_recording.rs:167, stdlib/src/lib.rs:101. *)
Definition escape_char (c : N) : text :=
  if N.eqb c 9 then lit "\t"
  else if N.eqb c 13 then lit "\r"
  else if N.eqb c 10 then lit "\n"
  else if (N.eqb c 39 || N.eqb c 34 || N.eqb c 92)%bool then ["\"%char; ascii_of_N c]
  else if (N.leb 32 c && N.leb c 126)%bool then [ascii_of_N c]
  else lit "\u{" ++ show_hex c ++ lit "}".
(** Rust's [str::escape_default] on the Unicode scalar values of the message. *)
(** stdlib/src/output_recording.rs:167, stdlib/src/lib.rs:101. *)
Definition escape_default (m : list N) : text := flat_map escape_char m.

(** The calls that append to the output.  Tags are the bytes of a C string, absent when the pointer is null.
    Messages are given decoded; see Strings.v for text that is not UTF-8, which panics in the code. *)
(** stdlib/src/output_recording.rs:119-232, stdlib/src/lib.rs:92-105. *)
Inductive record {D : Doubles} :=
| RecArray (n : Z) (tag : option text) | RecTuple (n : Z) (tag : option text)
| RecInt (n : Z) (tag : option text) | RecBool (b : bool) (tag : option text)
| RecDouble (d : dbl) (tag : option text) | RecResult (b : bool) (tag : option text)
| RecMessage (m : list N)
| LegArrayStart | LegArrayEnd | LegTupleStart | LegTupleEnd
| LegInt (n : Z) | LegBool (b : bool) | LegDouble (d : dbl) | LegResult (b : bool).

Section Render.
Context {D : Doubles}.

(** output_recording.rs:82-91 [record_output_str]; LINE_ENDING is that of unix (lines 12-15). *)
Definition record_output_str (v : text) : text := v ++ [NL].
(** output_recording.rs:96-113 [record_output]. *)
Definition record_output (ty : string) (v : text) (tag : option text) : text :=
  lit "OUTPUT" ++ [TAB] ++ lit ty ++ [TAB] ++ v ++
  match tag with Some t => [TAB] ++ t | None => [] end ++ [NL].

(** output_recording.rs:119-171 (ARRAY, TUPLE, INT, DOUBLE, BOOL, message), stdlib/src/lib.rs:94-105 (message),
    output_recording.rs:173-229 (legacy; its array and tuple records are [RecArray]/[RecTuple] with no tag), backend/src/lib.rs:881-899 (legacy result), 908-931 (result). *)
Definition render (r : record) : text :=
  match r with
  | RecArray n tag => record_output "ARRAY" (show_Z n) tag
  | RecTuple n tag => record_output "TUPLE" (show_Z n) tag
  | RecInt n tag => record_output "INT" (show_Z n) tag
  | RecBool b tag => record_output "BOOL" (show_bool b) tag
  | RecDouble d tag => record_output "DOUBLE" (double_to_string d) tag
  | RecResult b tag => record_output "RESULT" (show_Z (if b then 1 else 0)) tag
  | RecMessage m => record_output_str (lit "INFO" ++ [TAB] ++ escape_default m)
  | LegArrayStart => record_output_str (lit "RESULT" ++ [TAB] ++ lit "ARRAY_START")
  | LegArrayEnd => record_output_str (lit "RESULT" ++ [TAB] ++ lit "ARRAY_END")
  | LegTupleStart => record_output_str (lit "RESULT" ++ [TAB] ++ lit "TUPLE_START")
  | LegTupleEnd => record_output_str (lit "RESULT" ++ [TAB] ++ lit "TUPLE_END")
  | LegInt n => record_output_str (lit "RESULT" ++ [TAB] ++ show_Z n)
  | LegBool b => record_output_str (lit "RESULT" ++ [TAB] ++ show_bool b)
  | LegDouble d => record_output_str (lit "RESULT" ++ [TAB] ++ double_to_string d)
  | LegResult b => record_output_str (lit "RESULT" ++ [TAB] ++ lit (if b then "1" else "0"))
  end.
(** output_recording.rs:24-31, 74-76: writes append to the thread's buffer. *)
Definition write_record (out : text) (r : record) : text := out ++ render r.
Definition write_records (out : text) (rs : list record) : text := fold_left write_record rs out.
End Render.

(** range_support.rs:9-25 [range_to_string]. *)
Record range := mkRange { r_start : Z; r_step : Z; r_end : Z }.
Definition range_to_string (r : range) : text :=
  show_Z (r_start r) ++ lit ".." ++
  (if Z.eqb (r_step r) 1 then [] else show_Z (r_step r) ++ lit "..") ++ show_Z (r_end r).

(** strings.rs:111-118 [pauli_to_string]. *)
Definition pauli_to_string (p : pauli) : text :=
  lit (match p with PI_ => "PauliI" | PX_ => "PauliX" | PY_ => "PauliY" | PZ_ => "PauliZ" end).
(** backend/src/result_bool.rs:9-22, 31-47 [result_to_string]: results are pointers, One is the address 1. *)
Definition result_to_string (r : N) : text := lit (if N.eqb r 1 then "One" else "Zero").
