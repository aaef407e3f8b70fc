(** * Specification of the output records: the fields of one line *)
From Coq Require Import String Ascii List NArith ZArith Bool.
From Verif Require Import Text SpecText.
Import ListNotations.

Section SpecOutput.
Context {D : Doubles}.

(** What is assumed of Rust's text of doubles: digits, point, sign, inf, NaN; never the text of an integer. *)
Definition double_char (c : ascii) : bool :=
  existsb (Ascii.eqb c) (list_ascii_of_string "0123456789.-infNa").
Definition doubles_ok : Prop :=
  forall d, forallb double_char (double_to_string d) = true /\ read_Z (double_to_string d) = None.

Definition tag_fields (tag : option text) : list text :=
  match tag with Some t => split TAB t | None => [] end.
Definition output_fields (ty : string) (v : text) (tag : option text) : list text :=
  [lit "OUTPUT"; lit ty; v] ++ tag_fields tag.

(** The tab-separated fields of the line that documents a record. *)
Definition documents (r : record) (fields : list text) : Prop :=
  match r with
  | RecArray n tag => exists v, read_Z v = Some n /\ fields = output_fields "ARRAY" v tag
  | RecTuple n tag => exists v, read_Z v = Some n /\ fields = output_fields "TUPLE" v tag
  | RecInt n tag => exists v, read_Z v = Some n /\ fields = output_fields "INT" v tag
  | RecBool b tag => fields = output_fields "BOOL" (lit (if b then "true" else "false")) tag
  | RecDouble d tag => fields = output_fields "DOUBLE" (double_to_string d) tag
  | RecResult b tag => fields = output_fields "RESULT" (lit (if b then "1" else "0")) tag
  | RecMessage m => exists v, read_message v = Some m /\ fields = [lit "INFO"; v]
  | LegArrayStart => fields = [lit "RESULT"; lit "ARRAY_START"]
  | LegArrayEnd => fields = [lit "RESULT"; lit "ARRAY_END"]
  | LegTupleStart => fields = [lit "RESULT"; lit "TUPLE_START"]
  | LegTupleEnd => fields = [lit "RESULT"; lit "TUPLE_END"]
  | LegInt n => exists v, read_Z v = Some n /\ fields = [lit "RESULT"; v]
  | LegBool b => fields = [lit "RESULT"; lit (if b then "true" else "false")]
  | LegDouble d => fields = [lit "RESULT"; double_to_string d]
  | LegResult b => fields = [lit "RESULT"; lit (if b then "1" else "0")]
  end.

(** The tag of a record is on one line. *)
Definition tag_ok (r : record) : Prop :=
  match r with
  | RecArray _ (Some t) | RecTuple _ (Some t) | RecInt _ (Some t) | RecBool _ (Some t)
  | RecDouble _ (Some t) | RecResult _ (Some t) => ~ In NL t
  | _ => True
  end.

(** Records with the same content: equal, doubles being compared by their text;
    the legacy format does not distinguish the results 0 and 1 from the integers. *)
Definition legacy_number (r : record) : option Z :=
  match r with LegInt n => Some n | LegResult b => Some (if b then 1 else 0)%Z | _ => None end.
Definition same_record (r r' : record) : Prop :=
  match r, r' with
  | RecDouble d tag, RecDouble d' tag' => double_to_string d = double_to_string d' /\ tag = tag'
  | LegDouble d, LegDouble d' => double_to_string d = double_to_string d'
  | _, _ => r = r' \/ (legacy_number r <> None /\ legacy_number r = legacy_number r')
  end.
End SpecOutput.
