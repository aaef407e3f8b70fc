(** * Specification of the front ends: command lines, and what a user sees *)
From Coq Require Import String Ascii List NArith ZArith Reals Bool.
From Verif Require Import Cx Bits Arith ArithR IndexMap Sim SimExp SimApply Spec SpecRun SimRun Text SpecText Backend Runner SpecRunner Front.
Import ListNotations.
Local Open Scope string_scope.

(** ** Numbers
    A natural number in decimal, possibly after a plus sign. *)
Definition numeral (v : string) (n : N) : Prop :=
  exists ds, (v = ds \/ v = "+" ++ ds) /\ read_nat (list_ascii_of_string ds) = Some n.
(** Numbers of shots: at most [u32::MAX]; minus zero is zero. *)
Definition count_text (v : string) (n : N) : Prop :=
  (numeral v n /\ (n <= 4294967295)%N) \/ (n = 0%N /\ exists ds, v = "-" ++ ds /\ read_nat (list_ascii_of_string ds) = Some 0%N).
(** Seeds: at most [u64::MAX]. *)
Definition seed_text (v : string) (n : N) : Prop := numeral v n /\ (n <= 18446744073709551615)%N.

(** ** Command lines
    The parts of a request, with the text of the value. *)
Inductive part := PFile (v : string) | PEntry (v : string) | PShots (n : N) (v : string) | PSeed (n : N) (v : string).
Definition kind (p : part) : nat := match p with PFile _ => 0 | PEntry _ => 1 | PShots _ _ => 2 | PSeed _ _ => 3 end.
Definition names (p : part) : string * string :=
  match p with PFile _ => ("file", "f") | PEntry _ => ("entrypoint", "e") | PShots _ _ => ("shots", "s") | PSeed _ _ => ("rngseed", "r") end.
Definition value (p : part) : string := match p with PFile v | PEntry v | PShots _ v | PSeed _ v => v end.
Definition sound (p : part) : Prop :=
  match p with PFile v => v <> "" | PEntry v => utf8 (list_ascii_of_string v) = true | PShots n v => count_text v n | PSeed n v => seed_text v n end.
(** An argument of its own for the value must not look like an option; a lone dash does not. *)
Definition plain (v : string) : Prop := v = "-" \/ forall w, v <> "-" ++ w.
(** The five ways of writing an option: "--shots 3", "--shots=3", "-s 3", "-s=3", "-s3". *)
Inductive written (p : part) : list string -> Prop :=
| w_long : plain (value p) -> written p ["--" ++ fst (names p); value p]
| w_long_eq : written p [("--" ++ fst (names p) ++ "=" ++ value p)]
| w_short : plain (value p) -> written p ["-" ++ snd (names p); value p]
| w_short_eq : written p [("-" ++ snd (names p) ++ "=" ++ value p)]
| w_short_at : value p <> "" -> (forall w, value p <> "=" ++ w) -> written p ["-" ++ snd (names p) ++ value p].
(** Options one after the other. *)
Inductive options : list part -> list string -> Prop :=
| o_none : options [] []
| o_more : forall p ps a args, sound p -> written p a -> options ps args -> options (p :: ps) (a ++ args)%list.
(** The arguments say exactly this: every option at most once, in any order, written in any of the ways. *)
Definition amounts (args : list string) (s : settings) : Prop :=
  exists ps, options ps args /\ NoDup (map kind ps) /\
    (forall v, s_file s = Some v <-> In (PFile v) ps) /\
    (forall v, s_entry s = Some v <-> In (PEntry v) ps) /\
    (forall n, s_shots s = Some n <-> exists v, In (PShots n v) ps) /\
    (forall n, s_seed s = Some n <-> exists v, In (PSeed n v) ps).

(** A last argument of two dashes adds nothing. *)
Definition says (args : list string) (s : settings) : Prop := exists args', amounts args' s /\ (args = args' \/ args = args' ++ ["--"])%list.

(** ** What a user sees *)
Definition shown (s : seen) : text := (on_console s ++ concat (to_callback s))%list.
Definition returns (r : outcome) : Prop := match r with ROk | RErr _ => True | _ => False end.

(** What is to be run, how often and with what seed. *)
Inductive source := SFile (path : string) | SBytes (bytes : list N).
Record task := mkTask { t_source : source; t_entry : option string; t_shots : N; t_seed : option N }.
Definition or_one (n : option N) : N := match n with Some n => n | None => 1%N end.
(** The calls that ask for it: a file by its path; bytes from Python or on standard input (where there must be some). *)
Inductive asks : call -> task -> Prop :=
| a_run : forall path e n g cb, asks (CRun path e n g cb) (mkTask (SFile path) e (or_one n) g)
| a_bytes : forall bytes e n g cb, asks (CRunBytes bytes e n g cb) (mkTask (SBytes bytes) e (or_one n) g)
| a_file : forall prog args tty stdin path s, says args s -> s_file s = Some path -> path <> "-" ->
    asks (CMain (prog :: args) tty stdin) (mkTask (SFile path) (s_entry s) (or_one (s_shots s)) (s_seed s))
| a_stdin : forall prog args bytes s, says args s -> s_file s = None \/ s_file s = Some "-" -> bytes <> [] ->
    asks (CMain (prog :: args) false bytes) (mkTask (SBytes bytes) (s_entry s) (or_one (s_shots s)) (s_seed s)).
(** Where the text goes: to the callback if there is one. *)
Definition has_callback (c : call) : bool := match c with CRun _ _ _ _ cb | CRunBytes _ _ _ _ cb => cb | CMain _ _ _ => false end.
Definition in_place (c : call) (s : seen) : Prop := if has_callback c then on_console s = [] else to_callback s = [].
