(** * runner/src/cli.rs, pip/src/python.rs: the command line and the Python functions

    clap (the argument parser) is a dependency: what it does with the four options of cli.rs:20-30 is modelled here from its documented
    rules and stands in the trusted base.  Not modelled: the wording of messages, the text of the help, callbacks that raise (Listen.v), a
    failing standard output, [env::args_os] (python.rs:143-147). *)
From Coq Require Import String Ascii List NArith ZArith Reals Bool.
From Verif Require Import Cx Bits Arith ArithR IndexMap Sim SimExp SimApply Spec SpecRun SimRun Text Backend Runner.
Import ListNotations.
Local Open Scope string_scope.

(** ** Text that Rust accepts as a [str]
    [std::str::from_utf8] (python.rs:38; clap's parser of [String] values): the well-formed sequences of bytes of the Unicode standard. *)
Definition byte (lo hi : N) (c : ascii) : bool := let n := N_of_ascii c in N.leb lo n && N.leb n hi.
Definition cont := byte 128 191.
Fixpoint utf8 (t : list ascii) : bool :=
  match t with
  | [] => true
  | a :: t1 =>
    if byte 0 127 a then utf8 t1 else
    match t1 with
    | [] => false
    | b :: t2 =>
      if byte 194 223 a then cont b && utf8 t2 else
      match t2 with
      | [] => false
      | c :: t3 =>
        if byte 224 224 a then byte 160 191 b && cont c && utf8 t3
        else if byte 225 236 a || byte 238 239 a then cont b && cont c && utf8 t3
        else if byte 237 237 a then byte 128 159 b && cont c && utf8 t3 else
        match t3 with
        | [] => false
        | d :: t4 =>
          if byte 240 240 a then byte 144 191 b && cont c && cont d && utf8 t4
          else if byte 241 243 a then cont b && cont c && cont d && utf8 t4
          else if byte 244 244 a then byte 128 143 b && cont c && cont d && utf8 t4
          else false
        end
      end
    end
  end.

(** ** The options (cli.rs:20-30) *)
Inductive opt := OFile | OEntry | OShots | OSeed.
Inductive flag := FOpt (o : opt) | FHelp | FVersion.
Definition long_flag (n : string) : option flag :=
  if String.eqb n "file" then Some (FOpt OFile)
  else if String.eqb n "entrypoint" then Some (FOpt OEntry)
  else if String.eqb n "shots" then Some (FOpt OShots)
  else if String.eqb n "rngseed" then Some (FOpt OSeed)
  else if String.eqb n "help" then Some FHelp
  else if String.eqb n "version" then Some FVersion
  else None.
Definition short_flag (c : ascii) : option flag :=
  if Ascii.eqb c "f" then Some (FOpt OFile)
  else if Ascii.eqb c "e" then Some (FOpt OEntry)
  else if Ascii.eqb c "s" then Some (FOpt OShots)
  else if Ascii.eqb c "r" then Some (FOpt OSeed)
  else if Ascii.eqb c "h" then Some FHelp
  else if Ascii.eqb c "V" then Some FVersion
  else None.
Record settings := mkSettings { s_file : option string; s_entry : option string; s_shots : option N; s_seed : option N }.
Definition no_settings : settings := mkSettings None None None None.

(** Rust's [from_str_radix] (base ten) after the sign: at least one digit, no value above the limit on the way. *)
(** runner/src/cli.rs:24-28. *)
Fixpoint more_digits (lim acc : N) (v : string) : option N :=
  match v with
  | EmptyString => Some acc
  | String c v' =>
    let n := N_of_ascii c in
    if N.leb 48 n && N.leb n 57 then
      let acc' := (acc * 10 + (n - 48))%N in
      if N.leb acc' lim then more_digits lim acc' v' else None
    else None
  end.
Definition some_digits (lim : N) (v : string) : option N := match v with EmptyString => None | _ => more_digits lim 0 v end.
(** [u64::from_str]: clap's parser for [u64]. *)
(** runner/src/cli.rs:27-28. *)
Definition parse_u64 (v : string) : option N :=
  some_digits 18446744073709551615 (match v with String c v' => if Ascii.eqb c "+" then v' else v | EmptyString => v end).
(** [i64::from_str] followed by the check of the range of [u32]: clap's parser for [u32]. *)
(** runner/src/cli.rs:24-26. *)
Definition parse_u32 (v : string) : option N :=
  match v with
  | EmptyString => None
  | String c v' =>
    if Ascii.eqb c "-" then match some_digits 9223372036854775808 v' with Some 0%N => Some 0%N | _ => None end
    else match some_digits 9223372036854775807 (if Ascii.eqb c "+" then v' else v) with
         | Some n => if N.leb n 4294967295 then Some n else None
         | None => None
         end
  end.
(** A value for an option; the value parsers of cli.rs:22-29; an option may occur once (clap's [ArgAction::Set]). *)
Definition give (o : opt) (v : string) (s : settings) : option settings :=
  match o with
  | OFile => match s_file s with
             | Some _ => None
             | None => if String.eqb v "" then None else Some (mkSettings (Some v) (s_entry s) (s_shots s) (s_seed s))
             end
  | OEntry => match s_entry s with
              | Some _ => None
              | None => if utf8 (lit v) then Some (mkSettings (s_file s) (Some v) (s_shots s) (s_seed s)) else None
              end
  | OShots => match s_shots s, parse_u32 v with None, Some n => Some (mkSettings (s_file s) (s_entry s) (Some n) (s_seed s)) | _, _ => None end
  | OSeed => match s_seed s, parse_u64 v with None, Some n => Some (mkSettings (s_file s) (s_entry s) (s_shots s) (Some n)) | _, _ => None end
  end.

(** ** clap's reading of the arguments, from left to right; the name of the program has been dropped. *)
(** runner/src/cli.rs:31-46. *)
Inductive reading := AOptions (s : settings) | AHelp | AVersion | AUsage.
(** clap's [is_escape], [to_long], [to_short] (clap_lex): two dashes alone, two dashes and more, one dash and more, anything else. *)
(** runner/src/cli.rs:31-35. *)
Inductive shape := ShEscape | ShLong (l : string) | ShShort (c : ascii) (l : string) | ShOther.
Definition shape_of (a : string) : shape :=
  match a with
  | String d (String e l) =>
    if Ascii.eqb d "-" then
      if Ascii.eqb e "-" then match l with EmptyString => ShEscape | _ => ShLong l end
      else ShShort e l
    else ShOther
  | _ => ShOther
  end.
(** An argument that can be the value of the option before it: one that does not look like an option. *)
(** runner/src/cli.rs:31-35. *)
Definition can_be_value (a : string) : bool := match shape_of a with ShOther => true | _ => false end.
(** A long option and what follows its first equals sign. *)
(** runner/src/cli.rs:31-35. *)
Fixpoint at_equals (l : string) : string * option string :=
  match l with
  | EmptyString => (EmptyString, None)
  | String c l' => if Ascii.eqb c "=" then (EmptyString, Some l') else let '(n, v) := at_equals l' in (String c n, v)
  end.
(** The rest of a short option: nothing, or the value with or without an equals sign. *)
(** runner/src/cli.rs:31-35. *)
Definition attached (l : string) : option string :=
  match l with EmptyString => None | String c l' => Some (if Ascii.eqb c "=" then l' else l) end.
(** runner/src/cli.rs:31-35. *)
Fixpoint read_args (args : list string) (s : settings) : reading :=
  match args with
  | [] => AOptions s
  | a :: rest =>
    let with_value (o : opt) (v : option string) :=
      match v with
      | Some v => match give o v s with Some s' => read_args rest s' | None => AUsage end
      | None =>
        match rest with
        | v :: rest' =>
          if can_be_value v then match give o v s with Some s' => read_args rest' s' | None => AUsage end else AUsage
        | [] => AUsage
        end
      end in
    match shape_of a with
    | ShEscape => match rest with [] => AOptions s | _ => AUsage end
    | ShLong l =>
      let '(n, v) := at_equals l in
      match long_flag n, v with
      | Some FHelp, None => AHelp
      | Some FVersion, None => AVersion
      | Some (FOpt o), _ => with_value o v
      | _, _ => AUsage
      end
    | ShShort c l =>
      match short_flag c with
      | Some FHelp => AHelp
      | Some FVersion => AVersion
      | Some (FOpt o) => with_value o (attached l)
      | None => AUsage
      end
    | ShOther => AUsage
    end
  end.

Section Front.
Context {T : Tol} {EN : Env} {D : Doubles} {SW : Shows} {RN : Rand} {LL : Llvm}.

(** ** The command line (cli.rs:16-81)
    Help and version are shown on standard error, or for want of input on a terminal, and are success. *)
Inductive front := FShown | FUsage | FRan (r : loaded).
Definition cli_main (args : list string) (tty : bool) (stdin : list N) (fuel : nat) (p : proc) : front :=
  match read_args (tl args) no_settings with
  | AHelp | AVersion => FShown
  | AUsage => FUsage
  | AOptions s =>
    let file := match s_file s with Some path => if String.eqb path "-" then None else Some path | None => None end in
    let shots := N.to_nat (match s_shots s with Some n => n | None => 1%N end) in
    match file with
    | Some path => FRan (run_file path (s_entry s) fuel shots (s_seed s) p)
    | None => if tty then FShown else FRan (run_input stdin (s_entry s) fuel shots (s_seed s) p)
    end
  end.

(** ** The Python functions (python.rs:74-150) *)
Inductive call :=
| CRun (path : string) (name : option string) (shots seed : option N) (callback : bool)
| CRunBytes (bytes : list N) (name : option string) (shots seed : option N) (callback : bool)
| CMain (args : list string) (tty : bool) (stdin : list N).

(** python.rs:36-58 and [write_all], which calls [write] only while something is left to write: standard output, or one call of the
    callback for each write, which panics on bytes that are no text.  (The header of a shot arrives here line by line, in the code in
    smaller pieces.)  Also what the console gets directly ([OUTPUT], output_recording.rs:24-40). *)
Record seen := mkSeen { on_console : text; to_callback : list text }.
Fixpoint route (callback : bool) (evs : list event) : seen * bool :=
  match evs with
  | [] => (mkSeen [] [], true)
  | (k, t) :: evs' =>
    let '(s, ok) := route callback evs' in
    match k, callback with
    | ToStdout, _ | ToWriter, false => (mkSeen (t ++ on_console s)%list (to_callback s), ok)
    | ToWriter, true =>
      match t with
      | [] => (s, ok)
      | _ => if utf8 t then (mkSeen (on_console s) (t :: to_callback s), ok) else (mkSeen [] [], false)
      end
    end
  end.
(** What a call does: it returns (or ends the process, or does not end) having shown something; or it panics in the callback;
    or it shows the help or an error of usage, which are not in the texts here. *)
(** pip/src/python.rs:36-59, 75-150, runner/src/cli.rs:36-80. *)
Inductive did := DRan (s : seen) (r : outcome) (p : proc) | DPanic (s : seen) | DShown (p : proc) | DUsage (p : proc) | DPastEnd.
Definition delivered (callback : bool) (l : loaded) : did :=
  match l with
  | LRun (evs, r, p) => let '(s, ok) := route callback evs in if ok then DRan s r p else DPanic s
  | LPastEnd => DPastEnd
  end.
(** python.rs:82-85, 116-119. *)
Definition use_std_out (b : bool) (p : proc) : proc := mkProc (pworld p) b.
Definition do_call (fuel : nat) (c : call) (p : proc) : did :=
  match c with
  | CRun path name shots seed cb =>
    delivered cb (run_file path name fuel (N.to_nat (match shots with Some n => n | None => 1%N end)) seed (use_std_out (negb cb) p))
  | CRunBytes bytes name shots seed cb =>
    delivered cb (run_bytes bytes name fuel (N.to_nat (match shots with Some n => n | None => 1%N end)) seed (use_std_out (negb cb) p))
  | CMain args tty stdin =>
    match cli_main args tty stdin fuel p with
    | FShown => DShown p
    | FUsage => DUsage p
    | FRan l => delivered false l
    end
  end.
(** The process after calls that all return, with or without an error. *)
(** Not in the source: calls of pip/src/python.rs:75-150 in one process. *)
Fixpoint after (fuel : nat) (cs : list call) (p : proc) : option proc :=
  match cs with
  | [] => Some p
  | c :: cs' =>
    match do_call fuel c p with
    | DRan _ ROk p' | DRan _ (RErr _) p' | DShown p' | DUsage p' => after fuel cs' p'
    | _ => None
    end
  end.
End Front.
