(** * pip/src/python.rs with callbacks that may raise

    A callback that raises makes the write fail and [run_module] panic (runner/src/lib.rs:193-226, [expect]); Python sees an exception
    and goes on in the same process.  Front.v has the callbacks that always return.  Callbacks that call the runner
    themselves are in Nested.v. *)
From Coq Require Import String Ascii List NArith ZArith Reals Bool.
From Verif Require Import Cx Bits Arith ArithR IndexMap Sim SimExp SimApply Spec SpecRun SimRun Text SpecText Backend Runner Front.
Import ListNotations.
Local Open Scope list_scope.

Section Listen.
Context {T : Tol} {EN : Env} {D : Doubles} {SW : Shows} {RN : Rand} {LL : Llvm}.

(** A callback: does it return, when it gets this text after those texts?  (python.rs:40-51) *)
Definition listener := list text -> text -> bool.

(** python.rs:36-55 and [write_all]: nothing is sent for an empty text; bytes that are no text panic before the callback is called; a
    callback that raises has received its text. *)
Definition send (f : listener) (told : list text) (t : text) : list text * bool :=
  match t with
  | [] => (told, true)
  | _ => if utf8 t then (told ++ [t], f told t) else (told, false)
  end.
Fixpoint send_all (f : listener) (told ts : list text) : list text * bool :=
  match ts with
  | [] => (told, true)
  | t :: ts' => let '(told1, ok) := send f told t in if ok then send_all f told1 ts' else (told1, false)
  end.

(** runner/src/lib.rs:192-207, write by write. *)
Definition metadata_parts (a : string * string) : list text :=
  (lit "METADATA" ++ [TAB] ++ lit (fst a)) :: (if String.eqb (snd a) "" then [] else [[TAB] ++ lit (snd a)]) ++ [[NL]].
Definition header_parts (attrs : list (string * string)) : list text := (lit "START" ++ [NL]) :: flat_map metadata_parts attrs.

(** What a call has told its callback, and how it ends: as without a callback, or by a panic, which leaves a process. *)
(** pip/src/python.rs:36-59, 75-130. *)
Inductive heard := HRan (told : list text) (r : outcome) (p : proc) | HPanic (told : list text) (p : proc) | HPastEnd.

(** runner/src/lib.rs:191-227.  Records do not go to standard output, since python.rs:82-85 has switched that off.  The records are
    taken out of the buffer before they are written, also when the write panics ([Drain] is dropped). *)
Fixpoint listen_shots (f : listener) (e : func) (fuel n : nat) (m : pmem (fprog e)) (p : proc) (told : list text) : heard :=
  match n with
  | O => HRan told ROk p
  | S n' =>
    match send_all f told (header_parts (fattrs e)) with
    | (told1, false) => HPanic told1 p
    | (told1, true) =>
      let w := initialize (pworld p) in
      if Nat.eqb (fparams e) 0 then
        match snd (run_code (fprog e) fuel m (pstd p) w) with
        | PDone m' w' =>
          let p' := mkProc (with_wout w' []) (pstd p) in
          match send_all f told1 [bout (wback w'); lit "END" ++ [TAB] ++ lit "0"; [NL]] with
          | (told2, false) => HPanic told2 p'
          | (told2, true) => listen_shots f e fuel n' m' p' told2
          end
        | PStop x _ => HRan told1 (RAbort x) p
        | PMore _ => HRan told1 RRunning p
        end
      else HRan told1 (RErr FSignature) (mkProc w (pstd p))
    end
  end.
(** runner/src/lib.rs:142-229. *)
Definition listen_module (f : listener) (fs : list func) (name : option string) (fuel shots : nat) (p : proc) : heard :=
  match prepare fs with
  | inr e => HRan [] (RErr (FModule e)) p
  | inl fs =>
    match bind_functions fs with
    | Linked =>
      match choose_entry_point fs name with
      | inr e => HRan [] (RErr (FEntry e)) p
      | inl e => listen_shots f e fuel shots (pinit (fprog e)) p []
      end
    | l => HRan [] (RErr (FLink l)) p
    end
  end.
(** runner/src/lib.rs:44-57. *)
Definition listen_file (f : listener) (path : string) (name : option string) (fuel shots : nat) (seed : option N) (p : proc) : heard :=
  let p := seed_opt seed p in
  match load_file path with
  | Parsed fs => listen_module f fs name fuel shots p
  | ParseErr e => HRan [] (RErr (FParse e)) p
  | PastEnd => HPastEnd
  end.
(** runner/src/lib.rs:105-140. *)
Definition listen_bytes (f : listener) (bytes : list N) (name : option string) (fuel shots : nat) (seed : option N) (p : proc) : heard :=
  let p := seed_opt seed p in
  if (length bytes <? 4)%nat then HRan [] (RErr (FInput "byte array is too short")) p
  else match create_module_from_ir bytes (negb (is_bitcode bytes)) with
       | Parsed fs => listen_module f fs name fuel shots p
       | ParseErr e => HRan [] (RErr (FParse e)) p
       | PastEnd => HPastEnd
       end.

(** Calls from Python with a callback (python.rs:74-130). *)
Inductive lcall :=
| LFile (path : string) (name : option string) (shots seed : option N) (f : listener)
| LBytes (bytes : list N) (name : option string) (shots seed : option N) (f : listener).
Definition listen (fuel : nat) (c : lcall) (p : proc) : heard :=
  match c with
  | LFile path name shots seed f =>
    listen_file f path name fuel (N.to_nat (match shots with Some n => n | None => 1%N end)) seed (use_std_out false p)
  | LBytes bytes name shots seed f =>
    listen_bytes f bytes name fuel (N.to_nat (match shots with Some n => n | None => 1%N end)) seed (use_std_out false p)
  end.

(** The process after calls that all return, raise or panic in their callback. *)
(** Not in the source: calls of pip/src/python.rs:75-150 in one process. *)
Fixpoint outlives (fuel : nat) (cs : list (call + lcall)) (p : proc) : option proc :=
  match cs with
  | [] => Some p
  | inl c :: cs' => match after fuel [c] p with Some p' => outlives fuel cs' p' | None => None end
  | inr c :: cs' =>
    match listen fuel c p with
    | HRan _ ROk p' | HRan _ (RErr _) p' | HPanic _ p' => outlives fuel cs' p'
    | _ => None
    end
  end.
End Listen.
