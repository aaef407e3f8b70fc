(** * pip/src/python.rs with callbacks that call the runner

    A callback may itself call [run] and [run_bytes], with or without callbacks of their own, in the same thread.  The calls share the
    simulator and [OUTPUT] with the run that called the callback.  Not modelled: callbacks that call [main]. *)
From Coq Require Import String Ascii List NArith ZArith Reals Bool.
From Verif Require Import Cx Bits Arith ArithR IndexMap Sim SimExp SimApply Spec SpecRun SimRun Text SpecText Backend Runner Front Listen.
Import ListNotations.
Local Open Scope list_scope.

(** What Python sees of a call: it returns, raises RuntimeError, or raises PanicException (pyo3 catches panics). *)
(** pip/src/python.rs:75-130. *)
Inductive reply := BackOk | BackErr (e : failure) | BackPanic.
(** A call of [run] or [run_bytes] but for its callback (python.rs:74-80, 108-114). *)
Inductive aim := AFile (path : string) | ABytes (bytes : list N).
Record request := mkRequest { q_aim : aim; q_name : option string; q_shots : option N; q_seed : option N }.
(** What a callback does with a text: it returns ([true]) or raises; before that it may make calls, with a callback or without, and go on by
    their replies. *)
(** pip/src/python.rs:36-51. *)
Inductive plan :=
| Done (ok : bool)
| Ask (c : request) (g : option (list text -> text -> plan)) (k : reply -> plan).
Definition hearer := list text -> text -> plan.
Section Nested.
Context {T : Tol} {EN : Env} {D : Doubles} {SW : Shows} {RN : Rand} {LL : Llvm}.

(** The process, and what its standard output has got (stdlib/src/output_recording.rs:19-40). *)
Record scene := mkScene { sproc : proc; sout : text }.
(** What a call has told its callback, how it ends, and the scene it leaves; or the process has ended, or goes on forever. *)
(** pip/src/python.rs:36-59, 75-130. *)
Inductive nheard := NRan (told : list text) (r : reply) (s : scene) | NGone.

Section Tell.
(** How the calls of the callback run. *)
Variable run : request -> option hearer -> scene -> nheard.
(** Callbacks that are called while the records are taken out of [OUTPUT] find it borrowed (runner/src/lib.rs:213-218): their calls panic at
    once, at python.rs:82-85 and 116-119. *)
Fixpoint perform (busy : bool) (x : plan) (s : scene) : option (bool * scene) :=
  match x with
  | Done ok => Some (ok, s)
  | Ask c g k =>
    if busy then perform busy (k BackPanic) s
    else match run c g s with NRan _ r s' => perform busy (k r) s' | NGone => None end
  end.
(** python.rs:36-55 and [write_all] (as in Listen.v), for texts that are written with [OUTPUT] borrowed or not. *)
Definition nsend (f : hearer) (told : list text) (t : bool * text) (s : scene) : option (list text * bool * scene) :=
  match snd t with
  | [] => Some (told, true, s)
  | _ =>
    if utf8 (snd t) then match perform (fst t) (f told (snd t)) s with Some (ok, s') => Some (told ++ [snd t], ok, s') | None => None end
    else Some (told, false, s)
  end.
Fixpoint nsend_all (f : hearer) (told : list text) (ts : list (bool * text)) (s : scene) : option (list text * bool * scene) :=
  match ts with
  | [] => Some (told, true, s)
  | t :: ts' =>
    match nsend f told t s with
    | Some (told1, true, s1) => nsend_all f told1 ts' s1
    | x => x
    end
  end.
(** runner/src/lib.rs:191-227.  Where the records of the program go depends on what the calls of the callback have left in [OUTPUT]. *)
Fixpoint nshots (f : hearer) (e : func) (fuel n : nat) (m : pmem (fprog e)) (s : scene) (told : list text) : nheard :=
  match n with
  | O => NRan told BackOk s
  | S n' =>
    match nsend_all f told (map (pair false) (header_parts (fattrs e))) s with
    | None => NGone
    | Some (told1, false, s1) => NRan told1 BackPanic s1
    | Some (told1, true, s1) =>
      let std := pstd (sproc s1) in
      let w := initialize (pworld (sproc s1)) in
      if Nat.eqb (fparams e) 0 then
        match run_code (fprog e) fuel m std w with
        | (ev, PDone m' w') =>
          let s2 := mkScene (mkProc (with_wout w' []) std) (sout s1 ++ concat (map snd ev)) in
          match nsend_all f told1 [(true, bout (wback w')); (false, lit "END" ++ [TAB] ++ lit "0"); (false, [NL])] s2 with
          | None => NGone
          | Some (told2, false, s3) => NRan told2 BackPanic s3
          | Some (told2, true, s3) => nshots f e fuel n' m' s3 told2
          end
        | _ => NGone
        end
      else NRan told1 (BackErr FSignature) (mkScene (mkProc w std) (sout s1))
    end
  end.
(** runner/src/lib.rs:142-229. *)
Definition nmodule (f : hearer) (fs : list func) (name : option string) (fuel shots : nat) (s : scene) : nheard :=
  match prepare fs with
  | inr e => NRan [] (BackErr (FModule e)) s
  | inl fs =>
    match bind_functions fs with
    | Linked =>
      match choose_entry_point fs name with
      | inr e => NRan [] (BackErr (FEntry e)) s
      | inl e => nshots f e fuel shots (pinit (fprog e)) s []
      end
    | l => NRan [] (BackErr (FLink l)) s
    end
  end.
(** python.rs:74-130, runner/src/lib.rs:44-57, 105-140: a call with a callback. *)
Definition ntell (fuel : nat) (f : hearer) (c : request) (s : scene) : nheard :=
  let s := mkScene (seed_opt (q_seed c) (use_std_out false (sproc s))) (sout s) in
  let go l :=
    match l with
    | Parsed fs => nmodule f fs (q_name c) fuel (N.to_nat (match q_shots c with Some n => n | None => 1%N end)) s
    | ParseErr e => NRan [] (BackErr (FParse e)) s
    | PastEnd => NGone
    end in
  match q_aim c with
  | AFile path => go (load_file path)
  | ABytes bytes =>
    if (length bytes <? 4)%nat then NRan [] (BackErr (FInput "byte array is too short")) s
    else go (create_module_from_ir bytes (negb (is_bitcode bytes)))
  end.
End Tell.

(** The same call without a callback (python.rs:56-58, 74-130). *)
Definition plainly (c : request) : call :=
  match q_aim c with
  | AFile path => CRun path (q_name c) (q_shots c) (q_seed c) false
  | ABytes bytes => CRunBytes bytes (q_name c) (q_shots c) (q_seed c) false
  end.
Definition nconsole (fuel : nat) (c : request) (s : scene) : nheard :=
  match do_call fuel (plainly c) (sproc s) with
  | DRan x ROk p => NRan [] BackOk (mkScene p (sout s ++ on_console x))
  | DRan x (RErr e) p => NRan [] (BackErr e) (mkScene p (sout s ++ on_console x))
  | _ => NGone
  end.
(** Calls within calls, up to a depth (pip/src/python.rs:74-130). *)
Fixpoint nrun (fuel depth : nat) (c : request) (g : option hearer) (s : scene) : nheard :=
  match depth with
  | O => NGone
  | S d => match g with None => nconsole fuel c s | Some f => ntell (nrun fuel d) fuel f c s end
  end.
End Nested.
