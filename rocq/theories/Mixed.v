(** * Programs that use the memory of the runtime and the backend *)
From Coq Require Import String Ascii Reals NArith ZArith List Bool Arith.
From Coq.Strings Require Import Byte.
From Verif Require Import Cx Arith ArithR Sim SimExp SimRun Text Backend Heap QubitArray Args Runner.
From Verif Require Strings.
Import ListNotations.

Section Mixed.
Context {T : Tol} {EN : Env} {D : Doubles} {SW : Shows} {RN : Rand} {M : Mode}.

(** Values turned into strings. *)
(** stdlib/src/strings.rs:85-123, stdlib/src/range_support.rs:16-25, backend/src/result_bool.rs:31-47, backend/src/lib.rs:994-1007. *)
Inductive tcall :=
| TInt (z : Z) | TDouble (d : dbl) | TBool (b : bool) | TPauli (p : pauli) | TBig (a : nat) | TRange (r : range)
| TResult (r : N) | TQubit (q : N).
(** Not in the source: the function of stdlib/src/strings.rs or backend/src/lib.rs that a call names. *)
Definition tcall1 (c : tcall) : Hp nat :=
  match c with
  | TInt z => Strings.rt_int_to_string z | TDouble d => Strings.rt_double_to_string d | TBool b => Strings.rt_bool_to_string b
  | TPauli p => Strings.rt_pauli_to_string p | TBig a => Strings.rt_bigint_to_string a | TRange r => Strings.rt_range_to_string r
  | TResult r => Strings.rt_result_to_string r | TQubit q => Strings.rt_qubit_to_string q
  end.

(** What compiled code does next, the memory of the runtime being kept by the runtime ([action] of Runner.v counts it as part of
    the program).  A function of the program that the runtime has called returns by [MDone], like the entry point. *)
(** Not in the source: what the code started at runner/src/lib.rs:244-255 does next. *)
Inductive maction (G L : Type) :=
| MDone (g : G)                                (* the function returns *)
| MBack (c : bcall) (k : breply -> L)          (* a function of the backend, no pointers to memory *)
| MArgs (c : pcall) (k : breply -> L)          (* a function of the backend that reads arrays, tuples, strings *)
| MAllocArray (n : nat) (k : nat -> L)         (* qubit_allocate_array *)
| MReleaseArray (a : nat) (k : L)              (* qubit_release_array *)
| MHeap (c : hcall) (k : hreply -> L)          (* arrays, tuples, callables, strings, big integers *)
| MLoad (t off n : nat) (k : list mval -> L)   (* reading bytes of a tuple *)
| MStore (t off : nat) (bs : list mval) (k : L) (* writing them *)
| MText (c : tcall) (k : nat -> L)             (* values turned into strings *)
| MMessage (a : nat) (k : L)                   (* message *)
| MFail (a : nat)                              (* fail *)
| MInvoke (cal : nat) (args res : option nat) (g : G) (k : G -> L)          (* callable_invoke *)
| MCapture (cal : nat) (by_ : Z) (is_alias : bool) (g : G) (k : G -> L)     (* capture_update_reference_count, ..._alias_count *)
| MRandom (lo hi : Z) (k : Z -> L)             (* drawrandomint *)
| MTrap.
(** The code started at runner/src/lib.rs:244-255; [gmem] are the globals of the module.  Where the functions called by the runtime
    start: those in the tables of callables (stdlib/src/callables.rs:94-100: table, entry, captured values, arguments, results) and
    those in the tables of memory functions, if they are not null (163-189: table, entry, captured values, number). *)
Record mprog := {
  gmem : Type; gloc : Type; ginit : gmem; gstart : gmem -> gloc; gstep : gloc -> maction gmem gloc;
  gcode : nat -> nat -> option ptr -> option nat -> option nat -> gmem -> gloc;
  gcapt : nat -> nat -> option (option ptr -> Z -> gmem -> gloc) }.
(** Calls of functions of the program by the runtime that have not returned, the last one first: the callable and the arguments made
    for it (stdlib/src/callables.rs:94-108), or a memory function, and how its caller goes on. *)
Inductive frame (G L : Type) := FInvoke (cal : nat) (args : option nat) (k : G -> L) | FCapture (k : G -> L).
Definition stack (p : mprog) := list (frame (gmem p) (gloc p)).
(** The first half of [callable_invoke] (stdlib/src/callables.rs:37-100): the entry of the table, the arguments and the callable. *)
Definition enter (cal : nat) (args : option nat) : Hp (nat * option nat * callable) :=
  hbind (invoke_prepare cal args) (fun p => hbind (get_call cal) (fun c => hret (p, c))).

(** How a call of the entry point ends: as in [prun] of Runner.v, or with undefined behaviour. *)
(** Not in the source: the end of runner/src/lib.rs:250. *)
Inductive mend (G : Type) :=
| MEnd (g : G) (h : heap) (w : world)
| MStopped (e : stop) (out : text)
| MGoing (out : text)
| MUndef.
Arguments MEnd {G} g h w. Arguments MStopped {G} e out. Arguments MGoing {G} out. Arguments MUndef {G}.

(** stdlib/src/lib.rs:83-105 [fail] with a message of the runtime itself. *)
Definition mfailed {G} (m : list N) (out : text) : mend G := MStopped (StopErr (EFail m)) (out ++ render (RecMessage m)).
(** Going on after a call, or the end it leads to; a panic does not leave an extern function. *)
(** Not in the source: the end of a call from the code started at runner/src/lib.rs:250. *)
Definition mnext {X G} (w : world) (r : qres X) (k : X -> heap -> world -> mend G) : mend G :=
  match r with
  | QOk x h b => k x h (mkWorld b (wtgen w))
  | QHFail m => mfailed (map N_of_ascii m) (bout (wback w))
  | QHPanic => MStopped StopTrap (bout (wback w))
  | QHUB => MUndef
  | QBErr e o => MStopped (StopErr e) o
  end.
(** runner/src/lib.rs:250, the functions as in Backend.v, Args.v, QubitArray.v, Heap.v, Strings.v, Captures.v. *)
Fixpoint mrun (p : mprog) (fuel : nat) (l : gloc p) (st : stack p) (h : heap) (w : world) : mend (gmem p) :=
  match fuel with
  | O => MGoing (bout (wback w))
  | S fuel' =>
    match gstep p l with
    | MDone _ _ g =>
      match st with
      | [] => MEnd g h w
      | FInvoke _ _ cal args k :: st' => mnext w (mem (invoke_cleanup cal args) h (wback w)) (fun _ => mrun p fuel' (k g) st')
      | FCapture _ _ k :: st' => mrun p fuel' (k g) st' h w
      end
    | MBack _ _ c k => mnext w (dev (bcall1 c) h (wback w)) (fun r => mrun p fuel' (k r) st)
    | MArgs _ _ c k => mnext w (pcall1 c h (wback w)) (fun r => mrun p fuel' (k r) st)
    | MAllocArray _ _ n k => mnext w (qubit_allocate_array n h (wback w)) (fun a => mrun p fuel' (k a) st)
    | MReleaseArray _ _ a k => mnext w (qubit_release_array a h (wback w)) (fun _ => mrun p fuel' k st)
    | MHeap _ _ c k => mnext w (mem (hcall1 c) h (wback w)) (fun r => mrun p fuel' (k r) st)
    | MLoad _ _ t off n k => mnext w (mem (tuple_read t off n) h (wback w)) (fun bs => mrun p fuel' (k bs) st)
    | MStore _ _ t off bs k => mnext w (mem (tuple_write t off bs) h (wback w)) (fun _ => mrun p fuel' k st)
    | MText _ _ c k => mnext w (mem (tcall1 c) h (wback w)) (fun a => mrun p fuel' (k a) st)
    | MMessage _ _ a k =>
      match Strings.rt_message a h (bout (wback w)) with
      | Strings.MOk o => mrun p fuel' k st h (with_wout w o)
      | Strings.MFail m o => MStopped (StopErr (EFail m)) o
      | Strings.MPanic o => MStopped StopTrap o
      | Strings.MUB => MUndef
      end
    | MFail _ _ a =>
      match Strings.rt_fail a h (bout (wback w)) with
      | Strings.MOk o => mrun p fuel' l st h (with_wout w o)
      | Strings.MFail m o => MStopped (StopErr (EFail m)) o
      | Strings.MPanic o => MStopped StopTrap o
      | Strings.MUB => MUndef
      end
    | MInvoke _ _ cal args res g k =>
      mnext w (mem (enter cal args) h (wback w)) (fun x =>
        let '(i, args', c) := x in
        mrun p fuel' (gcode p (c_table c) i (c_capture c) args' res g) (FInvoke _ _ cal args' k :: st))
    | MCapture _ _ cal by_ is_alias g k =>
      mnext w (mem (get_call cal) h (wback w)) (fun c =>
        match match c_mem c with Some t => gcapt p t (if is_alias then 1 else 0) | None => None end with
        | Some f => mrun p fuel' (f (c_capture c) by_ g) (FCapture _ _ k :: st)
        | None => mrun p fuel' (k g) st
        end)
    | MRandom _ _ lo hi k =>
      match draw_int lo hi w with
      | inl (z, w') => mrun p fuel' (k z) st h w'
      | inr o => MStopped (StopErr (EFail (codes "Invalid Argument: minimum > maximum"))) o
      end
    | MTrap _ _ => MStopped StopTrap (bout (wback w))
    end
  end.
End Mixed.
Arguments MEnd {T EN RN G} g h w. Arguments MStopped {T EN RN G} e out. Arguments MGoing {T EN RN G} out. Arguments MUndef {T EN RN G}.
