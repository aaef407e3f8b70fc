(** * Invoking a callable whose functions use both the simulator and the memory *)
From Coq Require Import NArith ZArith List Bool Arith.
From Verif Require Import Cx Arith ArithR Sim SimRun Text Backend Heap QubitArray.
Import ListNotations.

Section Invoke.
Context {T : Tol} {EN : Env} {D : Doubles} {SW : Shows} {M : Mode}.

(** Functions of a program: the table, the entry of the table, captured values, arguments.  The tuple of results is passed on
    untouched by the library and left out. *)
(** stdlib/src/callables.rs:94-100: what is called. *)
Definition code := nat -> nat -> option ptr -> option nat -> QM unit.
(** stdlib/src/callables.rs:37-109 [callable_invoke], as in Heap.v, where the function called only uses the memory. *)
Definition invoke (callee : code) (cal : nat) (args : option nat) : QM unit :=
  qbind (mem (invoke_prepare cal args)) (fun p =>
  qbind (mem (get_call cal)) (fun c =>
  qbind (callee (c_table c) (fst p) (c_capture c) (snd p)) (fun _ => mem (invoke_cleanup cal (snd p))))).
End Invoke.
