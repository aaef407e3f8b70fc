(** * The memory functions of a callable *)
From Coq Require Import ZArith List Bool Arith.
From Verif Require Import Text Heap.
Import ListNotations.
Local Open Scope heap_scope.

(** The tables of memory functions are data of the program: [entry t i] is the i-th function of table [t], if it is not
    null, and [run f capture update] is what that function does. *)
(** stdlib/src/callables.rs:163-189, [mem_table] of 14-20. *)
Record memory_functions := mkMem { entry : nat -> nat -> option nat; run : nat -> option ptr -> Z -> Hp unit }.

(** callables.rs:163-174 [capture_update_reference_count] (entry 0), 176-189 [capture_update_alias_count] (entry 1). *)
Definition capture_update (mf : memory_functions) (cal : nat) (update : Z) (is_alias : bool) : Hp unit :=
  c <- get_call cal ;;
  match c_mem c with
  | None => hret tt
  | Some t =>
      match entry mf t (if is_alias then 1 else 0) with
      | None => hret tt
      | Some f => run mf f (c_capture c) update
      end
  end.
