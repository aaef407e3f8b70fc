(** * Result values *)
(** The functions of backend/src/result_bool.rs on result values, which are pointers: here natural numbers, as in Backend.v.
    [result_update_reference_count] (24-27) does nothing and has no counterpart; [result_to_string] (29-47) is in Strings.v. *)
From Coq Require Import Arith.

(** result_bool.rs:8-11: null. *)
Definition result_get_zero : nat := 0.
(** result_bool.rs:13-17: the address 1. *)
Definition result_get_one : nat := 1.
(** result_bool.rs:19-22: equality of pointers. *)
Definition result_equal (r1 r2 : nat) : bool := Nat.eqb r1 r2.
