(** * Specification: the bytes of a big integer *)
From Coq Require Import ZArith List.
From Coq.Strings Require Import Byte.
Import ListNotations.
Local Open Scope Z_scope.

(** [l] is the two's complement of [z], least significant byte first. *)
Definition spells (l : list byte) (z : Z) : Prop :=
  (forall i b, nth_error l i = Some b -> Z.of_N (Byte.to_N b) = (z / 2 ^ (8 * Z.of_nat i)) mod 256) /\
  - 2 ^ (8 * Z.of_nat (length l) - 1) <= z < 2 ^ (8 * Z.of_nat (length l) - 1).
(** The numbers of an i64. *)
Definition is_i64 (z : Z) : Prop := - 2 ^ 63 <= z < 2 ^ 63.
