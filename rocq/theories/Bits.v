(** * Bit operations on [BigUint] indices, modelled by [N] *)
From Coq Require Import NArith List Bool.
Import ListNotations.

(** [BigUint::bit]. *)
(** sparsesim/src/lib.rs:201, 525, 635 and the like. *)
Definition bit (k : N) (i : nat) : bool := N.testbit k (N.of_nat i).

(** [BigUint::set_bit]. *)
(** sparsesim/src/lib.rs:202, 472, 527, 635 and the like. *)
Definition set_bit (k : N) (i : nat) (v : bool) : N :=
  if v then N.setbit k (N.of_nat i) else N.clearbit k (N.of_nat i).

(** [k.set_bit(i, !k.bit(i))]. *)
(** sparsesim/src/lib.rs:635. *)
Definition flip_bit (k : N) (i : nat) : N := set_bit k i (negb (bit k i)).

(** The number with only bit [i] set, e.g. lib.rs:977-978. *)
Definition one_bit (i : nat) : N := set_bit 0%N i true.

(** [count_ones() & 1]. *)
(** sparsesim/src/lib.rs:402, 452; exp.rs:110-178. *)
Fixpoint pos_parity (p : positive) : bool :=
  match p with
  | xH => true
  | xO p' => pos_parity p'
  | xI p' => negb (pos_parity p')
  end.
Definition parity (k : N) : bool :=
  match k with N0 => false | Npos p => pos_parity p end.

(** Mask with the given bits set: lib.rs:394-396 and 436-438. *)
Definition mask_of (locs : list nat) : N :=
  fold_left (fun acc loc => N.lor acc (N.shiftl 1 (N.of_nat loc))) locs 0%N.
