(** * Specification of memory: every object and every block is its own *)
From Coq Require Import ZArith List Bool Arith.
From Verif Require Import Text Heap SpecHeap Memory.
Import ListNotations.

(** Objects a call may change in any way, be it only their counts. *)
Definition touches (c : wcall) : list nat :=
  match c with
  | WObj (HArrayCopy a _) | WObj (HTupleCopy a _) | WObj (HCallCopy a _) | WObj (HRef a _) | WObj (HAlias a _)
  | WObj (HStore a _ _) | WObj (HTupleSet a _ _) | WObj (HAdjoint a) | WObj (HControlled a) => [a]
  | _ => []
  end.
(** Blocks a call may change. *)
Definition touches_block (c : wcall) : list nat := match c with WStore b _ _ => [b] | _ => [] end.

(** What a call writes into the array [a] of elements of [sz] bytes, the tuple [a], the block [a], and where. *)
Definition to_array (a : nat) (sz : Z) (c : wcall) : option (nat * list mval) :=
  match c with
  | WObj (HStore b i bs) => if Nat.eqb a b then Some (Z.to_nat ((sz * i) mod 2 ^ 64), bs) else None
  | _ => None
  end.
Definition to_tuple (a : nat) (c : wcall) : option (nat * list mval) :=
  match c with
  | WObj (HTupleSet b i p) => if Nat.eqb a b then Some (8 * i, ptr_bytes (PObj p)) else None
  | _ => None
  end.
Definition to_block (a : nat) (c : wcall) : option (nat * list mval) :=
  match c with WStore b off bs => if Nat.eqb a b then Some (off, bs) else None | _ => None end.
(** Functors applied to the callable [a]. *)
Definition adjoints (a : nat) (cs : list wcall) : nat :=
  length (filter (fun c => match c with WObj (HAdjoint b) => Nat.eqb a b | _ => false end) cs).
Definition controls (a : nat) (cs : list wcall) : nat :=
  length (filter (fun c => match c with WObj (HControlled b) => Nat.eqb a b | _ => false end) cs).

(** What the writes [ws], in the order they were made, leave at position [k]: the last one that reached it counts, and
    [old] is what was there before them. *)
Definition reaches (k : nat) (w : nat * list mval) : Prop := fst w <= k < fst w + length (snd w).
Inductive leaves (k : nat) (old : mval) : list (nat * list mval) -> mval -> Prop :=
| never : forall ws, Forall (fun w => ~ reaches k w) ws -> leaves k old ws old
| last_one : forall ws w ws' x, reaches k w -> Forall (fun w => ~ reaches k w) ws' ->
    nth_error (snd w) (k - fst w) = Some x -> leaves k old (ws ++ w :: ws') x.
(** The writes among some calls. *)
Fixpoint writes (f : wcall -> option (nat * list mval)) (cs : list wcall) : list (nat * list mval) :=
  match cs with
  | [] => []
  | c :: cs' => match f c with Some w => w :: writes f cs' | None => writes f cs' end
  end.
(** Memory [d] with these writes made to it. *)
Definition written (d : list mval) (ws : list (nat * list mval)) (d' : list mval) : Prop :=
  length d' = length d /\
  forall k x x', nth_error d k = Some x -> nth_error d' k = Some x' -> leaves k x ws x'.
