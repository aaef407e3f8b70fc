(** * sparsesim/src/index_map.rs: vector of optional values indexed by key *)
From Coq Require Import List Arith.
Import ListNotations.

(** index_map.rs:13-16, [values: Vec<Option<V>>] (capacity is not modelled). *)
Definition imap (V : Type) := list (option V).

Section IndexMap.
Context {V : Type}.

(** index_map.rs:41-46 [with_capacity], 172-178 [default]. *)
Definition im_empty : imap V := [].

(** index_map.rs:129-132 [get]. *)
Definition im_get (m : imap V) (k : nat) : option V :=
  match nth_error m k with Some (Some v) => Some v | _ => None end.

(** index_map.rs:124-127 [contains_key]. *)
Definition im_contains (m : imap V) (k : nat) : bool :=
  match im_get m k with Some _ => true | None => false end.

(** Assignment [values[index] = v] for an index below the length. *)
(** index_map.rs:121, 142. *)
Fixpoint list_set {A : Type} (l : list A) (k : nat) (v : A) : list A :=
  match l, k with
  | [], _ => []
  | _ :: l', O => v :: l'
  | x :: l', S k' => x :: list_set l' k' v
  end.

(** index_map.rs:116-122 [insert]: resize with [None] up to [k+1], then assign. *)
Definition im_insert (m : imap V) (k : nat) (v : V) : imap V :=
  let m' := if Nat.leb (length m) k then m ++ repeat None (S k - length m) else m in
  list_set m' k (Some v).

(** index_map.rs:139-144 [remove]. *)
Definition im_remove (m : imap V) (k : nat) : imap V :=
  if Nat.ltb k (length m) then list_set m k None else m.

(** index_map.rs:134-137 [get_mut] followed by an update of the entry if present. *)
Definition im_update (m : imap V) (k : nat) (f : V -> V) : imap V :=
  match im_get m k with Some v => list_set m k (Some (f v)) | None => m end.

(** index_map.rs:57-62 and 222-232 [iter]: present keys in increasing order. *)
Fixpoint im_iter_from (i : nat) (m : imap V) : list (nat * V) :=
  match m with
  | [] => []
  | Some v :: m' => (i, v) :: im_iter_from (S i) m'
  | None :: m' => im_iter_from (S i) m'
  end.
Definition im_iter (m : imap V) : list (nat * V) := im_iter_from 0 m.

Definition im_keys (m : imap V) : list nat := map fst (im_iter m).

(** index_map.rs:80-85 [values]. *)
Definition im_values (m : imap V) : list V := map snd (im_iter m).

(** index_map.rs:49-52 [is_empty]. *)
Definition im_is_empty (m : imap V) : bool :=
  forallb (fun o => match o with None => true | Some _ => false end) m.

(** index_map.rs:93-108 [retain]. *)
Fixpoint im_retain_from (i : nat) (f : nat -> V -> bool) (m : imap V) : imap V :=
  match m with
  | [] => []
  | Some v :: m' => (if f i v then Some v else None) :: im_retain_from (S i) f m'
  | None :: m' => None :: im_retain_from (S i) f m'
  end.
Definition im_retain (f : nat -> V -> bool) (m : imap V) : imap V := im_retain_from 0 f m.

(** index_map.rs:204-215 [from_iter]. *)
Definition im_from_iter (l : list (nat * V)) : imap V :=
  fold_left (fun m kv => im_insert m (fst kv) (snd kv)) l im_empty.

(** index_map.rs:23-32 [get_mut_or_default] followed by an update of the entry. *)
Definition im_update_or (m : imap V) (k : nat) (d : V) (f : V -> V) : imap V :=
  im_insert m k (f (match im_get m k with Some v => v | None => d end)).
(** index_map.rs:87-91 [values_mut] and 64-71 [iter_mut], every entry updated. *)
Fixpoint im_map_from (i : nat) (f : nat -> V -> V) (m : imap V) : imap V :=
  match m with
  | [] => []
  | Some v :: m' => Some (f i v) :: im_map_from (S i) f m'
  | None :: m' => None :: im_map_from (S i) f m'
  end.
(** index_map.rs:73-78 and 304-314 [drain], run to its end: the entries, and the emptied map. *)
Definition im_drain (m : imap V) : list (nat * V) * imap V := (im_iter m, []).
(** index_map.rs:110-112 [clear]. *)
Definition im_clear (m : imap V) : imap V := [].

(** index_map.rs:217-232: the state of an iterator, the index of the next slot and the slots left. *)
Definition im_cursor := (nat * imap V)%type.
Definition im_start (m : imap V) : im_cursor := (0, m).
(** index_map.rs:222-232 [next]. *)
Fixpoint im_next_from (i : nat) (m : imap V) : option (nat * V) * im_cursor :=
  match m with
  | [] => (None, (i, []))
  | Some v :: m' => (Some (i, v), (S i, m'))
  | None :: m' => im_next_from (S i) m'
  end.
Definition im_next (c : im_cursor) := im_next_from (fst c) (snd c).
(** index_map.rs:238-247 [next_back]; [r] is the list of slots left, reversed. *)
Fixpoint im_back_from (i : nat) (r : imap V) : option (nat * V) * im_cursor :=
  match r with
  | [] => (None, (i, []))
  | Some v :: r' => (Some (i + length r', v), (i, rev r'))
  | None :: r' => im_back_from i r'
  end.
Definition im_next_back (c : im_cursor) := im_back_from (fst c) (rev (snd c)).
End IndexMap.
Arguments imap : clear implicits.
