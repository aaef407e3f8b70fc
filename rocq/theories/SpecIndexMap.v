(** * Histories of operations on a map *)
From Coq Require Import List Arith Bool Lia Sorted.
From Verif Require Import IndexMap IndexMapLemmas.
Import ListNotations.

(** ** Specification: functions with finite support *)
Section Spec.
Context {V : Type}.
Inductive op :=
| Insert (k : nat) (v : V) | Remove (k : nat) | Modify (k : nat) (f : V -> V)
| ModifyOr (k : nat) (d : V) (f : V -> V) | Retain (f : nat -> V -> bool) | MapAll (f : nat -> V -> V) | Clear | Drain.
Definition put (m : nat -> option V) (k : nat) (v : option V) : nat -> option V := fun j => if Nat.eqb j k then v else m j.
Definition ideal1 (m : nat -> option V) (o : op) : nat -> option V :=
  match o with
  | Insert k v => put m k (Some v)
  | Remove k => put m k None
  | Modify k f => put m k (option_map f (m k))
  | ModifyOr k d f => put m k (Some (f (match m k with Some v => v | None => d end)))
  | Retain f => fun k => match m k with Some v => if f k v then Some v else None | None => None end
  | MapAll f => fun k => option_map (f k) (m k)
  | Clear | Drain => fun _ => None
  end.
Definition ideal (l : list op) : nat -> option V := fold_left ideal1 l (fun _ => None).
(** The operations of the model. *)
Definition real1 (m : imap V) (o : op) : imap V :=
  match o with
  | Insert k v => im_insert m k v
  | Remove k => im_remove m k
  | Modify k f => im_update m k f
  | ModifyOr k d f => im_update_or m k d f
  | Retain f => im_retain f m
  | MapAll f => im_map_from 0 f m
  | Clear => im_clear m
  | Drain => snd (im_drain m)
  end.
Definition real (l : list op) : imap V := fold_left real1 l im_empty.
(** Any interleaving of [next] and [next_back]: the items from the front, those from the back. *)
Fixpoint drive (c : @im_cursor V) (l : list bool) : list (nat * V) * list (nat * V) * im_cursor :=
  match l with
  | [] => ([], [], c)
  | b :: l' =>
      let (x, c') := if b then im_next c else im_next_back c in
      let '(fr, bk, c'') := drive c' l' in
      match x with
      | None => (fr, bk, c'')
      | Some e => if b then (e :: fr, bk, c'') else (fr, e :: bk, c'')
      end
  end.
End Spec.
Arguments op : clear implicits.
