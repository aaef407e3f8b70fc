(** * Specification: keeping track of the qubits whose value is known, over any arithmetic

    Someone who sees the calls and the replies can note which qubits have a known value: fresh qubits are 0, measured ones have
    the value read, X and Y invert it, also with controls whose values are known, other gates that turn the qubit make it
    unknown, unless a control is known to be 0.  Nothing here refers to the simulator. *)
From Coq Require Import NArith List Bool.
From Verif Require Import Arith SimExp SpecRun SpecAny SpecSettled Text Backend BackAny.
Import ListNotations.

Section Known.
Context {A : Arith} {EN : Env}.

Record known := mkKnown { kbook : book; kval : nat -> option bool }.
Definition nothing : known := mkKnown (mkBook [] true) (fun _ => None).

Definition note (f : nat -> option bool) (q : nat) (v : option bool) : nat -> option bool := fun x => if Nat.eqb x q then v else f x.
Definition off_axis (p : pauli) : bool := match p with PX_ | PY_ => true | _ => false end.
Definition turned_by (ps : list pauli) (ts : list nat) (x : nat) : bool :=
  existsb (fun pt => off_axis (fst pt) && Nat.eqb (snd pt) x) (combine ps ts).
Definition one_of (l : list nat) (x : nat) : bool := existsb (Nat.eqb x) l.
(** Are all the controls 1?  One that is known to be 0 settles it. *)
Definition is_known (f : nat -> option bool) (v : bool) (c : nat) : bool := match f c with Some w => Bool.eqb v w | None => false end.
Definition controls_known (f : nat -> option bool) (cs : list nat) : option bool :=
  if existsb (is_known f false) cs then Some false else if forallb (is_known f true) cs then Some true else None.
(** What is known after a call and its reply. *)
Definition learned (f : nat -> option bool) (c : acall) (a : areply) : nat -> option bool :=
  match c, a with
  | AGate g t, _ => if diagonal g then f else note f t (if inverting g then option_map negb (f t) else None)
  | AMc g cs t, _ =>
      if diagonal g then f
      else note f t (match f t, controls_known f cs with
                     | Some v, Some w => if inverting g then Some (xorb v w) else if w then None else Some v
                     | _, _ => None
                     end)
  | AExp ps _ ts, _ => fun x => if turned_by ps ts x then None else f x
  | AMcExp cs ps _ ts, _ =>
      match controls_known f cs with Some false => f | _ => fun x => if turned_by ps ts x then None else f x end
  | AApply _ _ _ ts cs, _ => fun x => if one_of (ctl_list cs ++ ts) x then None else f x
  | AAlloc, AId q => note f q (Some false)
  | ARelease q, _ => note f q None
  | ASwap a b, _ => fun x => f (if Nat.eqb x a then b else if Nat.eqb x b then a else x)
  | AMeasure q, ABit v => note f q (Some v)
  | _, _ => f
  end.
Definition kstep (k : known) (c : acall) (a : areply) : known := mkKnown (abstep (kbook k) c) (learned (kval k) c a).

(** All the qubits are known, and an even number of them is 1. *)
Fixpoint parity_known (f : nat -> option bool) (qs : list nat) : option bool :=
  match qs with
  | [] => Some false
  | q :: qs' => match f q, parity_known f qs' with Some v, Some w => Some (xorb v w) | _, _ => None end
  end.
(** What a reply says about the known qubits. *)
Definition tells (k : known) (c : acall) (a : areply) : Prop :=
  areply_ok (live (kbook k)) c a /\
  match c, a with
  | AMeasure q, ABit b => kval k q = Some false -> b = false
  | AJointMeasure qs, ABit b => parity_known (kval k) qs = Some false -> b = false
  | AJointProb qs, AProb p => parity_known (kval k) qs = Some false -> p = prb0
  | AIsZero q, ABit b => kval k q = Some false -> b = pnz prb0
  | AForce v q, AProb p => kval k q = Some false -> p = if v then prb0 else pcompl prb0
  | AState, AListed st _ | ADump, ADumped st => forall q v, kval k q = Some v -> all_show (live (kbook k)) q v st
  | _, _ => True
  end.
Fixpoint all_tell (k : known) (h : list acall) (rs : list areply) : Prop :=
  match h, rs with
  | [], [] => True
  | c :: h', a :: rs' => tells k c a /\ all_tell (kstep k c a) h' rs'
  | _, _ => False
  end.

(** The ways in which the calls that a program makes may be answered: every reply tells what is known.  Nothing is said after a
    call that names unallocated or repeated qubits. *)
Inductive may {X} : known -> tree (answer X) -> answer X -> Prop :=
| may_leaf : forall k x, may k (Leaf x) x
| may_ask : forall k o c f a x, tells k c a -> may (kstep k c a) (f a) x -> may k (Ask o c f) x
| may_misuse : forall k o c f x, ~ avalid (kbook k) c -> may k (Ask o c f) x
| may_empty : forall k o c f, is_apply c -> may k (Ask o c f) (Broken (ESim Sim.EEmptyState) o)
| may_renew : forall k t x, may nothing t x -> may k (Renew t) x.
End Known.
