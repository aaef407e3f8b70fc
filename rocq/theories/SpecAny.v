(** * Specification of histories of simulator calls over any arithmetic

    Amplitudes, angles and probabilities are of any types with any operations on
    them: exact reals, binary64 with its rounding, infinities and NaNs, or
    anything else.  What remains to be said is which identifiers are given out,
    which samples are drawn, which basis states a listing may contain, and that
    nothing panics.  Nothing here refers to the simulator. *)
From Coq Require Import NArith List Bool Sorted Permutation.
From Verif Require Import Arith SimExp SpecRun.
Import ListNotations.

Section Any.
Context {A : Arith} {EN : Env}.

Inductive agate := AX | AY | AZ | AH | AS | ASadj | AT | ATadj | ARx (th : ang) | ARy (th : ang) | ARz (th : ang).

(** The public functions of the simulator. *)
Inductive acall :=
| AGate (g : agate) (t : nat)
| AMc (g : agate) (cs : list nat) (t : nat)
| APhase (cs : list nat) (p : amp) (t : nat)
| AExp (ps : list pauli) (th : ang) (ts : list nat)
| AMcExp (cs : list nat) (ps : list pauli) (th : ang) (ts : list nat)
| AApply (rows cols : nat) (u : nat -> nat -> amp) (ts : list nat) (cs : option (list nat))
| AAlloc
| ARelease (q : nat)
| ASwap (a b : nat)
| AMeasure (q : nat)
| AJointMeasure (qs : list nat)
| AJointProb (qs : list nat)
| AIsZero (q : nat)
| AForce (v : bool) (q : nat)
| AState
| ADump.

Inductive areply :=
| AUnit | AId (q : nat) | ABit (b : bool) | AProb (p : prb)
| AListed (st : list (N * amp)) (n : nat) | ADumped (st : list (N * amp)).

(** Allocated identifiers, as in SpecRun. *)
Definition abstep (b : book) (c : acall) : book :=
  match c with
  | AAlloc => mkBook (insert_id (fresh_id (live b)) (live b)) (tidy b)
  | ARelease q => match remove_id q (live b) with
                  | [] => mkBook [] true
                  | l => mkBook l false
                  end
  | AState | ADump => mkBook (live b) true
  | _ => b
  end.

(** Calls that name allocated, distinct qubits (and matrices of the right size). *)
Definition avalid (b : book) (c : acall) : Prop :=
  match c with
  | AGate _ t => In t (live b)
  | AMc _ cs t | APhase cs _ t => targets_ok b (t :: cs)
  | AExp ps _ ts => targets_ok b ts /\ length ps <= length ts
  | AMcExp cs ps _ ts => targets_ok b (cs ++ ts) /\ length ps <= length ts
  | AApply rows cols _ ts cs =>
      targets_ok b (ctl_list cs ++ ts) /\ rows = Nat.pow 2 (length ts) /\ cols = rows /\ tidy b = true
  | AAlloc | AState | ADump => True
  | ARelease q | AMeasure q | AIsZero q | AForce _ q => In q (live b)
  | ASwap x y => In x (live b) /\ In y (live b)
  | AJointMeasure qs | AJointProb qs => targets_ok b qs
  end.
Fixpoint avalid_run (b : book) (h : list acall) : Prop :=
  match h with [] => True | c :: h' => avalid b c /\ avalid_run (abstep b c) h' end.

Definition is_apply (c : acall) : Prop := match c with AApply _ _ _ _ _ => True | _ => False end.

(** Does the call draw a sample? *)
Definition adraws (l : list nat) (c : acall) : bool :=
  match c with
  | AMeasure _ | AJointMeasure _ => true
  | ARelease q => match remove_id q l with [] => false | _ => true end
  | _ => false
  end.
Fixpoint gen_after (b : book) (g : gen) (h : list acall) : gen :=
  match h with
  | [] => g
  | c :: h' => gen_after (abstep b c) (if adraws (live b) c then snd (draw g) else g) h'
  end.

(** Basis states of [n] qubits, each at most once, in increasing order. *)
Definition basis_list (n : nat) (st : list (N * amp)) : Prop :=
  StronglySorted N.lt (map fst st) /\ Forall (fun k => (k < 2 ^ N.of_nat n)%N) (map fst st).

Definition areply_ok (l : list nat) (c : acall) (r : areply) : Prop :=
  match c with
  | AAlloc => r = AId (fresh_id l)
  | AMeasure _ | AJointMeasure _ | AIsZero _ => exists b, r = ABit b
  | AJointProb _ | AForce _ _ => exists p, r = AProb p
  | AState => exists st, r = AListed st (length l) /\ basis_list (length l) st
  | ADump => exists st, r = ADumped st /\ basis_list (length l) st
  | _ => r = AUnit
  end.
Fixpoint areplies_ok (b : book) (h : list acall) (rs : list areply) : Prop :=
  match h, rs with
  | [], [] => True
  | c :: h', r :: rs' => areply_ok (live b) c r /\ areplies_ok (abstep b c) h' rs'
  | _, _ => False
  end.

(** Iterating over a hash map visits every entry once. *)
Definition any_order : Prop := forall l, Permutation (horder l) l.
End Any.
