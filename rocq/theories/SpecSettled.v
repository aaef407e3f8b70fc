(** * Specification of qubits with a settled value, over any arithmetic

    A qubit has a settled value once it has been measured or freshly allocated, and keeps it as long as no call
    turns it.  Nothing here refers to the simulator. *)
From Coq Require Import NArith List Bool.
From Verif Require Import Arith SimExp SpecRun SpecAny.
Import ListNotations.

Section Settled.
Context {A : Arith} {EN : Env}.

(** A call and its reply that give qubit [q] the value [r]. *)
Definition settles (c : acall) (a : areply) (q : nat) (r : bool) : Prop :=
  (c = AMeasure q /\ a = ABit r) \/ (c = AAlloc /\ a = AId q /\ r = false).

Definition diagonal (g : agate) : bool :=
  match g with AZ | AS | ASadj | AT | ATadj | ARz _ => true | _ => false end.

(** Calls that do not turn [q]: gates on other qubits, also with [q] as a control; diagonal gates and phases on
    [q]; exponentials with I or Z on [q]; measurements of any qubits; everything that is not a gate, except the
    release of [q].  X and Y on [q] without controls invert its value ([value_after]). *)
Definition inverting (g : agate) : bool := match g with AX | AY => true | _ => false end.
Definition spares (q : nat) (c : acall) : Prop :=
  match c with
  | AGate g t => t <> q \/ diagonal g = true \/ inverting g = true
  | AMc g _ t => t <> q \/ diagonal g = true
  | AExp ps _ ts | AMcExp _ ps _ ts =>
      forall j, nth_error ts j = Some q -> nth_error ps j <> Some PX_ /\ nth_error ps j <> Some PY_
  | AApply _ _ _ ts cs => ~ In q (ctl_list cs ++ ts)
  | ARelease x => x <> q
  | _ => True
  end.
(** The identifier of the qubit after the call: swapping identifiers renames it. *)
Definition renamed (q : nat) (c : acall) : nat :=
  match c with
  | ASwap a b => if Nat.eqb a q then b else if Nat.eqb b q then a else q
  | _ => q
  end.
(** Its value after the call. *)
Definition value_after (q : nat) (r : bool) (c : acall) : bool :=
  match c with AGate g t => if Nat.eqb t q && inverting g then negb r else r | _ => r end.
Fixpoint spares_all (q : nat) (h : list acall) : Prop :=
  match h with [] => True | c :: h' => spares q c /\ spares_all (renamed q c) h' end.

(** The listed basis states all have the value [r] at [q], where [l] are the allocated identifiers in order. *)
Definition all_show (l : list nat) (q : nat) (r : bool) (st : list (N * amp)) : Prop :=
  forall i k v, nth_error l i = Some q -> In (k, v) st -> N.testbit k (N.of_nat i) = r.

(** What a reply says about a qubit [q] with the settled value [r]; [x] is the next sample.  The probability of
    reading 1 from a qubit with the value 0 is exactly the number zero. *)
Definition says (l : list nat) (x : prb) (q : nat) (r : bool) (c : acall) (a : areply) : Prop :=
  match c, a with
  | AState, AListed st _ | ADump, ADumped st => all_show l q r st
  | AMeasure y, ABit b => y = q -> r = false -> b = plt x prb0
  | AJointProb [y], AProb p => y = q -> r = false -> p = prb0
  | AIsZero y, ABit b => y = q -> r = false -> b = pnz prb0
  | AForce v y, AProb p => y = q -> r = false -> p = if v then prb0 else pcompl prb0
  | _, _ => True
  end.
Fixpoint all_say (b : book) (g : gen) (q : nat) (r : bool) (h : list acall) (rs : list areply) : Prop :=
  match h, rs with
  | [], [] => True
  | c :: h', a :: rs' =>
      says (live b) (fst (draw g)) q r c a /\
      all_say (abstep b c) (if adraws (live b) c then snd (draw g) else g) (renamed q c) (value_after q r c) h' rs'
  | _, _ => False
  end.

(** Every measurement of the qubit made while its value is 0 reads 0. *)
Fixpoint zeros_read (q : nat) (r : bool) (h : list acall) (rs : list areply) : Prop :=
  match h, rs with
  | [], [] => True
  | c :: h', a :: rs' =>
      match c, a with AMeasure y, ABit b => y = q -> r = false -> b = false | _, _ => True end /\
      zeros_read (renamed q c) (value_after q r c) h' rs'
  | _, _ => False
  end.

(** The book after a history. *)
Definition books (b : book) (h : list acall) : book := fold_left abstep h b.
End Settled.
