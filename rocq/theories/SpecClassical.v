(** * Specification of classical programs

    Gates that permute basis states and turn them by multiples of a right angle.  The state is then always one basis
    state, and nothing needs to be rounded.  Nothing here refers to the simulator. *)
From Coq Require Import NArith List Bool.
From Verif Require Import Arith SimExp SpecRun SpecAny.
Import ListNotations.

(** The allocated qubits, their values, and the number of right angles by which the basis state is turned. *)
Record bits := mkBits { bbook : book; value : nat -> bool; angle : nat }.

Definition set_value (f : nat -> bool) (q : nat) (v : bool) : nat -> bool := fun x => if Nat.eqb x q then v else f x.
(** The index of a basis state: the i-th allocated qubit is bit i. *)
Fixpoint pack (f : nat -> bool) (l : list nat) : N :=
  match l with [] => 0 | q :: l' => (N.b2n (f q) + 2 * pack f l')%N end.
Definition odd (f : nat -> bool) (qs : list nat) : bool := fold_right (fun q p => xorb (f q) p) false qs.

Section Classical.
Context {A : Arith} {EN : Env}.

Definition classical_gate (g : agate) : bool := match g with AX | AY | AZ | AS | ASadj => true | _ => false end.
Definition classical (c : acall) : Prop :=
  match c with
  | AGate g _ | AMc g _ _ => classical_gate g = true
  | APhase _ _ _ | AExp _ _ _ | AMcExp _ _ _ _ | AApply _ _ _ _ _ => False
  | _ => True
  end.

(** What a gate does to a qubit with the value [v]: is it inverted, and by how many right angles is the state turned? *)
Definition flips (g : agate) : bool := match g with AX | AY => true | _ => false end.
Definition turned_by (g : agate) (v : bool) : nat :=
  match g, v with
  | AY, false => 1 | AY, true => 3
  | AZ, true => 2 | AS, true => 1 | ASadj, true => 3
  | _, _ => 0
  end.
Definition apply_gate (g : agate) (t : nat) (m : bits) : bits :=
  mkBits (bbook m) (set_value (value m) t (xorb (flips g) (value m t))) (angle m + turned_by g (value m t)).

Definition bits_step (m : bits) (c : acall) : bits :=
  let b := abstep (bbook m) c in
  match c with
  | AGate g t => apply_gate g t m
  | AMc g cs t => if forallb (value m) cs then apply_gate g t m else m
  | AAlloc => mkBits b (set_value (value m) (fresh_id (live (bbook m))) false) (angle m)
  | ARelease _ => mkBits b (value m) (match live b with [] => 0 | _ => angle m end)
  | ASwap x y => mkBits b (fun q => if Nat.eqb q x then value m y else if Nat.eqb q y then value m x else value m q) (angle m)
  | _ => mkBits b (value m) (angle m)
  end.
Definition bits_run (m : bits) (h : list acall) : bits := fold_left bits_step h m.
Definition no_bits : bits := mkBits (mkBook [] true) (fun _ => false) 0.

(** The numbers one and zero as probabilities. *)
Definition sure (v : bool) : prb := if v then pcompl prb0 else prb0.

(** [turned k a]: the amplitude [a] is a one turned by [k] right angles. *)
Variable turned : nat -> amp -> Prop.
Definition bits_reply (m : bits) (c : acall) (r : areply) : Prop :=
  let l := live (bbook m) in
  match c with
  | AAlloc => r = AId (fresh_id l)
  | AMeasure q => r = ABit (value m q)
  | AJointMeasure qs => r = ABit (odd (value m) qs)
  | AJointProb qs => r = AProb (sure (odd (value m) qs))
  | AIsZero q => r = ABit (negb (value m q))
  | AForce v q => r = AProb (sure (Bool.eqb v (value m q)))
  | AState => exists a, r = AListed [(pack (value m) l, a)] (length l) /\ turned (angle m) a
  | ADump => exists a, r = ADumped [(pack (value m) l, a)] /\ turned (angle m) a
  | _ => r = AUnit
  end.
Fixpoint bits_replies (m : bits) (h : list acall) (rs : list areply) : Prop :=
  match h, rs with
  | [], [] => True
  | c :: h', r :: rs' => bits_reply m c r /\ bits_replies (bits_step m c) h' rs'
  | _, _ => False
  end.

(** What the arithmetic has to get right: multiplying ones turned by right angles, their squares, and scaling by one. *)
Record turns_ok : Prop := {
  tn_1 : turned 0 amp1;
  tn_keep : forall k a, turned k a -> turned k (amul a amp1);
  tn_i : forall k a, turned k a -> turned (k + 1) (amul a ampi);
  tn_neg : forall k a, turned k a -> turned (k + 2) (amul a (aopp amp1));
  tn_mi : forall k a, turned k a -> turned (k + 3) (amul a (aopp ampi));
  tn_sqr : forall k a, turned k a -> padd prb0 (psqr a) = pcompl prb0;
  tn_scale : forall k a, turned k a -> turned k (amul a (pscale (pcompl prb0)));
  tn_compl : pcompl (pcompl prb0) = prb0;
  tn_zero : pnz prb0 = true;
  tn_one : pnz (pcompl prb0) = false
}.
(** Samples are at least zero and below one. *)
Definition samples_proper : Prop := forall g, plt (fst (draw g)) prb0 = false /\ plt (fst (draw g)) (pcompl prb0) = true.
End Classical.
