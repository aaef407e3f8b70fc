(** * Specification of assertions with rounding: the calls of the simulator that an assertion makes *)
From Coq Require Import Reals NArith List Bool.
From Verif Require Import Cx Arith ArithR Spec SimExp SpecExp SpecRun SpecAny SpecNear SpecRound SpecLedger AssertAny.
Import ListNotations.
Local Open Scope R_scope.

(** Turning the eigenstates of the Paulis into basis states, asking for the probability of an odd number of ones, and turning
    back; before that [n] qubits are allocated. *)
Section Calls.
Context {X : Type} (alloc : X) (h s sadj : nat -> X) (ask : list nat -> X).
Definition turning (pq : pauli * nat) : list X :=
  match fst pq with PX_ => [h (snd pq)] | PY_ => [h (snd pq); s (snd pq); h (snd pq)] | _ => [] end.
Definition turning_back (pq : pauli * nat) : list X :=
  match fst pq with PX_ => [h (snd pq)] | PY_ => [h (snd pq); sadj (snd pq); h (snd pq)] | _ => [] end.
Definition peek (n : nat) (cl : list (pauli * nat)) : list X :=
  repeat alloc n ++ flat_map turning cl ++ [ask (map snd cl)] ++ flat_map turning_back cl.
End Calls.

Section Ok.
Context {A : Arith} {AP : Approx} {PP : ApproxP} {CK : Asserts}.
Definition peek_a : nat -> list (pauli * nat) -> list acall := peek AAlloc (AGate AH) (AGate AS) (AGate ASadj) AJointProb.
Definition peek_c : nat -> list (pauli * nat) -> list call := peek CAlloc (CGate GH) (CGate GS) (CGate GSadj) CJointProb.

(** The comparison is wrong by at most one rounding. *)
Record asserts_ok : Prop := {
  as_near : forall a b c, pfin a -> pfin b -> pfin c -> Rabs (pval a) <= 8 -> Rabs (pval b) <= 8 ->
    Rabs (pval a - pval b) + perr <= pval c -> far a b c = false;
  as_far : forall a b c, pfin a -> pfin b -> pfin c -> Rabs (pval a) <= 8 -> Rabs (pval b) <= 8 ->
    pval c + perr < Rabs (pval a - pval b) -> far a b c = true
}.
End Ok.

(** The comparison with exact numbers. *)
Definition AssertsR {T : Tol} : @Asserts RArith := @Build_Asserts RArith (fun a b c : R => Rltb c (Rabs (a - b))).
