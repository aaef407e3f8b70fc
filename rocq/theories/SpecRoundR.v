(** * Specification: exact amplitudes with the nearly-zero threshold, as an arithmetic with rounding *)
From Coq Require Import Reals NArith List Bool.
From Verif Require Import Cx Arith ArithR Spec SimExp SpecExp SpecApply SpecRun SpecAny SpecNear SpecRound SpecLedger SimRun.
Import ListNotations.
Local Open Scope R_scope.

(** The same call in the vocabulary of SpecAny. *)
Section Same.
Context {T : Tol} {EN : Env}.
Definition gate_of (g : gname) : agate :=
  match g with
  | GX => AX | GY => AY | GZ => AZ | GH => AH | GS => AS | GSadj => ASadj | GT => AT | GTadj => ATadj
  | GRx x => @ARx RArith x | GRy x => @ARy RArith x | GRz x => @ARz RArith x
  end.
Definition acall_of (c : call) : acall :=
  match c with
  | CGate g t => AGate (gate_of g) t
  | CMc g cs t => AMc (gate_of g) cs t
  | CPhase cs p t => @APhase RArith cs p t
  | CExp ps x ts => @AExp RArith ps x ts
  | CMcExp cs ps x ts => @AMcExp RArith cs ps x ts
  | CApply rows cols u ts cs => @AApply RArith rows cols u ts cs
  | CAlloc => AAlloc
  | CRelease q => ARelease q
  | CSwap a b => ASwap a b
  | CMeasure q => AMeasure q
  | CJointMeasure qs => AJointMeasure qs
  | CJointProb qs => AJointProb qs
  | CIsZero q => AIsZero q
  | CForce v q => AForce v q
  | CState => AState
  | CDump => ADump
  end.
Definition reply_of (r : areply) : reply :=
  match r with
  | AUnit => RUnit | AId q => RId q | ABit b => RBit b | AProb p => RProb p
  | AListed st n => RState st n | ADumped st => RDump st
  end.

(** No measurement and no release. *)
Definition unmeasured (c : call) : Prop :=
  match c with CRelease _ | CMeasure _ | CJointMeasure _ | CForce _ _ => False | _ => True end.
(** Rounding steps of a history of calls, the final listing included. *)
Definition steps (h : list call) : nat := total_rcost (mkBook [] true) (map acall_of h ++ [AState]).
End Same.

(** No rounding; angles of any size. *)
Definition ApproxR (T : Tol) (L : R) : @Approx (@RArith T) :=
  @Build_Approx (@RArith T) (fun a => a) (fun t => t) (fun _ => True) (fun _ => True) tol 0 L.
Definition ApproxPR (T : Tol) : @ApproxP (@RArith T) := @Build_ApproxP (@RArith T) (fun p => p) (fun _ => True) 0.
