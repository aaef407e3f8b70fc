(** * Several shots with rounding, against quantum mechanics: specification *)
From Coq Require Import String List NArith ZArith Reals Bool.
From Verif Require Import Cx Bits Arith ArithR Sim SimExp Spec SpecExp SpecRun SimRun SpecAny Any SpecNear SpecRound SpecLedger SpecRoundR
  Text Backend SpecBackend Runner SpecRunner SpecIdeal SpecChance SpecOdds BackAny SpecShot.
Import ListNotations.
Local Open Scope R_scope.
Local Open Scope list_scope.

(** A function of a module whose program is the exact one. *)
Definition exact_func {A : Arith} {AP : Approx} {D : Doubles} (p : aprogram) (mem : amem p) : func :=
  {| fname := EmptyString; fparams := 0; fvoid := true; fbody := true; fattrs := []; fprog := exact_program p mem |}.

(** The hypotheses on the shots: whatever memory and thread generator a shot starts with, it fits. [lost] bounds what is left out. *)
Definition shots_fit {A : Arith} {AP : Approx} {PP : ApproxP} {PH : Phases} {D : Doubles} {T : Tol} {EN' : @Env (@RArith T)} {RN : @Rand T EN'}
  (w m : nat) (q u lost : R) (p : aprogram) (fuel : nat) : Prop :=
  forall mem t, shot_fits w m q u p fuel mem t /\ 1 - lost <= kept q p fuel mem t.
