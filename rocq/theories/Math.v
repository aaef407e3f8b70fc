(** * stdlib/src/math.rs: tests of doubles, remainder, random draws

    Doubles are IEEE binary64 numbers as defined by Flocq (one NaN, no payload).  The functions that only call Rust's elementary
    functions (math.rs:45-92, 99-102) are not modelled, as Rust leaves their precision open; the square root is exact up to rounding. *)
From Coq Require Import String ZArith Reals List Bool.
From Flocq Require Import IEEE754.BinarySingleNaN.
From Flocq Require Core.
From Verif Require Import Cx Bits Arith ArithR IndexMap Sim SimExp SimApply Spec SpecRun SimRun Text Backend Runner.
Import ListNotations.
Local Open Scope list_scope.

Definition prec53 : Core.FLX.Prec_gt_0 53 := eq_refl.
Definition prec53_1024 : Prec_lt_emax 53 1024 := eq_refl.
Definition f64 := binary_float 53 1024.
Definition fsub : f64 -> f64 -> f64 := @Bminus 53 1024 prec53 prec53_1024 mode_NE.
Definition fmul : f64 -> f64 -> f64 := @Bmult 53 1024 prec53 prec53_1024 mode_NE.
Definition fdiv : f64 -> f64 -> f64 := @Bdiv 53 1024 prec53 prec53_1024 mode_NE.
(** Rust's [f64::round]: the nearest integer, halves away from zero. *)
(** Used by the remainder functions of stdlib/src/math.rs. *)
Definition fround : f64 -> f64 := @Bnearbyint 53 1024 prec53_1024 mode_NA.
(** Comparisons are false if one side is not a number. *)
(** Comparisons of doubles in stdlib/src/math.rs. *)
Definition flt : f64 -> f64 -> bool := @Bltb 53 1024.
Definition fle : f64 -> f64 -> bool := @Bleb 53 1024.
Definition feq : f64 -> f64 -> bool := @Beqb 53 1024.

(** math.rs:104-107. *)
Definition ieeeremainder (x y : f64) : f64 := fsub x (fmul y (fround (fdiv x y))).

(** math.rs:20-43. *)
Definition qis_nan : f64 := B754_nan.
Definition qis_isnan (x : f64) : bool := is_nan x.
Definition qis_infinity : f64 := B754_infinity false.
Definition is_infinite (x : f64) : bool := match x with B754_infinity _ => true | _ => false end.
Definition qis_isinf (x : f64) : bool := is_infinite x && negb (Bsign x).
Definition qis_isnegativeinfinity (x : f64) : bool := is_infinite x && Bsign x.

(** math.rs:94-97: Rust's [f64::sqrt] is the square root of IEEE 754, rounded to nearest. *)
Definition qis_sqrt : f64 -> f64 := @Bsqrt 53 1024 prec53 prec53_1024 mode_NE.

(** [rand::rng().random_range(lo..=hi)] for doubles: a value, or a panic. *)
(** stdlib/src/math.rs, [drawrandomdouble]. *)
Class RandDouble {T : Tol} {EN : Env} {RN : Rand} := { draw_double : f64 -> f64 -> tgen -> option (f64 * tgen) }.
(** The ways a draw ends: a value, the message and the end of the process, a panic. *)
(** stdlib/src/math.rs, [drawrandomint] and [drawrandomdouble]. *)
Inductive drawn {T : Tol} {EN : Env} {D : Doubles} {RN : Rand} := Drawn (x : f64) (w : world) | DrawFail (out : text) | DrawPanic.
Section Draw.
Context {T : Tol} {EN : Env} {D : Doubles} {RN : Rand} {RD : RandDouble}.
(** math.rs:119-127. *)
Definition drawrandomdouble (lo hi : f64) (w : world) : drawn :=
  if flt hi lo then DrawFail (bout (wback w) ++ render (RecMessage (codes "Invalid Argument: minimum > maximum")))
  else match draw_double lo hi (wtgen w) with Some (x, t) => Drawn x (mkWorld (wback w) t) | None => DrawPanic end.
End Draw.
