(** * Specification of the mathematical functions *)
From Coq Require Import ZArith Reals List Bool.
From Flocq Require Import IEEE754.BinarySingleNaN.
From Verif Require Import Cx Bits Arith ArithR IndexMap Sim SimExp SimApply Spec SpecRun SimRun Text Backend Runner Math.

(** IEEE 754 remainder: the nearest multiple of y is taken away; halfway between two, the even one. *)
Definition ieee_remainder (x y r : R) : Prop :=
  exists n : Z, r = (x - IZR n * y)%R /\ (Rabs (x / y - IZR n) <= / 2)%R /\ ((Rabs (x / y - IZR n) = / 2)%R -> Z.Even n).
(** The same, but halfway between two the multiple farther from zero. *)
Definition away_remainder (x y r : R) : Prop :=
  exists n : Z, r = (x - IZR n * y)%R /\ (Rabs (x / y - IZR n) <= / 2)%R /\ ((Rabs (x / y - IZR n) = / 2)%R -> (Rabs (x / y) < Rabs (IZR n))%R).
Definition halfway (x y : R) : Prop := exists n : Z, (Rabs (x / y - IZR n) = / 2)%R.
(** The double [x] is finite and is the number [r]. *)
Definition is_number (x : f64) (r : R) : Prop := is_finite x = true /\ B2R x = r.
(** Two doubles measured in one power of two; the first is less than 2^52 units. *)
Definition commensurable (x y : f64) (a b e : Z) : Prop :=
  is_number x (IZR a * powerRZ 2 e) /\ is_number y (IZR b * powerRZ 2 e) /\ (-1074 <= e <= 971)%Z /\ (Z.abs a < 2 ^ 52)%Z /\ (Z.abs b < 2 ^ 53)%Z.

Section Draw.
Context {T : Tol} {EN : Env} {RN : Rand} {RD : RandDouble}.
(** What is assumed of rand's [random_range]: a value between the bounds; for doubles a panic if the bounds are not ordered (one of them
    is not a number) or their distance is not finite. *)
Definition draws_ok : Prop := forall lo hi t, (lo <= hi)%Z -> (lo <= fst (draw_range lo hi t) <= hi)%Z.
Definition doubles_drawn_ok : Prop := forall lo hi t,
  (fle lo hi = true -> is_finite (fsub hi lo) = true -> exists x t', draw_double lo hi t = Some (x, t') /\ fle lo x = true /\ fle x hi = true) /\
  (fle lo hi = false \/ is_finite (fsub hi lo) = false -> draw_double lo hi t = None).
End Draw.
