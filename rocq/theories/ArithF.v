(** * Machine-float instance of the numeric interface (tests only)

    Used to run the repository's unit tests against the model; no theorem
    depends on this file.  cos and sin are Taylor polynomials after range
    reduction, accurate to about 1e-15. *)
From Coq Require Import NArith List Floats.
From Verif Require Import Arith.
Import ListNotations.
Local Open Scope float_scope.

(** Tests only; the operations of sparsesim/src/lib.rs in machine floats. *)
Definition fpi := 0x1.921fb54442d18p1.
Definition fabs (x : float) := PrimFloat.abs x.

(** Reduce to [-pi, pi] by adding or subtracting 2 pi (at most 64 times). *)
(** Tests only; stands for Rust cosine and sine (sparsesim/src/lib.rs:913-918). *)
Fixpoint freduce (n : nat) (x : float) : float :=
  match n with
  | O => x
  | S n' => if fpi <? x then freduce n' (x - 2 * fpi)
            else if x <? - fpi then freduce n' (x + 2 * fpi) else x
  end.

(** Sum of the remaining terms of a Taylor series; [k] is the float of the last index. *)
(** Tests only; as [freduce] (sparsesim/src/lib.rs:913-918). *)
Fixpoint fseries (n : nat) (term k x2 acc : float) : float :=
  match n with
  | O => acc
  | S n' => let term' := - (term * x2 / ((k + 1) * (k + 2))) in
            fseries n' term' (k + 2) x2 (acc + term')
  end.
Definition fcos (x : float) := let y := freduce 64 x in fseries 20 1 0 (y * y) 1.
Definition fsin (x : float) := let y := freduce 64 x in fseries 20 y 1 (y * y) y.

(** The binary64 value of 1e-10. *)
(** sparsesim/src/nearly_zero.rs:13. *)
Definition ftol := 0x1.b7cdfd9d7bdbbp-34.
(** nearly_zero.rs:11-15; true of a NaN. *)
Definition fnz (x : float) : bool := negb (ftol <? fabs x).

#[export] Instance ArithF : Arith := {
  amp := float * float; ang := float; prb := float;
  amp0 := (0, 0); amp1 := (1, 0); ampi := (0, 1);
  ars2 := (1 / PrimFloat.sqrt 2, 0);
  aadd a b := (fst a + fst b, snd a + snd b);
  asub a b := (fst a - fst b, snd a - snd b);
  amul a b := (fst a * fst b - snd a * snd b, fst a * snd b + snd a * fst b);
  aopp a := (- fst a, - snd a);
  anz a := andb (fnz (fst a)) (fnz (snd a));
  ais1 a := andb (fst a =? 1) (snd a =? 0);
  tadd := PrimFloat.add; tneg := PrimFloat.opp; tnz := fnz;
  chalf t := (fcos (t / 2), 0); shalf t := (fsin (t / 2), 0);
  cfull t := (fcos t, 0); sfull t := (fsin t, 0);
  prb0 := 0; padd := PrimFloat.add; pcompl p := 1 - p;
  psqr a := fst a * fst a + snd a * snd a;
  plt := PrimFloat.ltb; pnz := fnz; pscale p := (1 / PrimFloat.sqrt p, 0)
}.

(** A list of samples as generator, and reversed insertion order as hash order. *)
(** Tests only; sparsesim/src/lib.rs:30, 97. *)
#[export] Instance EnvF : Env := {
  horder := fun l => rev l;
  gen := list float;
  draw := fun g => match g with x :: g' => (x, g') | [] => (0.5, []) end
}.
