(** * The arithmetic of the simulator in IEEE binary64

    The operations of [Arith] as the Rust code computes them: [f64] is the binary64 format of Flocq with rounding
    to nearest even, and [Complex64] (num-complex 0.4) works on pairs with the textbook formulas.  The products of
    an amplitude with a real factor (lib.rs:991-1017, lib.rs:456) are products with a pair whose imaginary part is
    0, as everywhere in the model; on finite numbers this changes at most the sign of a zero.

    Rust's [cos] and [sin] come from the platform's mathematics library and are parameters here. *)
From Coq Require Import ZArith Reals Bool.
From Flocq Require Import IEEE754.BinarySingleNaN.
From Verif Require Import Arith Math.

Definition fadd : f64 -> f64 -> f64 := @Bplus 53 1024 prec53 prec53_1024 mode_NE.
Definition fsqrt : f64 -> f64 := @Bsqrt 53 1024 prec53 prec53_1024 mode_NE.
(** The double nearest to [m * 2^e]. *)
(** Literals of sparsesim/src/lib.rs and sparsesim/src/nearly_zero.rs:13. *)
Definition flit (m e : Z) : f64 := @binary_normalize 53 1024 prec53 prec53_1024 mode_NE m e false.
Definition f0 : f64 := flit 0 0.
Definition f1 : f64 := flit 1 0.
Definition f2 : f64 := flit 2 0.
Definition fm1 : f64 := flit (-1) 0.
(** 1e-10 (nearly_zero.rs:13). *)
Definition f1em10 : f64 := flit 0x1b7cdfd9d7bdbb (-86).
(** std::f64::consts::FRAC_1_SQRT_2. *)
(** sparsesim/src/lib.rs:27. *)
Definition frs2 : f64 := flit 6369051672525773 (-53).

(** Rust's [f64::max] and [f64::min]: the other argument if one is not a number. *)
(** sparsesim/src/nearly_zero.rs:13. *)
Definition fmax (x y : f64) : f64 := if is_nan x then y else if is_nan y then x else if flt x y then y else x.
Definition fmin (x y : f64) : f64 := if is_nan x then y else if is_nan y then x else if flt y x then y else x.
(** nearly_zero.rs:11-15. *)
Definition fnz64 (x : f64) : bool := fle (fsub (fmax x f0) (fmin f0 x)) f1em10.

Section Inst.
Variables cosf sinf : f64 -> f64.
Definition Arith64 : Arith := {|
  amp := f64 * f64; ang := f64; prb := f64;
  amp0 := (f0, f0); amp1 := (f1, f0); ampi := (f0, f1); ars2 := (frs2, f0);
  aadd := fun a b => (fadd (fst a) (fst b), fadd (snd a) (snd b));
  asub := fun a b => (fsub (fst a) (fst b), fsub (snd a) (snd b));
  amul := fun a b => (fsub (fmul (fst a) (fst b)) (fmul (snd a) (snd b)),
                      fadd (fmul (fst a) (snd b)) (fmul (snd a) (fst b)));
  aopp := fun a => (Bopp (fst a), Bopp (snd a));
  anz := fun a => fnz64 (fst a) && fnz64 (snd a);
  ais1 := fun a => feq (fst a) f1 && feq (snd a) f0;
  tadd := fadd; tneg := fun t => fmul t fm1; tnz := fnz64;
  chalf := fun t => (cosf (fdiv t f2), f0); shalf := fun t => (sinf (fdiv t f2), f0);
  cfull := fun t => (cosf t, f0); sfull := fun t => (sinf t, f0);
  prb0 := f0; padd := fadd; pcompl := fun p => fsub f1 p;
  psqr := fun a => fadd (fmul (fst a) (fst a)) (fmul (snd a) (snd a));
  plt := flt; pnz := fnz64; pscale := fun p => (fdiv f1 (fsqrt p), f0)
|}.
End Inst.
