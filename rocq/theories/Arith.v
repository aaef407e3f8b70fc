(** * Numeric interface of the simulator

    The Rust code computes with [f64] and [Complex64].  The model is polymorphic
    in the operations it uses, collected here.  [ArithR.v] gives the exact
    instance over the reals used in the proofs, [ArithF.v] a machine-float
    instance used to run the repository's unit tests against the model. *)
From Coq Require Import NArith List.

(** Operations on amplitudes ([num_complex::Complex64]), angles and
    probabilities (both [f64]) that sparsesim/src/lib.rs, exp.rs and
    nearly_zero.rs use. *)
Class Arith := {
  amp : Type;                       (* Complex64 *)
  ang : Type;                       (* f64 angles *)
  prb : Type;                       (* f64 probabilities and samples *)
  amp0 : amp;                       (* Complex64::zero() *)
  amp1 : amp;                       (* Complex64::one() *)
  ampi : amp;                       (* Complex64::i() *)
  ars2 : amp;                       (* FRAC_1_SQRT_2 as a (real) factor *)
  aadd : amp -> amp -> amp;
  asub : amp -> amp -> amp;
  amul : amp -> amp -> amp;
  aopp : amp -> amp;
  anz : amp -> bool;                (* Complex64::is_nearly_zero, nearly_zero.rs:17-24 *)
  ais1 : amp -> bool;               (* == Complex64::one(), lib.rs:1058 *)
  tadd : ang -> ang -> ang;         (* += on angles *)
  tneg : ang -> ang;                (* *= -1.0 on angles *)
  tnz : ang -> bool;                (* f64::is_nearly_zero, nearly_zero.rs:11-15 *)
  chalf : ang -> amp;               (* cos(theta / 2), as a real amplitude *)
  shalf : ang -> amp;               (* sin(theta / 2), as a real amplitude *)
  cfull : ang -> amp;               (* cos(theta), exp.rs:80 *)
  sfull : ang -> amp;               (* sin(theta), exp.rs:81 *)
  prb0 : prb;
  padd : prb -> prb -> prb;
  pcompl : prb -> prb;              (* 1.0 - p *)
  psqr : amp -> prb;                (* norm_sqr *)
  plt : prb -> prb -> bool;         (* < *)
  pnz : prb -> bool;                (* f64::is_nearly_zero on a probability *)
  pscale : prb -> amp               (* 1.0 / p.sqrt() as a real factor, lib.rs:441-447 *)
}.

(** What the simulator takes from its environment besides arithmetic:
    - [horder]: the order in which an [FxHashMap] is iterated (rustc_hash);
      any function is allowed here, the proofs assume it permutes its argument;
    - [gen], [draw]: the random generator [StdRng] and [random::<f64>()]. *)
(** sparsesim/src/lib.rs:30, 46-58. *)
Class Env {A : Arith} := {
  horder : list (N * amp) -> list (N * amp);
  gen : Type;
  draw : gen -> prb * gen
}.
