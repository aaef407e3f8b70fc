(** * What binary64 numbers stand for, and what is assumed of the mathematics library *)
From Coq Require Import ZArith Reals Bool.
From Flocq Require Import Core IEEE754.BinarySingleNaN.
From Verif Require Import Cx Arith SpecRound SpecLedger Math Binary64.
Local Open Scope R_scope.

(** The cosine and sine of the platform: on arguments up to 2^17 finite and within 2^-50 of the exact value, the
    cosine of [-x] being that of [x]. *)
Record libm_ok (cosf sinf : f64 -> f64) : Prop := {
  libm_cos : forall x, is_finite x = true -> Rabs (B2R x) <= 2 ^ 17 ->
    is_finite (cosf x) = true /\ Rabs (B2R (cosf x) - cos (B2R x)) <= / 2 ^ 50;
  libm_sin : forall x, is_finite x = true -> Rabs (B2R x) <= 2 ^ 17 ->
    is_finite (sinf x) = true /\ Rabs (B2R (sinf x) - sin (B2R x)) <= / 2 ^ 50;
  libm_even : forall x, cosf (Bopp x) = cosf x
}.

(** Numbers stand for themselves.  With angles up to 2^(8+k) one operation is wrong by at most 2^(k-44). *)
Definition Approx64 (cosf sinf : f64 -> f64) (k : nat) : @Approx (Arith64 cosf sinf) := {|
  aval := fun a : @amp (Arith64 cosf sinf) => (B2R (fst a), B2R (snd a));
  tval := fun t : @ang (Arith64 cosf sinf) => B2R t;
  afin := fun a : @amp (Arith64 cosf sinf) => is_finite (fst a) = true /\ is_finite (snd a) = true;
  tfin := fun t : @ang (Arith64 cosf sinf) => is_finite t = true;
  thr := B2R f1em10;
  dlt := 2 ^ k / 2 ^ 44;
  lim := 2 ^ (8 + k)
|}.

(** Probabilities and samples stand for themselves, and one operation is wrong by at most 2^-49. *)
Definition ApproxP64 (cosf sinf : f64 -> f64) : @ApproxP (Arith64 cosf sinf) := {|
  pval := fun p : @prb (Arith64 cosf sinf) => B2R p;
  pfin := fun p : @prb (Arith64 cosf sinf) => is_finite p = true;
  perr := / 2 ^ 49
|}.
