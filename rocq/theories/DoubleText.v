(** * stdlib/src/strings.rs:90-98: the text of a double

    Doubles are binary64 as in Math.  Rust's two formats are library code and are modelled by what they document: the
    format with one decimal is the exact value rounded to one decimal, and the plain one is the decimal number with the
    fewest digits that reads back as the double, the nearest of these, in positional notation without exponent. *)
From Coq Require Import String Ascii List ZArith Bool.
From Flocq Require Import IEEE754.BinarySingleNaN.
From Verif Require Import Text Math.
Import ListNotations.
Local Open Scope Z_scope.

(** Rust's [f64::floor], [f64::ceil] and [f64::abs]: exact. *)
(** stdlib/src/strings.rs:91. *)
Definition ffloor : f64 -> f64 := @Bnearbyint 53 1024 prec53_1024 mode_DN.
Definition fceil : f64 -> f64 := @Bnearbyint 53 1024 prec53_1024 mode_UP.
Definition fabs : f64 -> f64 := @Babs 53 1024.
(** [f64::EPSILON], which is 2^-52. *)
(** stdlib/src/strings.rs:91. *)
Definition f64_epsilon : f64 := @B754_finite 53 1024 false 4503599627370496 (-104) eq_refl.
(** strings.rs:91. *)
Definition is_whole (x : f64) : bool := flt (fabs (fsub (ffloor x) (fceil x))) f64_epsilon.

(** A minus sign for negative numbers, -0 included. *)
(** Rust library, for stdlib/src/strings.rs:94, 96. *)
Definition minus (s : bool) : text := if s then lit "-" else [].
(** Powers with the negative exponents left out. *)
(** Rust library, for stdlib/src/strings.rs:94, 96. *)
Definition pw (b k : Z) : Z := b ^ Z.max k 0.

(** [10 * m * 2^e] rounded to the nearest integer, halves to even. *)
(** Rust library, for stdlib/src/strings.rs:94. *)
Definition tenths (m e : Z) : Z :=
  let n := 10 * m * pw 2 e in let d := pw 2 (- e) in let q := n / d in let r := n mod d in
  if 2 * r <? d then q else if d <? 2 * r then q + 1 else q + q mod 2.
(** [format!("{x:.1}")]. *)
(** stdlib/src/strings.rs:94. *)
Definition show1 (x : f64) : text :=
  match x with
  | B754_nan => lit "NaN"
  | B754_infinity s => minus s ++ lit "inf"
  | B754_zero s => minus s ++ lit "0.0"
  | B754_finite s m e _ => let n := tenths (Zpos m) e in minus s ++ show_Z (n / 10) ++ lit "." ++ show_Z (n mod 10)
  end.

(** Comparison of [c * 10^p] with [a * 2^q]. *)
(** Rust library, for stdlib/src/strings.rs:96. *)
Definition cmp (c p a q : Z) : comparison := Z.compare (c * pw 10 p * pw 2 (- q)) (a * pw 2 q * pw 10 (- p)).
(** The decimal number [c * 10^p] reads as the double [m * 2^e]: it is between the midpoints to the neighbouring doubles,
    which count when [m] is even. *)
(** Rust library, for stdlib/src/strings.rs:96. *)
Definition in_reach (m e c p : Z) : bool :=
  let a := if (m =? 2 ^ 52) && (-1074 <? e) then 4 * m - 1 else 4 * m - 2 in
  match cmp c p a (e - 2), cmp c p (4 * m + 2) (e - 2) with
  | Gt, Lt => true
  | Gt, Eq | Eq, Lt => Z.even m
  | _, _ => false
  end.
(** From the power of ten [p] downwards, the first multiple next to [m * 2^e] that reads as it, the nearer one if both do.
    An exact multiple exists for [p = min e 0], so the last case, the exact value, does not occur with the fuel given. *)
(** Rust library, for stdlib/src/strings.rs:96. *)
Fixpoint search (fuel : nat) (m e p : Z) : Z * Z :=
  match fuel with
  | O => (m * pw 2 e * pw 5 (- e), Z.min e 0)
  | S f =>
      let c := m * pw 2 e * pw 10 (- p) / (pw 2 (- e) * pw 10 p) in
      match (0 <? c) && in_reach m e c p, in_reach m e (c + 1) p with
      | true, true => (match cmp (2 * c + 1) p (2 * m) e with Gt => c | _ => c + 1 end, p)
      | true, false => (c, p)
      | false, true => (c + 1, p)
      | false, false => search f m e (p - 1)
      end
  end.
(** The search starts at a power of ten above twice the number. *)
(** Rust library, for stdlib/src/strings.rs:96. *)
Definition shortest (m e : Z) : Z * Z :=
  let p := 18 + (if e <? 0 then e * 3 / 10 else e * 31 / 100) in search (Z.to_nat (p + 1 - Z.min e 0)) m e p.
(** The digits of [c] with the point placed for [c * 10^p]. *)
(** Rust library, for stdlib/src/strings.rs:96. *)
Definition positional (c p : Z) : text :=
  let buf := show_Z c in let len := Z.of_nat (length buf) in let exp := p + len in
  if exp <=? 0 then lit "0." ++ repeat "0"%char (Z.to_nat (- exp)) ++ buf
  else if exp <? len then firstn (Z.to_nat exp) buf ++ lit "." ++ skipn (Z.to_nat exp) buf
  else buf ++ repeat "0"%char (Z.to_nat (exp - len)).
(** [format!("{x}")]. *)
(** stdlib/src/strings.rs:96. *)
Definition show (x : f64) : text :=
  match x with
  | B754_nan => lit "NaN"
  | B754_infinity s => minus s ++ lit "inf"
  | B754_zero s => minus s ++ lit "0"
  | B754_finite s m e _ => let (c, p) := shortest (Zpos m) e in minus s ++ positional c p
  end.

(** The text of doubles that the records and [double_to_string] (Text) take as a parameter. *)
(** stdlib/src/strings.rs:90-98. *)
Definition D64 : Doubles := {| dbl := f64; dbl_whole := is_whole; dbl_show1 := show1; dbl_show := show |}.
