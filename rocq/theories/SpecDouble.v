(** * Specification of the text of doubles: what a decimal number reads as *)
From Coq Require Import String Ascii List NArith ZArith Reals Bool.
From Flocq Require Import Core IEEE754.BinarySingleNaN.
From Verif Require Import Text SpecText Math.
Import ListNotations.

(** The sign, and the text after it. *)
Definition read_sign (t : text) : bool * text := match t with "-"%char :: t' => (true, t') | _ => (false, t) end.
(** A decimal number: possibly a minus sign, digits, a point, digits.  The sign, the number formed by all the digits,
    and how many of them come after the point. *)
Definition read_decimal (t : text) : option (bool * N * nat) :=
  let (s, u) := read_sign t in
  match split "."%char u with
  | [a; b] => match read_nat a, read_nat b, read_nat (a ++ b) with
              | Some _, Some _, Some n => Some (s, n, length b)
              | _, _, _ => None
              end
  | _ => None
  end.
Definition signed (s : bool) (x : R) : R := if s then (- x)%R else x.
(** The number rounded to the nearest double, ties to even. *)
Definition nearest (x : R) : R := round radix2 (FLT_exp (-1074) 53) ZnearestE x.
(** The double that a text stands for. *)
Definition reads (t : text) (x : f64) : Prop :=
  match x with
  | B754_nan => t = lit "NaN"
  | B754_infinity s => t = (if s then lit "-inf" else lit "inf")
  | _ => exists s n k, read_decimal t = Some (s, n, k) /\ Bsign x = s /\
           B2R x = nearest (signed s (IZR (Z.of_N n) / 10 ^ k))
  end.
(** The value is an integer. *)
Definition integral (x : f64) : Prop := exists z : Z, B2R x = IZR z.
