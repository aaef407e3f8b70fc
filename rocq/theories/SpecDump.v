(** * Specification of the text of a dump: what it reads as *)
From Coq Require Import String Ascii List NArith ZArith Reals Bool.
From Flocq Require Import Core IEEE754.BinarySingleNaN.
From Verif Require Import Arith SpecAny Text SpecText Math SpecDouble.
Import ListNotations.

(** A decimal number with or without a point: the sign, the number formed by all the digits, and how many of them come
    after the point. *)
Definition read_number (t : text) : option (bool * N * nat) :=
  match read_decimal t with
  | Some r => Some r
  | None => let (s, u) := read_sign t in option_map (fun n => (s, n, 0%nat)) (read_nat u)
  end.
(** The double that a number stands for: the nearest one. *)
Definition reads_number (t : text) (x : f64) : Prop :=
  match x with
  | B754_nan => t = lit "NaN"
  | B754_infinity s => t = (if s then lit "-inf" else lit "inf")
  | _ => exists s n k, read_number t = Some (s, n, k) /\ Bsign x = s /\
           B2R x = nearest (signed s (IZR (Z.of_N n) / 10 ^ k))
  end.
(** [u+vi] or [u-vi]; in the second form the minus belongs to the imaginary part. *)
Definition reads_complex (t : text) (a : f64 * f64) : Prop :=
  exists u v, reads_number u (fst a) /\
    (t = u ++ lit "+" ++ v ++ lit "i" /\ reads_number v (snd a) \/
     t = u ++ lit "-" ++ v ++ lit "i" /\ reads_number (lit "-" ++ v) (snd a)).
(** The right angle bracket of a ket, U+27E9, in UTF-8. *)
Definition ket : text := map ascii_of_N [226; 159; 169]%N.
(** A line of entries [|label>: amplitude] followed by commas, between brackets. *)
Fixpoint reads_entries (t : text) (st : list (N * (f64 * f64))) : Prop :=
  match st with
  | [] => t = lit "]" ++ [ascii_of_N 10]
  | (b, a) :: st' => exists u v t', t = lit "|" ++ u ++ ket ++ lit ": " ++ v ++ lit ", " ++ t' /\
      read_nat u = Some b /\ reads_complex v a /\ reads_entries t' st'
  end.
Definition reads_dump (t : text) (st : list (N * (f64 * f64))) : Prop :=
  exists t', t = lit "STATE: [ " ++ t' /\ reads_entries t' st.

(** Calls that only look at the state. *)
Definition looks {A : Arith} (c : acall) : Prop :=
  match c with AState | ADump | AJointProb _ | AIsZero _ => True | _ => False end.
