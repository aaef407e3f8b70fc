(** * sparsesim/src/lib.rs:244-275: the text of a dumped state

    Keys are numbers of any size ([BigUint]) printed in decimal and amplitudes pairs of doubles as in Binary64.  The
    format of complex numbers is library code (num-complex 0.4 [Display]) and is modelled by its source: the real part,
    a sign, the imaginary part, and the letter i, where a minus is printed for parts below zero and the numbers
    themselves are the plain format of doubles (DoubleText). *)
From Coq Require Import String Ascii List NArith ZArith Bool.
From Flocq Require Import IEEE754.BinarySingleNaN.
From Verif Require Import Text Math DoubleText Binary64.
Import ListNotations.

(** num-complex [write_complex]: the part without its sign, computed as [0 - x] for parts below zero. *)
(** Used at sparsesim/src/lib.rs:254-272. *)
Definition part_abs (x : f64) : f64 := if flt x f0 then fsub f0 x else x.
(** num-complex [fmt_re_im] without flags: [{re}+{im}i] or [{re}-{im}i], with a minus before a negative real part. *)
(** Used at sparsesim/src/lib.rs:254-272. *)
Definition show_complex (a : f64 * f64) : text :=
  minus (flt (fst a) f0) ++ show (part_abs (fst a)) ++ (if flt (snd a) f0 then lit "-" else lit "+") ++
  show (part_abs (snd a)) ++ lit "i".
(** The character U+27E9 in UTF-8. *)
(** sparsesim/src/lib.rs:254-272. *)
Definition ket_end : text := map ascii_of_N [226; 159; 169]%N.
(** lib.rs:266-270, one entry. *)
Definition dump_entry (e : N * (f64 * f64)) : text :=
  lit "|" ++ show_Z (Z.of_N (fst e)) ++ ket_end ++ lit ": " ++ show_complex (snd e) ++ lit ", ".
(** lib.rs:247-275 [dump_impl] with [print_id_map] false, on a system that ends lines with a newline; the entries are
    those of [Sim.dump], which sorts them. *)
Definition dump_text (st : list (N * (f64 * f64))) : text :=
  lit "STATE: [ " ++ concat (map dump_entry st) ++ lit "]" ++ [NL].
