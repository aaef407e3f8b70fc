(** * Specification of UTF-8 and of strings that are put together *)
From Coq Require Import String Ascii List NArith ZArith Bool.
Import ListNotations.
Local Open Scope N_scope.

(** Unicode scalar values. *)
Definition scalar (n : N) : Prop := n < 55296 \/ 57344 <= n < 1114112.
(** The bytes of a scalar value: table 3-6 of the Unicode standard. *)
Definition encode1 (n : N) : list ascii :=
  map ascii_of_N
    (if n <? 128 then [n]
     else if n <? 2048 then [192 + n / 64; 128 + n mod 64]
     else if n <? 65536 then [224 + n / 4096; 128 + n / 64 mod 64; 128 + n mod 64]
     else [240 + n / 262144; 128 + n / 4096 mod 64; 128 + n / 64 mod 64; 128 + n mod 64]).
Definition encode (m : list N) : list ascii := flat_map encode1 m.
(** Bytes that are the text [m]. *)
Definition is_text (t : list ascii) (m : list N) : Prop := Forall scalar m /\ t = encode m.

(** Characters that are printed as they are. *)
Definition plain (c : ascii) : Prop :=
  let n := N_of_ascii c in 32 <= n <= 126 /\ n <> 34 /\ n <> 39 /\ n <> 92.

(** A call that returns a new string of text [t] with one reference and changes no object there was. *)
From Verif Require Import Text Heap SpecHeap.
Definition gives (m : Hp nat) (h : heap) (t : text) : Prop :=
  exists b h', m h = HOk b h' /\ nth_error h b = None /\ alive h' b 1 0 (VStr t) /\
    forall x, (x < length h)%nat -> nth_error h' x = nth_error h x.
