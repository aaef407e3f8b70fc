(** * Results: the text of doubles *)
From Coq Require Import String Ascii List NArith ZArith Reals Bool.
From Flocq Require Import Core IEEE754.BinarySingleNaN.
From Verif Require Import Text SpecText SpecOutput OutputThms Math DoubleText SpecDouble DoubleThms DoubleShort.
Import ListNotations.

(** ** C57: the text of a double reads back as this double *)
Theorem C57_read_back : forall x : f64, reads (@double_to_string D64 x) x.
Proof. exact read_back. Qed.
Print Assumptions C57_read_back.

(** 0.1, 5e-324, -2.5, 2^100 and the largest double below 1 as the code prints them. *)
Definition d_tenth : f64 := @B754_finite 53 1024 false 7205759403792794 (-56) eq_refl.
Definition d_tiny : f64 := @B754_finite 53 1024 false 1 (-1074) eq_refl.
Definition d_neg : f64 := @B754_finite 53 1024 true 5629499534213120 (-51) eq_refl.
Definition d_big : f64 := @B754_finite 53 1024 false 4503599627370496 48 eq_refl.
Definition d_below : f64 := @B754_finite 53 1024 false 9007199254740991 (-53) eq_refl.
Example C57_texts_ex :
  @double_to_string D64 d_tenth = lit "0.1" /\ @double_to_string D64 d_neg = lit "-2.5" /\
  @double_to_string D64 d_big = lit "1267650600228229401496703205376.0" /\
  @double_to_string D64 d_below = lit "0.9999999999999999" /\
  @double_to_string D64 d_tiny = lit "0." ++ repeat "0"%char 323 ++ lit "5" /\
  @double_to_string D64 (B754_zero true) = lit "-0.0" /\ @double_to_string D64 (B754_infinity true) = lit "-inf" /\
  @double_to_string D64 B754_nan = lit "NaN".
Proof. vm_compute. repeat split. Qed.

Theorem C57_distinct : forall x y : f64, @double_to_string D64 x = @double_to_string D64 y -> x = y.
Proof. exact text_distinct. Qed.
Print Assumptions C57_distinct.

(** A finite double is printed with the decimals .0 exactly if it is a whole number. *)
Theorem C57_whole : forall x : f64, is_finite x = true ->
  (integral x <-> exists t, @double_to_string D64 x = t ++ lit ".0").
Proof. exact whole_text. Qed.
Print Assumptions C57_whole.
Example C57_whole_ex : integral d_big /\ ~ integral d_neg.
Proof.
  split.
  - apply (whole_text d_big eq_refl). exists (lit "1267650600228229401496703205376"). vm_compute. reflexivity.
  - intros H. apply (whole_text d_neg eq_refl) in H. destruct H as [t H]. apply (f_equal (@rev ascii)) in H.
    rewrite rev_app_distr in H. vm_compute in H. discriminate.
Qed.

(** No text with fewer decimals stands for the double, and none with as many is nearer to it. *)
Theorem C57_shortest : forall (x : f64) t, is_finite x = true -> ~ integral x -> reads t x ->
  exists s n k n' k', read_decimal (@double_to_string D64 x) = Some (s, n, k) /\ read_decimal t = Some (s, n', k') /\
    (k <= k')%nat /\
    (k = k' -> (Rabs (IZR (Z.of_N n) / 10 ^ k - Rabs (B2R x)) <= Rabs (IZR (Z.of_N n') / 10 ^ k' - Rabs (B2R x)))%R).
Proof. exact shortest_text. Qed.
Print Assumptions C57_shortest.
Example C57_shortest_ex : is_finite d_neg = true /\ ~ integral d_neg /\ reads (lit "-2.5") d_neg.
Proof.
  split; [reflexivity|]. split; [exact (proj2 C57_whole_ex)|]. assert (H := C57_read_back d_neg).
  rewrite (proj1 (proj2 C57_texts_ex)) in H. exact H.
Qed.

(** What the framing of the records (C39) asks of the text of doubles. *)
Theorem C57_framing : @doubles_ok D64.
Proof. exact doubles_ok_D64. Qed.
Print Assumptions C57_framing.

(** Equal outputs come from equal records, doubles included; a legacy result counts as the integer 0 or 1. *)
Theorem C57_records : forall rs rs' : list (@record D64), Forall tag_ok rs -> Forall tag_ok rs' ->
  write_records [] rs = write_records [] rs' ->
  Forall2 (fun r r' => r = r' \/ (legacy_number r <> None /\ legacy_number r = legacy_number r')) rs rs'.
Proof.
  intros rs rs' T T' H. assert (F := @inj_thm D64 doubles_ok_D64 rs rs' T T' H). clear - F.
  induction F; constructor; [apply same_record_eq; assumption|assumption].
Qed.
Print Assumptions C57_records.
Example C57_records_ex : let rs := [@RecDouble D64 d_tenth (Some (lit "a")); @LegDouble D64 d_big] in
  Forall tag_ok rs /\ write_records [] rs = lit "OUTPUT" ++ [TAB] ++ lit "DOUBLE" ++ [TAB] ++ lit "0.1" ++ [TAB] ++ lit "a" ++ [NL] ++
    lit "RESULT" ++ [TAB] ++ lit "1267650600228229401496703205376.0" ++ [NL].
Proof. split; [repeat constructor; simpl; intros [H|[]]; discriminate|vm_compute; reflexivity]. Qed.
