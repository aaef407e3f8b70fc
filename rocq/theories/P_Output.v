(** * Results: text of values and output records *)
From Coq Require Import String Ascii List NArith ZArith Bool.
From Verif Require Import SimExp Text SpecText SpecOutput TextLemmas OutputThms.
Import ListNotations.

(** ** C38: printed numbers can be read back *)
Theorem C38_integers : forall z, read_Z (show_Z z) = Some z.
Proof. exact read_show_Z. Qed.
Print Assumptions C38_integers.
Example C38_integers_ex : show_Z (-907) = lit "-907" /\ read_Z (lit "-907") = Some (-907)%Z.
Proof. vm_compute. split; reflexivity. Qed.

Theorem C38_integers_distinct : forall z z', show_Z z = show_Z z' -> z = z'.
Proof. intros z z' H. apply (f_equal read_Z) in H. rewrite !read_show_Z in H. injection H as H. exact H. Qed.
Print Assumptions C38_integers_distinct.

Theorem C38_ranges : forall r, read_range (range_to_string r) = Some (r_start r, r_step r, r_end r).
Proof. exact read_range_show. Qed.
Print Assumptions C38_ranges.
Example C38_ranges_ex : range_to_string (mkRange 0 (-2) 12) = lit "0..-2..12" /\
  range_to_string (mkRange (-3) 1 9) = lit "-3..9".
Proof. vm_compute. split; reflexivity. Qed.

Theorem C38_ranges_distinct : forall r r', range_to_string r = range_to_string r' -> r = r'.
Proof.
  intros [a s b] [a' s' b'] H. apply (f_equal read_range) in H. rewrite !read_range_show in H.
  injection H as -> -> ->. reflexivity.
Qed.
Print Assumptions C38_ranges_distinct.

(** Names of Booleans, Paulis and of the two results are all different. *)
Theorem C38_names_distinct :
  (forall b b', show_bool b = show_bool b' -> b = b') /\
  (forall p p', pauli_to_string p = pauli_to_string p' -> p = p') /\
  (forall r r', (r <= 1)%N -> (r' <= 1)%N -> result_to_string r = result_to_string r' -> r = r').
Proof.
  split; [intros [] [] H; (reflexivity || discriminate H)|].
  split; [intros [] [] H; (reflexivity || discriminate H)|].
  intros r r' H H' E. assert (r = 0 \/ r = 1)%N as [-> | ->] by (destruct r as [|[]]; auto; exfalso; apply H; reflexivity);
  assert (r' = 0 \/ r' = 1)%N as [-> | ->] by (destruct r' as [|[]]; auto; exfalso; apply H'; reflexivity);
  (reflexivity || discriminate E).
Qed.
Print Assumptions C38_names_distinct.

(** ** C39: output records keep their framing *)
Theorem C39_lines : forall (D : Doubles), doubles_ok -> forall out rs, Forall tag_ok rs ->
  exists new lines, write_records out rs = out ++ new /\
    split NL new = lines ++ [[]] /\ Forall2 (fun r l => documents r (split TAB l)) rs lines.
Proof. exact @lines_thm. Qed.
Print Assumptions C39_lines.

(** Doubles given by their text, all of the form 1.5, satisfy the assumption. *)
#[local] Instance D15 : Doubles := {| dbl := Z; dbl_whole := Z.even;
  dbl_show1 := fun d => show_Z d ++ lit ".0"; dbl_show := fun d => show_Z d ++ lit ".5" |}.
Example C39_doubles_ex : @doubles_ok D15.
Proof.
  assert (Hn : forall t u acc, digits 10 digit acc (t ++ "."%char :: u) = None).
  { induction t as [|c t IH]; intros u acc; simpl; [reflexivity|]. destruct (digit c); auto. }
  assert (Hr : forall t u, read_nat (t ++ "."%char :: u) = None).
  { intros [|c t] u; [reflexivity|]. exact (Hn (c :: t) u 0%N). }
  assert (Hz : forall t u, read_Z (t ++ "."%char :: u) = None).
  { intros [|c t] u; [reflexivity|]. unfold read_Z. cbn [app].
    destruct c as [[] [] [] [] [] [] [] []]; (change (c :: t ++ "."%char :: u) with ((c :: t) ++ "."%char :: u) || idtac);
      try (rewrite Hr; reflexivity); change (?c :: t ++ "."%char :: u) with ((c :: t) ++ "."%char :: u); rewrite Hr; reflexivity. }
  assert (Hc : forall z, forallb double_char (show_Z z) = true).
  { intro z. pose proof (show_Z_chars z) as H. rewrite forallb_forall in H |- *. intros c Hin. specialize (H c Hin).
    revert H. clear. destruct c as [[] [] [] [] [] [] [] []]; vm_compute; congruence. }
  intro d. unfold double_to_string. simpl. destruct (Z.even d); rewrite forallb_app, Hc; split; try reflexivity; apply Hz.
Qed.
Example C39_lines_ex :
  write_records [] [RecArray 2 (Some (lit "0_a")); RecInt (-7) (Some (lit "1_a1i")); RecDouble (D:=D15) 3%Z None;
                    RecMessage [72; 105; 10; 8364]%N; RecResult true (Some [])] =
  lit "OUTPUT" ++ [TAB] ++ lit "ARRAY" ++ [TAB] ++ lit "2" ++ [TAB] ++ lit "0_a" ++ [NL] ++
  lit "OUTPUT" ++ [TAB] ++ lit "INT" ++ [TAB] ++ lit "-7" ++ [TAB] ++ lit "1_a1i" ++ [NL] ++
  lit "OUTPUT" ++ [TAB] ++ lit "DOUBLE" ++ [TAB] ++ lit "3.5" ++ [NL] ++
  lit "INFO" ++ [TAB] ++ lit "Hi\n\u{20ac}" ++ [NL] ++
  lit "OUTPUT" ++ [TAB] ++ lit "RESULT" ++ [TAB] ++ lit "1" ++ [TAB] ++ [NL].
Proof. vm_compute. reflexivity. Qed.
Example C39_tags_ex : Forall tag_ok [RecArray 2 (Some (lit "0_a")); RecDouble (D:=D15) 3%Z None; RecMessage [10]%N].
Proof. repeat constructor. simpl. intros [H|[H|[H|[]]]]; discriminate. Qed.

Theorem C39_message_recovered : forall m,
  forallb (fun c => (32 <=? N_of_ascii c)%N && (N_of_ascii c <=? 126)%N) (escape_default m) = true /\
  read_message (escape_default m) = Some m.
Proof. intro m. split; [exact (escape_printable m) | exact (read_escape m)]. Qed.
Print Assumptions C39_message_recovered.

(** Different sequences of records give different output.  Missing from the full claim: tags with a newline,
    and the legacy integers 0 and 1 against the legacy results. *)
Theorem C39_distinct_partial : forall (D : Doubles), doubles_ok -> forall rs rs',
  Forall tag_ok rs -> Forall tag_ok rs' ->
  write_records [] rs = write_records [] rs' -> Forall2 same_record rs rs'.
Proof. exact @inj_thm. Qed.
Print Assumptions C39_distinct_partial.

(** A newline in a tag forges a record, and the legacy format confuses integers with results. *)
Theorem C39_refuted : forall (D : Doubles),
  (exists rs rs', length rs <> length rs' /\ write_records [] rs = write_records [] rs') /\
  (exists r r', r = LegInt 1 /\ r' = LegResult true /\ write_records [] [r] = write_records [] [r']).
Proof.
  intro D. split.
  - exists [RecInt 1 (Some (lit "a" ++ [NL] ++ lit "OUTPUT" ++ [TAB] ++ lit "INT" ++ [TAB] ++ lit "2"))],
      [RecInt 1 (Some (lit "a")); RecInt 2 None]. split; [discriminate | reflexivity].
  - exists (LegInt 1), (LegResult true). repeat split.
Qed.
Print Assumptions C39_refuted.
