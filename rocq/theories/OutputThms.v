(** * Proofs about the output records *)
From Coq Require Import String Ascii List NArith ZArith Bool Lia.
From Verif Require Import Text SpecText SpecOutput TextLemmas.
Import ListNotations.

Section OutputThms.
Context {D : Doubles}.
Hypothesis DOK : doubles_ok.

Definition line (r : record) : text :=
  match r with
  | RecArray n tag => lit "OUTPUT" ++ [TAB] ++ lit "ARRAY" ++ [TAB] ++ show_Z n ++ match tag with Some t => [TAB] ++ t | None => [] end
  | RecTuple n tag => lit "OUTPUT" ++ [TAB] ++ lit "TUPLE" ++ [TAB] ++ show_Z n ++ match tag with Some t => [TAB] ++ t | None => [] end
  | RecInt n tag => lit "OUTPUT" ++ [TAB] ++ lit "INT" ++ [TAB] ++ show_Z n ++ match tag with Some t => [TAB] ++ t | None => [] end
  | RecBool b tag => lit "OUTPUT" ++ [TAB] ++ lit "BOOL" ++ [TAB] ++ show_bool b ++ match tag with Some t => [TAB] ++ t | None => [] end
  | RecDouble d tag => lit "OUTPUT" ++ [TAB] ++ lit "DOUBLE" ++ [TAB] ++ double_to_string d ++ match tag with Some t => [TAB] ++ t | None => [] end
  | RecResult b tag => lit "OUTPUT" ++ [TAB] ++ lit "RESULT" ++ [TAB] ++ show_Z (if b then 1 else 0) ++ match tag with Some t => [TAB] ++ t | None => [] end
  | RecMessage m => lit "INFO" ++ [TAB] ++ escape_default m
  | LegArrayStart => lit "RESULT" ++ [TAB] ++ lit "ARRAY_START"
  | LegArrayEnd => lit "RESULT" ++ [TAB] ++ lit "ARRAY_END"
  | LegTupleStart => lit "RESULT" ++ [TAB] ++ lit "TUPLE_START"
  | LegTupleEnd => lit "RESULT" ++ [TAB] ++ lit "TUPLE_END"
  | LegInt n => lit "RESULT" ++ [TAB] ++ show_Z n
  | LegBool b => lit "RESULT" ++ [TAB] ++ show_bool b
  | LegDouble d => lit "RESULT" ++ [TAB] ++ double_to_string d
  | LegResult b => lit "RESULT" ++ [TAB] ++ lit (if b then "1" else "0")
  end.
Lemma render_line : forall r, render r = line r ++ [NL].
Proof.
  destruct r; unfold render, line, record_output, record_output_str; try reflexivity;
    rewrite <- !app_assoc; reflexivity.
Qed.

Lemma double_not : forall d c, double_char c = false -> ~ In c (double_to_string d).
Proof.
  intros d c Hc Hin. destruct (DOK d) as [H _]. rewrite forallb_forall in H. rewrite (H _ Hin) in Hc. discriminate.
Qed.
Lemma show_Z_not : forall z c, numchar c = false -> ~ In c (show_Z z).
Proof. intros z c. apply numchar_not, show_Z_chars. Qed.
Lemma escape_not : forall m c, printable c = false -> ~ In c (escape_default m).
Proof.
  intros m c Hc Hin. pose proof (escape_printable m) as H. rewrite forallb_forall in H.
  rewrite (H _ Hin) in Hc. discriminate.
Qed.
Lemma show_bool_not : forall b c, negb (existsb (Ascii.eqb c) (lit "truefalse")) = true -> ~ In c (show_bool b).
Proof.
  intros b c H Hin. apply Bool.negb_true_iff in H.
  assert (existsb (Ascii.eqb c) (lit "truefalse") = true); [|congruence].
  apply existsb_exists. exists c. rewrite Ascii.eqb_refl. split; [|reflexivity].
  destruct b; simpl in *; tauto.
Qed.
Lemma bit_not : forall (b : bool) c, numchar c = false -> ~ In c (lit (if b then "1" else "0")).
Proof. intros b c H. destruct b; apply numchar_not; auto. Qed.

Lemma line_no_nl : forall r, tag_ok r -> ~ In NL (line r).
Proof.
  intros r Ht. destruct r; unfold line; simpl in Ht;
    try (destruct tag as [t|]); intro H;
    repeat (apply in_app_or in H; destruct H as [H|H]);
    try (simpl in H; intuition discriminate);
    try (exact (show_Z_not _ NL eq_refl H)); try (exact (double_not _ NL eq_refl H));
    try (exact (escape_not _ NL eq_refl H)); try (exact (show_bool_not _ NL eq_refl H));
    try (exact (bit_not _ NL eq_refl H)); try contradiction.
Qed.
Lemma split_out : forall ty v tag, ~ In TAB v -> ~ In TAB (lit ty) ->
  split TAB (lit "OUTPUT" ++ [TAB] ++ lit ty ++ [TAB] ++ v ++ match tag with Some t => [TAB] ++ t | None => [] end)
  = output_fields ty v tag.
Proof.
  intros ty v tag Hv Hty. cbn [app].
  rewrite split_app by (simpl; intuition discriminate).
  change (lit ty ++ TAB :: v ++ match tag with Some t => TAB :: t | None => [] end)
    with (lit ty ++ TAB :: (v ++ match tag with Some t => TAB :: t | None => [] end)).
  rewrite split_app by exact Hty. unfold output_fields. cbn [app]. f_equal. f_equal.
  destruct tag as [t|]; cbn [tag_fields].
  - rewrite split_app by exact Hv. reflexivity.
  - rewrite app_nil_r. apply split_nosep, Hv.
Qed.
Lemma split_two : forall a v, ~ In TAB (lit a) -> ~ In TAB v -> split TAB (lit a ++ [TAB] ++ v) = [lit a; v].
Proof. intros a v Ha Hv. cbn [app]. rewrite split_app by exact Ha. rewrite split_nosep by exact Hv. reflexivity. Qed.

Lemma line_documents : forall r, documents r (split TAB (line r)).
Proof.
  intro r; destruct r; unfold line, documents;
    try (eexists; split; [apply read_show_Z|]);
    try (eexists; split; [apply read_escape|]);
    try (apply split_out; [|simpl; intuition discriminate]);
    try (apply split_two; [simpl; intuition discriminate|]);
    try (apply show_Z_not; reflexivity); try (apply double_not; reflexivity);
    try (apply escape_not; reflexivity); try (apply show_bool_not; reflexivity);
    try (apply bit_not; reflexivity); try (simpl; intuition discriminate).
  destruct b; apply split_out; simpl; intuition discriminate.
Qed.

Lemma write_app : forall rs out, write_records out rs = out ++ write_records [] rs.
Proof.
  unfold write_records. induction rs as [|r rs IH]; intro out; simpl; [rewrite app_nil_r; reflexivity|].
  rewrite IH, (IH (write_record [] r)). unfold write_record. rewrite <- app_assoc. reflexivity.
Qed.
Lemma write_lines : forall rs, Forall tag_ok rs -> split NL (write_records [] rs) = map line rs ++ [[]].
Proof.
  induction rs as [|r rs IH]; intro H; [reflexivity|]. inversion H; subst.
  unfold write_records. cbn [fold_left]. fold (write_records (write_record [] r) rs).
  rewrite write_app. unfold write_record. rewrite render_line. cbn [app].
  rewrite <- app_assoc. cbn [app]. rewrite split_app by (apply line_no_nl; assumption).
  rewrite IH by assumption. reflexivity.
Qed.
Lemma lines_thm : forall out rs, Forall tag_ok rs ->
  exists new lines, write_records out rs = out ++ new /\
    split NL new = lines ++ [[]] /\ Forall2 (fun r l => documents r (split TAB l)) rs lines.
Proof.
  intros out rs H. exists (write_records [] rs), (map line rs). split; [apply write_app|].
  split; [apply write_lines, H|]. clear H. induction rs; constructor; auto using line_documents.
Qed.

Lemma tag_fields_inj : forall t t', tag_fields t = tag_fields t' -> t = t'.
Proof.
  intros [t|] [t'|] H; simpl in H; auto.
  - f_equal. exact (split_inj _ _ _ H).
  - exfalso. exact (split_not_nil _ _ H).
  - exfalso. exact (split_not_nil _ _ (eq_sym H)).
Qed.
Lemma double_not_word : forall d w, existsb (fun c => negb (double_char c)) w = true -> double_to_string d = w -> False.
Proof.
  intros d w H E. destruct (DOK d) as [Hd _]. rewrite E in Hd. apply existsb_exists in H.
  destruct H as (c & Hin & Hc). rewrite forallb_forall in Hd. rewrite (Hd _ Hin) in Hc. discriminate.
Qed.
Lemma double_not_num : forall d n, read_Z (double_to_string d) = Some n -> False.
Proof. intros d n H. destruct (DOK d) as [_ E]. congruence. Qed.

Lemma documents_inj : forall r r' f, documents r f -> documents r' f -> same_record r r'.
Proof.
  intros r r' f H H'.
  destruct r; destruct r'; simpl in H, H';
    repeat match goal with H : exists _, _ |- _ => destruct H as (? & ? & ?) end; subst;
    try (match goal with H : output_fields _ _ _ = output_fields _ _ _ |- _ =>
           unfold output_fields in H; cbn [app] in H end);
    try discriminate;
    try (match goal with H : _ :: _ = _ :: _ |- _ => injection H; clear H; intros; subst end);
    try match goal with H : tag_fields _ = tag_fields _ |- _ => apply tag_fields_inj in H; subst end;
    simpl;
    repeat match goal with b : bool |- _ => destruct b end;
    try discriminate;
    try (left; congruence);
    try (split; congruence);
    try congruence;
    try (exfalso; match goal with H : read_Z (double_to_string _) = Some _ |- _ => exact (double_not_num _ _ H) end);
    try (exfalso; match goal with H : double_to_string _ = _ |- _ => exact (double_not_word _ _ eq_refl H)
                                | H : _ = double_to_string _ |- _ => exact (double_not_word _ _ eq_refl (eq_sym H)) end);
    try (right; split; [discriminate|]; simpl in *; congruence).
  all: exfalso; destruct (DOK d) as [E0 E1];
    match goal with H : _ = double_to_string _ |- _ => rewrite <- H in E0, E1
                  | H : double_to_string _ = _ |- _ => rewrite H in E0, E1 end; discriminate.
Qed.
Lemma inj_thm : forall rs rs', Forall tag_ok rs -> Forall tag_ok rs' ->
  write_records [] rs = write_records [] rs' -> Forall2 same_record rs rs'.
Proof.
  intros rs rs' H H' E.
  assert (E1 : map line rs = map line rs').
  { apply (app_inv_tail [[]]). rewrite <- !write_lines by assumption. rewrite E. reflexivity. }
  clear H H' E. revert rs' E1. induction rs as [|r rs IH]; intros [|r' rs'] E; simpl in E; try discriminate; constructor.
  - injection E as E _. apply (documents_inj _ _ (split TAB (line r))); [apply line_documents|]. rewrite E. apply line_documents.
  - apply IH. injection E as _ E. exact E.
Qed.
End OutputThms.
