(** * Lemmas about printing and reading *)
From Coq Require Import String Ascii List NArith ZArith Bool Lia DecimalString HexadecimalString.
From Coq Require Decimal Hexadecimal DecimalFacts DecimalZ DecimalN HexadecimalN HexadecimalFacts.
From Verif Require Import Text SpecText.
Import ListNotations.

Arguments N.mul : simpl never. Arguments N.add : simpl never.

(** ** Decimal *)
Fixpoint uval (acc : N) (d : Decimal.uint) : N :=
  match d with
  | Decimal.Nil => acc
  | Decimal.D0 d => uval (10 * acc + 0) d | Decimal.D1 d => uval (10 * acc + 1) d
  | Decimal.D2 d => uval (10 * acc + 2) d | Decimal.D3 d => uval (10 * acc + 3) d
  | Decimal.D4 d => uval (10 * acc + 4) d | Decimal.D5 d => uval (10 * acc + 5) d
  | Decimal.D6 d => uval (10 * acc + 6) d | Decimal.D7 d => uval (10 * acc + 7) d
  | Decimal.D8 d => uval (10 * acc + 8) d | Decimal.D9 d => uval (10 * acc + 9) d
  end%N.
Lemma digits_uint : forall d acc,
  digits 10 digit acc (lit (DecimalString.NilEmpty.string_of_uint d)) = Some (uval acc d).
Proof. induction d; intro acc; simpl; auto; apply IHd. Qed.
Lemma uval_acc : forall d p, uval (Npos p) d = Npos (Pos.of_uint_acc d p).
Proof.
  induction d; intro p; cbn [uval Pos.of_uint_acc]; auto; rewrite <- IHd; f_equal; lia.
Qed.
Lemma uval_0 : forall d, uval 0 d = N.of_uint d.
Proof.
  assert (H : forall d, uval 0 d = Pos.of_uint d) by (induction d; simpl; auto; try apply IHd; apply (uval_acc _ _)).
  exact H.
Qed.
Lemma nilzero_uint : forall d, DecimalString.NilZero.string_of_uint d = DecimalString.NilEmpty.string_of_uint d \/
  (d = Decimal.Nil /\ DecimalString.NilZero.string_of_uint d = "0"%string).
Proof. destruct d; auto. Qed.
Lemma read_uint : forall d, read_nat (lit (DecimalString.NilZero.string_of_uint d)) = Some (N.of_uint d).
Proof.
  intro d. rewrite <- uval_0. destruct d; try reflexivity;
    cbn [DecimalString.NilZero.string_of_uint]; rewrite <- digits_uint; reflexivity.
Qed.
Lemma uint_head : forall d c t, lit (DecimalString.NilZero.string_of_uint d) = c :: t -> digit c <> None.
Proof. destruct d; simpl; intros c t H; injection H as <- <-; discriminate. Qed.
Lemma read_Z_pos : forall t, (forall c t', t = c :: t' -> digit c <> None) ->
  read_Z t = option_map Z.of_N (read_nat t).
Proof.
  intros [|c t] H; [reflexivity|]. specialize (H c t eq_refl).
  unfold read_Z.
  destruct c as [[] [] [] [] [] [] [] []]; try reflexivity. exfalso; apply H; reflexivity.
Qed.
Lemma read_show_Z : forall z, read_Z (show_Z z) = Some z.
Proof.
  intro z. unfold show_Z. rewrite <- (DecimalZ.of_to z) at 2.
  destruct (Z.to_int z) as [d|d]; cbn [DecimalString.NilZero.string_of_int].
  - rewrite read_Z_pos by apply uint_head. rewrite read_uint. simpl. f_equal.
  - unfold lit. cbn [list_ascii_of_string]. unfold read_Z. fold (lit (DecimalString.NilZero.string_of_uint d)).
    rewrite read_uint. simpl. f_equal.
Qed.

(** ** Characters of numbers *)
Definition numchar (c : ascii) : bool := match digit c with Some _ => true | None => Ascii.eqb c "-"%char end.
Lemma uint_chars : forall d, forallb numchar (lit (DecimalString.NilEmpty.string_of_uint d)) = true.
Proof. induction d; simpl; auto. Qed.
Lemma show_Z_chars : forall z, forallb numchar (show_Z z) = true.
Proof.
  intro z. unfold show_Z. destruct (Z.to_int z) as [d|d]; cbn [DecimalString.NilZero.string_of_int].
  - destruct d; try reflexivity; cbn [DecimalString.NilZero.string_of_uint]; apply uint_chars.
  - unfold lit; cbn [list_ascii_of_string forallb]. change (numchar "-") with true. simpl andb.
    destruct d; try reflexivity; cbn [DecimalString.NilZero.string_of_uint]; apply uint_chars.
Qed.
Lemma numchar_not : forall t c, forallb numchar t = true -> numchar c = false -> ~ In c t.
Proof. intros t c H Hc Hin. rewrite forallb_forall in H. rewrite (H _ Hin) in Hc. discriminate. Qed.

(** ** Hexadecimal *)
Fixpoint hval (acc : N) (d : Hexadecimal.uint) : N :=
  match d with
  | Hexadecimal.Nil => acc
  | Hexadecimal.D0 d => hval (16 * acc + 0) d | Hexadecimal.D1 d => hval (16 * acc + 1) d
  | Hexadecimal.D2 d => hval (16 * acc + 2) d | Hexadecimal.D3 d => hval (16 * acc + 3) d
  | Hexadecimal.D4 d => hval (16 * acc + 4) d | Hexadecimal.D5 d => hval (16 * acc + 5) d
  | Hexadecimal.D6 d => hval (16 * acc + 6) d | Hexadecimal.D7 d => hval (16 * acc + 7) d
  | Hexadecimal.D8 d => hval (16 * acc + 8) d | Hexadecimal.D9 d => hval (16 * acc + 9) d
  | Hexadecimal.Da d => hval (16 * acc + 10) d | Hexadecimal.Db d => hval (16 * acc + 11) d
  | Hexadecimal.Dc d => hval (16 * acc + 12) d | Hexadecimal.Dd d => hval (16 * acc + 13) d
  | Hexadecimal.De d => hval (16 * acc + 14) d | Hexadecimal.Df d => hval (16 * acc + 15) d
  end%N.
Lemma digits_hex : forall d acc,
  digits 16 hex_digit acc (lit (HexadecimalString.NilEmpty.string_of_uint d)) = Some (hval acc d).
Proof. induction d; intro acc; simpl; auto; apply IHd. Qed.
Lemma hval_acc : forall d p, hval (Npos p) d = Npos (Pos.of_hex_uint_acc d p).
Proof. induction d; intro p; cbn [hval Pos.of_hex_uint_acc]; auto; rewrite <- IHd; f_equal; lia. Qed.
Lemma hval_0 : forall d, hval 0 d = N.of_hex_uint d.
Proof.
  assert (H : forall d, hval 0 d = Pos.of_hex_uint d) by (induction d; simpl; auto; try apply IHd; apply (hval_acc _ _)).
  exact H.
Qed.
Lemma read_hex : forall c, digits 16 hex_digit 0 (show_hex c) = Some c.
Proof.
  intro c. unfold show_hex. rewrite <- (HexadecimalN.Unsigned.of_to c) at 2.
  rewrite <- hval_0. destruct (N.to_hex_uint c); try reflexivity;
    cbn [HexadecimalString.NilZero.string_of_uint]; rewrite <- digits_hex; reflexivity.
Qed.
Definition hexchar (c : ascii) : bool := match hex_digit c with Some _ => true | None => false end.
Lemma hex_chars0 : forall d, forallb hexchar (lit (HexadecimalString.NilEmpty.string_of_uint d)) = true.
Proof. induction d; simpl; auto. Qed.
Lemma hex_chars : forall c, forallb hexchar (show_hex c) = true.
Proof.
  intro c. unfold show_hex. destruct (N.to_hex_uint c); try reflexivity;
    cbn [HexadecimalString.NilZero.string_of_uint]; apply hex_chars0.
Qed.

(** ** Splitting *)
Lemma split_nosep : forall sep t, ~ In sep t -> split sep t = [t].
Proof.
  induction t as [|c t IH]; intro H; [reflexivity|]. simpl.
  destruct (Ascii.eqb_spec c sep) as [->|_]; [exfalso; apply H; left; reflexivity|].
  rewrite IH by (intro; apply H; right; assumption). reflexivity.
Qed.
Lemma split_app : forall sep t u, ~ In sep t -> split sep (t ++ sep :: u) = t :: split sep u.
Proof.
  induction t as [|c t IH]; intros u H; simpl.
  - rewrite Ascii.eqb_refl. reflexivity.
  - destruct (Ascii.eqb_spec c sep) as [->|_]; [exfalso; apply H; left; reflexivity|].
    rewrite IH by (intro; apply H; right; assumption). reflexivity.
Qed.
Fixpoint join (sep : ascii) (l : list text) : text :=
  match l with [] => [] | [t] => t | t :: l' => t ++ sep :: join sep l' end.
Lemma split_not_nil : forall sep t, split sep t <> [].
Proof. destruct t; simpl; [discriminate|]. destruct (Ascii.eqb a sep); [discriminate|]. destruct (split sep t); discriminate. Qed.
Lemma join_split : forall sep t, join sep (split sep t) = t.
Proof.
  induction t as [|c t IH]; [reflexivity|]. simpl.
  destruct (Ascii.eqb_spec c sep) as [->|_].
  - pose proof (split_not_nil sep t). destruct (split sep t) eqn:E; [contradiction|].
    simpl in *. f_equal. exact IH.
  - pose proof (split_not_nil sep t). destruct (split sep t) as [|p ps] eqn:E; [contradiction|].
    destruct ps; simpl in *; f_equal; exact IH.
Qed.
Lemma split_inj : forall sep t u, split sep t = split sep u -> t = u.
Proof. intros sep t u H. rewrite <- (join_split sep t), H. apply join_split. Qed.

(** ** Ranges *)
Lemma read_range_show : forall r, read_range (range_to_string r) = Some (r_start r, r_step r, r_end r).
Proof.
  intros [a s b]. unfold range_to_string, read_range. cbn [r_start r_step r_end].
  assert (Hd : forall z, ~ In "."%char (show_Z z)).
  { intro z. apply numchar_not; [apply show_Z_chars | reflexivity]. }
  destruct (Z.eqb_spec s 1) as [->|Hs].
  - cbn [lit list_ascii_of_string app].
    rewrite (split_app _ (show_Z a)) by apply Hd. change ("."%char :: show_Z b) with ([] ++ "."%char :: show_Z b). rewrite split_app by (intros []).
    rewrite split_nosep by apply Hd. rewrite !read_show_Z. reflexivity.
  - cbn [lit list_ascii_of_string app]. rewrite <- !app_assoc. cbn [app].
    assert (H0 : forall t, split "."%char ("."%char :: t) = [] :: split "."%char t) by (intro; apply (split_app _ []); intros []).
    rewrite (split_app _ (show_Z a)) by apply Hd. rewrite H0.
    rewrite (split_app _ (show_Z s)) by apply Hd. rewrite H0.
    rewrite split_nosep by apply Hd. rewrite !read_show_Z. reflexivity.
Qed.

(** ** Escapes *)
Lemma take_until_app : forall sep t u, ~ In sep t -> take_until sep (t ++ sep :: u) = Some (t, u).
Proof.
  induction t as [|c t IH]; intros u H; simpl.
  - rewrite Ascii.eqb_refl. reflexivity.
  - destruct (Ascii.eqb_spec c sep) as [->|_]; [exfalso; apply H; left; reflexivity|].
    rewrite IH by (intro; apply H; right; assumption). reflexivity.
Qed.
Lemma range_N : forall (P : N -> Prop) lo hi, (lo <= hi)%N ->
  (forall k, In k (seq (N.to_nat lo) (N.to_nat (hi - lo) + 1)) -> P (N.of_nat k)) ->
  forall c, (lo <= c <= hi)%N -> P c.
Proof.
  intros P lo hi Hle H c Hc. rewrite <- (N2Nat.id c). apply H. apply in_seq. lia.
Qed.
Lemma escape_length : forall c, (1 <= length (escape_char c))%nat.
Proof.
  intro c. unfold escape_char. repeat (destruct (_ : bool); [simpl; lia|]). simpl; lia.
Qed.
Lemma unescape_char : forall c f t, unescape (S f) (escape_char c ++ t) = option_map (cons c) (unescape f t).
Proof.
  intros c f t. unfold escape_char.
  destruct (N.eqb_spec c 9) as [->|H9]; [reflexivity|].
  destruct (N.eqb_spec c 13) as [->|H13]; [reflexivity|].
  destruct (N.eqb_spec c 10) as [->|H10]; [reflexivity|].
  destruct (N.eqb_spec c 39) as [->|H39]; [reflexivity|].
  destruct (N.eqb_spec c 34) as [->|H34]; [reflexivity|].
  destruct (N.eqb_spec c 92) as [->|H92]; [reflexivity|].
  cbn [orb].
  destruct ((32 <=? c)%N && (c <=? 126)%N) eqn:Er.
  - apply andb_prop in Er. destruct Er as [E1 E2]. apply N.leb_le in E1, E2.
    assert (Hn : N_of_ascii (ascii_of_N c) = c) by (apply N_ascii_embedding; lia).
    cbn [app unescape]. rewrite Hn.
    destruct (Ascii.eqb_spec (ascii_of_N c) "\"%char) as [E|_]; [|reflexivity].
    exfalso. apply H92. rewrite <- Hn, E. reflexivity.
  - cbn [lit list_ascii_of_string app unescape]. rewrite <- app_assoc. cbn [lit list_ascii_of_string app].
    cbn [Ascii.eqb]. change (Ascii.eqb "\" "\") with true. cbn iota.
    assert (Hc : ~ In "}"%char (show_hex c)).
    { intro Hin. pose proof (hex_chars c) as H. rewrite forallb_forall in H. specialize (H _ Hin). discriminate. }
    rewrite take_until_app by exact Hc. rewrite read_hex. reflexivity.
Qed.
Lemma unescape_default : forall m f, (length m <= f)%nat -> unescape f (escape_default m) = Some m.
Proof.
  induction m as [|c m IH]; intros f Hf; [destruct f; reflexivity|].
  destruct f as [|f]; simpl in Hf; [lia|]. unfold escape_default. cbn [flat_map].
  rewrite unescape_char. fold (escape_default m). rewrite IH by lia. reflexivity.
Qed.
Lemma escape_default_length : forall m, (length m <= length (escape_default m))%nat.
Proof.
  induction m as [|c m IH]; [simpl; lia|]. unfold escape_default in *. cbn [flat_map]. rewrite app_length.
  pose proof (escape_length c). simpl. lia.
Qed.
Lemma read_escape : forall m, read_message (escape_default m) = Some m.
Proof. intro m. apply unescape_default, escape_default_length. Qed.
(** Escaped text is printable ASCII. *)
Definition printable (c : ascii) : bool := let n := N_of_ascii c in (32 <=? n)%N && (n <=? 126)%N.
Lemma hexchar_printable : forall c, hexchar c = true -> printable c = true.
Proof.
  intros c. unfold hexchar, hex_digit, printable.
  destruct ((48 <=? N_of_ascii c)%N && (N_of_ascii c <=? 57)%N) eqn:E1; intro H.
  - apply andb_prop in E1. destruct E1 as [A B]. apply N.leb_le in A, B.
    apply andb_true_intro; split; apply N.leb_le; lia.
  - destruct ((97 <=? N_of_ascii c)%N && (N_of_ascii c <=? 102)%N) eqn:E2; [|discriminate].
    apply andb_prop in E2. destruct E2 as [A B]. apply N.leb_le in A, B.
    apply andb_true_intro; split; apply N.leb_le; lia.
Qed.
Lemma escape_printable : forall m, forallb printable (escape_default m) = true.
Proof.
  induction m as [|c m IH]; [reflexivity|]. unfold escape_default in *. cbn [flat_map].
  rewrite forallb_app, IH, andb_true_r. unfold escape_char.
  destruct (N.eqb_spec c 9) as [->|H9]; [reflexivity|].
  destruct (N.eqb_spec c 13) as [->|H13]; [reflexivity|].
  destruct (N.eqb_spec c 10) as [->|H10]; [reflexivity|].
  destruct (N.eqb_spec c 39) as [->|H39]; [reflexivity|].
  destruct (N.eqb_spec c 34) as [->|H34]; [reflexivity|].
  destruct (N.eqb_spec c 92) as [->|H92]; [reflexivity|].
  cbn [orb].
  destruct ((32 <=? c)%N && (c <=? 126)%N) eqn:Er.
  - apply andb_prop in Er. destruct Er as [E1 E2]. apply N.leb_le in E1, E2.
    cbn [forallb]. unfold printable. rewrite N_ascii_embedding by lia.
    rewrite (proj2 (N.leb_le _ _) E1), (proj2 (N.leb_le _ _) E2). reflexivity.
  - rewrite !forallb_app. simpl. rewrite andb_true_r. apply forallb_forall. intros x Hx.
    apply hexchar_printable. pose proof (hex_chars c) as H. rewrite forallb_forall in H. apply H, Hx.
Qed.
