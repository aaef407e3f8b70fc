(** * Reading a command line *)
From Coq Require Import String Ascii List NArith ZArith Reals Bool Lia.
From Verif Require Import Cx Bits Arith ArithR IndexMap Sim SimExp SimApply Spec SpecRun SimRun Text SpecText Backend Runner SpecRunner Front SpecFront.
Import ListNotations.
Local Open Scope string_scope.

(** ** Numbers *)
Lemma digits_ge : forall t acc n, digits 10 digit acc t = Some n -> (acc <= n)%N.
Proof.
  induction t as [|c t IH]; intros acc n H; cbn [digits] in H; [inversion H; lia|]. destruct (digit c) as [d|]; [|discriminate].
  apply IH in H. lia.
Qed.
Lemma more_digits_thm : forall v lim acc n, (acc <= lim)%N ->
  (more_digits lim acc v = Some n <-> digits 10 digit acc (list_ascii_of_string v) = Some n /\ (n <= lim)%N).
Proof.
  induction v as [|c v IH]; intros lim acc n L; cbn [more_digits list_ascii_of_string digits].
  - split; [intros [= <-]; auto|intros [H _]; exact H].
  - unfold digit. destruct (N.leb 48 (N_of_ascii c) && N.leb (N_of_ascii c) 57)%bool; [|split; [discriminate|intros [H _]; discriminate]].
    cbv zeta. rewrite (N.mul_comm acc 10). destruct (N.leb_spec (10 * acc + (N_of_ascii c - 48)) lim) as [B|B].
    + apply IH. exact B.
    + split; [discriminate|]. intros [H B']. apply digits_ge in H. lia.
Qed.
Lemma some_digits_thm : forall lim v n, some_digits lim v = Some n <-> read_nat (list_ascii_of_string v) = Some n /\ (n <= lim)%N.
Proof.
  intros lim v n. destruct v as [|c v]; [simpl; split; [discriminate|intros [H _]; discriminate]|].
  unfold some_digits. rewrite more_digits_thm by lia. reflexivity.
Qed.
Lemma no_sign : forall c v n, read_nat (list_ascii_of_string (String c v)) = Some n -> c <> "+"%char /\ c <> "-"%char.
Proof. intros c v n H. split; intros ->; discriminate. Qed.
Lemma numeral_thm : forall c v n, c <> "-"%char ->
  (read_nat (list_ascii_of_string (if Ascii.eqb c "+" then v else String c v)) = Some n <-> numeral (String c v) n).
Proof.
  intros c v n Hc. split.
  - destruct (Ascii.eqb_spec c "+") as [->|N]; intros H; [exists v; split; [right; reflexivity|exact H]|exists (String c v); auto].
  - intros (ds & [E|E] & R).
    + rewrite <- E in R. destruct (no_sign _ _ _ R) as [A _]. destruct (Ascii.eqb_spec c "+"); [contradiction|exact R].
    + inversion E; subst. exact R.
Qed.
Lemma numeral_nil : forall n, ~ numeral "" n.
Proof. intros n (ds & [E|E] & R); [subst; discriminate|discriminate]. Qed.
Lemma numeral_dash : forall v n, ~ numeral (String "-" v) n.
Proof. intros v n (ds & [E|E] & R); [subst ds; discriminate R|discriminate]. Qed.
Lemma seed_thm : forall v n, parse_u64 v = Some n <-> seed_text v n.
Proof.
  intros v n. unfold parse_u64, seed_text. destruct v as [|c v].
  - split; [discriminate|intros [H _]; exact (False_ind _ (numeral_nil _ H))].
  - rewrite some_digits_thm. destruct (Ascii.eqb_spec c "-") as [->|N].
    + split; [intros [H _]; discriminate|intros [H _]; exact (False_ind _ (numeral_dash _ _ H))].
    + rewrite numeral_thm by exact N. reflexivity.
Qed.
Lemma count_thm : forall v n, parse_u32 v = Some n <-> count_text v n.
Proof.
  intros v n. unfold parse_u32, count_text. destruct v as [|c v].
  - split; [discriminate|intros [[H _]|(_ & ds & E & _)]; [exact (False_ind _ (numeral_nil _ H))|discriminate]].
  - destruct (Ascii.eqb_spec c "-") as [->|N].
    + split.
      * intros H. right. destruct (some_digits 9223372036854775808 v) as [[|k]|] eqn:E; inversion H; subst. split; [reflexivity|].
        exists v. split; [reflexivity|]. apply some_digits_thm in E. apply E.
      * intros [[H _]|(-> & ds & E & R)]; [exact (False_ind _ (numeral_dash _ _ H))|]. inversion E; subst.
        rewrite (proj2 (some_digits_thm 9223372036854775808 ds 0%N)) by (split; [exact R|lia]). reflexivity.
    + split.
      * intros H. left. destruct (some_digits 9223372036854775807 _) as [k|] eqn:E; [|discriminate].
        destruct (N.leb_spec k 4294967295) as [L|L]; inversion H; subst. apply some_digits_thm in E. destruct E as [E _].
        apply (numeral_thm c v n N) in E. auto.
      * intros [[H L]|(_ & ds & E & _)]; [|inversion E; subst; congruence]. apply (numeral_thm c v n N) in H.
        rewrite (proj2 (some_digits_thm 9223372036854775807 _ n)) by (split; [exact H|lia]).
        destruct (N.leb_spec n 4294967295); [reflexivity|lia].
Qed.

(** ** Settings *)
Definition opt_of (p : part) : opt := match p with PFile _ => OFile | PEntry _ => OEntry | PShots _ _ => OShots | PSeed _ _ => OSeed end.
Definition absent (p : part) (s : settings) : Prop :=
  match p with PFile _ => s_file s = None | PEntry _ => s_entry s = None | PShots _ _ => s_shots s = None | PSeed _ _ => s_seed s = None end.
Definition add (s : settings) (p : part) : settings :=
  match p with
  | PFile v => mkSettings (Some v) (s_entry s) (s_shots s) (s_seed s)
  | PEntry v => mkSettings (s_file s) (Some v) (s_shots s) (s_seed s)
  | PShots n _ => mkSettings (s_file s) (s_entry s) (Some n) (s_seed s)
  | PSeed n _ => mkSettings (s_file s) (s_entry s) (s_shots s) (Some n)
  end.
Lemma give_sound : forall p s, sound p -> absent p s -> give (opt_of p) (value p) s = Some (add s p).
Proof.
  intros [v|v|n v|n v] s S A; simpl in *; rewrite A.
  - destruct (String.eqb_spec v ""); [contradiction|reflexivity].
  - unfold lit. rewrite S. reflexivity.
  - apply count_thm in S. rewrite S. reflexivity.
  - apply seed_thm in S. rewrite S. reflexivity.
Qed.
Lemma give_inv : forall o v s s', give o v s = Some s' -> exists p, opt_of p = o /\ value p = v /\ sound p /\ absent p s /\ s' = add s p.
Proof.
  intros [] v s s' H; unfold give in H.
  - destruct (s_file s) eqn:E; [discriminate|]. destruct (String.eqb_spec v ""); inversion H; subst. exists (PFile v). simpl. auto.
  - destruct (s_entry s) eqn:E; [discriminate|]. destruct (utf8 (lit v)) eqn:U; inversion H; subst. exists (PEntry v). simpl. auto.
  - destruct (s_shots s) eqn:E; [discriminate|]. destruct (parse_u32 v) as [n|] eqn:U; inversion H; subst. apply count_thm in U. exists (PShots n v). simpl. auto.
  - destruct (s_seed s) eqn:E; [discriminate|]. destruct (parse_u64 v) as [n|] eqn:U; inversion H; subst. apply seed_thm in U. exists (PSeed n v). simpl. auto.
Qed.
Lemma absent_add : forall p q s, kind p <> kind q -> absent p s -> absent p (add s q).
Proof. intros [] [] s H A; simpl in *; congruence. Qed.
Lemma absent_kind : forall p q s, absent p (add s q) -> kind p <> kind q /\ absent p s.
Proof. intros [] [] s H; simpl in *; split; auto; discriminate. Qed.
Lemma fold_fields : forall ps s, NoDup (map kind ps) -> (forall p, In p ps -> absent p s) -> let s' := fold_left add ps s in
  (forall v, s_file s' = Some v <-> s_file s = Some v \/ In (PFile v) ps) /\
  (forall v, s_entry s' = Some v <-> s_entry s = Some v \/ In (PEntry v) ps) /\
  (forall n, s_shots s' = Some n <-> s_shots s = Some n \/ exists v, In (PShots n v) ps) /\
  (forall n, s_seed s' = Some n <-> s_seed s = Some n \/ exists v, In (PSeed n v) ps).
Proof.
  induction ps as [|p ps IH]; intros s N A; cbv zeta.
  - simpl. repeat split; intros; try (left; assumption); destruct H as [H|H]; try contradiction; try (destruct H; contradiction); assumption.
  - inversion N as [|x l N1 N2]; subst. cbn [fold_left].
    destruct (IH (add s p)) as (I1 & I2 & I3 & I4); [exact N2| |].
    { intros q I. apply absent_add; [|apply A; right; exact I]. intros E. apply N1. rewrite <- E. apply in_map. exact I. }
    assert (Ap := A p (or_introl eq_refl)).
    split; [|split; [|split]]; intros x; [rewrite I1|rewrite I2|rewrite I3|rewrite I4]; clear I1 I2 I3 I4; destruct p; simpl in *;
      split; intros H;
      repeat match goal with
      | H : _ \/ _ |- _ => destruct H as [H|H]
      | H : exists _, _ |- _ => destruct H as [? H]
      | H : Some _ = Some _ |- _ => inversion H; subst; clear H
      | H : PFile _ = PFile _ |- _ => inversion H; subst; clear H
      | H : PEntry _ = PEntry _ |- _ => inversion H; subst; clear H
      | H : PShots _ _ = PShots _ _ |- _ => inversion H; subst; clear H
      | H : PSeed _ _ = PSeed _ _ |- _ => inversion H; subst; clear H
      end; try congruence; eauto.
Qed.

(** ** One option *)
Lemma long_of : forall p, long_flag (fst (names p)) = Some (FOpt (opt_of p)).
Proof. intros []; reflexivity. Qed.
Lemma at_equals_name : forall p w, at_equals (fst (names p) ++ "=" ++ w) = (fst (names p), Some w).
Proof. intros [] w; reflexivity. Qed.
Lemma at_equals_alone : forall p, at_equals (fst (names p)) = (fst (names p), None).
Proof. intros []; reflexivity. Qed.
Lemma at_equals_thm : forall l, match at_equals l with (n, Some v) => l = n ++ "=" ++ v | (n, None) => l = n end.
Proof.
  induction l as [|c l IH]; [reflexivity|]. cbn [at_equals]. destruct (Ascii.eqb_spec c "=") as [->|N]; [reflexivity|].
  destruct (at_equals l) as [n [v|]]; rewrite IH; reflexivity.
Qed.
Lemma plain_thm : forall v, plain v <-> can_be_value v = true.
Proof.
  intros v. unfold plain, can_be_value, shape_of. destruct v as [|d [|e l]].
  - split; [reflexivity|]. intros _. right. intros w E. discriminate.
  - split; [reflexivity|]. intros _. destruct (Ascii.eqb_spec d "-") as [->|N]; [left; reflexivity|right]. intros w E. inversion E. congruence.
  - destruct (Ascii.eqb_spec d "-") as [->|N].
    + split.
      * intros [E|E]; [discriminate|]. exfalso. exact (E _ eq_refl).
      * destruct (Ascii.eqb e "-"); [destruct l|]; discriminate.
    + split; [reflexivity|]. intros _. right. intros w E. inversion E. congruence.
Qed.
Definition step (o : opt) (v : string) (s : settings) (k : settings -> reading) : reading :=
  match give o v s with Some s' => k s' | None => AUsage end.
Lemma read_written : forall p a rest s, written p a -> read_args (a ++ rest)%list s = step (opt_of p) (value p) s (read_args rest).
Proof.
  intros p a rest s W. destruct W as [P| |P| |V1 V2].
  - cbn [app]. cbn [read_args]. replace (shape_of ("--" ++ fst (names p))) with (ShLong (fst (names p))) by (destruct p; reflexivity).
    rewrite at_equals_alone, long_of. apply plain_thm in P. rewrite P. reflexivity.
  - cbn [app]. cbn [read_args]. replace (shape_of ("--" ++ fst (names p) ++ "=" ++ value p)) with (ShLong (fst (names p) ++ "=" ++ value p)) by (destruct p; reflexivity).
    rewrite at_equals_name, long_of. reflexivity.
  - cbn [app]. destruct p; cbn [names snd opt_of value] in *; cbn [read_args]; apply plain_thm in P; cbn -[can_be_value give]; rewrite P; reflexivity.
  - cbn [app]. destruct p; reflexivity.
  - cbn [app]. cbn [read_args].
    assert (Y : attached (value p) = Some (value p)).
    { destruct (value p) as [|c l]; [congruence|]. simpl. destruct (Ascii.eqb_spec c "=") as [->|N]; [|reflexivity]. exfalso. exact (V2 l eq_refl). }
    destruct p; cbn [names snd opt_of value] in *; cbn -[give attached]; rewrite Y; reflexivity.
Qed.

(** ** The whole line *)
Lemma read_options : forall ps args, options ps args -> forall tail s, NoDup (map kind ps) -> (forall p, In p ps -> absent p s) ->
  read_args (args ++ tail)%list s = read_args tail (fold_left add ps s).
Proof.
  intros ps args O. induction O as [|p ps a args S W O IH]; intros tail s N A; [reflexivity|].
  rewrite <- app_assoc, (read_written p a _ s W). unfold step. rewrite (give_sound p s S (A p (or_introl eq_refl))).
  inversion N as [|x l N1 N2]; subst. cbn [fold_left]. apply IH; [exact N2|].
  intros q I. apply absent_add; [|apply A; right; exact I]. intros E. apply N1. rewrite <- E. apply in_map. exact I.
Qed.
Lemma short_of : forall p, exists c, snd (names p) = String c "" /\ short_flag c = Some (FOpt (opt_of p)) /\ c <> "-"%char.
Proof. intros []; eexists; (split; [reflexivity|split; [reflexivity|discriminate]]). Qed.
Lemma long_inv : forall n o p, long_flag n = Some (FOpt o) -> opt_of p = o -> n = fst (names p).
Proof.
  intros n o p H E. unfold long_flag in H.
  destruct (String.eqb_spec n "file"); [inversion H; subst; destruct p; try discriminate; reflexivity|].
  destruct (String.eqb_spec n "entrypoint"); [inversion H; subst; destruct p; try discriminate; reflexivity|].
  destruct (String.eqb_spec n "shots"); [inversion H; subst; destruct p; try discriminate; reflexivity|].
  destruct (String.eqb_spec n "rngseed"); [inversion H; subst; destruct p; try discriminate; reflexivity|].
  destruct (String.eqb n "help"); [discriminate|]. destruct (String.eqb n "version"); discriminate.
Qed.
Lemma short_inv : forall c o p, short_flag c = Some (FOpt o) -> opt_of p = o -> String c "" = snd (names p).
Proof.
  intros c o p H E. unfold short_flag in H.
  destruct (Ascii.eqb_spec c "f"); [inversion H; subst; destruct p; try discriminate; reflexivity|].
  destruct (Ascii.eqb_spec c "e"); [inversion H; subst; destruct p; try discriminate; reflexivity|].
  destruct (Ascii.eqb_spec c "s"); [inversion H; subst; destruct p; try discriminate; reflexivity|].
  destruct (Ascii.eqb_spec c "r"); [inversion H; subst; destruct p; try discriminate; reflexivity|].
  destruct (Ascii.eqb c "h"); [discriminate|]. destruct (Ascii.eqb c "V"); discriminate.
Qed.
Lemma shape_thm : forall a, match shape_of a with
  | ShEscape => a = "--" | ShLong l => a = "--" ++ l /\ l <> "" | ShShort c l => a = "-" ++ String c l /\ c <> "-"%char | ShOther => True end.
Proof.
  intros a. unfold shape_of. destruct a as [|d [|e l]]; [exact I..|].
  destruct (Ascii.eqb_spec d "-") as [->|N]; [|exact I]. destruct (Ascii.eqb_spec e "-") as [->|N]; [|split; [reflexivity|exact N]].
  destruct l; [reflexivity|split; [reflexivity|discriminate]].
Qed.
Definition helps (a : string) : Prop := a = "--help" \/ exists w, a = "-h" ++ w.
Definition versions (a : string) : Prop := a = "--version" \/ exists w, a = "-V" ++ w.
Definition ends (ps : list part) (s : settings) (tail : list string) (r : reading) : Prop :=
  match r with
  | AOptions s' => s' = fold_left add ps s /\ (tail = [] \/ tail = ["--"])
  | AHelp => exists h post, tail = h :: post /\ helps h
  | AVersion => exists h post, tail = h :: post /\ versions h
  | AUsage => True
  end.
Definition cut (args : list string) (s : settings) : Prop := exists ps args' tail, args = (args' ++ tail)%list /\ options ps args' /\
  NoDup (map kind ps) /\ (forall p, In p ps -> absent p s) /\ ends ps s tail (read_args args s).
Lemma cut_here : forall args s, ends [] s args (read_args args s) -> cut args s.
Proof. intros args s E. exists [], [], args. split; [reflexivity|]. split; [constructor|]. split; [constructor|]. split; [contradiction|exact E]. Qed.
Lemma cut_more : forall a rest o v s s', give o v s = Some s' -> (forall p, opt_of p = o -> value p = v -> written p a) -> cut rest s' -> cut (a ++ rest)%list s.
Proof.
  intros a rest o v s s' G W (ps & args' & tail & E & O & N & A & X). destruct (give_inv o v s s' G) as (p & P1 & P2 & P3 & P4 & P5). subst s'.
  exists (p :: ps), (a ++ args')%list, tail. split; [rewrite E, app_assoc; reflexivity|]. split; [constructor; auto|].
  split; [|split].
  - simpl. constructor; [|exact N]. intros I. apply in_map_iff in I. destruct I as (q & Q1 & Q2). destruct (absent_kind _ _ _ (A q Q2)). congruence.
  - intros q [<-|I]; [exact P4|]. apply (absent_kind _ _ _ (A q I)).
  - rewrite (read_written p a rest s (W p P1 P2)). unfold step. rewrite P1, P2, G. exact X.
Qed.
Lemma usage_here : forall args s, read_args args s = AUsage -> cut args s.
Proof. intros args s E. apply cut_here. rewrite E. exact I. Qed.
Lemma cut_all : forall n args s, length args <= n -> cut args s.
Proof.
  induction n as [|n IH]; intros args s L.
  - destruct args; [|simpl in L; lia]. apply cut_here. simpl. auto.
  - destruct args as [|a rest]; [apply cut_here; simpl; auto|]. simpl in L.
    assert (Sh := shape_thm a). destruct (shape_of a) as [|l|c l|] eqn:E.
    + subst a. destruct rest as [|b rest].
      * apply cut_here. simpl. auto.
      * apply usage_here. cbn [read_args]. rewrite E. reflexivity.
    + destruct Sh as [-> Nl]. assert (Q := at_equals_thm l). destruct (at_equals l) as [nm v] eqn:Eq.
      destruct (long_flag nm) as [[o| |]|] eqn:F.
      * destruct v as [v|].
        -- destruct (give o v s) as [s'|] eqn:G.
           ++ apply (cut_more [("--" ++ l)] rest o v s s' G); [|apply IH; lia]. intros p P1 P2. rewrite Q, (long_inv nm o p F P1), <- P2. apply w_long_eq.
           ++ apply usage_here. cbn [read_args]. rewrite E, Eq, F, G. reflexivity.
        -- subst l. destruct rest as [|v rest].
           ++ apply usage_here. cbn [read_args]. rewrite E, Eq, F. reflexivity.
           ++ destruct (can_be_value v) eqn:C.
              ** destruct (give o v s) as [s'|] eqn:G.
                 --- apply (cut_more ["--" ++ nm; v] rest o v s s' G); [|apply IH; simpl in L; lia].
                     intros p P1 P2. rewrite (long_inv nm o p F P1), <- P2. apply w_long. rewrite P2. apply plain_thm. exact C.
                 --- apply usage_here. cbn [read_args]. rewrite E, Eq, F, C, G. reflexivity.
              ** apply usage_here. cbn [read_args]. rewrite E, Eq, F, C. reflexivity.
      * destruct v as [v|].
        -- apply usage_here. cbn [read_args]. rewrite E, Eq, F. reflexivity.
        -- apply cut_here. cbn [read_args]. rewrite E, Eq, F. simpl. eexists. eexists. split; [reflexivity|]. left. subst l.
           unfold long_flag in F. repeat (destruct (String.eqb_spec nm _) as [->|]; [congruence || reflexivity|try discriminate]).
           destruct (String.eqb nm "file"); [discriminate|]. destruct (String.eqb nm "entrypoint"); [discriminate|].
           destruct (String.eqb nm "shots"); [discriminate|]. destruct (String.eqb nm "rngseed"); [discriminate|].
           destruct (String.eqb_spec nm "help") as [->|]; [reflexivity|]. destruct (String.eqb nm "version"); discriminate.
      * destruct v as [v|].
        -- apply usage_here. cbn [read_args]. rewrite E, Eq, F. reflexivity.
        -- apply cut_here. cbn [read_args]. rewrite E, Eq, F. simpl. eexists. eexists. split; [reflexivity|]. left. subst l.
           unfold long_flag in F.
           destruct (String.eqb nm "file"); [discriminate|]. destruct (String.eqb nm "entrypoint"); [discriminate|].
           destruct (String.eqb nm "shots"); [discriminate|]. destruct (String.eqb nm "rngseed"); [discriminate|].
           destruct (String.eqb nm "help"); [discriminate|]. destruct (String.eqb_spec nm "version") as [->|]; [reflexivity|discriminate].
      * apply usage_here. cbn [read_args]. rewrite E, Eq, F. reflexivity.
    + destruct Sh as [-> Nc]. destruct (short_flag c) as [[o| |]|] eqn:F.
      * destruct l as [|e l].
        -- destruct rest as [|v rest].
           ++ apply usage_here. cbn [read_args]. rewrite E, F. reflexivity.
           ++ destruct (can_be_value v) eqn:C.
              ** destruct (give o v s) as [s'|] eqn:G.
                 --- apply (cut_more ["-" ++ String c ""; v] rest o v s s' G); [|apply IH; simpl in L; lia].
                     intros p P1 P2. rewrite (short_inv c o p F P1), <- P2. apply w_short. rewrite P2. apply plain_thm. exact C.
                 --- apply usage_here. cbn [read_args]. rewrite E, F. cbn [attached]. rewrite C, G. reflexivity.
              ** apply usage_here. cbn [read_args]. rewrite E, F. cbn [attached]. rewrite C. reflexivity.
        -- destruct (Ascii.eqb_spec e "=") as [->|Ne].
           ++ destruct (give o l s) as [s'|] eqn:G.
              ** apply (cut_more [("-" ++ String c (String "=" l))] rest o l s s' G); [|apply IH; lia]. intros p P1 P2.
                 change (String c (String "=" l)) with (String c "" ++ "=" ++ l). rewrite (short_inv c o p F P1), <- P2. apply w_short_eq.
              ** apply usage_here. cbn [read_args]. rewrite E, F. cbn [attached]. cbn [Ascii.eqb Bool.eqb]. change (Ascii.eqb "=" "=") with true. cbn iota. rewrite G. reflexivity.
           ++ assert (At : attached (String e l) = Some (String e l)) by (simpl; destruct (Ascii.eqb_spec e "="); [contradiction|reflexivity]).
              destruct (give o (String e l) s) as [s'|] eqn:G.
              ** apply (cut_more [("-" ++ String c (String e l))] rest o (String e l) s s' G); [|apply IH; lia]. intros p P1 P2.
                 change (String c (String e l)) with (String c "" ++ String e l). rewrite (short_inv c o p F P1), <- P2. apply w_short_at; rewrite P2; [discriminate|].
                 intros w X. inversion X. congruence.
              ** apply usage_here. cbn [read_args]. rewrite E, F, At, G. reflexivity.
      * apply cut_here. cbn [read_args]. rewrite E, F. simpl. eexists. eexists. split; [reflexivity|]. right. exists l.
        unfold short_flag in F. destruct (Ascii.eqb c "f"); [discriminate|]. destruct (Ascii.eqb c "e"); [discriminate|].
        destruct (Ascii.eqb c "s"); [discriminate|]. destruct (Ascii.eqb c "r"); [discriminate|].
        destruct (Ascii.eqb_spec c "h") as [->|]; [reflexivity|]. destruct (Ascii.eqb c "V"); discriminate.
      * apply cut_here. cbn [read_args]. rewrite E, F. simpl. eexists. eexists. split; [reflexivity|]. right. exists l.
        unfold short_flag in F. destruct (Ascii.eqb c "f"); [discriminate|]. destruct (Ascii.eqb c "e"); [discriminate|].
        destruct (Ascii.eqb c "s"); [discriminate|]. destruct (Ascii.eqb c "r"); [discriminate|].
        destruct (Ascii.eqb c "h"); [discriminate|]. destruct (Ascii.eqb_spec c "V") as [->|]; [reflexivity|discriminate].
      * apply usage_here. cbn [read_args]. rewrite E, F. reflexivity.
    + apply usage_here. cbn [read_args]. rewrite E. reflexivity.
Qed.
Lemma absent_none : forall p, absent p no_settings.
Proof. intros []; reflexivity. Qed.
Lemma amounts_fold : forall ps args s, options ps args -> NoDup (map kind ps) -> s = fold_left add ps no_settings -> amounts args s.
Proof.
  intros ps args s O N ->. exists ps. destruct (fold_fields ps no_settings N (fun p _ => absent_none p)) as (A & B & C & E).
  split; [exact O|]. split; [exact N|]. split; [|split; [|split]]; intros x; [rewrite A|rewrite B|rewrite C|rewrite E]; simpl;
    (split; [intros [H|H]; [discriminate|exact H]|intros H; right; exact H]).
Qed.
Lemma same_option : forall (X : Type) (a b : option X), (forall v, a = Some v <-> b = Some v) -> a = b.
Proof. intros X [a|] [b|] H; try reflexivity; [rewrite (proj1 (H a) eq_refl)|rewrite (proj1 (H a) eq_refl)|rewrite (proj2 (H b) eq_refl)]; reflexivity. Qed.
Lemma fold_amounts : forall args s, amounts args s -> exists ps, options ps args /\ NoDup (map kind ps) /\ s = fold_left add ps no_settings.
Proof.
  intros args s (ps & O & N & A & B & C & E). exists ps. split; [exact O|]. split; [exact N|].
  destruct (fold_fields ps no_settings N (fun p _ => absent_none p)) as (A' & B' & C' & E').
  destruct s as [s1 s2 s3 s4]. simpl in *. set (f := fold_left add ps no_settings) in *. destruct f as [f1 f2 f3 f4]. simpl in *.
  assert (Q1 : s1 = f1). { apply same_option. intros v. rewrite A, A'. split; [auto|intros [H|H]; [discriminate|exact H]]. }
  assert (Q2 : s2 = f2). { apply same_option. intros v. rewrite B, B'. split; [auto|intros [H|H]; [discriminate|exact H]]. }
  assert (Q3 : s3 = f3). { apply same_option. intros v. rewrite C, C'. split; [auto|intros [H|H]; [discriminate|exact H]]. }
  assert (Q4 : s4 = f4). { apply same_option. intros v. rewrite E, E'. split; [auto|intros [H|H]; [discriminate|exact H]]. }
  congruence.
Qed.
Theorem read_options_thm : forall args s, read_args args no_settings = AOptions s <-> says args s.
Proof.
  intros args s. split.
  - intros R. destruct (cut_all (length args) args no_settings (le_n _)) as (ps & args' & tail & E & O & N & A & X). rewrite R in X.
    destruct X as [-> X]. exists args'. split; [exact (amounts_fold ps args' _ O N eq_refl)|]. destruct X as [-> | ->]; [left; rewrite E, app_nil_r; reflexivity|right; exact E].
  - intros (args' & M & E). destruct (fold_amounts args' s M) as (ps & O & N & ->).
    assert (X := fun tail => read_options ps args' O tail no_settings N (fun p _ => absent_none p)).
    destruct E as [-> | ->]; [rewrite <- (app_nil_r args'), X|rewrite X]; reflexivity.
Qed.
Lemma read_help : forall h post s, helps h -> read_args (h :: post) s = AHelp.
Proof. intros h post s [->|[w ->]]; reflexivity. Qed.
Lemma read_version : forall h post s, versions h -> read_args (h :: post) s = AVersion.
Proof. intros h post s [->|[w ->]]; reflexivity. Qed.
Theorem read_help_thm : forall args, read_args args no_settings = AHelp <-> exists args' s h post, amounts args' s /\ helps h /\ args = (args' ++ h :: post)%list.
Proof.
  intros args. split.
  - intros R. destruct (cut_all (length args) args no_settings (le_n _)) as (ps & args' & tail & E & O & N & A & X). rewrite R in X.
    destruct X as (h & post & -> & H). exists args', (fold_left add ps no_settings), h, post. split; [exact (amounts_fold ps args' _ O N eq_refl)|auto].
  - intros (args' & s & h & post & M & H & ->). destruct (fold_amounts args' s M) as (ps & O & N & ->).
    rewrite (read_options ps args' O _ no_settings N (fun p _ => absent_none p)). apply read_help. exact H.
Qed.
Theorem read_version_thm : forall args, read_args args no_settings = AVersion <-> exists args' s h post, amounts args' s /\ versions h /\ args = (args' ++ h :: post)%list.
Proof.
  intros args. split.
  - intros R. destruct (cut_all (length args) args no_settings (le_n _)) as (ps & args' & tail & E & O & N & A & X). rewrite R in X.
    destruct X as (h & post & -> & H). exists args', (fold_left add ps no_settings), h, post. split; [exact (amounts_fold ps args' _ O N eq_refl)|auto].
  - intros (args' & s & h & post & M & H & ->). destruct (fold_amounts args' s M) as (ps & O & N & ->).
    rewrite (read_options ps args' O _ no_settings N (fun p _ => absent_none p)). apply read_version. exact H.
Qed.
