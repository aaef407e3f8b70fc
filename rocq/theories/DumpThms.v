(** * The text of a dump reads back *)
From Coq Require Import String Ascii List NArith ZArith Reals Bool Lia Lra.
From Flocq Require Import Core IEEE754.BinarySingleNaN.
From Verif Require Import Text SpecText SpecOutput TextLemmas Math MathThms DoubleText SpecDouble DoubleThms Binary64 DumpText SpecDump.
Import ListNotations.
Local Instance P53d : Prec_gt_0 53 := prec53.

(** ** Numbers *)
Lemma digits_read : forall t n, read_nat t = Some n -> t <> [] /\ Forall isd t /\ digits 10 digit 0 t = Some n.
Proof. intros [|c t] n H; [discriminate|]. split; [discriminate|]. split; [exact (digits_isd _ _ _ H)|exact H]. Qed.
Lemma read_sign_minus : forall s t, Forall isd t -> read_sign (minus s ++ t) = (s, t).
Proof.
  intros [] t H; [reflexivity|]. destruct t as [|c t]; [reflexivity|]. inversion H; subst. cbn [app minus].
  destruct c as [[] [] [] [] [] [] [] []]; try reflexivity. exfalso. apply H2. reflexivity.
Qed.
Lemma read_whole : forall s t n, read_nat t = Some n -> read_number (minus s ++ t) = Some (s, n, 0%nat).
Proof.
  intros s t n H. destruct (digits_read _ _ H) as (NE & D & E). unfold read_number, read_decimal. rewrite read_sign_minus by exact D.
  rewrite split_nosep by (apply isd_nodot; exact D). rewrite H. reflexivity.
Qed.
Lemma digits_trail : forall k a n, digits 10 digit 0 a = Some n -> digits 10 digit 0 (a ++ repeat "0"%char k) = Some (n * 10 ^ N.of_nat k)%N.
Proof.
  induction k as [|k IH]; intros a n H.
  - cbn [repeat]. rewrite app_nil_r, H. f_equal. change (10 ^ N.of_nat 0)%N with 1%N. lia.
  - cbn [repeat]. replace (a ++ "0"%char :: repeat "0"%char k) with ((a ++ ["0"%char]) ++ repeat "0"%char k) by (rewrite <- app_assoc; reflexivity).
    rewrite (IH _ (10 * n + 0)%N); [|rewrite digits_app, H; reflexivity]. f_equal. rewrite Nnat.Nat2N.inj_succ, N.pow_succ_r'. lia.
Qed.
Local Open Scope R_scope.
Notation b2 := (bpow radix2).
Notation ten := (bpow radix10).
Lemma read_show : forall x : f64, reads_number (show x) x.
Proof.
  intros [s|s| |s m e B].
  - exists s, 0%N, 0%nat. split; [destruct s; vm_compute; reflexivity|]. split; [reflexivity|].
    unfold Rdiv. change (IZR (Z.of_N 0)) with 0. rewrite Rmult_0_l. assert (E : signed s 0 = 0) by (destruct s; unfold signed; lra). rewrite E.
    unfold nearest. rewrite round_0 by (auto with typeclass_instances). reflexivity.
  - destruct s; vm_compute; reflexivity.
  - vm_compute. reflexivity.
  - unfold show. destruct (shortest (Zpos m) e) as [c p] eqn:E. destruct (search_sound _ _ _ _ _ _ B E) as [C R].
    destruct (Z.lt_ge_cases p 0) as [P|P].
    + exists s, (Z.to_N c), (Z.to_nat (- p)). split; [unfold read_number; now rewrite read_positional by assumption|]. split; [reflexivity|].
      rewrite Z2N.id by lia. unfold Rdiv. rewrite <- ten_pow by exact P. rewrite nearest_signed, R. apply val_finite.
    + exists s, (Z.to_N (c * 10 ^ p)), 0%nat. split; [|split; [reflexivity|]].
      * unfold positional. destruct (show_nat c ltac:(lia)) as (Rd & NE & D). set (buf := show_Z c) in *. set (len := Z.of_nat (length buf)).
        assert (1 <= len)%Z by (unfold len; destruct buf; [contradiction|cbn [length]; lia]).
        destruct (Z.leb_spec (p + len) 0); [lia|]. destruct (Z.ltb_spec (p + len) len); [lia|]. replace (p + len - len)%Z with p by lia.
        apply read_whole. destruct (digits_read _ _ Rd) as (_ & _ & Dg). assert (T := digits_trail (Z.to_nat p) buf _ Dg).
        destruct (buf ++ repeat "0"%char (Z.to_nat p)) as [|x l] eqn:Eb; [apply app_eq_nil in Eb; tauto|].
        unfold read_nat. rewrite T. f_equal. rewrite Z2N.inj_mul by lia. f_equal. rewrite Z2N.inj_pow by lia. f_equal. rewrite Z_nat_N. reflexivity.
      * assert (0 <= 10 ^ p)%Z by (apply Z.pow_nonneg; lia). rewrite Z2N.id by lia. rewrite <- (IZR_Zpower radix10 p P), <- mult_IZR in R. change (radix_val radix10) with 10%Z in R.
        replace (IZR (c * 10 ^ p) / 10 ^ 0) with (IZR (c * 10 ^ p)) by (simpl; field). rewrite nearest_signed, R. apply val_finite.
Qed.
(** A text stands for at most one number. *)
Lemma number_fun : forall t x y, reads_number t x -> reads_number t y -> x = y.
Proof.
  intros t x y X Y.
  assert (F : forall z : f64, reads_number t z -> is_finite z = true -> exists s n k, read_number t = Some (s, n, k) /\ Bsign z = s /\
     B2R z = nearest (signed s (IZR (Z.of_N n) / 10 ^ k))) by (intros [] H G; try discriminate; exact H).
  assert (G : forall z : f64, reads_number t z -> is_finite z = false -> (t = lit "NaN" /\ z = B754_nan) \/ (t = lit "inf" /\ z = B754_infinity false) \/
     (t = lit "-inf" /\ z = B754_infinity true)) by (intros [|[]| |] H E; try discriminate; auto).
  destruct (is_finite x) eqn:FX, (is_finite y) eqn:FY.
  - destruct (F x X FX) as (s & n & k & E & S & V). destruct (F y Y FY) as (s' & n' & k' & E' & S' & V'). rewrite E in E'. injection E' as <- <- <-.
    apply B2R_Bsign_inj; congruence.
  - exfalso. destruct (F x X FX) as (s & n & k & E & _). destruct (G y Y FY) as [[-> _]|[[-> _]|[-> _]]]; discriminate.
  - exfalso. destruct (F y Y FY) as (s & n & k & E & _). destruct (G x X FX) as [[-> _]|[[-> _]|[-> _]]]; discriminate.
  - destruct (G x X FX) as [[E ->]|[[E ->]|[E ->]]], (G y Y FY) as [[E' ->]|[[E' ->]|[E' ->]]]; try reflexivity; rewrite E in E'; discriminate.
Qed.

(** ** Complex numbers *)
Definition clean (c : ascii) : Prop := c <> "+"%char /\ c <> "-"%char /\ c <> ","%char.
Lemma isd_clean : forall c, isd c -> clean c.
Proof. intros c H. repeat split; intros ->; apply H; reflexivity. Qed.
Lemma number_shape : forall t x, reads_number t x -> exists s u, t = minus s ++ u /\ u <> [] /\ Forall clean u.
Proof.
  intros t x H.
  assert (F : (exists s n k, read_number t = Some (s, n, k)) -> exists s u, t = minus s ++ u /\ u <> [] /\ Forall clean u).
  { intros (s & n & k & E). unfold read_number in E. destruct (read_decimal t) as [[[s' n'] k']|] eqn:D.
    - destruct (read_inv _ _ _ _ D) as (a & b & Et & A & B & _). exists s', (a ++ lit "." ++ b). split; [exact Et|].
      split; [destruct a; discriminate|]. apply Forall_app. split; [eapply Forall_impl; [exact isd_clean|exact A]|].
      apply Forall_app. split; [repeat constructor; discriminate|]. eapply Forall_impl; [exact isd_clean|exact B].
    - assert (S : t = minus (fst (read_sign t)) ++ snd (read_sign t)).
      { destruct t as [|c t]; [reflexivity|]. destruct c as [[] [] [] [] [] [] [] []]; reflexivity. }
      destruct (read_sign t) as [s' u]. cbn [fst snd] in S. destruct (read_nat u) as [z|] eqn:U; [|discriminate].
      destruct (digits_read _ _ U) as (NE & D' & _). exists s', u. split; [exact S|]. split; [exact NE|].
      eapply Forall_impl; [exact isd_clean|exact D']. }
  destruct x as [s|s| |s m e B]; cbn [reads_number] in H.
  - apply F. destruct H as (a & b & c & E & _). eauto.
  - destruct s; subst t; [exists true, (lit "inf")|exists false, (lit "inf")]; (split; [reflexivity|]; split; [discriminate|]; repeat constructor; discriminate).
  - subst t. exists false, (lit "NaN"). split; [reflexivity|]. split; [discriminate|]. repeat constructor; discriminate.
  - apply F. destruct H as (a & b & c & E & _). eauto.
Qed.
Lemma first_stop : forall (P : ascii -> Prop) u u' c c' r r', Forall P u -> Forall P u' -> ~ P c -> ~ P c' ->
  u ++ c :: r = u' ++ c' :: r' -> u = u' /\ c = c' /\ r = r'.
Proof.
  intros P. induction u as [|x u IH]; intros [|x' u'] c c' r r' F F' N N' E; cbn [app] in E; injection E as E1 E2; subst.
  - auto.
  - inversion F'; subst. contradiction.
  - inversion F; subst. contradiction.
  - inversion F; inversion F'; subst. destruct (IH u' c c' r r') as (-> & -> & ->); auto.
Qed.
Lemma not_clean : forall c, c = "+"%char \/ c = "-"%char \/ c = ","%char -> ~ clean c.
Proof. intros c H (A & B & C). tauto. Qed.
(** A number followed by a sign: where it ends is determined. *)
Lemma number_stop : forall u u' x x' c c' r r', reads_number u x -> reads_number u' x' -> ~ clean c -> ~ clean c' ->
  u ++ c :: r = u' ++ c' :: r' -> u = u' /\ c = c' /\ r = r'.
Proof.
  intros u u' x x' c c' r r' X X' N N' E. destruct (number_shape _ _ X) as (s & v & -> & NE & F). destruct (number_shape _ _ X') as (s' & v' & -> & NE' & F').
  rewrite <- !app_assoc in E.
  assert (S : s = s').
  { destruct v as [|a v]; [contradiction|]. destruct v' as [|a' v']; [contradiction|]. inversion F; inversion F'; subst.
    destruct s, s'; auto; cbn in E; injection E as E1 E2; subst; exfalso; [apply (proj1 (proj2 H5)); reflexivity|apply (proj1 (proj2 H1)); reflexivity]. }
  subst s'. apply app_inv_head in E. destruct (first_stop clean v v' c c' r r' F F' N N' E) as (-> & -> & ->). auto.
Qed.
Lemma complex_fun : forall t a b, reads_complex t a -> reads_complex t b -> a = b.
Proof.
  intros t [x y] [x' y'] (u & v & U & V) (u' & v' & U' & V'). cbn [fst snd] in *.
  assert (P : ~ clean "+"%char) by (apply not_clean; auto). assert (M : ~ clean "-"%char) by (apply not_clean; auto).
  destruct V as [[E V]|[E V]], V' as [[E' V']|[E' V']]; rewrite E in E'.
  - destruct (number_stop u u' x x' _ _ _ _ U U' P P E') as (-> & _ & W). apply app_inv_tail in W. subst v'. f_equal; eapply number_fun; eauto.
  - destruct (number_stop u u' x x' _ _ _ _ U U' P M E') as (_ & W & _). discriminate.
  - destruct (number_stop u u' x x' _ _ _ _ U U' M P E') as (_ & W & _). discriminate.
  - destruct (number_stop u u' x x' _ _ _ _ U U' M M E') as (-> & _ & W). apply app_inv_tail in W. subst v'. f_equal; eapply number_fun; eauto.
Qed.
Lemma number_nocomma : forall t x, reads_number t x -> Forall (fun c => c <> ","%char) t.
Proof.
  intros t x H. destruct (number_shape _ _ H) as (s & u & -> & _ & F). apply Forall_app. split.
  - destruct s; repeat constructor; discriminate.
  - eapply Forall_impl; [|exact F]. intros c C. apply C.
Qed.
Lemma complex_nocomma : forall t a, reads_complex t a -> Forall (fun c => c <> ","%char) t.
Proof.
  intros t a (u & v & U & [[-> V]|[-> V]]); apply Forall_app; (split; [exact (number_nocomma _ _ U)|]); apply number_nocomma in V.
  - apply Forall_app. split; [repeat constructor; discriminate|]. apply Forall_app. split; [exact V|repeat constructor; discriminate].
  - rewrite app_assoc. apply Forall_app. split; [exact V|repeat constructor; discriminate].
Qed.
(** Parts below zero. *)
Lemma part_below : forall x : f64, flt x f0 = true ->
  reads_number (minus true ++ show (part_abs x)) x /\ (forall s, show (part_abs x) <> minus true ++ s).
Proof.
  intros x H. unfold part_abs. rewrite H. assert (R := read_show x). destruct x as [s|s| |s m e B].
  - destruct s; vm_compute in H; discriminate.
  - destruct s; [|vm_compute in H; discriminate]. split; [exact R|]. intros t E. vm_compute in E. discriminate.
  - vm_compute in H. discriminate.
  - destruct s; [|vm_compute in H; discriminate].
    assert (E : fsub f0 (B754_finite true m e B) = B754_finite false m e B) by reflexivity. rewrite E.
    unfold show in *. destruct (shortest (Zpos m) e) as [c p] eqn:S. split; [exact R|].
    intros t T. assert (Q := read_show (B754_finite false m e B)). unfold show in Q. rewrite S in Q. cbn [minus app] in T, Q.
    destruct Q as (s & n & k & Q1 & Q2 & _). cbn [Bsign] in Q2. subst s. rewrite T in Q1.
    unfold read_number in Q1. destruct (read_decimal (lit "-" ++ t)) as [[[s' n'] k']|] eqn:D.
    + injection Q1 as -> -> ->. unfold read_decimal in D. cbn in D. destruct (split "."%char t) as [|? [|? [|]]]; try discriminate.
      destruct (read_nat l), (read_nat l0), (read_nat (l ++ l0)); discriminate.
    + cbn in Q1. destruct (read_nat t); discriminate.
Qed.
Lemma read_complex : forall a, reads_complex (show_complex a) a.
Proof.
  intros [x y]. unfold show_complex. cbn [fst snd]. exists (minus (flt x f0) ++ show (part_abs x)), (show (part_abs y)). cbn [fst snd]. split.
  - destruct (flt x f0) eqn:X; [apply part_below; exact X|]. unfold part_abs. rewrite X. apply read_show.
  - destruct (flt y f0) eqn:Y.
    + right. split; [now rewrite <- app_assoc|]. apply part_below. exact Y.
    + left. split; [now rewrite <- app_assoc|]. unfold part_abs. rewrite Y. apply read_show.
Qed.

(** ** Dumps *)
Lemma read_entries : forall st, reads_entries (concat (map dump_entry st) ++ lit "]" ++ [NL]) st.
Proof.
  induction st as [|[b a] st IH]; [reflexivity|]. cbn [reads_entries map concat].
  exists (show_Z (Z.of_N b)), (show_complex a), (concat (map dump_entry st) ++ lit "]" ++ [NL]).
  split; [|split; [|split; [apply read_complex|exact IH]]].
  - unfold dump_entry. cbn [fst snd]. change ket with ket_end. rewrite <- !app_assoc. reflexivity.
  - destruct (show_nat (Z.of_N b)) as [R _]; [lia|]. rewrite N2Z.id in R. exact R.
Qed.
Theorem read_dump : forall st, reads_dump (dump_text st) st.
Proof. intros st. eexists. split; [reflexivity|apply read_entries]. Qed.
Lemma entries_fun : forall st st' t, reads_entries t st -> reads_entries t st' -> st = st'.
Proof.
  induction st as [|[b a] st IH]; intros [|[b' a'] st'] t H H'; cbn [reads_entries] in *; auto.
  - destruct H' as (u & v & t' & E & _). rewrite E in H. discriminate.
  - destruct H as (u & v & t' & E & _). rewrite E in H'. discriminate.
  - destruct H as (u & v & t1 & E & U & V & R). destruct H' as (u' & v' & t1' & E' & U' & V' & R'). rewrite E in E'.
    apply app_inv_head in E'. destruct (digits_read _ _ U) as (_ & D & _). destruct (digits_read _ _ U') as (_ & D' & _).
    assert (K : ~ isd (ascii_of_N 226)) by (intros K; apply K; reflexivity).
    destruct (first_stop isd u u' _ _ _ _ D D' K K E') as (-> & _ & W).
    assert (W' : v ++ lit ", " ++ t1 = v' ++ lit ", " ++ t1') by (apply (app_inv_head (map ascii_of_N [159; 169]%N ++ lit ": ")); exact W).
    destruct (first_stop (fun c => c <> ","%char) v v' ","%char ","%char (lit " " ++ t1) (lit " " ++ t1')) as (-> & _ & W2); auto; try tauto.
    { exact (complex_nocomma _ _ V). } { exact (complex_nocomma _ _ V'). }
    apply app_inv_head in W2. subst t1'. rewrite U in U'. injection U' as ->. rewrite (complex_fun _ _ _ V V'). f_equal. eapply IH; eauto.
Qed.
Theorem dump_fun : forall t st st', reads_dump t st -> reads_dump t st' -> st = st'.
Proof.
  intros t st st' (u & E & H) (u' & E' & H'). rewrite E in E'. apply app_inv_head in E'. subst u'. eapply entries_fun; eauto.
Qed.
