(** * The text of doubles reads back *)
From Coq Require Import String Ascii List NArith ZArith Reals Bool Lia Lra.
From Flocq Require Import Core IEEE754.BinarySingleNaN.
From Verif Require Import Text SpecText SpecOutput TextLemmas Math MathThms DoubleText SpecDouble.
Import ListNotations.
Local Instance P53d : Prec_gt_0 53 := prec53.

(** ** Digits *)
Definition isd (c : ascii) : Prop := digit c <> None.
Lemma digits_isd : forall t acc n, digits 10 digit acc t = Some n -> Forall isd t.
Proof.
  induction t as [|c t IH]; intros acc n H; [constructor|]. simpl in H. destruct (digit c) eqn:E; [|discriminate].
  constructor; [unfold isd; congruence|]. eauto.
Qed.
Lemma isd_digits : forall t acc, Forall isd t -> exists n, digits 10 digit acc t = Some n.
Proof.
  induction t as [|c t IH]; intros acc H; [eexists; reflexivity|]. inversion H; subst. simpl. destruct (digit c) eqn:E; [|contradiction].
  now apply IH.
Qed.
Lemma isd_read : forall t, t <> [] -> Forall isd t -> exists n, read_nat t = Some n.
Proof. intros [|c t] N H; [contradiction|]. apply isd_digits. exact H. Qed.
Lemma digits_app : forall a b acc, digits 10 digit acc (a ++ b) =
  match digits 10 digit acc a with Some n => digits 10 digit n b | None => None end.
Proof. induction a as [|c a IH]; intros b acc; [reflexivity|]. simpl. destruct (digit c); auto. Qed.
Lemma digits_zeros : forall k t, digits 10 digit 0 (repeat "0"%char k ++ t) = digits 10 digit 0 t.
Proof. induction k as [|k IH]; intros t; [reflexivity|]. simpl. exact (IH t). Qed.
Lemma isd_zeros : forall k, Forall isd (repeat "0"%char k).
Proof. induction k; simpl; constructor; auto. unfold isd. discriminate. Qed.
Lemma isd_nodot : forall t, Forall isd t -> ~ In "."%char t.
Proof. intros t H I. rewrite Forall_forall in H. apply (H _ I). reflexivity. Qed.
Lemma isd_nominus : forall c t, isd c -> c :: t <> lit "-" ++ t.
Proof. intros c t H E. injection E as ->. apply H. reflexivity. Qed.
Lemma show_nat : forall z, (0 <= z)%Z -> read_nat (show_Z z) = Some (Z.to_N z) /\ show_Z z <> [] /\ Forall isd (show_Z z).
Proof.
  intros z Z0. assert (R : read_nat (show_Z z) = Some (Z.to_N z)).
  { assert (H := read_show_Z z). assert (P : exists d, Z.to_int z = Decimal.Pos d) by (destruct z; [eexists; reflexivity|eexists; reflexivity|lia]).
    destruct P as [d P]. rewrite read_Z_pos in H.
    - destruct (read_nat (show_Z z)) as [n|]; [|discriminate]. simpl in H. injection H as <-. now rewrite N2Z.id.
    - unfold show_Z. rewrite P. apply uint_head. }
  split; [exact R|]. destruct (show_Z z) as [|c t]; [discriminate|]. split; [discriminate|]. exact (digits_isd _ _ _ R).
Qed.
(** Reading a sign, digits, a point and digits. *)
Lemma read_parts : forall s a b n, Forall isd a -> Forall isd b -> a <> [] -> b <> [] -> digits 10 digit 0 (a ++ b) = Some n ->
  read_decimal (minus s ++ a ++ lit "." ++ b) = Some (s, n, length b).
Proof.
  intros s a b n A B NA NB D. unfold read_decimal.
  assert (E : read_sign (minus s ++ a ++ lit "." ++ b) = (s, a ++ "."%char :: b)).
  { destruct s; [reflexivity|]. change (minus false ++ a ++ lit "." ++ b) with (a ++ "."%char :: b).
    destruct a as [|c a]; [contradiction|]. inversion A; subst. cbn [app].
    destruct c as [[] [] [] [] [] [] [] []]; try reflexivity. exfalso. apply H1. reflexivity. }
  rewrite E. rewrite split_app by (apply isd_nodot; exact A). rewrite split_nosep by (apply isd_nodot; exact B).
  destruct (isd_read a NA A) as [x Ex]. destruct (isd_read b NB B) as [y Ey]. rewrite Ex, Ey.
  assert (F : read_nat (a ++ b) = Some n) by (destruct a; [contradiction|exact D]). now rewrite F.
Qed.
Lemma Forall_firstn : forall (A : Type) (P : A -> Prop) n l, Forall P l -> Forall P (firstn n l).
Proof. intros A P n l H. rewrite <- (firstn_skipn n l) in H. apply Forall_app in H. tauto. Qed.
Lemma Forall_skipn : forall (A : Type) (P : A -> Prop) n l, Forall P l -> Forall P (skipn n l).
Proof. intros A P n l H. rewrite <- (firstn_skipn n l) in H. apply Forall_app in H. tauto. Qed.
(** The digits with the point placed. *)
Lemma read_positional : forall s c p, (0 < c)%Z -> (p < 0)%Z ->
  read_decimal (minus s ++ positional c p) = Some (s, Z.to_N c, Z.to_nat (- p)).
Proof.
  intros s c p C P. destruct (show_nat c ltac:(lia)) as (R & NE & D). unfold positional. set (buf := show_Z c) in *.
  assert (R' : digits 10 digit 0 buf = Some (Z.to_N c)) by (destruct buf; [contradiction|exact R]).
  set (len := Z.of_nat (length buf)). destruct (Z.leb_spec (p + len) 0) as [L|L].
  - replace (minus s ++ lit "0." ++ repeat "0"%char (Z.to_nat (- (p + len))) ++ buf)
      with (minus s ++ lit "0" ++ lit "." ++ (repeat "0"%char (Z.to_nat (- (p + len))) ++ buf)) by reflexivity.
    rewrite (read_parts _ _ _ (Z.to_N c)).
    + repeat f_equal. rewrite app_length, repeat_length. unfold len in *. lia.
    + repeat constructor. discriminate.
    + apply Forall_app. split; [apply isd_zeros|exact D].
    + discriminate.
    + intros E. apply app_eq_nil in E. tauto.
    + change (lit "0" ++ repeat "0"%char (Z.to_nat (- (p + len))) ++ buf) with (repeat "0"%char (S (Z.to_nat (- (p + len)))) ++ buf).
      rewrite digits_zeros. exact R'.
  - destruct (Z.ltb_spec (p + len) len) as [_|]; [|lia].
    rewrite (read_parts _ _ _ (Z.to_N c)).
    + repeat f_equal. rewrite skipn_length. unfold len in *. lia.
    + apply Forall_firstn, D.
    + apply Forall_skipn, D.
    + intros E. apply (f_equal (@length _)) in E. rewrite firstn_length in E. unfold len in *. cbn [length] in E. lia.
    + intros E. apply (f_equal (@length _)) in E. rewrite skipn_length in E. unfold len in *. cbn [length] in E. lia.
    + rewrite firstn_skipn. exact R'.
Qed.

(** ** Decimal numbers and their neighbourhoods *)
Local Open Scope R_scope.
Definition radix10 : radix := Build_radix 10 eq_refl.
Notation b2 := (bpow radix2).
Notation ten := (bpow radix10).
Lemma pw_bpow : forall (b : radix) k, IZR (pw b k) = bpow b k * IZR (pw b (- k)).
Proof.
  intros b k. unfold pw. destruct (Z.le_gt_cases 0 k).
  - rewrite Z.max_l, (Z.max_r (- k)) by lia. rewrite IZR_Zpower by lia. change (b ^ 0)%Z with 1%Z. ring.
  - rewrite (Z.max_r k), (Z.max_l (- k)) by lia. rewrite !IZR_Zpower by lia. rewrite <- bpow_plus. f_equal. lia.
Qed.
Lemma pw_pos : forall (b : radix) k, 0 < IZR (pw b k).
Proof. intros b k. unfold pw. rewrite IZR_Zpower by lia. apply bpow_gt_0. Qed.
Lemma cmp_spec : forall c p a q, cmp c p a q = Rcompare (IZR c * ten p) (IZR a * b2 q).
Proof.
  intros c p a q. unfold cmp. rewrite <- Rcompare_IZR, !mult_IZR.
  rewrite <- (Rcompare_mult_r (IZR (pw 2 (- q)) * IZR (pw 10 (- p))) (IZR c * ten p)).
  2: { apply Rmult_lt_0_compat; [exact (pw_pos radix2 _)|exact (pw_pos radix10 _)]. }
  assert (A := pw_bpow radix10 p). assert (B := pw_bpow radix2 q). change (radix_val radix10) with 10%Z in A. change (radix_val radix2) with 2%Z in B.
  rewrite A, B. f_equal; ring.
Qed.

Notation fx := (FLT_exp (-1074) 53).
Notation fmt := (generic_format radix2 fx).
Lemma reach : forall m e c p, SpecFloat.bounded 53 1024 m e = true -> in_reach (Zpos m) e c p = true ->
  nearest (IZR c * ten p) = IZR (Zpos m) * b2 e.
Proof.
  intros m e c p Bd H. set (x := IZR (Zpos m) * b2 e).
  assert (Cn : canonical radix2 fx (Float radix2 (Zpos m) e)) by exact (canonical_bounded 53 1024 false m e Bd).
  assert (Fx : fmt x) by exact (generic_format_canonical radix2 fx _ Cn).
  assert (M1 : 1 <= IZR (Zpos m)) by (apply IZR_le; lia).
  assert (Be : 0 < b2 e) by apply bpow_gt_0.
  assert (X0 : 0 < x) by (unfold x; nra).
  assert (Ul : ulp radix2 fx x = b2 e) by (apply (ulp_canonical radix2 fx (Zpos m) e); [discriminate|exact Cn]).
  set (b := (Z.eqb (Zpos m) (2 ^ 52) && Z.ltb (-1074) e)%bool).
  set (g := if b then b2 (e - 1) else b2 e).
  assert (Be1 : b2 e = 2 * b2 (e - 1)) by (replace e with (1 + (e - 1))%Z at 1 by lia; rewrite bpow_plus; reflexivity).
  assert (Be2 : b2 (e - 1) = 2 * b2 (e - 2)) by (replace (e - 1)%Z with (1 + (e - 2))%Z at 1 by lia; rewrite bpow_plus; reflexivity).
  assert (B2 : 0 < b2 (e - 2)) by apply bpow_gt_0.
  assert (G : g <= b2 e) by (unfold g; destruct b; lra).
  assert (G2 : b2 e / 2 <= g) by (unfold g; destruct b; lra).
  assert (Pr : pred radix2 fx x <= x - g).
  { rewrite pred_eq_pos by lra. unfold pred_pos. destruct (Req_bool_spec x (b2 (mag radix2 x - 1))) as [E|_]; [|rewrite Ul; lra].
    assert (Ce : e = fx (mag radix2 x)) by exact Cn. unfold FLT_exp in *. set (k := mag_val radix2 x (mag radix2 x)) in *.
    destruct (Z.le_gt_cases e (-1074)) as [L|L].
    - replace (Z.max (k - 1 - 53) (-1074)) with e by lia. lra.
    - replace (Z.max (k - 1 - 53) (-1074)) with (e - 1)%Z by lia. replace (k - 1)%Z with (52 + e)%Z in E by lia.
      unfold x in E. rewrite bpow_plus in E. apply Rmult_eq_reg_r in E; [|lra]. change (b2 52) with (IZR (2 ^ 52)) in E. apply eq_IZR in E.
      unfold g, b. rewrite E, Z.eqb_refl. destruct (Z.ltb_spec (-1074) e); [|lia]. cbn [andb]. lra. }
  assert (Far : forall y, fmt y -> y = x \/ y <= x - g \/ x + b2 e <= y).
  { intros y Fy. destruct (Rtotal_order y x) as [L|[L|L]]; [|auto|].
    - right. left. eapply Rle_trans; [|exact Pr]. apply pred_ge_gt; auto with typeclass_instances.
    - right. right. rewrite <- Ul. rewrite <- (succ_eq_pos radix2 fx x) by lra. apply succ_le_lt; auto with typeclass_instances. }
  set (v := IZR c * ten p) in *.
  assert (Ex : Exists_NE radix2 fx) by (apply exists_NE_FLT; right; lia).
  assert (U : forall y, Rnd_NE_pt radix2 fx v y -> nearest v = y).
  { intros y Y. assert (N : Rnd_NE_pt radix2 fx v (nearest v)) by (apply round_NE_pt; [apply FLT_exp_valid; exact prec53|apply exists_NE_FLT; right; lia]).
    apply Rle_antisym; [apply (Rnd_NE_pt_monotone radix2 fx v v _ _ N Y)|apply (Rnd_NE_pt_monotone radix2 fx v v _ _ Y N)]; lra. }
  unfold in_reach in H. fold b in H. rewrite !cmp_spec in H. fold v in H.
  assert (Lo : IZR (if b then 4 * Zpos m - 1 else 4 * Zpos m - 2) * b2 (e - 2) = x - g / 2).
  { unfold g, x. rewrite Be1, Be2. destruct b; rewrite minus_IZR, mult_IZR; field. }
  assert (Hi : IZR (4 * Zpos m + 2) * b2 (e - 2) = x + b2 e / 2).
  { unfold x. rewrite Be1, Be2. rewrite plus_IZR, mult_IZR. field. }
  rewrite Lo, Hi in H.
  assert (Q : (x - g / 2 < v < x + b2 e / 2) \/ (x - g / 2 <= v <= x + b2 e / 2 /\ Z.even (Zpos m) = true)).
  { destruct (Rcompare_spec v (x - g / 2)); try discriminate; destruct (Rcompare_spec v (x + b2 e / 2)); try discriminate; try (left; split; lra); (right; split; [split; lra|exact H]). }
  apply U. destruct Q as [Q|[Q Ev]].
  - assert (St : forall y, fmt y -> y = x \/ Rabs (x - v) < Rabs (y - v)).
    { intros y Fy. destruct (Far y Fy) as [E|[E|E]]; [auto| |]; right; unfold Rabs; destruct (Rcase_abs (x - v)), (Rcase_abs (y - v)); lra. }
    split; [split; [exact Fx|]|].
    + intros y Fy. destruct (St y Fy) as [->|]; lra.
    + right. intros y [Fy Ny]. destruct (St y Fy) as [E|E]; [auto|]. specialize (Ny x Fx). lra.
  - split; [split; [exact Fx|]|].
    + intros y Fy. destruct (Far y Fy) as [->|[E|E]]; [lra| |]; unfold Rabs; destruct (Rcase_abs (x - v)), (Rcase_abs (y - v)); lra.
    + left. exists (Float radix2 (Zpos m) e). split; [reflexivity|]. split; [exact Cn|exact Ev].
Qed.

(** ** The search *)
Lemma exact_value : forall m e, IZR (m * pw 2 e * pw 5 (- e)) * ten (Z.min e 0) = IZR m * b2 e.
Proof.
  intros m e. rewrite !mult_IZR. assert (A := pw_bpow radix2 e). change (radix_val radix2) with 2%Z in A. rewrite A.
  assert (B : IZR (pw 2 (- e)) * IZR (pw 5 (- e)) * ten (Z.min e 0) = 1).
  { rewrite <- mult_IZR. unfold pw. rewrite <- Z.pow_mul_l. change (2 * 5)%Z with (radix_val radix10). rewrite IZR_Zpower by lia.
    rewrite <- bpow_plus. replace (Z.max (- e) 0 + Z.min e 0)%Z with 0%Z by lia. reflexivity. }
  transitivity (IZR m * b2 e * (IZR (pw 2 (- e)) * IZR (pw 5 (- e)) * ten (Z.min e 0))); [ring|rewrite B; ring].
Qed.
Lemma fmt_double : forall m e, SpecFloat.bounded 53 1024 m e = true -> nearest (IZR (Zpos m) * b2 e) = IZR (Zpos m) * b2 e.
Proof.
  intros m e B. apply round_generic; auto with typeclass_instances. exact (generic_format_canonical radix2 fx _ (canonical_bounded 53 1024 false m e B)).
Qed.
Lemma search_sound : forall fuel m e p c q, SpecFloat.bounded 53 1024 m e = true -> search fuel (Zpos m) e p = (c, q) ->
  (0 < c)%Z /\ nearest (IZR c * ten q) = IZR (Zpos m) * b2 e.
Proof.
  induction fuel as [|f IH]; intros m e p c q B H; cbn [search] in H.
  - apply pair_equal_spec in H. destruct H as [<- <-]. rewrite exact_value. split; [|apply fmt_double; exact B].
    assert (0 < pw 2 e)%Z by (apply lt_IZR; exact (pw_pos radix2 e)).
    assert (0 < pw 5 (- e))%Z by (apply lt_IZR; exact (pw_pos (Build_radix 5 eq_refl) (- e))). nia.
  - set (c0 := (Zpos m * pw 2 e * pw 10 (- p) / (pw 2 (- e) * pw 10 p))%Z) in *.
    assert (C0 : (0 <= c0)%Z).
    { assert (forall k, 0 < pw 2 k)%Z by (intros k; apply lt_IZR; exact (pw_pos radix2 k)).
      assert (forall k, 0 < pw 10 k)%Z by (intros k; apply lt_IZR; exact (pw_pos radix10 k)).
      apply Z.div_pos; [|apply Z.mul_pos_pos; auto]. apply Z.mul_nonneg_nonneg; [apply Z.mul_nonneg_nonneg|]; try lia; apply Z.lt_le_incl; auto. }
    destruct ((0 <? c0)%Z && in_reach (Zpos m) e c0 p)%bool eqn:E1; destruct (in_reach (Zpos m) e (c0 + 1) p) eqn:E2.
    + apply andb_prop in E1. destruct E1 as [E0 E1]. apply Z.ltb_lt in E0.
      destruct (cmp (2 * c0 + 1) p (2 * Zpos m) e); injection H as <- <-; (split; [lia|apply reach; assumption]).
    + apply andb_prop in E1. destruct E1 as [E0 E1]. apply Z.ltb_lt in E0. injection H as <- <-. split; [lia|apply reach; assumption].
    + injection H as <- <-. split; [lia|apply reach; assumption].
    + exact (IH _ _ _ _ _ B H).
Qed.

(** ** Whole numbers *)
Notation fin := (@is_finite 53 1024).
Notation val := (@B2R 53 1024).
Lemma floor_val : forall x : f64, fin x = true -> fin (ffloor x) = true /\ val (ffloor x) = IZR (Zfloor (val x)).
Proof.
  intros x F. destruct (@Bnearbyint_correct 53 1024 prec53_1024 mode_DN x) as (A & B & _). rewrite round_FIX_IZR in A. split; [exact (eq_trans B F)|exact A].
Qed.
Lemma ceil_val : forall x : f64, fin x = true -> fin (fceil x) = true /\ val (fceil x) = IZR (Zceil (val x)).
Proof.
  intros x F. destruct (@Bnearbyint_correct 53 1024 prec53_1024 mode_UP x) as (A & B & _). rewrite round_FIX_IZR in A. split; [exact (eq_trans B F)|exact A].
Qed.
Lemma floor_ceil : forall r, (Zceil r - Zfloor r = 0 /\ IZR (Zfloor r) = r \/ Zceil r - Zfloor r = 1 /\ forall z, r <> IZR z)%Z.
Proof.
  intros r. destruct (Req_dec (IZR (Zfloor r)) r) as [E|E].
  - left. split; [|exact E]. rewrite <- E at 1. rewrite Zceil_IZR. lia.
  - right. split; [rewrite (Zceil_floor_neq _ E); lia|]. intros z Hz. apply E. rewrite Hz, Zfloor_IZR. reflexivity.
Qed.
Lemma epsilon_val : 0 < val f64_epsilon < 1.
Proof.
  assert (E : val f64_epsilon = b2 (52 + -104)) by (rewrite bpow_plus; reflexivity). rewrite E.
  split; [apply bpow_gt_0|]. change 1 with (b2 0). apply bpow_lt. lia.
Qed.
Lemma whole_spec : forall x : f64, is_whole x = true <-> fin x = true /\ integral x.
Proof.
  intros x. destruct (fin x) eqn:F.
  2: { destruct x as [s|s| |s m e B]; try discriminate; (split; [|intros [H _]; discriminate]); [destruct s|]; discriminate. }
  destruct (floor_val x F) as [A1 A2]. destruct (ceil_val x F) as [B1 B2].
  assert (S := Bminus_correct 53 1024 prec53 prec53_1024 mode_NE (ffloor x) (fceil x) A1 B1). fold (fsub (ffloor x) (fceil x)) in S.
  assert (D : val (ffloor x) - val (fceil x) = 0 \/ val (ffloor x) - val (fceil x) = - 1).
  { rewrite A2, B2, <- minus_IZR. destruct (floor_ceil (val x)) as [[E _]|[E _]]; [left|right]; f_equal; lia. }
  assert (F1 : fmt (- 1)) by (apply generic_format_opp; apply (generic_format_bpow radix2 fx 0); unfold FLT_exp; lia).
  assert (Fm : fmt (val (ffloor x) - val (fceil x))).
  { destruct D as [-> | ->]; [apply generic_format_0|exact F1]. }
  change (round radix2 (SpecFloat.fexp 53 1024) (round_mode mode_NE)) with nearest in S.
  unfold nearest in S. rewrite round_generic in S by (auto with typeclass_instances).
  rewrite Rlt_bool_true in S.
  2: { assert (b2 0 < b2 1024) by (apply bpow_lt; lia). change (b2 0) with 1 in H. destruct D as [-> | ->]; unfold Rabs; destruct Rcase_abs; lra. }
  destruct S as (S1 & S2 & _). change (@Bminus 53 1024 prec53 prec53_1024 mode_NE (ffloor x) (fceil x)) with (fsub (ffloor x) (fceil x)) in *.
  unfold is_whole, flt, fabs. rewrite Bltb_correct; [|rewrite is_finite_Babs; exact S2|reflexivity]. rewrite B2R_Babs, S1, A2, B2, <- minus_IZR.
  destruct epsilon_val as [E0 E1]. unfold integral. destruct (floor_ceil (val x)) as [[E I]|[E I]].
  - replace (Zfloor (val x) - Zceil (val x))%Z with 0%Z by lia. rewrite Rabs_R0, Rlt_bool_true by exact E0. split; [|auto].
    intros _. split; [reflexivity|]. exists (Zfloor (val x)). congruence.
  - replace (Zfloor (val x) - Zceil (val x))%Z with (-1)%Z by lia. rewrite Rlt_bool_false by (rewrite Rabs_left; lra). split; [discriminate|].
    intros [_ [z Hz]]. exfalso. exact (I z Hz).
Qed.

(** ** Main lemmas *)
Lemma val_finite : forall s m e B, val (B754_finite s m e B) = signed s (IZR (Zpos m) * b2 e).
Proof. intros s m e B. unfold B2R, F2R. simpl Fnum. simpl Fexp. destruct s; unfold cond_Zopp, signed; [rewrite opp_IZR; ring|reflexivity]. Qed.
Lemma nearest_signed : forall s x, nearest (signed s x) = signed s (nearest x).
Proof. intros [] x; [apply round_NE_opp|reflexivity]. Qed.
Lemma signed_int : forall s x, (exists z, signed s x = IZR z) -> exists z, x = IZR z.
Proof. intros [] x [z H]; unfold signed in H; [exists (- z)%Z; rewrite opp_IZR; lra|exists z; exact H]. Qed.
Lemma int_signed : forall s z, exists z', signed s (IZR z) = IZR z'.
Proof. intros [] z; unfold signed; [exists (- z)%Z; rewrite opp_IZR; reflexivity|exists z; reflexivity]. Qed.
Lemma tenths_whole : forall m e z, IZR (Zpos m) * b2 e = IZR z -> tenths (Zpos m) e = (10 * z)%Z.
Proof.
  intros m e z H. unfold tenths. assert (D : (0 < pw 2 (- e))%Z) by (apply lt_IZR; exact (pw_pos radix2 (- e))).
  assert (N : (10 * Zpos m * pw 2 e)%Z = (10 * z * pw 2 (- e))%Z).
  { apply eq_IZR. rewrite !mult_IZR. assert (A := pw_bpow radix2 e). change (radix_val radix2) with 2%Z in A. rewrite A, <- H. ring. }
  rewrite N, Z.div_mul, Z.mod_mul by lia. destruct (Z.ltb_spec (2 * 0) (pw 2 (- e))); [reflexivity|lia].
Qed.
(** Rounding an integer gives an integer. *)
Lemma nearest_int : forall m e z, SpecFloat.bounded 53 1024 m e = true -> (0 < z)%Z -> nearest (IZR z) = IZR (Zpos m) * b2 e ->
  exists z', IZR (Zpos m) * b2 e = IZR z'.
Proof.
  intros m e z B Z0 H. destruct (Z.le_gt_cases 0 e) as [E|E].
  - exists (Zpos m * 2 ^ e)%Z. rewrite mult_IZR. change 2%Z with (radix_val radix2). rewrite IZR_Zpower by exact E. reflexivity.
  - assert (M : (Zpos m < 2 ^ 53)%Z).
    { unfold SpecFloat.bounded in B. apply andb_prop in B. destruct B as [B _].
      unfold SpecFloat.canonical_mantissa in B. apply Zeq_bool_eq in B. unfold SpecFloat.fexp, SpecFloat.emin in B.
      assert (D : (Zdigits radix2 (Zpos m) <= 53)%Z) by (rewrite <- Digits.Zpos_digits2_pos; lia). exact (Zpower_gt_Zdigits radix2 53 (Zpos m) D). }
    assert (Lt : IZR (Zpos m) * b2 e < b2 52).
    { assert (IZR (Zpos m) < b2 53) by (change (b2 53) with (IZR (2 ^ 53)); apply IZR_lt; exact M).
      assert (b2 e <= b2 (-1)) by (apply bpow_le; lia). assert (0 < b2 e) by apply bpow_gt_0.
      replace (b2 52) with (b2 53 * b2 (-1)) by (rewrite <- bpow_plus; reflexivity). assert (0 < b2 53) by apply bpow_gt_0.
      apply Rlt_le_trans with (b2 53 * b2 e); [apply Rmult_lt_compat_r; assumption|apply Rmult_le_compat_l; lra]. }
    assert (F52 : fmt (b2 52)) by (apply generic_format_bpow; unfold FLT_exp; lia).
    destruct (Rle_or_lt (b2 52) (IZR z)) as [L|L].
    + exfalso. assert (b2 52 <= nearest (IZR z)) by (apply round_ge_generic; auto with typeclass_instances). lra.
    + exists z. rewrite <- H. apply round_generic; auto with typeclass_instances.
      change (b2 52) with (IZR (2 ^ 52)) in L. apply lt_IZR in L. replace (IZR z) with (IZR z * powerRZ 2 0) by (simpl; ring). apply fmt_mul; lia.
Qed.
Lemma show1_reads : forall s m e B z, IZR (Zpos m) * b2 e = IZR z ->
  show1 (B754_finite s m e B) = minus s ++ show_Z z ++ lit ".0" /\ (0 < z)%Z /\
  read_decimal (minus s ++ show_Z z ++ lit ".0") = Some (s, Z.to_N (10 * z), 1%nat).
Proof.
  intros s m e B z H. assert (Z0 : (0 < z)%Z).
  { apply lt_IZR. rewrite <- H. apply Rmult_lt_0_compat; [apply IZR_lt; lia|apply bpow_gt_0]. }
  assert (E : show1 (B754_finite s m e B) = minus s ++ show_Z z ++ lit ".0").
  { unfold show1. rewrite (tenths_whole m e z H). rewrite Z.mul_comm, Z.div_mul, Z.mod_mul by lia. reflexivity. }
  split; [exact E|]. split; [exact Z0|]. destruct (show_nat z ltac:(lia)) as (R & NE & D).
  change (lit ".0") with (lit "." ++ lit "0"). rewrite (read_parts s (show_Z z) (lit "0") (Z.to_N (10 * z))); auto.
  - repeat constructor. discriminate.
  - discriminate.
  - rewrite digits_app. assert (R' : digits 10 digit 0 (show_Z z) = Some (Z.to_N z)) by (destruct (show_Z z); [contradiction|exact R]).
    rewrite R'. change (Some (10 * Z.to_N z + 0)%N = Some (Z.to_N (10 * z))). f_equal. rewrite Z2N.inj_mul by lia. change (Z.to_N 10) with 10%N. lia.
Qed.
Lemma show_reads : forall s m e B, ~ integral (B754_finite s m e B) -> exists c p, (0 < c)%Z /\ (p < 0)%Z /\
  show (B754_finite s m e B) = minus s ++ positional c p /\ nearest (IZR c * ten p) = IZR (Zpos m) * b2 e.
Proof.
  intros s m e B NI. unfold show. destruct (shortest (Zpos m) e) as [c p] eqn:E. destruct (search_sound _ _ _ _ _ _ B E) as [C R].
  exists c, p. split; [exact C|]. split; [|split; [reflexivity|exact R]]. destruct (Z.lt_ge_cases p 0) as [|P]; [assumption|exfalso].
  apply NI. rewrite <- (IZR_Zpower radix10 p P), <- mult_IZR in R. change (radix_val radix10) with 10%Z in R.
  destruct (nearest_int m e (c * 10 ^ p) B) as [z Hz]; [|exact R|].
  - apply Z.mul_pos_pos; [exact C|]. apply Z.pow_pos_nonneg; lia.
  - unfold integral. rewrite val_finite, Hz. apply int_signed.
Qed.
Lemma ten_pow : forall p, (p < 0)%Z -> ten p = / 10 ^ Z.to_nat (- p).
Proof.
  intros p P. replace p with (- Z.of_nat (Z.to_nat (- p)))%Z at 1 by lia. rewrite bpow_opp. f_equal. rewrite <- IZR_Zpower by lia.
  rewrite <- pow_IZR. reflexivity.
Qed.
Lemma text_finite : forall s m e B, let x := B754_finite s m e B in
  (exists z, IZR (Zpos m) * b2 e = IZR z /\ @double_to_string D64 x = show1 x) \/ (~ integral x /\ @double_to_string D64 x = show x).
Proof.
  intros s m e B x. unfold double_to_string. cbn [dbl_whole dbl_show1 dbl_show D64]. destruct (is_whole x) eqn:W.
  - left. apply whole_spec in W. destruct W as [_ [z Hz]]. unfold x in Hz. rewrite val_finite in Hz.
    destruct (signed_int s (IZR (Zpos m) * b2 e)) as [z' E]; [eauto|]. exists z'. auto.
  - right. split; [|reflexivity]. intros I. assert (is_whole x = true) by (apply whole_spec; split; [reflexivity|exact I]). congruence.
Qed.
Theorem read_back : forall x, reads (@double_to_string D64 x) x.
Proof.
  intros [s|s| |s m e B].
  - exists s, 0%N, 1%nat. split; [destruct s; vm_compute; reflexivity|]. split; [reflexivity|].
    unfold Rdiv. change (IZR (Z.of_N 0)) with 0. rewrite Rmult_0_l. assert (E : signed s 0 = 0) by (destruct s; unfold signed; lra). rewrite E.
    unfold nearest. rewrite round_0 by (auto with typeclass_instances). reflexivity.
  - destruct s; vm_compute; reflexivity.
  - vm_compute. reflexivity.
  - destruct (text_finite s m e B) as [(z & Hz & ->) | [NI ->]].
    + destruct (show1_reads s m e B z Hz) as (-> & Z0 & R). exists s, (Z.to_N (10 * z)), 1%nat. split; [exact R|]. split; [reflexivity|].
      rewrite Z2N.id by lia. rewrite mult_IZR. replace (10 * IZR z / 10 ^ 1) with (IZR z) by (simpl; field).
      rewrite val_finite, nearest_signed, <- Hz, fmt_double by exact B. reflexivity.
    + destruct (show_reads s m e B NI) as (c & p & C & P & -> & R). exists s, (Z.to_N c), (Z.to_nat (- p)).
      split; [apply read_positional; assumption|]. split; [reflexivity|].
      rewrite Z2N.id by lia. unfold Rdiv. rewrite <- ten_pow by exact P. rewrite nearest_signed, R. apply val_finite.
Qed.
(** A text stands for at most one double. *)
Lemma reads_fun : forall t x y, reads t x -> reads t y -> x = y.
Proof.
  intros t x y X Y.
  assert (F : forall z : f64, reads t z -> fin z = true -> exists s n k, read_decimal t = Some (s, n, k) /\ Bsign z = s /\
     B2R z = nearest (signed s (IZR (Z.of_N n) / 10 ^ k))) by (intros [] H G; try discriminate; exact H).
  assert (G : forall z : f64, reads t z -> fin z = false -> (t = lit "NaN" /\ z = B754_nan) \/ (t = lit "inf" /\ z = B754_infinity false) \/
     (t = lit "-inf" /\ z = B754_infinity true)) by (intros [|[]| |] H E; try discriminate; auto).
  destruct (fin x) eqn:FX, (fin y) eqn:FY.
  - destruct (F x X FX) as (s & n & k & E & S & V). destruct (F y Y FY) as (s' & n' & k' & E' & S' & V'). rewrite E in E'. injection E' as <- <- <-.
    apply B2R_Bsign_inj; congruence.
  - exfalso. destruct (F x X FX) as (s & n & k & E & _). destruct (G y Y FY) as [[-> _]|[[-> _]|[-> _]]]; discriminate.
  - exfalso. destruct (F y Y FY) as (s & n & k & E & _). destruct (G x X FX) as [[-> _]|[[-> _]|[-> _]]]; discriminate.
  - destruct (G x X FX) as [[E ->]|[[E ->]|[E ->]]], (G y Y FY) as [[E' ->]|[[E' ->]|[E' ->]]]; try reflexivity; rewrite E in E'; discriminate.
Qed.
Theorem text_distinct : forall x y, @double_to_string D64 x = @double_to_string D64 y -> x = y.
Proof. intros x y H. apply (reads_fun (@double_to_string D64 x)); [apply read_back|rewrite H; apply read_back]. Qed.

(** ** The shape of the text *)
Lemma read_inv : forall t s n k, read_decimal t = Some (s, n, k) -> exists a b, t = minus s ++ a ++ lit "." ++ b /\
  Forall isd a /\ Forall isd b /\ digits 10 digit 0 (a ++ b) = Some n /\ k = length b.
Proof.
  intros t s n k H. unfold read_decimal in H.
  assert (S : t = minus (fst (read_sign t)) ++ snd (read_sign t)).
  { destruct t as [|c t]; [reflexivity|]. destruct c as [[] [] [] [] [] [] [] []]; reflexivity. }
  destruct (read_sign t) as [s' u]. cbn [fst snd] in S. destruct (split "."%char u) as [|a [|b [|]]] eqn:E; try discriminate.
  destruct (read_nat a) as [x|] eqn:A; [|discriminate]. destruct (read_nat b) as [y|] eqn:B; [|discriminate].
  destruct (read_nat (a ++ b)) as [z|] eqn:Z; [|discriminate]. injection H as <- <- <-.
  assert (U : u = a ++ lit "." ++ b) by (rewrite <- (join_split "."%char u), E; reflexivity).
  assert (R : forall v w, read_nat v = Some w -> Forall isd v /\ digits 10 digit 0 v = Some w).
  { intros [|c v] w W; [discriminate|]. split; [exact (digits_isd _ _ _ W)|exact W]. }
  exists a, b. split; [rewrite S, U; reflexivity|]. split; [exact (proj1 (R _ _ A))|]. split; [exact (proj1 (R _ _ B))|].
  split; [exact (proj2 (R _ _ Z))|reflexivity].
Qed.
Lemma isd_char : forall c, isd c -> double_char c = true.
Proof. intros c H. destruct c as [[] [] [] [] [] [] [] []]; try reflexivity; exfalso; apply H; reflexivity. Qed.
Lemma dot_not_Z : forall a b, read_Z (a ++ "."%char :: b) = None.
Proof.
  assert (Hn : forall t u acc, digits 10 digit acc (t ++ "."%char :: u) = None).
  { induction t as [|c t IH]; intros u acc; simpl; [reflexivity|]. destruct (digit c); auto. }
  assert (Hr : forall t u, read_nat (t ++ "."%char :: u) = None).
  { intros [|c t] u; [reflexivity|]. exact (Hn (c :: t) u 0%N). }
  intros [|c t] u; [reflexivity|]. assert (Q := Hr (c :: t) u). assert (Q' := Hr t u). unfold read_Z. cbn [app] in *.
  destruct c as [[] [] [] [] [] [] [] []]; try (rewrite Q; reflexivity). rewrite Q'. reflexivity.
Qed.
Theorem doubles_ok_D64 : @doubles_ok D64.
Proof.
  intros x. assert (R := read_back x).
  assert (F : forall s n k, read_decimal (@double_to_string D64 x) = Some (s, n, k) ->
    forallb double_char (@double_to_string D64 x) = true /\ read_Z (@double_to_string D64 x) = None).
  { intros s n k H. destruct (read_inv _ _ _ _ H) as (a & b & -> & A & B & _ & _). split.
    - apply forallb_forall. intros c I. rewrite Forall_forall in A, B. apply in_app_or in I. destruct I as [I|I].
      + destruct s; [destruct I as [<-|[]]; reflexivity|destruct I].
      + apply in_app_or in I. destruct I as [I|[<-|I]]; [apply isd_char, A, I|reflexivity|apply isd_char, B, I].
    - rewrite app_assoc. apply dot_not_Z. }
  destruct x as [s|s| |s m e B].
  - destruct R as (s' & n & k & H & _). exact (F _ _ _ H).
  - destruct s; vm_compute; split; reflexivity.
  - vm_compute; split; reflexivity.
  - destruct R as (s' & n & k & H & _). exact (F _ _ _ H).
Qed.
Lemma last_dot : forall u b u' b', ~ In "."%char b -> ~ In "."%char b' -> u ++ "."%char :: b = u' ++ "."%char :: b' -> b = b' /\ u = u'.
Proof.
  intros u b u' b' B B' E. apply (f_equal (@rev ascii)) in E. rewrite !rev_app_distr in E. simpl in E. rewrite <- !app_assoc in E. simpl in E.
  apply (f_equal (split "."%char)) in E. rewrite !split_app in E by (rewrite <- in_rev; assumption). injection E as E1 E2.
  split; [rewrite <- (rev_involutive b), E1; apply rev_involutive|]. apply split_inj in E2. rewrite <- (rev_involutive u), E2. apply rev_involutive.
Qed.
Theorem whole_text : forall x : f64, fin x = true -> (integral x <-> exists t, @double_to_string D64 x = t ++ lit ".0").
Proof.
  intros x F. destruct x as [s|s| |s m e B]; try discriminate.
  - split; [|intros _; exists 0%Z; reflexivity]. intros _. exists (minus s ++ lit "0"). destruct s; vm_compute; reflexivity.
  - destruct (text_finite s m e B) as [(z & Hz & E) | [NI E]].
    + destruct (show1_reads s m e B z Hz) as (E1 & _). split.
      * intros _. exists (minus s ++ show_Z z). rewrite E, E1, app_assoc. reflexivity.
      * intros _. unfold integral. rewrite val_finite, Hz. apply int_signed.
    + split; [contradiction|]. intros [t T]. exfalso. apply NI. assert (R := read_back (B754_finite s m e B)).
      rewrite T in R. destruct R as (s' & n & k & D & S & V). simpl in S. subst s'.
      destruct (read_inv _ _ _ _ D) as (a & b & E' & A & Bd & N & K). change (lit ".0") with ("."%char :: lit "0") in E'.
      change (lit "." ++ b) with ("."%char :: b) in E'. rewrite app_assoc in E'.
      apply last_dot in E'; [|intros [H|[]]; discriminate|apply isd_nodot; exact Bd]. destruct E' as [<- _]. simpl in K. subst k.
      rewrite digits_app in N. destruct (digits 10 digit 0 a) as [n'|]; [|discriminate].
      change (Some (10 * n' + 0)%N = Some n) in N. injection N as N. rewrite val_finite, nearest_signed in V.
      assert (V' : nearest (IZR (Z.of_N n')) = IZR (Zpos m) * b2 e).
      { replace (IZR (Z.of_N n) / 10 ^ 1) with (IZR (Z.of_N n')) in V; [destruct s; unfold signed in V; lra|].
        rewrite <- N, N.add_0_r, N2Z.inj_mul, mult_IZR. change (Z.of_N 10) with 10%Z. simpl. field. }
      assert (P : 0 < IZR (Zpos m) * b2 e) by (apply Rmult_lt_0_compat; [apply IZR_lt; lia|apply bpow_gt_0]).
      destruct (N.eq_0_gt_0_cases n') as [-> |G].
      * exfalso. unfold nearest in V'. change (IZR (Z.of_N 0)) with 0 in V'. rewrite round_0 in V' by (auto with typeclass_instances). lra.
      * destruct (nearest_int m e (Z.of_N n') B ltac:(lia) V') as [z Hz]. unfold integral. rewrite val_finite, Hz. apply int_signed.
Qed.
(** Records with the same content, doubles being compared as numbers. *)
Lemma same_record_eq : forall r r' : @record D64, same_record r r' -> r = r' \/ (legacy_number r <> None /\ legacy_number r = legacy_number r').
Proof.
  intros r r' H. destruct r, r'; try exact H; simpl in H.
  - destruct H as [H ->]. left. f_equal. apply text_distinct, H.
  - left. f_equal. apply text_distinct, H.
Qed.
