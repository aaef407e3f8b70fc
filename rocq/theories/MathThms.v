(** * Remainder and draws *)
From Coq Require Import String ZArith Reals List Bool Lra Lia.
From Flocq Require Import Core IEEE754.BinarySingleNaN Relative.
From Verif Require Import Cx Bits Arith ArithR IndexMap Sim SimExp SimApply Spec SpecRun SimRun Text Backend Runner Math SpecMath.
Import ListNotations.
Local Open Scope R_scope.

(** ** Facts about the two remainders *)
Lemma remainder_scale : forall x y n, y <> 0 -> x - IZR n * y = (x / y - IZR n) * y.
Proof. intros. field. assumption. Qed.
Lemma away_bound : forall x y r, y <> 0 -> away_remainder x y r -> Rabs r <= Rabs y / 2.
Proof.
  intros x y r H (n & -> & B & _). rewrite remainder_scale, Rabs_mult by exact H.
  apply Rle_trans with (/ 2 * Rabs y); [apply Rmult_le_compat_r; [apply Rabs_pos|exact B]|lra].
Qed.
Lemma away_ieee : forall x y r, ~ halfway x y -> away_remainder x y r -> ieee_remainder x y r.
Proof. intros x y r N (n & E & B & _). exists n. split; [exact E|]. split; [exact B|]. intros X. exfalso. apply N. exists n. exact X. Qed.
Lemma near_next : forall q n n', Rabs (q - IZR n) <= / 2 -> Rabs (q - IZR n') <= / 2 ->
  n = n' \/ (Rabs (q - IZR n) = / 2 /\ Rabs (q - IZR n') = / 2 /\ (n' = n + 1 \/ n = n' + 1)%Z).
Proof.
  assert (G : forall q a b, b = (a + 1)%Z -> Rabs (q - IZR a) <= / 2 -> Rabs (q - IZR b) <= / 2 -> Rabs (q - IZR a) = / 2 /\ Rabs (q - IZR b) = / 2).
  { intros q a b -> Ba Bb. rewrite plus_IZR in *. assert (Ba1 := Rle_abs (q - IZR a)). assert (Bb1 := Rle_abs (- (q - (IZR a + 1)))). rewrite Rabs_Ropp in Bb1.
    assert (H0 : q - IZR a = / 2) by lra. assert (H1 : q - (IZR a + 1) = - / 2) by lra.
    split; [rewrite H0; apply Rabs_pos_eq; lra|rewrite H1, Rabs_Ropp; apply Rabs_pos_eq; lra]. }
  intros q n n' B B'. assert (X : n = n' \/ n <> n') by lia. destruct X as [X|X]; [left; exact X|right].
  assert (L : Rabs (IZR n - IZR n') <= 1).
  { replace (IZR n - IZR n') with ((q - IZR n') + - (q - IZR n)) by ring. apply Rle_trans with (Rabs (q - IZR n') + Rabs (- (q - IZR n))); [apply Rabs_triang|].
    rewrite Rabs_Ropp. lra. }
  rewrite <- minus_IZR, <- abs_IZR in L. apply le_IZR in L.
  assert (Z1 : (n' = n + 1 \/ n = n' + 1)%Z) by lia. destruct Z1 as [Z1|Z1].
  - destruct (G q n n' Z1 B B'). auto.
  - destruct (G q n' n Z1 B' B). auto.
Qed.
(** There is at most one IEEE remainder. *)
Lemma ieee_unique : forall x y r r', ieee_remainder x y r -> ieee_remainder x y r' -> r = r'.
Proof.
  intros x y r r' (n & -> & B & E) (n' & -> & B' & E'). destruct (near_next _ _ _ B B') as [->|(H & H' & Z1)]; [reflexivity|].
  destruct (E H) as [a A], (E' H') as [b C]. lia.
Qed.

(** ** Doubles *)
Notation fmt := (generic_format radix2 (FLT_exp (-1074) 53)).
Notation rne := (round radix2 (FLT_exp (-1074) 53) ZnearestE).
Local Instance P53 : Prec_gt_0 53 := prec53.

Lemma pow_bpow : forall e, powerRZ 2 e = bpow radix2 e.
Proof. intros e. rewrite bpow_powerRZ. reflexivity. Qed.
Lemma fmt_mul : forall m e, (Z.abs m < 2 ^ 53)%Z -> (-1074 <= e)%Z -> fmt (IZR m * powerRZ 2 e).
Proof. intros m e H H'. apply generic_format_FLT. apply (FLT_spec _ _ _ _ (Float radix2 m e)); [unfold F2R; simpl Fnum; simpl Fexp; rewrite pow_bpow; reflexivity|exact H|exact H']. Qed.
Lemma rne_id : forall r, fmt r -> rne r = r.
Proof. intros r H. apply round_generic; [apply valid_rnd_N|exact H]. Qed.
Lemma small_mul : forall m e, (Z.abs m < 2 ^ 53)%Z -> (e <= 971)%Z -> Rabs (IZR m * powerRZ 2 e) < bpow radix2 1024.
Proof.
  intros m e H H'. rewrite Rabs_mult, <- abs_IZR, pow_bpow, (Rabs_pos_eq (bpow radix2 e)) by apply bpow_ge_0.
  apply Rlt_le_trans with (bpow radix2 53 * bpow radix2 e); [apply Rmult_lt_compat_r; [apply bpow_gt_0|]|].
  - apply IZR_lt in H. exact H.
  - rewrite <- bpow_plus. apply bpow_le. lia.
Qed.

(** Rounding the quotient first does not change which integer is nearest. *)
Lemma quotient_error : forall a b, (Z.abs a < 2 ^ 52)%Z -> (Z.abs b < 2 ^ 53)%Z -> b <> 0%Z ->
  Rabs (rne (IZR a / IZR b) - IZR a / IZR b) < / (2 * Rabs (IZR b)).
Proof.
  intros a b A B N. assert (NB : 0 < Rabs (IZR b)) by (apply Rabs_pos_lt; apply not_0_IZR; exact N).
  assert (P : 0 < / (2 * Rabs (IZR b))) by (apply Rinv_0_lt_compat; lra).
  destruct (Z.eq_dec a 0) as [->|NA].
  { unfold Rdiv. rewrite Rmult_0_l, rne_id by apply generic_format_0. rewrite Rminus_0_r, Rabs_R0. exact P. }
  assert (QA : Rabs (IZR a / IZR b) = Rabs (IZR a) * / Rabs (IZR b)) by (unfold Rdiv; rewrite Rabs_mult, Rabs_inv; reflexivity).
  assert (L1 : 1 <= Rabs (IZR a)) by (rewrite <- abs_IZR; apply IZR_le; lia).
  assert (Big : bpow radix2 (-1074 + 53 - 1) <= Rabs (IZR a / IZR b)).
  { rewrite QA. apply Rle_trans with (bpow radix2 (-53)); [apply bpow_le; lia|]. apply Rle_trans with (1 * / Rabs (IZR b)).
    - rewrite Rmult_1_l. change (-53)%Z with (- (53))%Z. rewrite bpow_opp. apply Rinv_le; [exact NB|]. rewrite <- abs_IZR. apply IZR_lt in B. apply Rlt_le. exact B.
    - apply Rmult_le_compat_r; [apply Rlt_le; apply Rinv_0_lt_compat; exact NB|exact L1]. }
  assert (E := relative_error_N_FLT radix2 (-1074) 53 prec53 (fun x => negb (Z.even x)) _ Big).
  eapply Rle_lt_trans; [exact E|]. rewrite QA, <- Rmult_assoc, Rinv_mult.
  apply Rmult_lt_compat_r; [apply Rinv_0_lt_compat; exact NB|].
  replace (/ 2) with (/ 2 * 1) at 2 by ring. rewrite Rmult_assoc. apply Rmult_lt_compat_l; [lra|].
  replace (- (53) + 1)%Z with (- (52))%Z by reflexivity. rewrite bpow_opp. apply Rmult_lt_reg_l with (bpow radix2 52); [apply bpow_gt_0|].
  rewrite <- Rmult_assoc, Rinv_r, Rmult_1_l, Rmult_1_r by (apply Rgt_not_eq; apply bpow_gt_0). rewrite <- abs_IZR. apply IZR_lt in A. exact A.
Qed.
Lemma quotient_round : forall a b, (Z.abs a < 2 ^ 52)%Z -> (Z.abs b < 2 ^ 53)%Z -> b <> 0%Z ->
  ZnearestA (rne (IZR a / IZR b)) = ZnearestA (IZR a / IZR b).
Proof.
  intros a b A B N. set (q := IZR a / IZR b). set (n := ZnearestA q).
  assert (H : Rabs (q - IZR n) <= / 2) by apply Znearest_half.
  assert (NB : 0 < Rabs (IZR b)) by (apply Rabs_pos_lt; apply not_0_IZR; exact N).
  assert (NB1 : 1 <= Rabs (IZR b)) by (rewrite <- abs_IZR; apply IZR_le; lia).
  assert (NZ : IZR b <> 0) by (apply not_0_IZR; exact N).
  assert (S : (q - IZR n) * IZR b = IZR (a - n * b)) by (unfold q; rewrite minus_IZR, mult_IZR; field; exact NZ).
  assert (SA : Rabs (q - IZR n) * Rabs (IZR b) = IZR (Z.abs (a - n * b))) by (rewrite <- Rabs_mult, S, abs_IZR; reflexivity).
  destruct (Z.eq_dec (2 * Z.abs (a - n * b)) (Z.abs b)) as [T|T].
  - (* halfway: the quotient is a double *)
    assert (Q2 : exists m, q = IZR m * powerRZ 2 (-1) /\ (Z.abs m < 2 ^ 53)%Z).
    { assert (X : exists m, (2 * a = m * b)%Z) by (destruct (Z.abs_spec (a - n * b)) as [[? E1]|[? E1]], (Z.abs_spec b) as [[? E2]|[? E2]];
        [exists (2 * n + 1)%Z|exists (2 * n - 1)%Z|exists (2 * n - 1)%Z|exists (2 * n + 1)%Z]; lia).
      destruct X as [m X]. exists m. split.
      - unfold q. simpl powerRZ. apply Rmult_eq_reg_r with (IZR b); [|exact NZ]. unfold Rdiv. rewrite Rmult_assoc, Rinv_l, Rmult_1_r by exact NZ.
        apply (f_equal IZR) in X. rewrite !mult_IZR in X. lra.
      - assert (Z.abs m * Z.abs b = 2 * Z.abs a)%Z by (rewrite <- Z.abs_mul, <- X, Z.abs_mul; reflexivity). nia. }
    destruct Q2 as (m & Q2 & M). rewrite Q2, rne_id; [rewrite <- Q2; reflexivity|]. apply fmt_mul; [exact M|lia].
  - apply Znearest_imp. assert (E := quotient_error a b A B N). fold q in E.
    assert (L : (2 * Z.abs (a - n * b) <= Z.abs b - 1)%Z).
    { assert (IZR (2 * Z.abs (a - n * b)) <= IZR (Z.abs b)). { rewrite mult_IZR, <- SA, abs_IZR. nra. } apply le_IZR in H0. lia. }
    assert (Q : Rabs (q - IZR n) <= / 2 - / (2 * Rabs (IZR b))).
    { apply Rmult_le_reg_r with (Rabs (IZR b)); [exact NB|]. rewrite SA. replace ((/ 2 - / (2 * Rabs (IZR b))) * Rabs (IZR b)) with ((Rabs (IZR b) - 1) / 2) by (field; lra).
      apply IZR_le in L. rewrite mult_IZR, minus_IZR, (abs_IZR b) in L. lra. }
    replace (rne q - IZR n) with ((rne q - q) + (q - IZR n)) by ring. eapply Rle_lt_trans; [apply Rabs_triang|]. lra.
Qed.
Lemma away_tie : forall q, Rabs (q - IZR (ZnearestA q)) = / 2 -> Rabs q < Rabs (IZR (ZnearestA q)).
Proof.
  intros q. set (n := ZnearestA q). intros H. assert (C : q = IZR n - / 2 \/ q = IZR n + / 2).
  { unfold Rabs in H. destruct (Rcase_abs (q - IZR n)); [left|right]; lra. }
  assert (D : n = ZnearestA q) by reflexivity. clearbody n. unfold Znearest in D. destruct C as [C|C].
  - assert (F : Zfloor q = (n - 1)%Z) by (apply Zfloor_imp; replace (n - 1 + 1)%Z with n by lia; rewrite minus_IZR; lra).
    assert (G : Zceil q = n) by (apply Zceil_imp; rewrite minus_IZR; lra).
    rewrite F, minus_IZR, Rcompare_Eq in D by lra. destruct (Zle_bool 0 (n - 1)) eqn:E; [|lia]. apply Zle_bool_imp_le in E.
    assert (1 <= IZR n) by (apply IZR_le; lia). rewrite !Rabs_pos_eq; lra.
  - assert (F : Zfloor q = n) by (apply Zfloor_imp; rewrite plus_IZR; lra).
    assert (G : Zceil q = (n + 1)%Z) by (apply Zceil_imp; replace (n + 1 - 1)%Z with n by lia; rewrite plus_IZR; lra).
    rewrite F, Rcompare_Eq, G in D by lra. destruct (Zle_bool 0 n) eqn:E; [lia|].
    assert (n <= -1)%Z by (destruct (Z.leb_spec 0 n); [discriminate E|lia]). assert (IZR n <= -1) by (apply IZR_le; assumption).
    rewrite !Rabs_left; lra.
Qed.

Lemma remainder_doubles : forall x y a b e, commensurable x y a b e -> b <> 0%Z ->
  exists r, is_number (ieeeremainder x y) r /\ away_remainder (B2R x) (B2R y) r.
Proof.
  intros x y a b e ((Fx & X) & (Fy & Y) & (E1 & E2) & A & B) N.
  assert (PE : powerRZ 2 e <> 0) by (apply powerRZ_NOR; lra).
  assert (NZ : IZR b <> 0) by (apply not_0_IZR; exact N).
  assert (NB : 0 < Rabs (IZR b)) by (apply Rabs_pos_lt; exact NZ).
  assert (Y0 : B2R y <> 0) by (rewrite Y; apply Rmult_integral_contrapositive; split; assumption).
  assert (Q : B2R x / B2R y = IZR a / IZR b) by (rewrite X, Y; field; split; assumption).
  set (q := IZR a / IZR b) in *. set (n := ZnearestA q).
  assert (H : Rabs (q - IZR n) <= / 2) by apply Znearest_half.
  assert (QB : Rabs q * Rabs (IZR b) = Rabs (IZR a)) by (rewrite <- Rabs_mult; f_equal; unfold q; field; exact NZ).
  assert (NB1 : 1 <= Rabs (IZR b)) by (rewrite <- abs_IZR; apply IZR_le; lia).
  assert (AS : Rabs (IZR a) < 4503599627370496) by (rewrite <- abs_IZR; apply IZR_lt; exact A).
  assert (QS : Rabs q < 4503599627370496) by (assert (0 <= Rabs q) by apply Rabs_pos; nra).
  (* the quotient *)
  assert (R1 := quotient_round a b A B N). fold q n in R1.
  assert (RQ : Rabs (rne q) < bpow radix2 1024).
  { assert (Er := quotient_error a b A B N). fold q in Er. assert (/ (2 * Rabs (IZR b)) <= 1).
    { rewrite <- Rinv_1. apply Rinv_le; lra. }
    apply Rlt_trans with 9007199254740992.
    - replace (rne q) with ((rne q - q) + q) by ring. eapply Rle_lt_trans; [apply Rabs_triang|]. lra.
    - change 9007199254740992 with (bpow radix2 53). apply bpow_lt. lia. }
  assert (DV := @Bdiv_correct 53 1024 prec53 prec53_1024 mode_NE x y Y0). fold (fdiv x y) in DV. rewrite Q in DV.
  change (round radix2 (SpecFloat.fexp 53 1024) (round_mode mode_NE) q) with (rne q) in DV. rewrite (Rlt_bool_true _ _ RQ) in DV. destruct DV as (D1 & D2 & _). rewrite Fx in D2.
  (* rounded *)
  destruct (@Bnearbyint_correct 53 1024 prec53_1024 mode_NA (fdiv x y)) as (N1 & N2 & _). fold (fround (fdiv x y)) in N1, N2.
  rewrite D1, round_FIX_IZR in N1. change (round_mode mode_NA (rne q)) with (ZnearestA (rne q)) in N1. rewrite R1 in N1. rewrite D2 in N2.
  (* times y *)
  assert (BN : (Z.abs (b * n) < 2 ^ 53)%Z).
  { destruct (Z.eq_dec n 0) as [->|Nn]; [rewrite Z.mul_0_r; reflexivity|]. apply lt_IZR. rewrite abs_IZR, mult_IZR, Rabs_mult.
    assert (1 <= Rabs (IZR n)) by (rewrite <- abs_IZR; apply IZR_le; lia).
    assert (Rabs (IZR n) <= Rabs q + / 2). { replace (IZR n) with (q + - (q - IZR n)) by ring. eapply Rle_trans; [apply Rabs_triang|]. rewrite Rabs_Ropp. lra. }
    assert (/ 2 <= Rabs q) by lra. change (IZR (2 ^ 53)) with 9007199254740992. assert (Rabs (IZR b) * Rabs (IZR n) <= 2 * (Rabs q * Rabs (IZR b))) by nra. lra. }
  assert (P1 : B2R y * IZR n = IZR (b * n) * powerRZ 2 e) by (rewrite Y, mult_IZR; ring).
  assert (ML := @Bmult_correct 53 1024 prec53 prec53_1024 mode_NE y (fround (fdiv x y))). fold (fmul y (fround (fdiv x y))) in ML. rewrite N1, P1 in ML.
  change (round radix2 (SpecFloat.fexp 53 1024) (round_mode mode_NE)) with rne in ML. rewrite rne_id in ML by (apply fmt_mul; [exact BN|exact E1]).
  rewrite Rlt_bool_true in ML by (apply small_mul; [exact BN|exact E2]). destruct ML as (M1 & M2 & _). rewrite Fy, N2 in M2. simpl in M2.
  (* minus *)
  assert (AB : (Z.abs (a - b * n) < 2 ^ 53)%Z).
  { apply lt_IZR. change (IZR (2 ^ 53)) with 9007199254740992. rewrite abs_IZR. replace (IZR (a - b * n)) with ((q - IZR n) * IZR b) by (rewrite minus_IZR, mult_IZR; unfold q; field; exact NZ).
    rewrite Rabs_mult. assert (Rabs (IZR b) < 9007199254740992) by (rewrite <- abs_IZR; apply IZR_lt; exact B). assert (0 <= Rabs (q - IZR n)) by apply Rabs_pos. nra. }
  assert (P2 : B2R x - IZR (b * n) * powerRZ 2 e = IZR (a - b * n) * powerRZ 2 e) by (rewrite X, minus_IZR; ring).
  assert (SB := @Bminus_correct 53 1024 prec53 prec53_1024 mode_NE x (fmul y (fround (fdiv x y))) Fx M2). fold (ieeeremainder x y) in SB.
  change (Bminus mode_NE x (fmul y (fround (fdiv x y)))) with (ieeeremainder x y) in SB. rewrite M1, P2 in SB.
  change (round radix2 (SpecFloat.fexp 53 1024) (round_mode mode_NE)) with rne in SB. rewrite rne_id in SB by (apply fmt_mul; [exact AB|exact E1]).
  rewrite Rlt_bool_true in SB by (apply small_mul; [exact AB|exact E2]). destruct SB as (S1 & S2 & _).
  exists (IZR (a - b * n) * powerRZ 2 e). split; [split; assumption|]. exists n. split; [rewrite <- P2, <- P1; ring|].
  rewrite Q. split; [exact H|]. apply away_tie.
Qed.

(** ** Draws *)
Section Draw.
Context {T : Tol} {EN : Env} {D : Doubles} {SW : Shows} {RN : Rand}.
Lemma draw_int_thm : draws_ok -> forall (p : program) fuel l lo hi k w, pstep p l = ARandom lo hi k ->
  ((lo <= hi)%Z -> exists z t, (lo <= z <= hi)%Z /\ run_from p (S fuel) l w = run_from p fuel (k z) (mkWorld (wback w) t)) /\
  ((hi < lo)%Z -> run_from p (S fuel) l w = PStop (StopErr (EFail (codes "Invalid Argument: minimum > maximum")))
     (bout (wback w) ++ render (RecMessage (codes "Invalid Argument: minimum > maximum")))).
Proof.
  intros H p fuel l lo hi k w P. cbn [run_from]. rewrite P. unfold draw_int. split; intros L.
  - destruct (Z.ltb_spec hi lo); [lia|]. specialize (H lo hi (wtgen w) L). destruct (draw_range lo hi (wtgen w)) as [z t]. exists z, t. split; [exact H|reflexivity].
  - apply Z.ltb_lt in L. rewrite L. reflexivity.
Qed.
End Draw.
Section DrawDouble.
Context {T : Tol} {EN : Env} {D : Doubles} {RN : Rand} {RD : RandDouble}.
Lemma draw_double_thm : doubles_drawn_ok -> forall lo hi w,
  (fle lo hi = true -> is_finite (fsub hi lo) = true ->
     exists x t, drawrandomdouble lo hi w = Drawn x (mkWorld (wback w) t) /\ fle lo x = true /\ fle x hi = true) /\
  (flt hi lo = true -> drawrandomdouble lo hi w = DrawFail (bout (wback w) ++ render (RecMessage (codes "Invalid Argument: minimum > maximum")))).
Proof.
  intros H lo hi w. unfold drawrandomdouble. split.
  - intros L F. assert (X : flt hi lo = false).
    { unfold fle, flt, Bleb, Bltb, SpecFloat.SFleb, SpecFloat.SFltb in *. fold (Bcompare hi lo). fold (Bcompare lo hi) in L. rewrite Bcompare_swap.
      destruct (Bcompare lo hi) as [[]|]; simpl; try reflexivity; discriminate. }
    rewrite X. destruct (H lo hi (wtgen w)) as [H1 _]. destruct (H1 L F) as (x & t & -> & A & B). eauto.
  - intros ->. reflexivity.
Qed.
End DrawDouble.

(** ** Tests of doubles and the square root *)
Lemma flt_irrefl : forall x : f64, flt x x = false.
Proof.
  intros x. unfold flt. destruct (is_finite x) eqn:E; [rewrite Bltb_correct by exact E; apply Rlt_bool_false; lra|].
  destruct x as [s|s| |s m e H]; try discriminate; [destruct s|]; reflexivity.
Qed.
Lemma feq_refl : forall x : f64, feq x x = negb (is_nan x).
Proof.
  intros x. unfold feq. destruct (is_finite x) eqn:E; [rewrite Beqb_correct by exact E; rewrite Req_bool_true by reflexivity; destruct x; try discriminate; reflexivity|].
  destruct x as [s|s| |s m e H]; try discriminate; [destruct s|]; reflexivity.
Qed.
Lemma predicates_thm : forall x : f64,
  (qis_isnan x = true <-> feq x x = false) /\
  (qis_isinf x = true <-> forall y, is_finite y = true -> flt y x = true) /\
  (qis_isnegativeinfinity x = true <-> forall y, is_finite y = true -> flt x y = true) /\
  qis_isnan qis_nan = true /\ qis_isinf qis_infinity = true.
Proof.
  intros x. split; [|split; [|split; [|split; reflexivity]]].
  - rewrite feq_refl. unfold qis_isnan. destruct (is_nan x); simpl; intuition discriminate.
  - split.
    + intros H y F. destruct x as [s|[|]| |s m e B]; try discriminate H. destruct y as [s|s| |s m e B]; try discriminate F; reflexivity.
    + intros H. destruct x as [s|[|]| |s m e B]; try reflexivity.
      * specialize (H (B754_zero s) eq_refl). rewrite flt_irrefl in H. discriminate H.
      * specialize (H (B754_zero false) eq_refl). discriminate H.
      * specialize (H (B754_zero false) eq_refl). discriminate H.
      * specialize (H (B754_finite s m e B) eq_refl). rewrite flt_irrefl in H. discriminate H.
  - split.
    + intros H y F. destruct x as [s|[|]| |s m e B]; try discriminate H. destruct y as [s|s| |s m e B]; try discriminate F; reflexivity.
    + intros H. destruct x as [s|[|]| |s m e B]; try reflexivity.
      * specialize (H (B754_zero s) eq_refl). rewrite flt_irrefl in H. discriminate H.
      * specialize (H (B754_zero false) eq_refl). discriminate H.
      * specialize (H (B754_zero false) eq_refl). discriminate H.
      * specialize (H (B754_finite s m e B) eq_refl). rewrite flt_irrefl in H. discriminate H.
Qed.
Lemma sqrt_thm : forall x : f64,
  (is_finite x = true -> fle (B754_zero false) x = true ->
     is_finite (qis_sqrt x) = true /\ forall y : f64, is_finite y = true -> Rabs (B2R (qis_sqrt x) - sqrt (B2R x)) <= Rabs (B2R y - sqrt (B2R x))) /\
  (flt x (B754_zero false) = true \/ qis_isnan x = true -> qis_isnan (qis_sqrt x) = true) /\
  (qis_isinf x = true -> qis_isinf (qis_sqrt x) = true).
Proof.
  intros x. destruct (Bsqrt_correct 53 1024 prec53 prec53_1024 mode_NE x) as (V & F & _).
  change (@Bsqrt 53 1024 prec53 prec53_1024 mode_NE x) with (qis_sqrt x) in V, F. split; [|split].
  - intros Fx P. split.
    + unfold fle in P. rewrite (Bleb_correct 53 1024 (B754_zero false) x eq_refl Fx) in P. simpl (B2R (B754_zero false)) in P. destruct (Rle_bool_spec 0 (B2R x)) as [P0|P0]; [clear P|discriminate P].
      rewrite F. destruct x as [s|s| |[|] m e H]; try discriminate; try reflexivity. exfalso.
      assert (B2R (B754_finite true m e H : f64) < 0); [|lra]. simpl. apply F2R_lt_0. reflexivity.
    + intros y Fy. rewrite V. change (round_mode mode_NE) with (Znearest (fun z => negb (Z.even z))).
      assert (W : Valid_exp (SpecFloat.fexp 53 1024)) by (apply (fexp_correct 53 1024); exact prec53).
      apply (round_N_pt radix2 (SpecFloat.fexp 53 1024) (fun z => negb (Z.even z)) (sqrt (B2R x))). apply generic_format_B2R.
  - intros [H|H]; destruct x as [s|[|]| |[|] m e B]; try discriminate H; try reflexivity.
  - intros H. destruct x as [s|[|]| |[|] m e B]; try discriminate H; reflexivity.
Qed.
