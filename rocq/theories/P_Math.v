(** * Theorems about stdlib/src/math.rs *)
From Coq Require Import String ZArith Reals List Bool Lra Lia.
From Flocq Require Import IEEE754.BinarySingleNaN.
From Verif Require Import Cx Bits Arith ArithR IndexMap Sim SimExp SimApply Spec SpecRun SimRun Text Backend BackEx World Runner SpecRunner RunnerEx
  Math SpecMath MathThms.
From Verif Require Import MathEx.
Import ListNotations.
Local Open Scope list_scope.

(** ** C45: random draws *)
(** A program that draws an integer goes on with a number in range and an untouched backend; with crossed bounds it stops with a message. *)
Theorem C45_integers : forall (T : Tol) (EN : Env) (D : Doubles) (SW : Shows) (RN : Rand), draws_ok ->
  forall (p : program) fuel l lo hi k w, pstep p l = ARandom lo hi k ->
  ((lo <= hi)%Z -> exists z t, (lo <= z <= hi)%Z /\ run_from p (S fuel) l w = run_from p fuel (k z) (mkWorld (wback w) t)) /\
  ((hi < lo)%Z -> run_from p (S fuel) l w = PStop (StopErr (EFail (codes "Invalid Argument: minimum > maximum")))
     (bout (wback w) ++ render (RecMessage (codes "Invalid Argument: minimum > maximum")))).
Proof. exact @draw_int_thm. Qed.
Print Assumptions C45_integers.
Example C45_integers_ex : @draws_ok T0 E0 RN0 /\ exists l k, pstep coin l = ARandom 0 1 k.
Proof. split; [|exists (None, true); eexists; reflexivity]. intros lo hi [] H; simpl; lia. Qed.
(** Doubles.  Missing because false: bounds that are not numbers or too far apart (next theorem). *)
Theorem C45_doubles_partial : forall (T : Tol) (EN : Env) (D : Doubles) (RN : Rand) (RD : RandDouble), doubles_drawn_ok -> forall lo hi w,
  (fle lo hi = true -> is_finite (fsub hi lo) = true ->
     exists x t, drawrandomdouble lo hi w = Drawn x (mkWorld (wback w) t) /\ fle lo x = true /\ fle x hi = true) /\
  (flt hi lo = true -> drawrandomdouble lo hi w = DrawFail (bout (wback w) ++ render (RecMessage (codes "Invalid Argument: minimum > maximum")))).
Proof. exact @draw_double_thm. Qed.
Print Assumptions C45_doubles_partial.
Example C45_doubles_ex : @doubles_drawn_ok T0 E0 RN0 RD0 /\ fle (d 1 0) (d 5 (-1)) = true /\ is_finite (fsub (d 5 (-1)) (d 1 0)) = true /\ flt (d 5 (-1)) (d 3 0) = true.
Proof. split; [exact RD0_ok|]. vm_compute. auto. Qed.
(** Bounds that are not crossed, yet neither a value nor the message: an end that is not a number; ends of opposite sign whose distance
    exceeds the largest double; an infinite end. *)
Theorem C45_doubles_refuted : forall (T : Tol) (EN : Env) (D : Doubles) (RN : Rand) (RD : RandDouble), doubles_drawn_ok -> forall w,
  (flt (d 1 0) qis_nan = false /\ drawrandomdouble qis_nan (d 1 0) w = DrawPanic) /\
  (flt (d 1 1023) (d (-1) 1023) = false /\ is_finite (d 1 1023) = true /\ is_finite (d (-1) 1023) = true /\ drawrandomdouble (d (-1) 1023) (d 1 1023) w = DrawPanic) /\
  (flt qis_infinity (d 1 0) = false /\ drawrandomdouble (d 1 0) qis_infinity w = DrawPanic).
Proof.
  intros T EN D RN RD H w.
  assert (G : forall lo hi, flt hi lo = false -> fle lo hi = false \/ is_finite (fsub hi lo) = false -> drawrandomdouble lo hi w = DrawPanic).
  { intros lo hi F C. unfold drawrandomdouble. rewrite F. destruct (H lo hi (wtgen w)) as [_ H2]. rewrite (H2 C). reflexivity. }
  split; [|split].
  - split; [vm_compute; reflexivity|]. apply G; [vm_compute; reflexivity|left; vm_compute; reflexivity].
  - split; [vm_compute; reflexivity|]. split; [vm_compute; reflexivity|]. split; [vm_compute; reflexivity|]. apply G; [vm_compute; reflexivity|right; vm_compute; reflexivity].
  - split; [vm_compute; reflexivity|]. apply G; [vm_compute; reflexivity|right; vm_compute; reflexivity].
Qed.
Print Assumptions C45_doubles_refuted.

(** ** C46: remainder *)
(** If both doubles are multiples of one unit, the first by less than 2^52, the computed double is exact: the nearest multiple is taken
    away, the magnitude is at most |y|/2, and it is the IEEE remainder unless x lies halfway between two multiples.
    Missing because false: halfway cases, and quotients of 2^52 and more (next theorem). *)
Theorem C46_remainder_partial : forall x y a b e, commensurable x y a b e -> b <> 0%Z ->
  exists r, is_number (ieeeremainder x y) r /\ away_remainder (B2R x) (B2R y) r /\ (Rabs r <= Rabs (B2R y) / 2)%R /\
    (~ halfway (B2R x) (B2R y) -> forall r', ieee_remainder (B2R x) (B2R y) r' <-> r' = r).
Proof.
  intros x y a b e C N. destruct (remainder_doubles x y a b e C N) as (r & I & A). exists r. split; [exact I|]. split; [exact A|]. split.
  - apply (away_bound (B2R x) (B2R y)); [|exact A]. destruct C as (_ & (_ & ->) & _). apply Rmult_integral_contrapositive. split; [apply not_0_IZR; exact N|apply powerRZ_NOR; lra].
  - intros H r'. assert (X := away_ieee _ _ _ H A). split; [intros Y; exact (ieee_unique _ _ _ _ Y X)|intros ->; exact X].
Qed.
Print Assumptions C46_remainder_partial.
(** 17 and 5 in units of 1/4: the remainder of 4.25 and 1.25 is 0.5. *)
Example C46_ex : commensurable (d 17 (-2)) (d 5 (-2)) 17 5 (-2) /\ B2SF (ieeeremainder (d 17 (-2)) (d 5 (-2))) = B2SF (d 1 (-1)).
Proof.
  split; [|vm_compute; reflexivity]. unfold commensurable, is_number.
  assert (G : forall m, (Z.abs m < 2 ^ 53)%Z -> is_finite (d m (-2)) = true /\ B2R (d m (-2)) = (IZR m * powerRZ 2 (-2))%R).
  { intros m H. assert (X := @binary_normalize_correct 53 1024 prec53 prec53_1024 mode_NE m (-2) false). cbv zeta in X. fold (d m (-2)) in X.
    replace (Defs.F2R (Defs.Float Zaux.radix2 m (-2))) with (IZR m * powerRZ 2 (-2))%R in X by (unfold Defs.F2R; simpl Defs.Fnum; simpl Defs.Fexp; rewrite pow_bpow; reflexivity).
    change (Generic_fmt.round Zaux.radix2 (SpecFloat.fexp 53 1024) (round_mode mode_NE)) with (Generic_fmt.round Zaux.radix2 (FLT.FLT_exp (-1074) 53) Round_NE.ZnearestE) in X.
    rewrite rne_id in X by (apply fmt_mul; [exact H|lia]). rewrite Raux.Rlt_bool_true in X by (apply small_mul; [exact H|lia]). tauto. }
  destruct (G 17%Z) as [A1 A2]; [reflexivity|]. destruct (G 5%Z) as [B1 B2]; [reflexivity|].
  split; [split; [exact A1|exact A2]|]. split; [split; [exact B1|exact B2]|]. repeat split; lia.
Qed.
(** Halfway: 1 and 2 give -1, IEEE says 1.  Large quotient: 2^54 and 10 give -8, more than half of 10.  Overflow: minus infinity. *)
Theorem C46_refuted : (is_number (d 1 0) 1 /\ is_number (d 2 0) 2 /\ is_number (ieeeremainder (d 1 0) (d 2 0)) (-1) /\ ieee_remainder 1 2 1 /\ ~ ieee_remainder 1 2 (-1)) /\
  (is_number (d 1 54) 18014398509481984 /\ is_number (d 10 0) 10 /\ is_number (ieeeremainder (d 1 54) (d 10 0)) (-8)) /\
  (is_finite (d 1 1000) = true /\ is_finite (d 1 (-1000)) = true /\ ieeeremainder (d 1 1000) (d 1 (-1000)) = B754_infinity true).
Proof.
  assert (G : forall (x : f64) s m e z, B2SF x = SpecFloat.S754_finite s m e -> (SpecFloat.cond_Zopp s (Zpos m) * 2 ^ Z.max e 0 = z * 2 ^ Z.max (- e) 0)%Z -> is_number x (IZR z)).
  { intros x s m e z H E. destruct x; try discriminate. inversion H; subst. split; [reflexivity|]. simpl B2R. unfold Defs.F2R. simpl Defs.Fnum. simpl Defs.Fexp.
    change 2%Z with (Zaux.radix_val Zaux.radix2) in E. apply (f_equal IZR) in E. rewrite !mult_IZR, !Raux.IZR_Zpower in E by lia.
    assert (P := Raux.bpow_gt_0 Zaux.radix2). destruct (Z.max_spec e 0) as [[H1 M1]|[H1 M1]], (Z.max_spec (- e) 0) as [[H2 M2]|[H2 M2]]; try lia; rewrite M1, M2 in E; simpl (Raux.bpow _ 0) in E.
    - apply Rmult_eq_reg_r with (Raux.bpow Zaux.radix2 (- e)); [|apply Rgt_not_eq; apply P]. rewrite <- E, Rmult_assoc, <- Raux.bpow_plus. replace (e + - e)%Z with 0%Z by lia. reflexivity.
    - rewrite E. ring.
    - assert (e = 0)%Z by lia. subst. simpl in *. rewrite E. ring. }
  assert (U : ieee_remainder 1 2 1).
  { exists 0%Z. split; [lra|]. split; [|intros _; exists 0%Z; reflexivity]. replace (1 / 2 - 0)%R with (/ 2)%R by lra. rewrite Rabs_pos_eq; lra. }
  split; [|split].
  - split; [eapply G; vm_compute; reflexivity|]. split; [eapply G; vm_compute; reflexivity|]. split; [eapply G; vm_compute; reflexivity|].
    split; [exact U|]. intros V. assert (X := ieee_unique _ _ _ _ U V). lra.
  - split; [eapply G; vm_compute; reflexivity|]. split; [eapply G; vm_compute; reflexivity|]. eapply G; vm_compute; reflexivity.
  - split; [vm_compute; reflexivity|]. split; vm_compute; reflexivity.
Qed.
Print Assumptions C46_refuted.

(** ** C53: tests of doubles and the square root *)
(** Said by comparisons alone: what is not a number is not equal to itself, infinity is above all finite doubles. *)
Theorem C53_tests : forall x : f64,
  (qis_isnan x = true <-> feq x x = false) /\
  (qis_isinf x = true <-> forall y, is_finite y = true -> flt y x = true) /\
  (qis_isnegativeinfinity x = true <-> forall y, is_finite y = true -> flt x y = true) /\
  qis_isnan qis_nan = true /\ qis_isinf qis_infinity = true.
Proof. exact predicates_thm. Qed.
Print Assumptions C53_tests.
(** No finite double is nearer to the square root. *)
Theorem C53_sqrt : forall x : f64,
  (is_finite x = true -> fle (B754_zero false) x = true ->
     is_finite (qis_sqrt x) = true /\ forall y : f64, is_finite y = true -> (Rabs (B2R (qis_sqrt x) - sqrt (B2R x)) <= Rabs (B2R y - sqrt (B2R x)))%R) /\
  (flt x (B754_zero false) = true \/ qis_isnan x = true -> qis_isnan (qis_sqrt x) = true) /\
  (qis_isinf x = true -> qis_isinf (qis_sqrt x) = true).
Proof. exact sqrt_thm. Qed.
Print Assumptions C53_sqrt.
Example C53_ex : is_finite (d 9 (-2)) = true /\ fle (B754_zero false) (d 9 (-2)) = true /\ B2SF (qis_sqrt (d 9 (-2))) = B2SF (d 3 (-1)) /\ flt (d (-1) 0) (B754_zero false) = true /\
  qis_isinf (B754_infinity true) = false /\ qis_isnegativeinfinity (B754_infinity true) = true /\ qis_isinf (d 1 1000) = false.
Proof. vm_compute. repeat split; reflexivity. Qed.
