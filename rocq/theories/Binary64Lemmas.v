(** * Binary64 satisfies the laws of arithmetic with rounding *)
From Coq Require Import ZArith Reals Bool Lia Lra.
From Flocq Require Import Core Mult_error IEEE754.BinarySingleNaN.
From Verif Require Import Cx Arith ArithR Spec SpecNear SpecRound Math MathThms Binary64 SpecBinary64 RoundThms.
Local Open Scope R_scope.
Local Instance P53' : Prec_gt_0 53 := prec53.

Notation b2 := (bpow radix2).

(** ** One rounding *)
Lemma rne_err : forall k x, (-1021 <= k)%Z -> Rabs x < b2 k -> Rabs (rne x - x) <= b2 (k - 54).
Proof.
  intros k x K X. eapply Rle_trans; [apply error_le_half_ulp; apply FLT_exp_valid; exact prec53|].
  assert (U : ulp radix2 (FLT_exp (-1074) 53) x <= b2 (k - 53)).
  { destruct (Req_dec x 0) as [->|N].
    - rewrite ulp_FLT_0. apply bpow_le. lia. exact prec53.
    - rewrite ulp_neq_0 by exact N. apply bpow_le. unfold cexp, FLT_exp.
      assert (M := mag_le_bpow radix2 x k N X). lia. }
  replace (k - 53)%Z with (1 + (k - 54))%Z in U by lia. rewrite bpow_plus in U. change (b2 1) with 2 in U.
  assert (0 < b2 (k - 54)) by apply bpow_gt_0. lra.
Qed.
Lemma rne_lt : forall k x, (-1021 <= k <= 1023)%Z -> Rabs x < b2 k -> Rabs (rne x) < b2 1024.
Proof.
  intros k x K X. assert (E := rne_err k x ltac:(lia) X).
  assert (B1 : b2 k <= b2 1023) by (apply bpow_le; lia). assert (B2 : b2 (k - 54) <= b2 1022) by (apply bpow_le; lia).
  assert (T := Rabs_triang (rne x - x) x). replace (rne x - x + x) with (rne x) in T by ring.
  assert (S1 : b2 1024 = b2 1023 + b2 1023).
  { replace 1024%Z with (1 + 1023)%Z by lia. rewrite bpow_plus. change (b2 1) with 2. ring. }
  assert (b2 1022 <= b2 1023) by (apply bpow_le; lia). lra.
Qed.

(** ** Operations on doubles *)
Notation fin := (@is_finite 53 1024).
Notation val := (@B2R 53 1024).
Definition res (x : f64) (r e : R) : Prop := fin x = true /\ Rabs (val x - r) <= e.

Lemma fadd_err : forall k x y, (-1021 <= k <= 1023)%Z -> fin x = true -> fin y = true -> Rabs (val x + val y) < b2 k ->
  res (fadd x y) (val x + val y) (b2 (k - 54)).
Proof.
  intros k x y K X Y B. assert (H := Bplus_correct 53 1024 prec53 prec53_1024 mode_NE x y X Y).
  change (SpecFloat.fexp 53 1024) with (FLT_exp (-1074) 53) in H. simpl round_mode in H.
  rewrite Rlt_bool_true in H by (apply (rne_lt k); assumption). destruct H as (E & F & _).
  split; [exact F|]. unfold fadd. rewrite E. apply rne_err; [lia|exact B].
Qed.
Lemma fsub_err : forall k x y, (-1021 <= k <= 1023)%Z -> fin x = true -> fin y = true -> Rabs (val x - val y) < b2 k ->
  res (fsub x y) (val x - val y) (b2 (k - 54)).
Proof.
  intros k x y K X Y B. assert (H := Bminus_correct 53 1024 prec53 prec53_1024 mode_NE x y X Y).
  change (SpecFloat.fexp 53 1024) with (FLT_exp (-1074) 53) in H. simpl round_mode in H.
  rewrite Rlt_bool_true in H by (apply (rne_lt k); assumption). destruct H as (E & F & _).
  split; [exact F|]. unfold fsub. rewrite E. apply rne_err; [lia|exact B].
Qed.
Lemma fmul_err : forall k x y, (-1021 <= k <= 1023)%Z -> fin x = true -> fin y = true -> Rabs (val x * val y) < b2 k ->
  res (fmul x y) (val x * val y) (b2 (k - 54)).
Proof.
  intros k x y K X Y B. assert (H := Bmult_correct 53 1024 prec53 prec53_1024 mode_NE x y).
  change (SpecFloat.fexp 53 1024) with (FLT_exp (-1074) 53) in H. simpl round_mode in H.
  rewrite Rlt_bool_true in H by (apply (rne_lt k); assumption). destruct H as (E & F & _).
  split; [unfold fmul; rewrite F, X, Y; reflexivity|]. unfold fmul. rewrite E. apply rne_err; [lia|exact B].
Qed.

(** ** Literals *)
Lemma flit_val : forall m e, (Z.abs m < 2 ^ 53)%Z -> (-1074 <= e <= 971)%Z -> fin (flit m e) = true /\ val (flit m e) = IZR m * powerRZ 2 e.
Proof.
  intros m e M K. assert (H := binary_normalize_correct 53 1024 prec53 prec53_1024 mode_NE m e false). cbv zeta in H.
  change (SpecFloat.fexp 53 1024) with (FLT_exp (-1074) 53) in H. simpl round_mode in H. unfold F2R in H. simpl Fnum in H. simpl Fexp in H.
  rewrite <- (pow_bpow e) in H.
  rewrite rne_id in H by (apply fmt_mul; [exact M|lia]). rewrite Rlt_bool_true in H by (apply small_mul; [exact M|lia]).
  destruct H as (E & F & _). split; [exact F|exact E].
Qed.
Lemma f0_val : fin f0 = true /\ val f0 = 0. Proof. destruct (flit_val 0 0) as [F E]; [reflexivity|lia|]. split; [exact F|]. unfold f0. rewrite E. ring. Qed.
Lemma f1_val : fin f1 = true /\ val f1 = 1. Proof. destruct (flit_val 1 0) as [F E]; [reflexivity|lia|]. split; [exact F|]. unfold f1. rewrite E. simpl. ring. Qed.
Lemma f2_val : fin f2 = true /\ val f2 = 2. Proof. destruct (flit_val 2 0) as [F E]; [reflexivity|lia|]. split; [exact F|]. unfold f2. rewrite E. simpl. ring. Qed.
Lemma fm1_val : fin fm1 = true /\ val fm1 = -1. Proof. destruct (flit_val (-1) 0) as [F E]; [reflexivity|lia|]. split; [exact F|]. unfold fm1. rewrite E. simpl. ring. Qed.

Lemma f1em10_val : fin f1em10 = true /\ Rabs (val f1em10 - 1 / 10 ^ 10) <= / 10 ^ 26.
Proof.
  destruct (flit_val 0x1b7cdfd9d7bdbb (-86)) as [F E]; [reflexivity|lia|]. split; [exact F|]. unfold f1em10. rewrite E.
  change (powerRZ 2 (-86)) with (/ 2 ^ 86). apply Rabs_le. lra.
Qed.
Lemma frs2_val : fin frs2 = true /\ Rabs (val frs2 - / sqrt 2) <= b2 (-53).
Proof.
  destruct (flit_val 6369051672525773 (-53)) as [F E]; [reflexivity|lia|]. split; [exact F|]. unfold frs2. rewrite E.
  rewrite <- (pow_bpow (-53)). change (powerRZ 2 (-53)) with (/ 2 ^ 53).
  assert (P : 0 < sqrt 2) by (apply sqrt_lt_R0; lra). assert (Q : sqrt 2 * sqrt 2 = 2) by (apply sqrt_sqrt; lra).
  assert (I1 : 0 < / sqrt 2) by (apply Rinv_0_lt_compat; exact P).
  assert (I2 : / sqrt 2 * / sqrt 2 = / 2) by (rewrite <- Rinv_mult, Q; reflexivity).
  set (s := / sqrt 2) in *. clearbody s. clear P Q E F.
  set (c := 6369051672525773 * / 2 ^ 53). assert (C1 : (c - / 2 ^ 53) * (c - / 2 ^ 53) <= / 2) by (unfold c; lra).
  assert (C2 : / 2 <= (c + / 2 ^ 53) * (c + / 2 ^ 53)) by (unfold c; lra).
  assert (C3 : 0 < c - / 2 ^ 53) by (unfold c; lra). assert (C4 : 0 < / 2 ^ 53) by lra.
  set (d := / 2 ^ 53) in *. clearbody c d. apply Rabs_le. split; nra.
Qed.

(** ** Nearly zero *)
Lemma fmt_val : forall x : f64, fmt (val x).
Proof. intros x. exact (generic_format_B2R 53 1024 x). Qed.
Lemma flt_val : forall x y, fin x = true -> fin y = true -> flt x y = Rlt_bool (val x) (val y).
Proof. intros. apply Bltb_correct; assumption. Qed.
Lemma fin_nan : forall x : f64, fin x = true -> is_nan x = false.
Proof. intros [|[]| |]; simpl; congruence. Qed.
Lemma fsub_exact : forall x y, fin x = true -> fin y = true -> fmt (val x - val y) -> Rabs (val x - val y) < b2 1024 ->
  fin (fsub x y) = true /\ val (fsub x y) = val x - val y.
Proof.
  intros x y X Y F B. assert (H := Bminus_correct 53 1024 prec53 prec53_1024 mode_NE x y X Y).
  change (SpecFloat.fexp 53 1024) with (FLT_exp (-1074) 53) in H. simpl round_mode in H.
  rewrite rne_id in H by exact F. rewrite Rlt_bool_true in H by exact B. destruct H as (E & F' & _). split; [exact F'|exact E].
Qed.
Lemma fnz64_val : forall x, fin x = true -> (fnz64 x = true <-> Rabs (val x) <= val f1em10).
Proof.
  intros x X. destruct f0_val as [F0 V0]. unfold fnz64, fmax, fmin. rewrite (fin_nan x X), (fin_nan f0 F0).
  rewrite !flt_val by assumption. rewrite V0.
  assert (G : forall d, fin d = true -> val d = Rabs (val x) -> fle d f1em10 = true <-> Rabs (val x) <= val f1em10).
  { intros d D V. unfold fle. rewrite Bleb_correct by (exact D || exact (proj1 f1em10_val)). rewrite V.
    destruct (Rle_bool_spec (Rabs (val x)) (val f1em10)); split; intros; try lra; try congruence; reflexivity. }
  assert (B := abs_B2R_lt_emax 53 1024 x). assert (M := fmt_val x).
  destruct (Rlt_bool_spec (val x) 0) as [L|L].
  - destruct (fsub_exact f0 x F0 X) as [F E]; rewrite ?V0.
    + replace (0 - val x) with (- val x) by ring. apply generic_format_opp. exact M.
    + replace (0 - val x) with (- val x) by ring. rewrite Rabs_Ropp. exact B.
    + apply G; [exact F|]. rewrite E, V0, Rabs_left by exact L. ring.
  - destruct (fsub_exact x f0 X F0) as [F E]; rewrite ?V0.
    + rewrite Rminus_0_r. exact M.
    + rewrite Rminus_0_r. exact B.
    + apply G; [exact F|]. rewrite E, V0, Rabs_pos_eq by exact L. ring.
Qed.

(** ** Halving an angle *)
Lemma b2_1024 : b2 1024 = 2 * b2 1023.
Proof. change 1024%Z with (1 + 1023)%Z. rewrite bpow_plus. reflexivity. Qed.
Lemma fhalf_val : forall x, fin x = true -> fin (fdiv x f2) = true /\ val (fdiv x f2) = rne (val x / 2).
Proof.
  intros x X. destruct f2_val as [F2 V2].
  assert (H := Bdiv_correct 53 1024 prec53 prec53_1024 mode_NE x f2). rewrite V2 in H. specialize (H ltac:(lra)).
  change (SpecFloat.fexp 53 1024) with (FLT_exp (-1074) 53) in H. simpl round_mode in H.
  assert (B := abs_B2R_lt_emax 53 1024 x).
  rewrite Rlt_bool_true in H.
  - destruct H as (E & F & _). split; [unfold fdiv; rewrite F; exact X|exact E].
  - apply (rne_lt 1023); [lia|]. unfold Rdiv. rewrite Rabs_mult, (Rabs_pos_eq (/ 2)) by lra.
    assert (D := b2_1024). lra.
Qed.
Lemma half_exact : forall x, fmt x -> b2 (-1000) <= Rabs x -> fmt (x / 2).
Proof.
  intros x F B. change (/ 2) with (b2 (-1)). unfold Rdiv. change (/ 2) with (b2 (-1)). apply mult_bpow_exact_FLT; [exact F|].
  assert (M := mag_ge_bpow radix2 x (-999) B). lia.
Qed.
Lemma fhalf_err : forall x, fin x = true -> res (fdiv x f2) (val x / 2) (b2 (-1000)).
Proof.
  intros x X. destruct (fhalf_val x X) as [F E]. split; [exact F|]. rewrite E.
  destruct (Rle_or_lt (b2 (-1000)) (Rabs (val x))) as [L|L].
  - rewrite rne_id by (apply half_exact; [apply fmt_val|exact L]). rewrite Rminus_diag_eq, Rabs_R0 by reflexivity. apply bpow_ge_0.
  - eapply Rle_trans; [apply (rne_err (-1000)); [lia|]|apply bpow_le; lia].
    unfold Rdiv. rewrite Rabs_mult, (Rabs_pos_eq (/ 2)) by lra. assert (0 <= Rabs (val x)) by apply Rabs_pos. lra.
Qed.

(** ** Negating an angle *)
Lemma fneg_val : forall x, (fin x = true -> fin (fmul x fm1) = true) /\ val (fmul x fm1) = - val x.
Proof.
  intros x. destruct fm1_val as [F1 V1].
  assert (H := Bmult_correct 53 1024 prec53 prec53_1024 mode_NE x fm1). rewrite V1 in H.
  change (SpecFloat.fexp 53 1024) with (FLT_exp (-1074) 53) in H. simpl round_mode in H.
  replace (val x * -1) with (- val x) in H by ring.
  rewrite rne_id in H by (apply generic_format_opp, fmt_val). rewrite Rabs_Ropp in H.
  rewrite Rlt_bool_true in H by apply abs_B2R_lt_emax. destruct H as (E & F & _).
  split; [intros X; unfold fmul; rewrite F, X, F1; reflexivity|exact E].
Qed.
Lemma fm1_sign : Bsign fm1 = true. Proof. reflexivity. Qed.
Lemma fneg_opp : forall x, fin x = true -> fmul x fm1 = Bopp x.
Proof.
  intros x X. destruct fm1_val as [F1 V1]. destruct (fneg_val x) as [F V].
  apply B2R_Bsign_inj; [exact (F X)|rewrite is_finite_Bopp; exact X|rewrite B2R_Bopp; exact V|].
  assert (H := Bmult_correct 53 1024 prec53 prec53_1024 mode_NE x fm1). rewrite V1 in H.
  change (SpecFloat.fexp 53 1024) with (FLT_exp (-1074) 53) in H. simpl round_mode in H.
  replace (val x * -1) with (- val x) in H by ring.
  rewrite rne_id in H by (apply generic_format_opp, fmt_val). rewrite Rabs_Ropp in H.
  rewrite Rlt_bool_true in H by apply abs_B2R_lt_emax. destruct H as (_ & F' & S1).
  assert (N : is_nan (fmul x fm1) = false) by (apply fin_nan, F, X).
  unfold fmul in *. rewrite (S1 N), fm1_sign, Bsign_Bopp by (apply fin_nan, X). destruct (Bsign x); reflexivity.
Qed.
Lemma fhalf_opp : forall x, fin x = true -> fdiv (Bopp x) f2 = Bopp (fdiv x f2).
Proof.
  intros x X. assert (X' : fin (Bopp x) = true) by (rewrite is_finite_Bopp; exact X).
  destruct (fhalf_val x X) as [F V]. destruct (fhalf_val (Bopp x) X') as [F' V'].
  assert (SG : forall y, fin y = true -> Bsign (fdiv y f2) = Bsign y).
  { intros y Y. destruct f2_val as [F2 V2].
    assert (H := Bdiv_correct 53 1024 prec53 prec53_1024 mode_NE y f2). rewrite V2 in H. specialize (H ltac:(lra)).
    change (SpecFloat.fexp 53 1024) with (FLT_exp (-1074) 53) in H. simpl round_mode in H.
    assert (B := abs_B2R_lt_emax 53 1024 y).
    rewrite Rlt_bool_true in H.
    - destruct H as (_ & FF & SS). destruct (fhalf_val y Y) as [FY _]. unfold fdiv in *. rewrite SS by (apply fin_nan, FY).
      change (Bsign f2) with false. destruct (Bsign y); reflexivity.
    - apply (rne_lt 1023); [lia|]. unfold Rdiv. rewrite Rabs_mult, (Rabs_pos_eq (/ 2)) by lra.
      assert (D := b2_1024). lra. }
  apply B2R_Bsign_inj; [exact F'|rewrite is_finite_Bopp; exact F| |].
  - rewrite B2R_Bopp, V, V', B2R_Bopp. replace (- val x / 2) with (- (val x / 2)) by field. apply round_NE_opp.
  - rewrite SG by exact X'. rewrite !Bsign_Bopp by (apply fin_nan; assumption). rewrite SG by exact X. reflexivity.
Qed.
(** Also for numbers that are not finite. *)
Lemma half_neg : forall x, fdiv (fmul x fm1) f2 = Bopp (fdiv x f2).
Proof.
  intros x. destruct (fin x) eqn:X.
  - rewrite fneg_opp by exact X. apply fhalf_opp. exact X.
  - destruct x as [b|b| |b m e H]; try discriminate X; [destruct b; reflexivity|reflexivity].
Qed.

(** ** Complex numbers *)
Lemma cmod_parts : forall (a : C) u v, Rabs (fst a) <= u -> Rabs (snd a) <= v -> cmod a <= u + v.
Proof.
  intros [x y] u v U V. simpl in *. unfold cmod, Cn2. simpl. assert (0 <= Rabs x) by apply Rabs_pos. assert (0 <= Rabs y) by apply Rabs_pos.
  rewrite <- (sqrt_Rsqr (u + v)) by lra. apply sqrt_le_1_alt. unfold Rsqr.
  assert (x * x = Rabs x * Rabs x) by (rewrite <- Rabs_mult, Rabs_pos_eq; nra).
  assert (y * y = Rabs y * Rabs y) by (rewrite <- Rabs_mult, Rabs_pos_eq; nra). nra.
Qed.
Lemma parts_cmod : forall (a : C) m, cmod a <= m -> Rabs (fst a) <= m /\ Rabs (snd a) <= m.
Proof.
  intros [x y] m H. unfold cmod, Cn2 in H. simpl in *.
  assert (P : forall u v, sqrt (u * u + v * v) <= m -> Rabs u <= m).
  { intros u v L. eapply Rle_trans; [|exact L]. rewrite <- sqrt_Rsqr_abs. apply sqrt_le_1_alt. unfold Rsqr. nra. }
  split; [exact (P x y H)|]. apply (P y x). rewrite Rplus_comm. exact H.
Qed.
Lemma prod_bound : forall x y m, Rabs x <= m -> Rabs y <= m -> Rabs (x * y) <= m * m.
Proof. intros. rewrite Rabs_mult. apply Rmult_le_compat; try apply Rabs_pos; assumption. Qed.
Lemma b2_pow : forall n, b2 (Z.of_nat n) = 2 ^ n.
Proof. intros n. rewrite <- pow_bpow, <- pow_powerRZ. reflexivity. Qed.
Lemma b2_neg : forall n, b2 (- Z.of_nat n) = / 2 ^ n.
Proof. intros n. rewrite bpow_opp, b2_pow. reflexivity. Qed.
Lemma two_range : forall k, (k <= 8)%nat -> 1 <= 2 ^ k <= 256.
Proof.
  intros k K. split; [apply pow_R1_Rle; lra|]. replace 256 with (2 ^ 8) by ring. apply Rle_pow; [lra|exact K].
Qed.
Lemma cos_lip1 : forall x y, Rabs (cos x - cos y) <= Rabs (x - y).
Proof. exact cos_lip. Qed.
Lemma sin_lip1 : forall x y, Rabs (sin x - sin y) <= Rabs (x - y).
Proof.
  intros x y. rewrite <- !cos_shift. eapply Rle_trans; [apply cos_lip1|]. replace (PI / 2 - x - (PI / 2 - y)) with (- (x - y)) by ring.
  rewrite Rabs_Ropp. apply Rle_refl.
Qed.
Lemma res_near : forall x r r' e e', res x r e -> Rabs (r - r') <= e' -> res x r' (e + e').
Proof.
  intros x r r' e e' [F E] D. split; [exact F|]. replace (val x - r') with ((val x - r) + (r - r')) by ring.
  eapply Rle_trans; [apply Rabs_triang|lra].
Qed.

Section Ok.
Variables cosf sinf : f64 -> f64.
Hypothesis libm : libm_ok cosf sinf.
Variable k : nat.
Hypothesis Hk : (k <= 8)%nat.
Local Instance A64 : Arith := Arith64 cosf sinf.
Local Instance P64 : @Approx A64 := Approx64 cosf sinf k.

Lemma close_parts : forall (a : f64 * f64) (z : C) u v, res (fst a) (fst z) u -> res (snd a) (snd z) v -> u + v <= 2 ^ k / 2 ^ 44 ->
  close (a : @amp A64) z (@dlt A64 P64).
Proof.
  intros [a b] [x y] u v [F U] [F' V] B. simpl in *. split; [split; assumption|]. eapply Rle_trans; [|exact B].
  apply cmod_parts; assumption.
Qed.
Lemma small_parts : forall a : @amp A64, small a -> (fin (fst a) = true /\ Rabs (val (fst a)) <= 8) /\ (fin (snd a) = true /\ Rabs (val (snd a)) <= 8).
Proof. intros [x y] [[F F'] S1]. simpl in *. destruct (parts_cmod _ _ S1) as [U V]. simpl in *. auto. Qed.
Lemma res0 : res f0 0 0.
Proof. destruct f0_val as [F V]. split; [exact F|]. rewrite V, Rminus_0_r, Rabs_R0. lra. Qed.

Lemma sum8 : forall x y, Rabs x <= 8 -> Rabs y <= 8 -> Rabs (x + y) < b2 5.
Proof. intros x y X Y. change (b2 5) with 32. assert (T := Rabs_triang x y). lra. Qed.
Lemma diff8 : forall x y, Rabs x <= 8 -> Rabs y <= 8 -> Rabs (x - y) < b2 5.
Proof. intros x y X Y. apply sum8; [exact X|]. rewrite Rabs_Ropp. exact Y. Qed.
Lemma mul8 : forall x y, fin x = true -> fin y = true -> Rabs (val x) <= 8 -> Rabs (val y) <= 8 ->
  res (fmul x y) (val x * val y) (/ 2 ^ 47) /\ Rabs (val (fmul x y)) <= 65 /\ Rabs (val x * val y) <= 64.
Proof.
  intros x y FX FY X Y. assert (P := prod_bound _ _ _ X Y).
  assert (R1 := fmul_err 7 x y ltac:(lia) FX FY). change (b2 7) with 128 in R1. specialize (R1 ltac:(lra)).
  rewrite <- b2_neg. change (- Z.of_nat 47)%Z with (7 - 54)%Z. split; [exact R1|]. split; [|lra]. destruct R1 as [_ E].
  change (7 - 54)%Z with (- Z.of_nat 47)%Z in E. rewrite b2_neg in E.
  assert (T := Rabs_triang (val (fmul x y) - val x * val y) (val x * val y)).
  replace (val (fmul x y) - val x * val y + val x * val y) with (val (fmul x y)) in T by ring. lra.
Qed.
Lemma mulsum : forall a b c d, fin a = true -> fin b = true -> fin c = true -> fin d = true ->
  Rabs (val a) <= 8 -> Rabs (val b) <= 8 -> Rabs (val c) <= 8 -> Rabs (val d) <= 8 ->
  res (fadd (fmul a b) (fmul c d)) (val a * val b + val c * val d) (/ 2 ^ 45) /\
  res (fsub (fmul a b) (fmul c d)) (val a * val b - val c * val d) (/ 2 ^ 45).
Proof.
  intros a b c d FA FB FC FD A B C D. destruct (mul8 a b FA FB A B) as ((F1 & E1) & M1 & P1).
  destruct (mul8 c d FC FD C D) as ((F2 & E2) & M2 & P2).
  assert (T1 := Rabs_triang (val (fmul a b)) (val (fmul c d))).
  assert (T2 := Rabs_triang (val (fmul a b)) (- val (fmul c d))). rewrite Rabs_Ropp in T2.
  replace (/ 2 ^ 45) with (/ 2 ^ 46 + (/ 2 ^ 47 + / 2 ^ 47)) by lra.
  assert (EB : b2 (8 - 54) = / 2 ^ 46) by (change (8 - 54)%Z with (- Z.of_nat 46)%Z; apply b2_neg).
  rewrite <- EB. split.
  - eapply res_near; [apply fadd_err; [lia|exact F1|exact F2|]|].
    + change (b2 8) with 256. lra.
    + replace (val (fmul a b) + val (fmul c d) - (val a * val b + val c * val d))
        with ((val (fmul a b) - val a * val b) + (val (fmul c d) - val c * val d)) by ring.
      eapply Rle_trans; [apply Rabs_triang|lra].
  - eapply res_near; [apply fsub_err; [lia|exact F1|exact F2|]|].
    + change (b2 8) with 256. unfold Rminus. lra.
    + replace (val (fmul a b) - val (fmul c d) - (val a * val b - val c * val d))
        with ((val (fmul a b) - val a * val b) + - (val (fmul c d) - val c * val d)) by ring.
      eapply Rle_trans; [apply Rabs_triang|]. rewrite Rabs_Ropp. lra.
Qed.

Lemma trig_half : forall (f : f64 -> f64) (g : R -> R) t,
  (forall x, fin x = true -> Rabs (val x) <= 2 ^ 17 -> fin (f x) = true /\ Rabs (val (f x) - g (val x)) <= / 2 ^ 50) ->
  (forall x y, Rabs (g x - g y) <= Rabs (x - y)) -> fin t = true -> Rabs (val t) <= 2 ^ (8 + k) ->
  close ((f (fdiv t f2), f0) : @amp A64) (RtoC (g (val t / 2))) (@dlt A64 P64).
Proof.
  intros f g t HF HG FT T. assert (K := two_range k Hk). destruct (fhalf_err t FT) as [F E].
  assert (Q : b2 (-1000) <= / 2 ^ 50) by (rewrite <- b2_neg; apply bpow_le; simpl; lia).
  assert (BT : Rabs (val t) <= 65536) by (rewrite pow_add in T; lra).
  destruct (HF (fdiv t f2) F) as [F' E'].
  { assert (X := Rabs_triang (val (fdiv t f2) - val t / 2) (val t / 2)).
    replace (val (fdiv t f2) - val t / 2 + val t / 2) with (val (fdiv t f2)) in X by ring.
    assert (Y : Rabs (val t / 2) = Rabs (val t) / 2) by (unfold Rdiv; rewrite Rabs_mult, (Rabs_pos_eq (/ 2)); lra). lra. }
  apply (close_parts _ _ (/ 2 ^ 50 + / 2 ^ 50) 0); simpl fst; simpl snd.
  - eapply res_near; [split; [exact F'|exact E']|]. eapply Rle_trans; [apply HG|]. lra.
  - exact res0.
  - lra.
Qed.
Lemma trig_full : forall (f : f64 -> f64) (g : R -> R) t,
  (forall x, fin x = true -> Rabs (val x) <= 2 ^ 17 -> fin (f x) = true /\ Rabs (val (f x) - g (val x)) <= / 2 ^ 50) ->
  fin t = true -> Rabs (val t) <= 2 ^ (8 + k) ->
  close ((f t, f0) : @amp A64) (RtoC (g (val t))) (@dlt A64 P64).
Proof.
  intros f g t HF FT T. assert (K := two_range k Hk).
  assert (BT : Rabs (val t) <= 65536) by (rewrite pow_add in T; lra).
  destruct (HF t FT) as [F' E']; [lra|].
  apply (close_parts _ _ (/ 2 ^ 50) 0); simpl fst; simpl snd.
  - split; [exact F'|exact E'].
  - exact res0.
  - lra.
Qed.

Theorem approx64_ok : approx_ok.
Proof.
  assert (K := two_range k Hk). destruct f1em10_val as [FT VT]. destruct f0_val as [F0 V0]. destruct f1_val as [F1 V1].
  assert (VT' : - / 10 ^ 26 <= val f1em10 - 1 / 10 ^ 10 <= / 10 ^ 26) by (apply Rabs_le_inv; exact VT).
  assert (SE : step_err <= 12 / 10 ^ 10 /\ 0 <= step_err) by (unfold step_err; cbn [thr dlt P64 Approx64]; split; lra).
  constructor.
  - cbn [dlt P64 Approx64]. lra.
  - cbn [thr P64 Approx64]. lra.
  - lra.
  - assert (step_err * step_err <= (12 / 10 ^ 10) * (12 / 10 ^ 10)) by (apply Rmult_le_compat; lra). cbn [thr dlt P64 Approx64]. lra.
  - split; [split; exact F0|]. change ((val f0, val f0) = C0). rewrite V0. reflexivity.
  - split; [split; [exact F1|exact F0]|]. change ((val f1, val f0) = C1). rewrite V0, V1. reflexivity.
  - split; [split; [exact F0|exact F1]|]. change ((val f0, val f1) = Ci). rewrite V0, V1. reflexivity.
  - apply (close_parts _ _ (/ 2 ^ 53) 0); simpl fst; simpl snd; [|exact res0|lra]. destruct frs2_val as [F E].
    change (b2 (-53)) with (b2 (- Z.of_nat 53)) in E. rewrite b2_neg in E. split; [exact F|exact E].
  - intros a b SA SB. destruct (small_parts a SA) as ((A1 & A2) & A3 & A4). destruct (small_parts b SB) as ((B1 & B2) & B3 & B4).
    assert (EB : b2 (5 - 54) = / 2 ^ 49) by (change (5 - 54)%Z with (- Z.of_nat 49)%Z; apply b2_neg).
    apply (close_parts _ _ (/ 2 ^ 49) (/ 2 ^ 49)); [| |lra]; rewrite <- EB; apply fadd_err; try assumption; try lia; apply sum8; assumption.
  - intros a b SA SB. destruct (small_parts a SA) as ((A1 & A2) & A3 & A4). destruct (small_parts b SB) as ((B1 & B2) & B3 & B4).
    assert (EB : b2 (5 - 54) = / 2 ^ 49) by (change (5 - 54)%Z with (- Z.of_nat 49)%Z; apply b2_neg).
    apply (close_parts _ _ (/ 2 ^ 49) (/ 2 ^ 49)); [| |lra]; rewrite <- EB; apply fsub_err; try assumption; try lia; apply diff8; assumption.
  - intros a b SA SB. destruct (small_parts a SA) as ((A1 & A2) & A3 & A4). destruct (small_parts b SB) as ((B1 & B2) & B3 & B4).
    apply (close_parts _ _ (/ 2 ^ 45) (/ 2 ^ 45)); [| |lra].
    + exact (proj2 (mulsum _ _ _ _ A1 B1 A3 B3 A2 B2 A4 B4)).
    + exact (proj1 (mulsum _ _ _ _ A1 B3 A3 B1 A2 B4 A4 B2)).
  - intros [x y]. simpl. rewrite !is_finite_Bopp, !B2R_Bopp. split; [tauto|reflexivity].
  - intros [x y] [X Y]. change (fin x = true) in X. change (fin y = true) in Y. change (fnz64 x && fnz64 y = true <-> Rabs (val x) <= val f1em10 /\ Rabs (val y) <= val f1em10). rewrite andb_true_iff, (fnz64_val x X), (fnz64_val y Y). reflexivity.
  - intros [x y] [X Y] H. change (fin x = true) in X. change (fin y = true) in Y. change (feq x f1 && feq y f0 = true) in H. change ((val x, val y) = C1). apply andb_true_iff in H. destruct H as [H H'].
    unfold feq in *. rewrite Beqb_correct in H, H' by assumption. rewrite V1 in H. rewrite V0 in H'.
    destruct (Req_bool_spec (val x) 1) as [E|]; [|discriminate]. destruct (Req_bool_spec (val y) 0) as [E'|]; [|discriminate].
    rewrite E, E'. reflexivity.
  - intros a b [FA A] [FB B]. change (fin a = true) in FA. change (fin b = true) in FB. change (Rabs (val a) <= 2 ^ (8 + k)) in A. change (Rabs (val b) <= 2 ^ (8 + k)) in B.
    rewrite pow_add in A, B.
    assert (T := Rabs_triang (val a) (val b)).
    assert (R1 := fadd_err (Z.of_nat (10 + k)) a b ltac:(lia) FA FB). rewrite b2_pow in R1. rewrite pow_add in R1.
    specialize (R1 ltac:(lra)). destruct R1 as [F E]. split; [exact F|].
    replace (Z.of_nat (10 + k) - 54)%Z with (Z.of_nat k + - Z.of_nat 44)%Z in E by lia. rewrite bpow_plus, b2_pow, b2_neg in E. exact E.
  - intros t. exact (fneg_val t).
  - intros t FT' H. apply fnz64_val in H; assumption.
  - intros t [F T]. apply trig_half; [apply (libm_cos _ _ libm)|apply cos_lip1|exact F|exact T].
  - intros t [F T]. apply trig_half; [apply (libm_sin _ _ libm)|apply sin_lip1|exact F|exact T].
  - intros t [F T]. apply trig_full; [apply (libm_cos _ _ libm)|exact F|exact T].
  - intros t [F T]. apply trig_full; [apply (libm_sin _ _ libm)|exact F|exact T].
  - intros t. simpl. rewrite half_neg, (libm_even _ _ libm). reflexivity.
Qed.
End Ok.

(** ** A mathematics library as required: cosine and sine rounded to 52 binary places *)
Definition ref_trig (g : R -> R) (x : f64) : f64 := flit (ZnearestE (g (val x) * 2 ^ 52)) (-52).
Lemma ref_trig_ok : forall g x, Rabs (g (val x)) <= 1 ->
  fin (ref_trig g x) = true /\ Rabs (val (ref_trig g x) - g (val x)) <= / 2 ^ 50.
Proof.
  intros g x H. set (y := g (val x) * 2 ^ 52). assert (N := Znearest_half (fun z => negb (Z.even z)) y). fold ZnearestE in N.
  assert (Y : Rabs y <= 2 ^ 52) by (unfold y; rewrite Rabs_mult, (Rabs_pos_eq (2 ^ 52)) by lra; nra).
  assert (B : (Z.abs (ZnearestE y) < 2 ^ 53)%Z).
  { apply lt_IZR. rewrite abs_IZR. assert (T := Rabs_triang (IZR (ZnearestE y) - y) y).
    replace (IZR (ZnearestE y) - y + y) with (IZR (ZnearestE y)) in T by ring. rewrite Rabs_minus_sym in T.
    change (IZR (2 ^ 53)) with 9007199254740992. change (/ 2) with (/ 2) in N. lra. }
  destruct (flit_val (ZnearestE y) (-52) B) as [F E]; [lia|]. split; [exact F|]. unfold ref_trig. fold y. rewrite E.
  change (powerRZ 2 (-52)) with (/ 2 ^ 52). replace (g (val x)) with (y * / 2 ^ 52) by (unfold y; field).
  replace (IZR (ZnearestE y) * / 2 ^ 52 - y * / 2 ^ 52) with (- (y - IZR (ZnearestE y)) * / 2 ^ 52) by ring.
  rewrite Rabs_mult, Rabs_Ropp, (Rabs_pos_eq (/ 2 ^ 52)) by lra. lra.
Qed.
Lemma ref_libm : libm_ok (ref_trig cos) (ref_trig sin).
Proof.
  constructor.
  - intros x _ _. apply ref_trig_ok. apply Rabs_le, COS_bound.
  - intros x _ _. apply ref_trig_ok. apply Rabs_le, SIN_bound.
  - intros x. unfold ref_trig. rewrite B2R_Bopp, cos_neg. reflexivity.
Qed.
