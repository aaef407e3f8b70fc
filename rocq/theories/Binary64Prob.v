(** * Binary64 satisfies the laws of probabilities with rounding *)
From Coq Require Import ZArith Reals Bool Lia Lra.
From Flocq Require Import Core Relative IEEE754.BinarySingleNaN.
From Verif Require Import Cx Arith ArithR Spec SpecNear SpecRound SpecLedger Math MathThms Binary64 SpecBinary64 RoundThms Binary64Lemmas.
Local Open Scope R_scope.

(** ** Relative error of a rounding *)
Lemma rne_rel : forall x, Rabs (rne x - x) <= / 2 ^ 53 * Rabs x + b2 (-1075).
Proof.
  intros x. assert (Z0 : 0 < b2 (-1075)) by apply bpow_gt_0.
  destruct (Rlt_or_le (Rabs x) (b2 (-1021))) as [L|L].
  - assert (E := rne_err (-1021) x ltac:(lia) L). change (-1021 - 54)%Z with (-1075)%Z in E.
    assert (0 <= Rabs x) by apply Rabs_pos. assert (0 < / 2 ^ 53) by lra. nra.
  - assert (E := relative_error_N_FLT radix2 (-1074) 53 ltac:(lia) (fun z => negb (Z.even z)) x).
    change (-1074 + 53 - 1)%Z with (-1022)%Z in E.
    assert (E' : Rabs (rne x - x) <= / 2 * b2 (-53 + 1) * Rabs x).
    { apply E. eapply Rle_trans; [|exact L]. apply bpow_le. lia. }
    change (-53 + 1)%Z with (- Z.of_nat 52)%Z in E'. rewrite b2_neg in E'.
    replace (/ 2 * / 2 ^ 52) with (/ 2 ^ 53) in E' by lra. lra.
Qed.
Lemma tiny : b2 (-1075) <= / 2 ^ 100.
Proof. rewrite <- b2_neg. apply bpow_le. simpl. lia. Qed.
Lemma rne_fits : forall x, Rabs x <= 2 ^ 100 -> Rabs (rne x) < b2 1024.
Proof.
  intros x X. apply (rne_lt 101); [lia|]. change 101%Z with (Z.of_nat 101). rewrite b2_pow. lra.
Qed.

Lemma fsqrt_err : forall p, fin p = true -> 0 < val p ->
  fin (fsqrt p) = true /\ val (fsqrt p) = rne (sqrt (val p)).
Proof.
  intros p F P. destruct (Bsqrt_correct 53 1024 prec53 prec53_1024 mode_NE p) as (E & H & _).
  change (SpecFloat.fexp 53 1024) with (FLT_exp (-1074) 53) in E. simpl round_mode in E.
  split; [|exact E]. unfold fsqrt. rewrite H. destruct p as [| | |[] m e B]; try discriminate F; try reflexivity.
  exfalso. unfold B2R in P. simpl cond_Zopp in P. assert (N : F2R (Float radix2 (Z.neg m) e) < 0) by (apply F2R_lt_0; reflexivity).
  simpl in P. lra.
Qed.
Lemma fdiv_val : forall x y, fin x = true -> val y <> 0 -> Rabs (val x / val y) <= 2 ^ 100 ->
  fin (fdiv x y) = true /\ val (fdiv x y) = rne (val x / val y).
Proof.
  intros x y FX NY B. assert (H := Bdiv_correct 53 1024 prec53 prec53_1024 mode_NE x y NY).
  change (SpecFloat.fexp 53 1024) with (FLT_exp (-1074) 53) in H. simpl round_mode in H.
  rewrite Rlt_bool_true in H by (apply rne_fits; exact B). destruct H as (E & F & _).
  split; [unfold fdiv; rewrite F; exact FX|exact E].
Qed.
Lemma fmul_val : forall x y, fin x = true -> fin y = true -> Rabs (val x * val y) <= 2 ^ 100 ->
  fin (fmul x y) = true /\ val (fmul x y) = rne (val x * val y).
Proof.
  intros x y FX FY B. assert (H := Bmult_correct 53 1024 prec53 prec53_1024 mode_NE x y).
  change (SpecFloat.fexp 53 1024) with (FLT_exp (-1074) 53) in H. simpl round_mode in H.
  rewrite Rlt_bool_true in H by (apply rne_fits; exact B). destruct H as (E & F & _).
  split; [unfold fmul; rewrite F, FX, FY; reflexivity|exact E].
Qed.
Lemma fadd_exact : forall x y, fin x = true -> fin y = true -> fmt (val x + val y) -> Rabs (val x + val y) < b2 1024 ->
  fin (fadd x y) = true /\ val (fadd x y) = val x + val y.
Proof.
  intros x y X Y F B. assert (H := Bplus_correct 53 1024 prec53 prec53_1024 mode_NE x y X Y).
  change (SpecFloat.fexp 53 1024) with (FLT_exp (-1074) 53) in H. simpl round_mode in H.
  rewrite rne_id in H by exact F. rewrite Rlt_bool_true in H by exact B. destruct H as (E & F' & _). split; [exact F'|exact E].
Qed.

(** ** The factor that a collapse multiplies with *)
Lemma finv_sqrt : forall p, fin p = true -> / 2 ^ 49 <= val p <= 2 ->
  let q := fdiv f1 (fsqrt p) in let r := / sqrt (val p) in
  fin q = true /\ Rabs (val q - r) <= / 2 ^ 50 * r /\ 1 / 2 <= r <= 2 ^ 25.
Proof.
  intros p F [L U] q r. assert (P : 0 < val p) by lra. destruct (fsqrt_err p F P) as [FS ES].
  set (s := sqrt (val p)) in *. assert (S0 : 0 < s) by (apply sqrt_lt_R0; exact P).
  assert (S2 : s * s = val p) by (apply sqrt_sqrt; lra).
  assert (SL : / 2 ^ 25 <= s) by (apply Rnot_lt_le; intros N; assert (s * s <= / 2 ^ 25 * / 2 ^ 25) by (apply Rmult_le_compat; lra); lra).
  assert (SU : s <= 2) by nra.
  assert (R0 : s * r = 1) by (unfold r; apply Rinv_r; lra).
  assert (RL : 1 / 2 <= r) by nra.
  assert (RU : r <= 2 ^ 25) by nra.
  assert (E1 := rne_rel s). rewrite (Rabs_pos_eq s) in E1 by lra. rewrite <- ES in E1.
  assert (T := tiny). set (y := val (fsqrt p)) in *.
  assert (E1' : Rabs (y - s) <= / 2 ^ 52 * s) by lra. clear E1.
  assert (Y0 : 0 < y) by (apply Rabs_le_inv in E1'; lra).
  assert (YI : y * / y = 1) by (apply Rinv_r; lra).
  assert (I1 : Rabs (/ y - r) <= / 2 ^ 51 * r).
  { replace (/ y - r) with ((s - y) * (/ y * r)) by (transitivity (s * r * / y - y * / y * r); [ring|rewrite R0, YI; ring]).
    rewrite Rabs_mult, Rabs_minus_sym. assert (YP : 0 < / y) by (apply Rinv_0_lt_compat; exact Y0).
    rewrite (Rabs_pos_eq (/ y * r)) by (apply Rmult_le_pos; lra).
    assert (H : s * / y <= 2). { apply Rmult_le_reg_r with y; [exact Y0|]. rewrite Rmult_assoc, (Rmult_comm (/ y)), YI. apply Rabs_le_inv in E1'. lra. }
    apply Rle_trans with (/ 2 ^ 52 * s * (/ y * r)).
    - apply Rmult_le_compat_r; [apply Rmult_le_pos; lra|exact E1'].
    - replace (/ 2 ^ 52 * s * (/ y * r)) with (/ 2 ^ 52 * (s * / y) * r) by ring. apply Rmult_le_compat_r; [lra|]. lra. }
  destruct f1_val as [F1 V1].
  assert (B1 : 0 < / y <= 2 * r) by (split; [apply Rinv_0_lt_compat; exact Y0|apply Rabs_le_inv in I1; lra]).
  destruct (fdiv_val f1 (fsqrt p) F1) as [FQ EQ].
  - fold y. lra.
  - fold y. rewrite V1. unfold Rdiv. rewrite Rmult_1_l, Rabs_pos_eq by lra. lra.
  - split; [exact FQ|]. split; [|split; assumption]. fold y in EQ. rewrite V1 in EQ. unfold Rdiv in EQ. rewrite Rmult_1_l in EQ.
    assert (E2 := rne_rel (/ y)). rewrite (Rabs_pos_eq (/ y)) in E2 by lra. rewrite <- EQ in E2. fold q in E2.
    replace (val q - r) with ((val q - / y) + (/ y - r)) by ring. eapply Rle_trans; [apply Rabs_triang|]. lra.
Qed.
Lemma fscale_err : forall x q r, fin x = true -> fin q = true -> Rabs (val x) <= 2 -> 1 / 2 <= r <= 2 ^ 25 ->
  Rabs (val q - r) <= / 2 ^ 50 * r -> fin (fmul x q) = true /\ Rabs (val (fmul x q) - val x * r) <= / 2 ^ 48 * r /\ Rabs (val (fmul x q)) <= 2 ^ 30.
Proof.
  intros x q r FX FQ X [RL RU] Q. assert (Q' : Rabs (val q) <= 2 * r).
  { apply Rabs_le_inv in Q. apply Rabs_le. lra. }
  assert (B : Rabs (val x * val q) <= 4 * r).
  { rewrite Rabs_mult. replace (4 * r) with (2 * (2 * r)) by ring. apply Rmult_le_compat; try apply Rabs_pos; assumption. }
  destruct (fmul_val x q FX FQ ltac:(lra)) as [F E]. split; [exact F|]. assert (E1 := rne_rel (val x * val q)). rewrite <- E in E1.
  assert (T := tiny).
  assert (D : Rabs (val (fmul x q) - val x * r) <= / 2 ^ 48 * r).
  { replace (val (fmul x q) - val x * r) with ((val (fmul x q) - val x * val q) + val x * (val q - r)) by ring.
    eapply Rle_trans; [apply Rabs_triang|]. rewrite (Rabs_mult (val x)).
    assert (Rabs (val x) * Rabs (val q - r) <= 2 * (/ 2 ^ 50 * r)) by (apply Rmult_le_compat; try apply Rabs_pos; assumption). lra. }
  split; [exact D|].
  replace (val (fmul x q)) with ((val (fmul x q) - val x * val q) + val x * val q) by ring.
  eapply Rle_trans; [apply Rabs_triang|]. lra.
Qed.
Lemma fmul_0 : forall x, fin x = true -> fin (fmul x f0) = true /\ val (fmul x f0) = 0.
Proof.
  intros x F. destruct f0_val as [F0 V0]. destruct (fmul_val x f0 F F0) as [F1 E]; rewrite V0, Rmult_0_r in *.
  - rewrite Rabs_R0. lra.
  - split; [exact F1|]. rewrite E. apply round_0. apply valid_rnd_N.
Qed.

Section Ok.
Variables cosf sinf : f64 -> f64.
Variable k : nat.
Hypothesis Hk : (k <= 8)%nat.
Local Instance A64 : Arith := Arith64 cosf sinf.
Local Instance P64 : @Approx A64 := Approx64 cosf sinf k.
Local Instance PP64 : @ApproxP A64 := ApproxP64 cosf sinf.
Context {EN : @Env A64}.
Hypothesis samples : forall g, is_finite (fst (draw g) : f64) = true.

Lemma psqr_err : forall x y, fin x = true -> fin y = true -> Rabs (val x) <= 2 -> Rabs (val y) <= 2 ->
  res (fadd (fmul x x) (fmul y y)) (val x * val x + val y * val y) (/ 2 ^ 49).
Proof.
  intros x y FX FY X Y. assert (PX := prod_bound _ _ _ X X). assert (PY := prod_bound _ _ _ Y Y).
  assert (M : forall z, fin z = true -> Rabs (val z * val z) <= 2 * 2 -> res (fmul z z) (val z * val z) (/ 2 ^ 51)).
  { intros z FZ Z. assert (H := fmul_err 3 z z ltac:(lia) FZ FZ). change (3 - 54)%Z with (- Z.of_nat 51)%Z in H. rewrite b2_neg in H.
    apply H. change (b2 3) with 8. lra. }
  destruct (M x FX PX) as [F1 E1]. destruct (M y FY PY) as [F2 E2].
  assert (H := fadd_err 4 _ _ ltac:(lia) F1 F2). change (4 - 54)%Z with (- Z.of_nat 50)%Z in H. rewrite b2_neg in H. change (b2 4) with 16 in H.
  assert (D : Rabs (val (fmul x x) + val (fmul y y) - (val x * val x + val y * val y)) <= / 2 ^ 50).
  { replace (val (fmul x x) + val (fmul y y) - (val x * val x + val y * val y))
      with ((val (fmul x x) - val x * val x) + (val (fmul y y) - val y * val y)) by ring.
    eapply Rle_trans; [apply Rabs_triang|]. lra. }
  replace (/ 2 ^ 49) with (/ 2 ^ 50 + / 2 ^ 50) by lra. eapply res_near; [|exact D]. apply H.
  apply Rabs_le_inv in D. apply Rabs_le_inv in PX. apply Rabs_le_inv in PY. apply Rabs_def1; lra.
Qed.

Theorem approx64_p_ok : approx_p_ok.
Proof.
  assert (K := two_range k Hk). destruct f0_val as [F0 V0]. destruct f1_val as [F1 V1].
  constructor.
  - cbn [perr PP64 ApproxP64]. lra.
  - split; [exact F0|exact V0].
  - intros [x y] [X Y] M. change (fin x = true) in X. change (fin y = true) in Y.
    change (cmod (val x, val y) <= 2) in M. destruct (parts_cmod _ _ M) as [U V]. simpl fst in U. simpl snd in V.
    exact (psqr_err x y X Y U V).
  - intros p q FP FQ BP BQ. change (fin p = true) in FP. change (fin q = true) in FQ.
    change (Rabs (val p) <= 8) in BP. change (Rabs (val q) <= 8) in BQ.
    assert (H := fadd_err 5 p q ltac:(lia) FP FQ). change (5 - 54)%Z with (- Z.of_nat 49)%Z in H. rewrite b2_neg in H.
    apply H. apply sum8; assumption.
  - intros p FP BP. change (fin p = true) in FP. change (Rabs (val p) <= 8) in BP.
    assert (H := fsub_err 5 f1 p ltac:(lia) F1 FP). change (5 - 54)%Z with (- Z.of_nat 49)%Z in H. rewrite b2_neg, V1 in H.
    apply H. apply diff8; [rewrite Rabs_R1; lra|exact BP].
  - intros p q FP FQ. change (fin p = true) in FP. change (fin q = true) in FQ. change (flt p q = true <-> val p < val q).
    rewrite flt_val by assumption. destruct (Rlt_bool_spec (val p) (val q)); split; intros; try congruence; lra.
  - intros p FP. exact (fnz64_val p FP).
  - intros [x y] p [X Y] M FP P0 PB. change (fin x = true) in X. change (fin y = true) in Y. change (fin p = true) in FP.
    change (cmod (val x, val y) <= 2) in M. change (/ 2 ^ 49 <= val p <= 2) in PB.
    destruct (parts_cmod _ _ M) as [U V]. simpl fst in U. simpl snd in V.
    destruct (finv_sqrt p FP PB) as (FQ & EQ & RB). set (q := fdiv f1 (fsqrt p)) in *. set (r := / sqrt (val p)) in *.
    destruct (fscale_err x q r X FQ U RB EQ) as (FX & EX & BX). destruct (fscale_err y q r Y FQ V RB EQ) as (FY & EY & BY).
    destruct (fmul_0 x X) as [FX0 VX0]. destruct (fmul_0 y Y) as [FY0 VY0].
    assert (BIG : 2 ^ 30 < b2 1024) by (rewrite <- b2_pow; apply bpow_lt; simpl; lia).
    destruct (fsub_exact (fmul x q) (fmul y f0) FX FY0) as [FA EA].
    { rewrite VY0, Rminus_0_r. apply fmt_val. } { rewrite VY0, Rminus_0_r. lra. }
    destruct (fadd_exact (fmul x f0) (fmul y q) FX0 FY) as [FB EB].
    { rewrite VX0, Rplus_0_l. apply fmt_val. } { rewrite VX0, Rplus_0_l. lra. }
    split; [split; [exact FA|exact FB]|].
    change (cmod ((val (fsub (fmul x q) (fmul y f0)), val (fadd (fmul x f0) (fmul y q))) - (val x, val y) * RtoC r)%C <= 2 ^ k / 2 ^ 44 * r).
    rewrite EA, EB, VX0, VY0.
    apply Rle_trans with (/ 2 ^ 48 * r + / 2 ^ 48 * r).
    + apply cmod_parts; unfold RtoC, Csub, Cmul; simpl fst; simpl snd.
      * replace (val (fmul x q) - 0 - (val x * r - val y * 0)) with (val (fmul x q) - val x * r) by ring. exact EX.
      * replace (0 + val (fmul y q) - (val x * 0 + val y * r)) with (val (fmul y q) - val y * r) by ring. exact EY.
    + assert (0 <= r) by lra. assert (/ 2 ^ 44 <= 2 ^ k / 2 ^ 44) by lra. nra.
  - exact samples.
Qed.
End Ok.
