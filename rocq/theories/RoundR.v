(** * Exact amplitudes with the nearly-zero threshold, as an arithmetic with rounding *)
From Coq Require Import Reals NArith List Bool Lia Lra Permutation.
From Verif Require Import Cx Arith ArithR Bits Sim SimExp SimApply Spec SpecExp SpecApply SpecRun SimRun SpecAny Any AnyRun
  SpecNear SpecRound RoundThms SpecLedger RoundLedger LedgerBound SpecRoundR.
Import ListNotations.
Local Open Scope R_scope.

Section Same.
Context {T : Tol} {EN : Env}.
Lemma run1_of : forall s c, run1 s c = let* (r, s') := arun1 s (acall_of c) in Ok (reply_of r, s').
Proof.
  intros s c. destruct c; simpl; try destruct g; simpl; try reflexivity;
  repeat match goal with
  | |- context [quietly ?m] => destruct m; reflexivity
  | |- context [bind ?m _] => destruct m as [[[? ?] ?]|] || destruct m as [[? ?]|]; reflexivity
  end.
Qed.
Lemma exec_of : forall h s, exec s h = let* (rs, s') := aexec s (map acall_of h) in Ok (map reply_of rs, s').
Proof.
  induction h as [|c h IH]; intros s; simpl; [reflexivity|]. rewrite run1_of.
  destruct (arun1 s (acall_of c)) as [[r s1]|]; simpl; [|reflexivity]. rewrite IH.
  destruct (aexec s1 (map acall_of h)) as [[rs s2]|]; reflexivity.
Qed.
Lemma bstep_of : forall b c, abstep b (acall_of c) = bstep b c.
Proof. intros b c. destruct c; reflexivity. Qed.
Lemma books_of : forall h b, fold_left abstep (map acall_of h) b = fold_left bstep h b.
Proof. induction h as [|c h IH]; intros b; simpl; [reflexivity|]. now rewrite bstep_of, IH. Qed.
Lemma valid_of : forall b c, valid b c -> avalid b (acall_of c).
Proof. intros b c. destruct c; simpl; auto. Qed.
Lemma valid_run_of : forall h b, valid_run b h -> avalid_run b (map acall_of h).
Proof.
  induction h as [|c h IH]; intros b; simpl; auto. intros [V1 V2]. split; [apply valid_of; auto|]. rewrite bstep_of. auto.
Qed.
End Same.

Section Laws.
Context (T : Tol) (EN : @Env (@RArith T)) (L : R).
Hypothesis tol_0 : 0 <= tol.
Hypothesis tol_half : tol <= 1 / 2.
Instance AP : @Approx (@RArith T) := ApproxR T L.
Instance PP : @ApproxP (@RArith T) := ApproxPR T.

Lemma cmod_same : forall a : C, cmod (a - a)%C <= 0.
Proof.
  intros a. replace (a - a)%C with C0 by ring. unfold cmod, Cn2, C0. simpl. rewrite Rmult_0_l, Rplus_0_l, sqrt_0. lra.
Qed.
Lemma close_same : forall a : C, @close _ AP a a 0.
Proof. intros a. split; [exact I|]. apply cmod_same. Qed.
Lemma rleb_true : forall x y, Rleb x y = true <-> x <= y.
Proof. intros. unfold Rleb. destruct (Rle_dec x y); split; intros; auto; try discriminate; contradiction. Qed.
Lemma exact_laws : @approx_ok _ AP.
Proof.
  constructor; cbn [dlt thr AP ApproxR]; try (unfold step_err; cbn [dlt thr AP ApproxR]; nra);
    try (intros; apply close_same); try (split; [exact I|reflexivity]).
  - intros a. split; [auto|reflexivity].
  - intros a _. unfold anz. simpl. unfold rnz. rewrite andb_true_iff, !rleb_true. reflexivity.
  - intros [x y] _. unfold ais1. simpl. unfold Reqb.
    destruct (Req_EM_T x 1); [|discriminate]. destruct (Req_EM_T y 0); [|discriminate]. intros _. subst. reflexivity.
  - intros a b _ _. split; [exact I|]. cbn [tval AP ApproxR]. change (tadd a b) with (a + b). rewrite Rminus_eq_0, Rabs_R0. lra.
  - intros a. split; [auto|reflexivity].
  - intros a _. cbn [tval AP ApproxR]. unfold tnz. simpl. unfold rnz. rewrite rleb_true. auto.
  - intros t. unfold anz, chalf, tneg. simpl. replace (- t / 2) with (- (t / 2)) by field. rewrite cos_neg. reflexivity.
Qed.
Lemma exact_p_laws : @approx_p_ok _ EN AP PP.
Proof.
  constructor; cbn [perr pfin pval PP ApproxPR]; try lra; try (split; [exact I|reflexivity]).
  - intros a _ _. split; [exact I|]. cbn [pval PP ApproxPR aval AP ApproxR perr]. change (psqr a) with (Cn2 a). rewrite Rminus_eq_0, Rabs_R0. lra.
  - intros p q _ _ _ _. split; [exact I|]. cbn [pval PP ApproxPR perr]. change (padd p q) with (p + q). rewrite Rminus_eq_0, Rabs_R0. lra.
  - intros p _ _. split; [exact I|]. cbn [pval PP ApproxPR perr]. change (pcompl p) with (1 - p). rewrite Rminus_eq_0, Rabs_R0. lra.
  - intros p q _ _. change (plt p q) with (Rltb p q). unfold Rltb. destruct (Rlt_dec p q); split; intros; auto; try discriminate; contradiction.
  - intros p _. cbn [thr AP ApproxR]. change (pnz p) with (rnz tol p). unfold rnz. rewrite rleb_true. reflexivity.
  - intros a p _ _ _ P0 _. cbn [dlt AP ApproxR]. rewrite Rmult_0_l. change (amul a (pscale p)) with (a * RtoC (1 / sqrt p))%C.
    cbn [aval AP ApproxR]. split; [exact I|]. cbn [aval AP ApproxR]. replace (1 / sqrt p) with (/ sqrt p) by (unfold Rdiv; ring).
    apply cmod_same.
  - intros g. exact I.
Qed.

Lemma gate_means_of : forall g, gate_means (gate_of g) g.
Proof. destruct g; simpl; auto. Qed.
Lemma means_of : forall c, unit_call c -> unmeasured c -> call_means (acall_of c) c.
Proof.
  intros c U M. destruct c; simpl in *; auto using gate_means_of; try contradiction.
  - split; [|auto]. destruct (close_same p). split; auto. cbn [dlt AP ApproxR]. rewrite Rmult_0_r. auto.
  - split; [|auto]. intros r k _ _. destruct (close_same (u r k)). split; auto. cbn [dlt AP ApproxR]. rewrite Rmult_0_r. auto.
Qed.
Lemma stands_of : forall c, unit_call c -> call_stands (acall_of c) c.
Proof.
  intros c U. destruct c; simpl; auto using gate_means_of.
  - apply (means_of (CPhase cs p t)); simpl; auto.
  - apply (means_of (CApply rows cols u ts cs)); simpl; auto.
Qed.
Lemma clear_of : forall h, far_from_odd_pi h -> clear_of_odd_pi h.
Proof.
  intros h [F|[G [SG [H F]]]]; [left; auto|]. right. right. exists G. split; auto. split; auto.
  intros a Ha. unfold step_err. cbn [dlt thr AP ApproxR]. specialize (H a Ha). lra.
Qed.
End Laws.

(** Large enough for the angles of a history. *)
Definition enough {T : Tol} (h : list (@acall (@RArith T))) : R :=
  fold_right (fun c x => match c with
    | AGate (ARx t) _ | AGate (ARy t) _ | AGate (ARz t) _ | AMc (ARx t) _ _ | AMc (ARy t) _ _ | AMc (ARz t) _ _
    | AExp _ t _ | AMcExp _ _ t _ => Rabs t + x
    | _ => x end) 0 h.
Lemma enough_ok : forall (T : Tol) (h : list (@acall (@RArith T))) L0,
  @turns _ (ApproxR T L0) h <= enough h /\ Forall (@held _ (ApproxR T L0) (enough h)) h /\ 0 <= enough h.
Proof.
  intros T h L0. induction h as [|c h [I1 [I2 I3]]].
  - simpl. split; [lra|]. split; [constructor|lra].
  - assert (K : enough h <= enough (c :: h) /\ @held _ (ApproxR T L0) (enough (c :: h)) c /\
                @turn _ (ApproxR T L0) c + enough h <= enough (c :: h)).
    { destruct c; simpl; try (split; [lra|split; [auto|lra]]); try destruct g; simpl;
      try match goal with |- context [Rabs ?t] => assert (P := Rabs_pos t) end;
      (split; [lra|split; [auto; lra|lra]]). }
    destruct K as [K1 [K2 K3]]. split; [|split].
    + change (@turn _ (ApproxR T L0) c + @turns _ (ApproxR T L0) h <= enough (c :: h)). lra.
    + constructor; auto. eapply Forall_impl; [|exact I2]. intros c0. apply held_mono. exact K1.
    + lra.
Qed.
Lemma fits_of : forall (T : Tol) (h : list (@acall (@RArith T))), @angles_fit _ (ApproxR T (enough h + enough h)) h.
Proof.
  intros T h. destruct (enough_ok T h (enough h + enough h)) as [I1 [I2 I3]]. split; cbn [lim ApproxR]; [lra|].
  eapply Forall_impl; [|exact I2]. intros c. apply held_mono. lra.
Qed.

Section Thms.
Context {T : Tol} {EN : Env}.
Hypothesis order : order_ok.
Hypothesis tol_0 : 0 <= tol.
Hypothesis tol_half : tol <= 1 / 2.
Theorem truncation_matrices : forall w g h, proper h -> Forall unmeasured h ->
  (forall q, In q (live_after h) -> (q < w)%nat) -> INR (steps h) * (tol * sqrt (2 * 2 ^ w)) <= 1 ->
  exists rs s phi h' k, exec (new_sim g) h = Ok (rs, s) /\ lists s (live_after h) phi /\
    Forall2 up_to_ry_sign h h' /\ (far_from_odd_pi h -> h' = h) /\ Cn2 k = 1 /\
    dist w phi (scale k (evolve h' ket0)) <= INR (steps h) * (tol * sqrt (2 * 2 ^ w)).
Proof.
  intros w g h [V U] M Bw Q. set (ah := map acall_of h). set (L := enough ah + enough ah).
  assert (La := exact_laws T L tol_0 tol_half).
  assert (Eq : @drift _ (ApproxR T L) w (steps h) = INR (steps h) * (tol * sqrt (2 * 2 ^ w))).
  { unfold drift, step_err. cbn [dlt thr ApproxR]. ring. }
  assert (Me : Forall2 (@call_means _ (ApproxR T L)) ah h).
  { unfold ah. clear - U M. induction h as [|c h IH]; simpl; constructor; inversion U; inversion M; subst; auto.
    apply means_of; auto. }
  assert (Bo : fold_left abstep ah (mkBook [] true) = fold_left bstep h (mkBook [] true)) by apply books_of.
  destruct (rounding La order w g ah h (valid_run_of h _ V) Me (fits_of T ah)) as (rs & st & s & h' & phi & k & E & _ & Su & Li & F & Cl & K & D).
  - rewrite Bo. exact Bw.
  - change (@drift _ (ApproxR T L) w (steps h) <= 1). rewrite Eq. exact Q.
  - rewrite Bo in *. fold (live_after h) in *. rewrite aexec_app in E. fold ah in E.
    destruct (aexec (new_sim g) ah) as [[rs1 s1]|] eqn:E1; [|discriminate]. cbn [bind] in E. simpl aexec in E.
    destruct (get_state s1) as [[[st' n'] s']|] eqn:E2; [|discriminate]. simpl in E. injection E as Er Es.
    assert (X := f_equal (@rev _) Er). rewrite !rev_app_distr in X. simpl in X. injection X as X1 X2 X3. subst.
    exists (map reply_of rs1), s1, phi, h', k. split; [rewrite exec_of; fold ah; rewrite E1; reflexivity|].
    split. { split; [exact Su|]. exists st, s. split; [exact E2|].
             assert (Ev : @values _ (ApproxR T L) st = st).
             { clear. induction st as [|[a b] st IH]; [reflexivity|]. unfold values in *. cbn [map]. rewrite IH. reflexivity. }
             exact (eq_ind _ (fun y => listing y (live_after h) phi) Li _ Ev). }
    split; [exact F|]. split; [intros Fa; apply Cl; apply clear_of; auto|]. split; [exact K|].
    change (dist w phi (scale k (evolve h' ket0)) <= @drift _ (ApproxR T L) w (steps h)) in D. rewrite Eq in D. exact D.
Qed.

(** Whole histories, measurements included; the exact machine of SpecRun draws the same samples. *)
Theorem truncation_measured : forall w p, 0 < p <= 1 -> forall g x h, proper h -> far_from_odd_pi h ->
  @decided _ EN (ApproxPR T) w p x (initial g) h ->
  let n := total_lcost (mkBook [] true) (map acall_of h) in let m := total_pcount (map acall_of h) in
  let t := (4 / p) ^ m * (3 * INR n * (tol * sqrt (2 * 2 ^ w))) in
  t <= 1 / 2 -> t <= p / 2 -> t <= x -> tol + t < p ->
  exists rs s, exec (new_sim g) h = Ok (map reply_of rs, s) /\
    @replies_within _ EN (ApproxR T 0) (ApproxPR T) w t (initial g) h rs.
Proof.
  intros w p Hp g x h [V U] Fa De n m t T1 T2 T3 T4. set (ah := map acall_of h). set (L := enough ah + enough ah).
  assert (La := exact_laws T L tol_0 tol_half). assert (Lp := exact_p_laws T EN L).
  assert (Eq : @worst _ (ApproxR T L) (ApproxPR T) w n m p = t).
  { unfold worst, t, drift, step_err. cbn [dlt thr perr ApproxR ApproxPR]. ring. }
  assert (Me : Forall2 (@call_stands _ (ApproxR T L)) ah h).
  { unfold ah. clear - U. induction h as [|c h IH]; simpl; constructor; inversion U; subst; auto. apply stands_of; auto. }
  destruct (measuring_bound La Lp order w p Hp g x ah h (valid_run_of h _ V) Me (fits_of T ah) (clear_of T L h Fa) De) as (rs & s & E & R).
  - change (@worst _ (ApproxR T L) (ApproxPR T) w n m p <= 1 / 2). rewrite Eq. exact T1.
  - change (@worst _ (ApproxR T L) (ApproxPR T) w n m p <= p / 2). rewrite Eq. exact T2.
  - change (@worst _ (ApproxR T L) (ApproxPR T) w n m p <= x). rewrite Eq. exact T3.
  - change (tol + @worst _ (ApproxR T L) (ApproxPR T) w n m p < p). rewrite Eq. exact T4.
  - change (@replies_within _ EN (ApproxR T 0) (ApproxPR T) w (@worst _ (ApproxR T L) (ApproxPR T) w n m p) (initial g) h rs) in R.
    rewrite Eq in R. exists rs, s. split; [|exact R].
    rewrite exec_of. fold ah. rewrite E. reflexivity.
Qed.
End Thms.
