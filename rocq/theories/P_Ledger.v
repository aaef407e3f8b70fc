(** * Measurement with rounding: C56

    The laws assumed of rounded probabilities ([approx_p_ok]), the machine that draws the values of the samples
    ([sampled]), the ledger of errors ([fits_run], [replies_near]) and its closed form ([decided], [worst],
    [replies_within]) are in SpecLedger; the exact machine is that of SpecRun. *)
From Coq Require Import Reals NArith ZArith List Bool Lia Lra Permutation.
From Flocq Require Import IEEE754.BinarySingleNaN.
From Verif Require Import Cx Bits Arith ArithR IndexMap Sim SimExp SimApply Spec SpecExp SpecRun SimRun SpecAny Any AnyRun
  SpecNear SpecRound SpecLedger RoundThms RoundLedger LedgerBound Math Binary64 SpecBinary64 Binary64Lemmas Binary64Prob RoundEx.
From Verif Require Import LedgerEx.
From Verif Require Import P_Round.
Import ListNotations.
Local Open Scope R_scope.

(** ** C56 *)

(** For every arithmetic that rounds within the stated bounds, and every valid history of any calls: as
    long as no outcome is decided by rounding, measurements return the outcomes of the exact machine, computed
    probabilities and listed vectors are those of the exact machine up to the errors in the ledger. *)
Theorem C56_ledger : forall (A : Arith) (EN : Env) (AP : Approx) (PP : ApproxP), approx_ok -> approx_p_ok -> any_order ->
  forall w g h h', avalid_run (mkBook [] true) h -> Forall2 call_stands h h' -> angles_fit h -> clear_of_odd_pi h' ->
  fits_run w (mkLedger 0 0) (initial g) h h' ->
  exists rs s, aexec (new_sim g) h = Ok (rs, s) /\ replies_near w (mkLedger 0 0) (initial g) h h' rs.
Proof. exact (fun A EN AP PP L P O w g h h' => measuring L P O w g h h'). Qed.
Print Assumptions C56_ledger.

(** In closed form: if along the exact run every outcome has a probability of at least [p] and no sample is within [x]
    of the probability it is compared with, the error is at most [worst], which is linear in the number of rounding
    steps and grows by a factor of 4/p with each projection. *)
Theorem C56_bound : forall (A : Arith) (EN : Env) (AP : Approx) (PP : ApproxP), approx_ok -> approx_p_ok -> any_order ->
  forall w p, 0 < p <= 1 ->
  forall g x h h', avalid_run (mkBook [] true) h -> Forall2 call_stands h h' -> angles_fit h -> clear_of_odd_pi h' ->
  decided w p x (initial g) h' ->
  let t := worst w (total_lcost (mkBook [] true) h) (total_pcount h) p in
  t <= 1 / 2 -> t <= p / 2 -> t <= x -> thr + t < p ->
  exists rs s, aexec (new_sim g) h = Ok (rs, s) /\ replies_within w t (initial g) h' rs.
Proof. exact (fun A EN AP PP L P O w p Hp => measuring_bound L P O w p Hp). Qed.
Print Assumptions C56_bound.

(** Binary64 satisfies the laws of probabilities, if the samples are finite. *)
Theorem C56_binary64_laws : forall cosf sinf (EN : @Env (Arith64 cosf sinf)) k, (k <= 8)%nat ->
  (forall g, is_finite (fst (@draw (Arith64 cosf sinf) EN g) : f64) = true) ->
  @approx_p_ok (Arith64 cosf sinf) EN (Approx64 cosf sinf k) (ApproxP64 cosf sinf).
Proof. exact (fun cosf sinf EN k K S => @approx64_p_ok cosf sinf k K EN S). Qed.
Print Assumptions C56_binary64_laws.

(** The simulator in binary64, with the numbers filled in. *)
Theorem C56_binary64 : forall cosf sinf (EN : @Env (Arith64 cosf sinf)) k, libm_ok cosf sinf -> (k <= 8)%nat ->
  (forall g, is_finite (fst (@draw (Arith64 cosf sinf) EN g) : f64) = true) -> @any_order _ EN ->
  forall w p, 0 < p <= 1 ->
  forall g h h', avalid_run (mkBook [] true) h ->
  Forall2 (@call_stands _ (Approx64 cosf sinf k)) h h' -> @angles_fit _ (Approx64 cosf sinf k) h ->
  @clear_of_odd_pi _ (Approx64 cosf sinf k) h' ->
  let n := INR (total_lcost (mkBook [] true) h) in let m := total_pcount h in
  let t := (4 / p) ^ m * (3 * n * (1 / 10 ^ 10 + 2 ^ k / 2 ^ 38) * sqrt (2 * 2 ^ w) + INR (1 + m) * (2 * 2 ^ w + 1) / 2 ^ 49) in
  @decided _ EN (ApproxP64 cosf sinf) w p t (initial g) h' ->
  t <= 1 / 2 -> 2 / 10 ^ 10 + t <= p -> t <= p / 2 ->
  exists rs s, aexec (new_sim g) h = Ok (rs, s) /\
    @replies_within _ EN (Approx64 cosf sinf k) (ApproxP64 cosf sinf) w t (initial g) h' rs.
Proof.
  intros cosf sinf EN k L K S O w p Hp g h h' V M F C n m t D T1 T2 T3.
  destruct f1em10_val as [_ T]. assert (T' := Rle_abs (B2R f1em10 - 1 / 10 ^ 10)).
  assert (B : @worst _ (Approx64 cosf sinf k) (ApproxP64 cosf sinf) w (total_lcost (mkBook [] true) h) (total_pcount h) p <= t).
  { unfold worst, t. apply Rmult_le_compat_l; [apply pow_le; left; apply Rdiv_lt_0_compat; lra|]. fold m. cbn [perr ApproxP64].
    replace (INR (1 + m) * ((2 * 2 ^ w + 1) * / 2 ^ 49)) with (INR (1 + m) * (2 * 2 ^ w + 1) / 2 ^ 49) by (unfold Rdiv; ring).
    apply Rplus_le_compat_r. unfold drift. fold n. rewrite !Rmult_assoc. apply Rmult_le_compat_l; [lra|].
    apply Rmult_le_compat_l; [apply pos_INR|]. apply Rmult_le_compat_r; [apply sqrt_pos|].
    unfold step_err. cbn [thr dlt Approx64]. assert (1 <= 2 ^ k) by (apply pow_R1_Rle; lra). lra. }
  destruct (C56_bound _ EN (Approx64 cosf sinf k) (ApproxP64 cosf sinf) (C55_binary64_laws cosf sinf k L K)
    (C56_binary64_laws cosf sinf EN k K S) O w p Hp g t h h' V M F C D) as (rs & s & E & R); try lra.
  - cbn [thr Approx64]. lra.
  - exists rs, s. split; [exact E|]. revert R. generalize (@initial _ EN g). clear - B. intros ma R. revert ma h' R.
    induction rs as [|r rs IH]; intros ma [|c h'] R; cbn [replies_within] in *; auto. destruct R as [R1 R2]. split; [|auto].
    eapply within_mono; [exact B|exact B|exact R1].
Qed.
Print Assumptions C56_binary64.

Example C56_binary64_ex : exists s (p : f64) st phi z,
  @aexec _ E64 (@new_sim _ E64 tt) bell64 =
    Ok ([AId 0; AId 1; AUnit; AUnit; ABit true; @AProb (Arith64 cos52 sin52) p; AListed st 2; AUnit], s) /\
  Rabs (B2R p - 1) <= 1 / 10 ^ 4 /\
  listing (map (fun e => (fst e, (B2R (fst (snd e)), B2R (snd (snd e))))) st) [0; 1]%nat phi /\ Cn2 z = 1 /\
  dist 2 phi (scale z (fun b => if N.eqb b 3 then C1 else C0)) <= 1 / 10 ^ 4.
Proof.
  assert (N : total_lcost (mkBook [] true) bell64 = 105%nat) by reflexivity.
  assert (M : total_pcount bell64 = 3%nat) by reflexivity.
  assert (S3 : 0 <= sqrt (2 * 2 ^ 2) <= 3).
  { split; [apply sqrt_pos|]. replace 3 with (sqrt (3 * 3)) by (apply sqrt_square; lra). apply sqrt_le_1_alt. lra. }
  assert (B := C56_binary64 cos52 sin52 E64 0 ref_libm ltac:(lia) (fun _ => proj1 f0_val)
    (fun l => Permutation_sym (Permutation_rev l)) 2 (1 / 2) ltac:(lra) tt bell64 bell).
  rewrite N, M in B. cbv zeta in B.
  set (t := (4 / (1 / 2)) ^ 3 * _) in B.
  assert (T : 0 <= t <= 1 / 10 ^ 4).
  { unfold t. replace (INR 105) with 105 by (rewrite INR_IZR_INZ; reflexivity). replace (INR (1 + 3)) with 4 by (rewrite INR_IZR_INZ; reflexivity).
    set (r := sqrt (2 * 2 ^ 2)) in *. clearbody r. clear - S3. replace (4 / (1 / 2)) with 8 by lra. lra. }
  clearbody t.
  destruct B as (rs & s & E & R); try lra.
  - cbn [bell64 avalid_run avalid abstep live tidy]. unfold targets_ok. simpl.
    repeat match goal with
    | |- _ /\ _ => split
    | |- True => exact I
    | |- NoDup _ => repeat constructor; simpl; intuition lia
    | |- incl _ _ => intros x Hx; simpl in *; intuition
    | |- _ \/ _ => simpl; auto
    end; auto.
  - unfold bell64, bell. repeat apply Forall2_cons; try apply Forall2_nil; cbn [call_stands call_means gate_means]; auto.
  - unfold angles_fit, bell64. cbn [turns turn fold_right]. assert (L : @lim _ (Approx64 cos52 sin52 0) = 256) by (cbn [lim Approx64]; simpl; ring).
    rewrite L. split; [lra|]. repeat apply Forall_cons; try apply Forall_nil; exact I.
  - left. unfold bell. repeat apply Forall_cons; try apply Forall_nil; simpl; tauto.
  - apply bell_decided. lra.
  - unfold bell in R. destruct f0_val as [_ V0].
    cbn [replies_within reply_within initial bk vec mgen live mstep1 sampled fst snd draw E64 projects bstep vstep draws_sample remove_id
      filter Nat.eqb negb insert_id fresh_id gap_from Nat.ltb Nat.leb pval ApproxP64] in R.
    fold pair in R. rewrite (outcome_1 _ [0%nat] pair _ _ V0 pair_born) in R by lra. fold pair1 in R. rewrite pair1_born in R.
    destruct (Req_EM_T 1 0) as [F|_]; [lra|]. fold pair2 in R. unfold chance in R. rewrite pair1_born in R.
    repeat match goal with R : match ?l with [] => False | _ :: _ => _ end |- _ => destruct l as [|? ?]; [contradiction|]; destruct R as [? R] end.
    repeat match goal with R : match ?l with [] => True | _ :: _ => False end |- _ => destruct l; [|contradiction] end.
    match goal with H : exists p, _ /\ pclose p 1 t |- _ => destruct H as (p & Ep & _ & Bp) end.
    match goal with H : exists st, _ |- _ => destruct H as (st & Es & _ & phi & z & _ & Li & Z & D) end. subst.
    exists s, p, st, phi, z. split; [exact E|]. split.
    { change (Rabs (B2R (p : f64) - 1) <= t) in Bp. lra. }
    split; [exact Li|]. split; [exact Z|]. eapply Rle_trans; [|apply T].
    replace (dist 2 phi (scale z (fun b => if (b =? 3)%N then C1 else C0))) with (dist 2 phi (scale z pair2)); [exact D|].
    destruct pair2_at as (P0 & P1 & P2 & P3). unfold dist, norm2, qsum, qdiff, scale. simpl. rewrite P0, P1, P2, P3. reflexivity.
Qed.
