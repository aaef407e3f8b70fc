(** * The odds of measurement results with rounding: C63

    Plans, their branches and their performance by the simulator ([perform]), the sequences of results with their quantum
    weights and boxes of samples ([ways]), totals over sets of sequences ([total]) and what replies are required ([along]) are in
    SpecOdds. *)
From Coq Require Import Reals NArith ZArith List Bool Lia Lra Permutation.
From Flocq Require Import IEEE754.BinarySingleNaN.
From Verif Require Import Cx Bits Arith ArithR IndexMap Sim SimExp SimApply Spec SpecExp SpecRun SimRun SpecAny Any AnyRun
  SpecNear SpecRound SpecLedger RoundThms RoundLedger LedgerBound Math Binary64 SpecBinary64 Binary64Lemmas Binary64Prob
  SpecOdds Odds RoundEx LedgerEx.
From Verif Require SpecChance.
From Verif Require Import OddsEx.
From Verif Require Import P_Round P_Ledger.
Import ListNotations.
Local Open Scope R_scope.

(** ** C63 *)

(** For every arithmetic that rounds within the stated bounds and every plan: if the samples lie in the box of a sequence of
    results, the simulator returns these results, and probabilities and listed vectors within [t] of the exact ones. *)
Theorem C63_results : forall (A : Arith) (EN : Env) (AP : Approx) (PP : ApproxP), approx_ok -> approx_p_ok -> any_order ->
  forall w m p t P, 0 < p <= 1 -> 0 <= t <= 1 / 2 -> t <= p / 2 -> thr + t <= p -> plan_fits w m p t P ->
  forall v g, In v (ways p t (mkBook [] true) ket0 P) -> SpecChance.inside (samples g) (ranges v) ->
  exists rs s, perform (new_sim g) P = Ok (rs, s) /\ along w t (mkBook [] true) ket0 P (results v) rs.
Proof.
  intros A EN AP PP L Lp O w m p t P Hp T0 T1 T2 F v g. apply (in_box_run L Lp O w p t m P v g); auto; lra.
Qed.
Print Assumptions C63_results.

(** The boxes lie in the unit cube and do not overlap. *)
Theorem C63_boxes : forall (A : Arith) (EN : Env) (AP : Approx) (PP : ApproxP) w m p t P, 0 <= t <= p -> plan_fits w m p t P ->
  let W := ways p t (mkBook [] true) ket0 P in
  Forall (fun v => Forall (fun r => 0 <= fst r /\ fst r <= snd r /\ snd r <= 1) (ranges v)) W /\
  ForallOrdPairs (fun u v => forall xs, ~ (SpecChance.inside xs (ranges u) /\ SpecChance.inside xs (ranges v))) W.
Proof.
  intros A EN AP PP w m p t P T0 F W. split; [|apply boxes_apart; lra].
  assert (H := boxes_fit w p t (fun r => snd r - fst r) 0).
  eapply Forall_impl; [|apply H with (m := m) (P := P) (b := mkBook [] true) (psi := ket0)]; try lra.
  - intros v [U _]. exact U.
  - intros r H1 H2 H3. rewrite Rminus_eq_0, Rabs_R0. lra.
  - apply (fits_sane w p t). exact F.
  - apply ok_ket0.
Qed.
Print Assumptions C63_boxes.

(** Together they are as large as the weights, for every set of results, up to twice the error for each measurement: in volume, *)
Theorem C63_volume : forall (A : Arith) (EN : Env) (AP : Approx) (PP : ApproxP) w m p t P E, 0 <= t <= p -> plan_fits w m p t P ->
  let W := ways p t (mkBook [] true) ket0 P in
  total weight E W - INR m * (2 * t) <= total volume_of E W <= total weight E W.
Proof. exact (fun A EN AP PP => odds_volume). Qed.
Print Assumptions C63_volume.
(** and for samples that are multiples of 1/N, in number. *)
Theorem C63_share : forall (A : Arith) (EN : Env) (AP : Approx) (PP : ApproxP) w m p t P E N, 0 <= t <= p ->
  (0 < N)%nat -> / INR N <= t -> plan_fits w m p t P ->
  let W := ways p t (mkBook [] true) ket0 P in
  total weight E W - INR m * (2 * (t + / INR N)) <= total (share_of N) E W <= total weight E W.
Proof. exact (fun A EN AP PP => odds_share). Qed.
Print Assumptions C63_share.

(** The weights of all sequences of results add up to 1; those left out because a result in them has a probability of [p] or
    less weigh at most [p] for each measurement. *)
Theorem C63_left_out : forall (A : Arith) (EN : Env) (AP : Approx) (PP : ApproxP) w m p t P E, 0 <= p < 1 / 2 -> plan_fits w m p t P ->
  let W0 := ways 0 0 (mkBook [] true) ket0 P in
  total weight (fun _ => true) W0 = 1 /\
  total weight E (ways p t (mkBook [] true) ket0 P) <= total weight E W0 <= total weight E (ways p t (mkBook [] true) ket0 P) + INR m * p.
Proof.
  intros A EN AP PP w m p t P E P0 F W0. assert (Sn := fits_sane w p t m P F). split.
  - exact (weight_all w 0 P m (mkBook [] true) ket0 Sn (ok_ket0 w)).
  - exact (weight_kept w p t P m (mkBook [] true) ket0 E P0 Sn (ok_ket0 w)).
Qed.
Print Assumptions C63_left_out.

(** The simulator in binary64, with samples that are equally likely multiples of 2^-53: for every plan with at most [m]
    measurements and every set of results, the odds differ from those of quantum mechanics by at most m (p + 2 t + 2^-52), and
    by at most m (2 t + 2^-52) if every result has a probability of zero or above [p]. *)
Theorem C63_binary64 : forall cosf sinf (EN : @Env (Arith64 cosf sinf)) k, libm_ok cosf sinf -> (k <= 8)%nat ->
  (forall g, is_finite (fst (@draw (Arith64 cosf sinf) EN g) : f64) = true) -> @any_order _ EN ->
  forall w m p t P, 0 < p < 1 / 2 -> t <= p / 2 -> 2 / 10 ^ 10 + t <= p ->
  (forall h h', @branch _ P h h' ->
    avalid_run (mkBook [] true) h /\ Forall2 (@call_stands _ (Approx64 cosf sinf k)) h h' /\ @angles_fit _ (Approx64 cosf sinf k) h /\
    @clear_of_odd_pi _ (Approx64 cosf sinf k) h' /\ narrow w (mkBook [] true) h' /\ Forall not_forced h' /\ (total_pcount h <= m)%nat /\
    (4 / p) ^ total_pcount h * (3 * INR (total_lcost (mkBook [] true) h) * (1 / 10 ^ 10 + 2 ^ k / 2 ^ 38) * sqrt (2 * 2 ^ w) +
      INR (1 + total_pcount h) * (2 * 2 ^ w + 1) / 2 ^ 49) < t) ->
  let W := ways p t (mkBook [] true) ket0 P in
  let W0 := ways 0 0 (mkBook [] true) ket0 P in
  (forall v g, In v W -> SpecChance.inside (@samples _ EN (ApproxP64 cosf sinf) g) (ranges v) ->
    exists rs s, perform (new_sim g) P = Ok (rs, s) /\
      @along _ (Approx64 cosf sinf k) (ApproxP64 cosf sinf) w t (mkBook [] true) ket0 P (results v) rs) /\
  ForallOrdPairs (fun u v => forall xs, ~ (SpecChance.inside xs (ranges u) /\ SpecChance.inside xs (ranges v))) W /\
  forall E, let odds := total (share_of (Nat.pow 2 53)) E W in
    total weight E W - INR m * (2 * t + / 2 ^ 52) <= odds <= total weight E W /\
    Rabs (odds - total weight E W0) <= INR m * (p + 2 * t + / 2 ^ 52).
Proof.
  intros cosf sinf EN k L K Fs O w m p t P Hp T1 T2 F W W0.
  destruct f1em10_val as [_ Tv]. assert (Tv' := Rle_abs (B2R f1em10 - 1 / 10 ^ 10)).
  assert (Wb : forall h : list (@acall (Arith64 cosf sinf)), @worst _ (Approx64 cosf sinf k) (ApproxP64 cosf sinf) w (total_lcost (mkBook [] true) h) (total_pcount h) p <=
    (4 / p) ^ total_pcount h * (3 * INR (total_lcost (mkBook [] true) h) * (1 / 10 ^ 10 + 2 ^ k / 2 ^ 38) * sqrt (2 * 2 ^ w) +
      INR (1 + total_pcount h) * (2 * 2 ^ w + 1) / 2 ^ 49)).
  { intros h. unfold worst. apply Rmult_le_compat_l; [apply pow_le; left; apply Rdiv_lt_0_compat; lra|]. cbn [perr ApproxP64].
    replace (INR (1 + total_pcount h) * ((2 * 2 ^ w + 1) * / 2 ^ 49)) with (INR (1 + total_pcount h) * (2 * 2 ^ w + 1) / 2 ^ 49) by (unfold Rdiv; ring).
    apply Rplus_le_compat_r. unfold drift. rewrite !Rmult_assoc. apply Rmult_le_compat_l; [lra|].
    apply Rmult_le_compat_l; [apply pos_INR|]. apply Rmult_le_compat_r; [apply sqrt_pos|].
    unfold step_err. cbn [thr dlt Approx64]. assert (1 <= 2 ^ k) by (apply pow_R1_Rle; lra). lra. }
  assert (Pf : @plan_fits _ (Approx64 cosf sinf k) (ApproxP64 cosf sinf) w m p t P).
  { intros h h' Br. destruct (F h h' Br) as (F1 & F2 & F3 & F4 & F5 & F6 & F7 & F8). do 7 (split; [assumption|]).
    eapply Rle_lt_trans; [apply Wb|exact F8]. }
  assert (Tp : / 2 ^ 49 <= t).
  { destruct (some_branch P) as (h & h' & Br). destruct (F h h' Br) as (_ & _ & _ & _ & _ & _ & _ & F8).
    left. eapply Rle_lt_trans; [|exact F8].
    assert (Q1 : 1 <= (4 / p) ^ total_pcount h).
    { apply pow_R1_Rle. apply Rmult_le_reg_r with p; [lra|]. unfold Rdiv. rewrite Rmult_assoc, Rinv_l by lra. lra. }
    assert (Q2 : 0 <= 3 * INR (total_lcost (mkBook [] true) h) * (1 / 10 ^ 10 + 2 ^ k / 2 ^ 38) * sqrt (2 * 2 ^ w)).
    { apply Rmult_le_pos; [apply Rmult_le_pos; [apply Rmult_le_pos; [lra|apply pos_INR]|]|apply sqrt_pos]. assert (1 <= 2 ^ k) by (apply pow_R1_Rle; lra). lra. }
    assert (Q3 : / 2 ^ 49 <= INR (1 + total_pcount h) * (2 * 2 ^ w + 1) / 2 ^ 49).
    { assert (1 <= 2 ^ w) by (apply pow_R1_Rle; lra). rewrite plus_INR. assert (0 <= INR (total_pcount h)) by apply pos_INR. simpl (INR 1).
      unfold Rdiv. rewrite <- (Rmult_1_l (/ 2 ^ 49)) at 1. apply Rmult_le_compat_r; [lra|]. nra. }
    set (y := INR (1 + total_pcount h) * (2 * 2 ^ w + 1) / 2 ^ 49) in *. set (x := 3 * _ * _ * _) in *.
    assert (x + y <= (4 / p) ^ total_pcount h * (x + y)) by (rewrite <- (Rmult_1_l (x + y)) at 1; apply Rmult_le_compat_r; lra). lra. }
  assert (T0 : 0 <= t <= p) by lra.
  split; [|split].
  - intros v g. apply (C63_results _ EN (Approx64 cosf sinf k) (ApproxP64 cosf sinf) (C55_binary64_laws cosf sinf k L K)
      (C56_binary64_laws cosf sinf EN k K Fs) O w m p t P); auto; try lra. cbn [thr Approx64]. lra.
  - apply (C63_boxes _ EN (Approx64 cosf sinf k) (ApproxP64 cosf sinf) w m p t P T0 Pf).
  - intros E odds.
    assert (N : INR (Nat.pow 2 53) = 2 ^ 53) by (rewrite pow_INR; reflexivity).
    assert (H1 := C63_share _ EN (Approx64 cosf sinf k) (ApproxP64 cosf sinf) w m p t P E (Nat.pow 2 53) T0).
    rewrite N in H1. specialize (H1 ltac:(apply Nat.neq_0_lt_0, Nat.pow_nonzero; discriminate) ltac:(lra) Pf). cbv zeta in H1. fold W in H1. fold odds in H1.
    destruct (C63_left_out _ EN (Approx64 cosf sinf k) (ApproxP64 cosf sinf) w m p t P E ltac:(lra) Pf) as [_ H2]. fold W W0 in H2.
    assert (M0 := pos_INR m). replace (2 * (t + / 2 ^ 53)) with (2 * t + / 2 ^ 52) in H1 by lra.
    split; [exact H1|]. apply Rabs_le. replace (INR m * (p + 2 * t + / 2 ^ 52)) with (INR m * p + INR m * (2 * t + / 2 ^ 52)) by ring.
    assert (0 <= INR m * (2 * t + / 2 ^ 52)) by (apply Rmult_le_pos; lra). assert (0 <= INR m * p) by (apply Rmult_le_pos; lra).
    lra.
Qed.
Print Assumptions C63_binary64.

Example C63_ex : exists t, 0 < t <= 2 / 10 ^ 4 /\
  (forall g : nat -> f64, is_finite (g 0%nat) = true -> is_finite (g 1%nat) = true -> t <= B2R (g 1%nat) < 1 ->
    (0 <= B2R (g 0%nat) < 1 / 2 - t -> exists s, @perform _ EG (@new_sim _ EG g) undo = Ok ([AId 0; AUnit; ABit true; AUnit; ABit false; AUnit], s)) /\
    (1 / 2 + t <= B2R (g 0%nat) < 1 -> exists s, @perform _ EG (@new_sim _ EG g) undo = Ok ([AId 0; AUnit; ABit false; ABit false; AUnit], s))) /\
  1 / 2 - 2 / 10 ^ 3 <= total (share_of (Nat.pow 2 53)) (fun os => hd false os) (ways (1 / 4) t (mkBook [] true) ket0 undo) <= 1 / 2.
Proof.
  exists (2 / 10 ^ 4). split; [lra|]. set (t := 2 / 10 ^ 4).
  assert (S2 : 0 <= sqrt (2 * 2 ^ 1) <= 2).
  { split; [apply sqrt_pos|]. replace 2 with (sqrt (2 * 2)) at 3 by (apply sqrt_square; lra). apply sqrt_le_1_alt. lra. }
  assert (B := C63_binary64 cos52 sin52 EG 0 ref_libm ltac:(lia)).
  specialize (B ltac:(intros g; simpl; destruct (is_finite (g 0%nat)) eqn:Ef; [exact Ef|reflexivity]) (fun l => Permutation_sym (Permutation_rev l))).
  specialize (B 1%nat 3%nat (1 / 4) t undo ltac:(lra) ltac:(unfold t; lra) ltac:(unfold t; lra)).
  destruct B as (B1 & _ & B3).
  { intros h h' Br.
    assert (V : avalid_run (mkBook [] true) h /\ Forall2 (@call_stands _ (Approx64 cos52 sin52 0)) h h' /\
      @angles_fit _ (Approx64 cos52 sin52 0) h /\ @clear_of_odd_pi _ (Approx64 cos52 sin52 0) h' /\ narrow 1 (mkBook [] true) h' /\
      Forall not_forced h' /\ total_pcount h = 3%nat /\ (total_lcost (mkBook [] true) h <= 52)%nat).
    { assert (L : @lim _ (Approx64 cos52 sin52 0) = 256) by (cbn [lim Approx64]; simpl; ring).
      destruct (undo_branches h h' Br) as [[-> ->]|[-> ->]].
      all: split; [cbn [avalid_run avalid abstep live tidy]; simpl; repeat match goal with |- _ /\ _ => split | |- True => exact I | |- _ \/ _ => simpl; auto end; auto|].
      all: split; [repeat apply Forall2_cons; try apply Forall2_nil; cbn [call_stands call_means gate_means]; auto|].
      all: split; [unfold angles_fit; cbn [turns turn fold_right]; rewrite L; split; [lra|]; repeat apply Forall_cons; try apply Forall_nil; exact I|].
      all: split; [left; repeat apply Forall_cons; try apply Forall_nil; simpl; tauto|].
      all: split; [cbn [narrow bstep live tidy insert_id fresh_id gap_from Nat.eqb remove_id filter negb]; repeat match goal with |- _ /\ _ => split | |- True => exact I | |- forall q, In q _ -> _ => intros q Hq; simpl in Hq; intuition lia end|].
      all: split; [repeat apply Forall_cons; try apply Forall_nil; exact I|].
      all: split; [reflexivity|]. all: apply Nat.leb_le; reflexivity. }
    destruct V as (V1 & V2 & V3 & V4 & V5 & V6 & V7 & V8). do 6 (split; [assumption|]). rewrite V7. split; [lia|].
    apply le_INR in V8. replace (INR 52) with 52 in V8 by (rewrite INR_IZR_INZ; reflexivity).
    replace (INR (1 + 3)) with 4 by (rewrite INR_IZR_INZ; reflexivity). assert (N0 := pos_INR (total_lcost (mkBook [] true) h)).
    set (n := INR _) in *. set (r := sqrt (2 * 2 ^ 1)) in *. clearbody r n. unfold t. replace (4 / (1 / 4)) with 16 by lra.
    assert (n * r <= 52 * 2) by (apply Rmult_le_compat; lra). assert (0 <= n * r) by (apply Rmult_le_pos; lra).
    replace (3 * n * (1 / 10 ^ 10 + 2 ^ 0 / 2 ^ 38) * r) with (n * r * (3 * (1 / 10 ^ 10 + 1 / 2 ^ 38))) by (simpl; ring). lra. }
  split.
  - intros g F0 F1 X1.
    assert (Sm : forall n, is_finite (g n) = true -> n = 0%nat \/ n = 1%nat -> @samples _ EG (ApproxP64 cos52 sin52) g n = B2R (g n)).
    { intros n Fn [-> | ->]; unfold samples; cbn [gen_at draw EG fst snd pval ApproxP64]; rewrite Fn; reflexivity. }
    assert (Run : forall v, In v (ways (1 / 4) t (mkBook [] true) ket0 undo) ->
      SpecChance.inside (@samples _ EG (ApproxP64 cos52 sin52) g) (ranges v) ->
      exists rs s, @perform _ EG (@new_sim _ EG g) undo = Ok (rs, s) /\
        @along _ (Approx64 cos52 sin52 0) (ApproxP64 cos52 sin52) 1 t (mkBook [] true) ket0 undo (results v) rs) by (intros v; apply B1).
    rewrite undo_ways in Run. split; intros X0.
    + destruct (Run _ (or_introl eq_refl)) as (rs & s & E & R).
      { cbn [ranges SpecChance.inside]. rewrite !Sm by auto. auto. }
      exists s. rewrite E. cbn [results] in R. unfold undo, again in R.
      repeat (destruct rs as [|? rs]; try contradiction; cbn [along asks live bstep remove_id filter Nat.eqb negb insert_id fresh_id gap_from go_on reply_within] in R;
        match type of R with _ /\ _ => destruct R as [-> R] | _ => idtac end).
      all: try discriminate. all: try contradiction. reflexivity.
    + destruct (Run _ (or_intror (or_introl eq_refl))) as (rs & s & E & R).
      { cbn [ranges SpecChance.inside]. rewrite !Sm by auto. auto. }
      exists s. rewrite E. cbn [results] in R. unfold undo, again in R.
      repeat (destruct rs as [|? rs]; try contradiction; cbn [along asks live bstep remove_id filter Nat.eqb negb insert_id fresh_id gap_from go_on reply_within] in R;
        match type of R with _ /\ _ => destruct R as [-> R] | _ => idtac end).
      all: try discriminate. all: try contradiction. reflexivity.
  - destruct (B3 (fun os => hd false os)) as [B4 _]. rewrite undo_ways in *. unfold total at 1 4 in B4. cbn [map fold_right results hd weight] in B4.
    replace (INR 3) with 3 in B4 by (rewrite INR_IZR_INZ; reflexivity). unfold t in *. lra.
Qed.
