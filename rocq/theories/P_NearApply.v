(** * The nearly-zero threshold with matrices and measurements: C48

    As P_Near, for histories from the start in which matrices are applied.  [unmeasured], [steps] and the translation
    [acall_of], [reply_of] of calls and replies are in SpecRoundR; [decided] and [replies_within] are in SpecLedger. *)
From Coq Require Import Reals NArith List Bool Lia Lra Permutation FunctionalExtensionality.
From Verif Require Import Cx Bits BitsLemmas Arith ArithR IndexMap Sim SimExp SimApply Spec SpecExp SpecApply SpecRun SimRun
  SpecAny Any SpecNear SpecRound SpecLedger SpecRoundR RoundR World SimEx NearEx NearRunEx LedgerEx.
From Verif Require Import NearApplyEx.
Import ListNotations.
Local Open Scope R_scope.

(** ** C48 *)

(** A sequence of gates, exponentials and length-preserving matrices: nothing panics, and the listing differs in norm, up
    to a global phase, from the exact result by at most (number of steps) * tol * sqrt (2 * 2^w), as long as this is at
    most 1; each call is charged a number of steps linear in the qubits it names, and for a matrix also in its size.
    Missing from the full statement: a single-qubit [ry] over a pending [rx] within the threshold of an odd multiple of
    pi acts as with its angle negated (see [C48_refuted]). *)
Theorem C48_matrices_partial : forall (T : Tol) (EN : Env), order_ok -> 0 <= tol <= 1 / 2 ->
  forall w g h, proper h -> Forall unmeasured h ->
  (forall q, In q (live_after h) -> (q < w)%nat) -> INR (steps h) * (tol * sqrt (2 * 2 ^ w)) <= 1 ->
  exists rs s phi h' k, exec (new_sim g) h = Ok (rs, s) /\ lists s (live_after h) phi /\
    Forall2 up_to_ry_sign h h' /\ (far_from_odd_pi h -> h' = h) /\ Cn2 k = 1 /\
    dist w phi (scale k (evolve h' ket0)) <= INR (steps h) * (tol * sqrt (2 * 2 ^ w)).
Proof. exact (fun T EN O B w g h => truncation_matrices O (proj1 B) (proj2 B) w g h). Qed.
Print Assumptions C48_matrices_partial.

(** The same with measurements, forced outcomes and releases.  Along the exact run, whose machine draws the same samples,
    every outcome has a probability of at least [p] and no sample is within [x] of the probability it is compared with.
    Then the outcomes are those of the exact machine, and probabilities and listed vectors are within [t], which is
    linear in the number of steps and grows by a factor of 4/p with each projection. *)
Theorem C48_measured_partial : forall (T : Tol) (EN : Env), order_ok -> 0 <= tol <= 1 / 2 ->
  forall w p, 0 < p <= 1 -> forall g x h, proper h -> far_from_odd_pi h ->
  @decided _ EN (ApproxPR T) w p x (initial g) h ->
  let n := total_lcost (mkBook [] true) (map acall_of h) in let m := total_pcount (map acall_of h) in
  let t := (4 / p) ^ m * (3 * INR n * (tol * sqrt (2 * 2 ^ w))) in
  t <= 1 / 2 -> t <= p / 2 -> t <= x -> tol + t < p ->
  exists rs s, exec (new_sim g) h = Ok (map reply_of rs, s) /\
    @replies_within _ EN (ApproxR T 0) (ApproxPR T) w t (initial g) h rs.
Proof. exact (fun T EN O B w p Hp g x h => truncation_measured O (proj1 B) (proj2 B) w p Hp g x h). Qed.
Print Assumptions C48_measured_partial.
Example C48_matrices_ex : exists rs s phi k,
  @exec T10 E10z (@new_sim (@RArith T10) E10z tt) gatesM = Ok (rs, s) /\ lists s [0; 1]%nat phi /\ Cn2 k = 1 /\
  dist 2 phi (scale k (evolve gatesM ket0)) <= 4 / 10 ^ 8.
Proof.
  destruct world10z as [W1 W2]. assert (S8 := sqrt8).
  assert (N : INR (@steps T10 gatesM) = 114) by (rewrite INR_IZR_INZ; reflexivity).
  assert (Tv : @tol T10 = / 10 ^ 10) by reflexivity.
  assert (Q : INR (@steps T10 gatesM) * (@tol T10 * sqrt (2 * 2 ^ 2)) <= 4 / 10 ^ 8) by (rewrite N, Tv; lra).
  destruct (C48_matrices_partial T10 E10z W1 W2 2 tt gatesM) as (rs & s & phi & h' & k & E & L & _ & F & K & D).
  - split.
    + cbn [gatesM valid_run valid bstep live tidy]. unfold targets_ok. simpl. valid_history.
    + repeat constructor. exact notm_iso.
  - repeat constructor.
  - intros q Hq. change (In q [0; 1]%nat) in Hq. simpl in Hq. intuition lia.
  - lra.
  - rewrite F in D.
    + exists rs, s, phi, k. split; [exact E|]. split; [exact L|]. split; [exact K|]. lra.
    + right. exists thirds. split; [apply thirds_subgroup|]. split.
      * intros a H. apply thirds_half in H. rewrite Tv. lra.
      * repeat constructor; simpl; auto. exists 1%Z. lra.
Qed.
Example C48_measured_ex : exists s p st phi z,
  @exec T10 E10z (@new_sim (@RArith T10) E10z tt) bellM =
    Ok ([RId 0; RId 1; RUnit; RUnit; RBit true; RProb p; RState st 2; RUnit], s) /\
  Rabs (p - 1) <= 1 / 10 ^ 4 /\ listing st [0; 1]%nat phi /\ Cn2 z = 1 /\
  dist 2 phi (scale z (fun b => if N.eqb b 3 then C1 else C0)) <= 1 / 10 ^ 4.
Proof.
  destruct world10z as [W1 W2]. assert (S8 := sqrt8).
  assert (N : total_lcost (mkBook [] true) (map (@acall_of T10) bellM) = 122%nat) by reflexivity.
  assert (M : total_pcount (map (@acall_of T10) bellM) = 3%nat) by reflexivity.
  assert (Tv : @tol T10 = / 10 ^ 10) by reflexivity.
  assert (B := C48_measured_partial T10 E10z W1 W2 2 (1 / 2) ltac:(lra) tt (1 / 4) bellM).
  rewrite N, M in B. cbv zeta in B.
  set (t := (4 / (1 / 2)) ^ 3 * _) in B.
  assert (Tb : 0 <= t <= 1 / 10 ^ 4).
  { unfold t. rewrite Tv. replace (INR 122) with 122 by (rewrite INR_IZR_INZ; reflexivity).
    set (r := sqrt (2 * 2 ^ 2)) in *. clearbody r. clear - S8. replace (4 / (1 / 2)) with 8 by lra. lra. }
  clearbody t.
  destruct B as (rs & s & E & R); try lra.
  - split.
    + cbn [bellM valid_run valid bstep live tidy]. unfold targets_ok. simpl. valid_history.
    + repeat constructor. exact notm_iso.
  - left. unfold bellM. repeat apply Forall_cons; try apply Forall_nil; simpl; tauto.
  - apply bellM_decided. lra.
  - unfold bellM in R.
    cbn [replies_within reply_within initial bk vec mgen live mstep1 sampled fst snd draw E10z projects bstep vstep draws_sample remove_id
      filter Nat.eqb negb insert_id fresh_id gap_from Nat.ltb Nat.leb pval ApproxPR ctl_list] in R.
    rewrite notm_cx in R. fold pair in R. rewrite (outcome_1 _ [0%nat] pair _ _ eq_refl pair_born) in R by lra. fold pair1 in R.
    rewrite pair1_born in R. destruct (Req_EM_T 1 0) as [F|_]; [lra|]. fold pair2 in R. unfold chance in R. rewrite pair1_born in R.
    repeat match goal with R : match ?l with [] => False | _ :: _ => _ end |- _ => destruct l as [|? ?]; [contradiction|]; destruct R as [? R] end.
    repeat match goal with R : match ?l with [] => True | _ :: _ => False end |- _ => destruct l; [|contradiction] end.
    match goal with H : exists p, _ /\ pclose p 1 t |- _ => destruct H as (p & Ep & _ & Bp) end.
    match goal with H : exists st, _ |- _ => destruct H as (st & Es & _ & phi & z & _ & Li & Z & D) end. subst.
    exists s, p, st, phi, z. split; [exact E|]. split.
    { change (Rabs (p - 1) <= t) in Bp. lra. }
    split.
    { assert (Ev : @values _ (ApproxR T10 0) st = st).
      { clear. induction st as [|[a b] st IH]; [reflexivity|]. unfold values in *. cbn [map]. rewrite IH. reflexivity. }
      exact (eq_ind _ (fun y => listing y [0; 1]%nat phi) Li _ Ev). }
    split; [exact Z|]. eapply Rle_trans; [|apply Tb].
    replace (dist 2 phi (scale z (fun b => if (b =? 3)%N then C1 else C0))) with (dist 2 phi (scale z pair2)); [exact D|].
    destruct pair2_at as (P0 & P1 & P2 & P3). unfold dist, norm2, qsum, qdiff, scale. simpl. rewrite P0, P1, P2, P3. reflexivity.
Qed.

(** The full statement is false: with the threshold of the code, rx(pi), ry(pi/2), h on a new qubit gives probability 0
    where 1 is right. *)
Theorem C48_refuted : exists EN : @Env (@RArith T10), @order_ok T10 EN /\ @samples_ok T10 EN /\
  exists g h, proper (h ++ [CJointProb [0%nat]]) /\ Forall soft h /\
  exists rs s, @exec T10 EN (@new_sim (@RArith T10) EN g) (h ++ [CJointProb [0%nat]]) = Ok (rs, s) /\
    nth_error rs (length h) = Some (RProb 0) /\ born 1 [0%nat] (evolve h ket0) = 1.
Proof.
  exists E10. destruct world10 as (W1 & W2 & W3). split; [exact W1|]. split; [exact W2|].
  exists tt, (removelast clash_history). split; [apply clash_proper|].
  split. { repeat constructor. }
  destruct (clashT_exec T10 W3) as (rs & s & E & N). exists rs, s. split; [exact E|]. split; [exact N|]. exact clash_ideal.
Qed.
Print Assumptions C48_refuted.
