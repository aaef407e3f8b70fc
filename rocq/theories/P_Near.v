(** * The nearly-zero threshold: C48 and C51

    [tol] is the threshold (1e-10 in the code).  [lists s l phi]: the allocated qubits of [s] are [l] and
    [get_state] lists the vector [phi] (SimRun).  [dist], [unit_err], [evolve], [soft], [no_matrix],
    [total_cost] and [far_from_odd_pi] are in SpecNear.  [order_ok]: hash maps iterate in any order;
    [samples_ok]: samples are in [0,1). *)
From Coq Require Import Reals NArith List Bool Lia Lra Permutation.
From Verif Require Import Cx Bits Arith ArithR IndexMap Sim SimExp SimApply Spec SpecExp SpecApply SpecRun SimRun
  RunLemmas RunProps RunThms SimProps SpecNear NearThms World.
From Verif Require Import NearRunEx.
Import ListNotations.
Local Open Scope R_scope.

(** ** C48 *)

(** After any apply-free history, a sequence of gate calls leaves a listing that differs in norm, up to a global
    phase, from the exact effect on what was listed before by at most
    (number of calls + 2) * (7 w + 4) * sqrt (2 * 2^w) * tol, where w bounds the identifiers.
    Missing from the full statement: [apply] with a matrix (see [C48_matrices_partial]), and sequences with a single-qubit
    [ry] over a pending [rx] within the threshold of an odd multiple of pi act as with that [ry] negated (see
    [C48_refuted]). *)
Theorem C48_linear_partial : forall (T : Tol) (EN : Env), order_ok -> samples_ok -> 0 <= tol <= 1 / 2 ->
  forall w g h0 h rs0 s phi0, proper (h0 ++ h) -> Forall no_matrix h0 -> Forall soft h ->
  exec (new_sim g) h0 = Ok (rs0, s) -> lists s (live_after h0) phi0 ->
  (forall q, In q (live_after (h0 ++ h)) -> (q < w)%nat) ->
  exists rs s' phi h' k, exec s h = Ok (rs, s') /\ lists s' (live_after (h0 ++ h)) phi /\
    Forall2 up_to_ry_sign h h' /\ (far_from_odd_pi (h0 ++ h) -> h' = h) /\ Cn2 k = 1 /\
    dist w phi (scale k (evolve h' phi0)) <= INR ((length h + 2) * (7 * w + 4)) * (tol * sqrt (2 * 2 ^ w)).
Proof. exact (fun T EN Ho Sa B w g h0 h rs0 s phi0 P => truncation_linear Ho (proj1 B) (proj2 B) w g h0 h rs0 s phi0 Sa P). Qed.
Print Assumptions C48_linear_partial.
Example C48_linear_ex : exists rs0 s phi0 rs s' phi k,
  @exec T10 E10 (@new_sim (@RArith T10) E10 tt) pre10 = Ok (rs0, s) /\ lists s [0; 1]%nat phi0 /\
  exec s gates10 = Ok (rs, s') /\ lists s' [0; 1; 2]%nat phi /\ Cn2 k = 1 /\
  dist 3 phi (scale k (evolve gates10 phi0)) <= 175 * (/ 10 ^ 10 * sqrt (2 * 2 ^ 3)).
Proof.
  destruct world10 as [W1 [W2 W3]]. destruct run10 as [rs0 [s [phi0 [E L]]]].
  destruct (C48_linear_partial T10 E10 W1 W2 W3 3 tt pre10 gates10 rs0 s phi0 proper10 (proj1 soft10) (proj2 soft10) E L)
    as [rs [s' [phi [h' [k [E1 [L1 [_ [F [K D]]]]]]]]]].
  - rewrite (proj2 live10). simpl. intuition lia.
  - rewrite (F far10) in D. exists rs0, s, phi0, rs, s', phi, k. repeat (split; [now auto|]).
    replace (INR ((length gates10 + 2) * (7 * 3 + 4))) with 175 in D by (rewrite INR_IZR_INZ; reflexivity). exact D.
Qed.

(** The same, charging each call only for the qubits it names. *)
Theorem C48_steps_partial : forall (T : Tol) (EN : Env), order_ok -> samples_ok -> 0 <= tol <= 1 / 2 ->
  forall w g h0 h rs0 s phi0, proper (h0 ++ h) -> Forall no_matrix h0 -> Forall soft h ->
  exec (new_sim g) h0 = Ok (rs0, s) -> lists s (live_after h0) phi0 ->
  (forall q, In q (live_after (h0 ++ h)) -> (q < w)%nat) ->
  exists rs s' phi h' k, exec s h = Ok (rs, s') /\ lists s' (live_after (h0 ++ h)) phi /\
    Forall2 up_to_ry_sign h h' /\ (far_from_odd_pi (h0 ++ h) -> h' = h) /\ Cn2 k = 1 /\
    dist w phi (scale k (evolve h' phi0)) <=
      INR (3 * length (live_after h0) + total_cost (fold_left bstep h0 (mkBook [] true)) h +
           3 * length (live_after (h0 ++ h))) * unit_err w.
Proof. exact (fun T EN Ho Sa B w g h0 h rs0 s phi0 P => truncation_lists Ho (proj1 B) (proj2 B) w g h0 h rs0 s phi0 Sa P). Qed.
Print Assumptions C48_steps_partial.
Example C48_steps_ex : exists rs0 s phi0 rs s' phi k,
  @exec T10 E10 (@new_sim (@RArith T10) E10 tt) pre10 = Ok (rs0, s) /\ lists s [0; 1]%nat phi0 /\
  exec s gates10 = Ok (rs, s') /\ lists s' [0; 1; 2]%nat phi /\ Cn2 k = 1 /\
  dist 3 phi (scale k (evolve gates10 phi0)) <= 44 * (/ 10 ^ 10 * sqrt (2 * 2 ^ 3)).
Proof.
  destruct world10 as [W1 [W2 W3]]. destruct run10 as [rs0 [s [phi0 [E L]]]].
  destruct (C48_steps_partial T10 E10 W1 W2 W3 3 tt pre10 gates10 rs0 s phi0 proper10 (proj1 soft10) (proj2 soft10) E L)
    as [rs [s' [phi [h' [k [E1 [L1 [_ [F [K D]]]]]]]]]].
  - rewrite (proj2 live10). simpl. intuition lia.
  - rewrite (F far10) in D. exists rs0, s, phi0, rs, s', phi, k. repeat (split; [now auto|]).
    match type of D with _ <= INR ?n * _ => replace (INR n) with 44 in D by (rewrite INR_IZR_INZ; reflexivity) end. exact D.
Qed.

(** Probabilities and measurement outcomes after the gate calls: the probability that is returned, which is also the one
    the sample is compared with, differs from the exact one by at most twice the distance. *)
Theorem C48_probability_partial : forall (T : Tol) (EN : Env), order_ok -> samples_ok -> 0 <= tol <= 1 / 2 ->
  forall w g h0 h rs0 s phi0 qs, proper (h0 ++ h) -> Forall no_matrix h0 -> Forall soft h ->
  exec (new_sim g) h0 = Ok (rs0, s) -> lists s (live_after h0) phi0 ->
  (forall q, In q (live_after (h0 ++ h)) -> (q < w)%nat) -> NoDup qs -> incl qs (live_after (h0 ++ h)) ->
  exists rs s' h', exec s h = Ok (rs, s') /\
    Forall2 up_to_ry_sign h h' /\ (far_from_odd_pi (h0 ++ h) -> h' = h) /\
    exists p, Rabs (p - born w qs (evolve h' phi0)) <=
      2 * (INR (3 * length (live_after h0) + total_cost (fold_left bstep h0 (mkBook [] true)) h + 3 * length qs) * unit_err w) /\
    0 <= p <= 1 /\
    (exists s1, joint_probability s' qs = Ok (p, s1)) /\
    (exists r s2, joint_measure s' qs = Ok (r, s2) /\ r = Rltb (fst (draw (rng s'))) p).
Proof. exact (fun T EN Ho Sa B w g h0 h rs0 s phi0 qs P => truncation_prob Ho (proj1 B) (proj2 B) w g h0 h rs0 s phi0 qs Sa P). Qed.
Print Assumptions C48_probability_partial.
Example C48_probability_ex : exists rs0 s phi0 rs s' p s1,
  @exec T10 E10 (@new_sim (@RArith T10) E10 tt) pre10 = Ok (rs0, s) /\ lists s [0; 1]%nat phi0 /\
  exec s gates10 = Ok (rs, s') /\ joint_probability s' [2; 0]%nat = Ok (p, s1) /\
  Rabs (p - born 3 [2; 0]%nat (evolve gates10 phi0)) <= 2 * (41 * (/ 10 ^ 10 * sqrt (2 * 2 ^ 3))).
Proof.
  destruct world10 as [W1 [W2 W3]]. destruct run10 as [rs0 [s [phi0 [E L]]]].
  destruct (C48_probability_partial T10 E10 W1 W2 W3 3 tt pre10 gates10 rs0 s phi0 [2; 0]%nat proper10 (proj1 soft10) (proj2 soft10) E L)
    as [rs [s' [h' [E1 [_ [F [p [D [_ [[s1 Ep] _]]]]]]]]]].
  - rewrite (proj2 live10). simpl. intuition lia.
  - repeat constructor; simpl; intuition lia.
  - rewrite (proj2 live10). intros x Hx. simpl in *. intuition.
  - rewrite (F far10) in D. exists rs0, s, phi0, rs, s', p, s1. repeat (split; [now auto|]).
    match type of D with _ <= 2 * (INR ?n * _) => replace (INR n) with 41 in D by (rewrite INR_IZR_INZ; reflexivity) end. exact D.
Qed.

(** ** C51 *)

(** Truncation never makes the state longer than a unit vector: after every history of gates, measurements,
    allocations and releases, for every threshold up to 1/2. *)
Theorem C51_norm : forall (T : Tol) (EN : Env), order_ok -> samples_ok -> 0 <= tol <= 1 / 2 ->
  forall w g h rs s phi, proper h -> Forall no_matrix h ->
  exec (new_sim g) h = Ok (rs, s) -> lists s (live_after h) phi ->
  (forall q, In q (live_after h) -> (q < w)%nat) -> norm2 w phi <= 1.
Proof. exact (fun T EN Ho Sa B w g h rs s phi => listed_norm Ho (proj1 B) (proj2 B) w g h rs s phi Sa). Qed.
Print Assumptions C51_norm.
Example C51_norm_ex : exists rs s phi, @exec T10 E10 (@new_sim (@RArith T10) E10 tt) pre10 = Ok (rs, s) /\
  lists s [0; 1]%nat phi /\ norm2 2 phi <= 1.
Proof.
  destruct world10 as [W1 [W2 W3]]. destruct run10 as [rs [s [phi [E L]]]]. exists rs, s, phi. split; [exact E|]. split; [exact L|].
  apply (C51_norm T10 E10 W1 W2 W3 2 tt pre10 rs s phi); auto.
  - destruct proper10 as [V U]. apply valid_run_app in V. apply Forall_app in U. split; tauto.
  - apply soft10.
  - rewrite (proj1 live10). simpl. intuition lia.
Qed.
