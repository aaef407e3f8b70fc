(** * A history with the threshold of the code *)
From Coq Require Import Reals NArith List Bool Lia Lra Permutation.
From Verif Require Import Cx Bits Arith ArithR IndexMap Sim SimExp SimApply Spec SpecExp SpecApply SpecRun SimRun
  RunLemmas RunProps RunThms SimProps SpecNear NearThms World.
Import ListNotations.
Local Open Scope R_scope.

(** A world with the threshold of the code. *)
Definition T10 : Tol := {| tol := / 10 ^ 10 |}.
Definition E10 : @Env (@RArith T10) := @Build_Env (@RArith T10) (fun l => l) unit (fun g => (1 / 2, g)).

Lemma world10 : @order_ok T10 E10 /\ @samples_ok T10 E10 /\ 0 <= @tol T10 <= 1 / 2.
Proof.
  split; [intros l; apply Permutation_refl|]. split; [intros g; simpl; lra|]. unfold tol, T10.
  assert (0 < / 10 ^ 10) by (apply Rinv_0_lt_compat; lra).
  assert (/ 10 ^ 10 <= / 2) by (apply Rinv_le_contravar; lra). lra.
Qed.

(** A measured Bell pair, then gates with both [rx] and [ry]. *)
Definition pre10 : list call := bell_history ++ [CMeasure 0].
Definition gates10 : list call :=
  [CGate (GRx (2 * PI / 3)) 0; CGate (GRy 1) 0; CMc GX [0%nat] 1; CAlloc; CExp [PX_; PZ_] 1 [2%nat; 0%nat]].
Lemma proper10 : proper (pre10 ++ gates10).
Proof.
  split; [|repeat constructor]. cbn [pre10 gates10 bell_history app valid_run valid bstep live]. unfold targets_ok. simpl.
  repeat match goal with
  | |- _ /\ _ => split
  | |- True => exact I
  | |- NoDup _ => repeat constructor; simpl; intuition lia
  | |- incl _ _ => intros x Hx; simpl in *; intuition
  | |- _ \/ _ => simpl; auto
  | |- (_ <= _)%nat => lia
  end.
Qed.
Lemma soft10 : Forall no_matrix pre10 /\ Forall soft gates10.
Proof. split; repeat constructor. Qed.
Lemma live10 : live_after pre10 = [0; 1]%nat /\ live_after (pre10 ++ gates10) = [0; 1; 2]%nat.
Proof. split; reflexivity. Qed.
Lemma thirds_half : forall a, thirds a -> 1 / 2 <= Rabs (cos (a / 2)).
Proof.
  intros a [z ->]. set (x := IZR z * (2 * PI / 3) / 2).
  assert (S0 : sin (3 * x) = 0).
  { apply sin_eq_0_1. exists z. unfold x. field. }
  assert (S1 := sin2_cos2 (3 * x)). rewrite S0 in S1. unfold Rsqr in S1.
  replace (3 * x) with (2 * x + x) in S1 by ring. rewrite cos_plus, cos_2a, sin_2a in S1.
  assert (S2 := sin2_cos2 x). unfold Rsqr in S2. set (c := cos x) in *. set (d := sin x) in *.
  assert (D : d * d = 1 - c * c) by lra.
  assert (Q : (c * c - 1) * ((4 * (c * c) - 1) * (4 * (c * c) - 1)) = 0).
  { replace ((c * c - d * d) * c - 2 * d * c * d) with (c * (c * c - 3 * (d * d))) in S1 by ring. rewrite D in S1.
    transitivity (c * (c * c - 3 * (1 - c * c)) * (c * (c * c - 3 * (1 - c * c))) - 1); [ring|lra]. }
  assert (P : 0 <= Rabs c) by apply Rabs_pos. assert (A : Rabs c * Rabs c = c * c) by (rewrite <- Rabs_mult; apply Rabs_pos_eq; nra).
  apply Rmult_integral in Q. destruct Q as [Q|Q].
  - assert (Rabs c * Rabs c = 1) by lra. nra.
  - apply Rmult_integral in Q. assert (Rabs c * Rabs c = 1 / 4) by lra. nra.
Qed.
Lemma far10 : @far_from_odd_pi T10 (pre10 ++ gates10).
Proof.
  right. exists thirds. split; [apply thirds_subgroup|]. split.
  - intros a H. apply thirds_half in H. unfold tol, T10.
    assert (/ 10 ^ 10 < / 2) by (apply Rinv_lt_contravar; lra). lra.
  - repeat constructor; simpl; auto. exists 1%Z. lra.
Qed.
Lemma run10 : exists rs s phi, @exec T10 E10 (@new_sim (@RArith T10) E10 tt) pre10 = Ok (rs, s) /\ lists s [0; 1]%nat phi.
Proof.
  destruct world10 as [W1 [W2 [W3 W4]]].
  assert (P : proper (pre10 ++ [])).
  { assert (H := proper10). destruct H as [V U]. apply valid_run_app in V. apply Forall_app in U.
    rewrite app_nil_r. split; tauto. }
  destruct (@exec_tracks T10 E10 W1 pre10 (@new_sim (@RArith T10) E10 tt) _ (@new_tracks T10 E10 tt)) as [[rs [s [E _]]]|[_ X]].
  - destruct P as [V _]. rewrite app_nil_r in V. exact V.
  - destruct (@truncation T10 E10 W1 W3 W4 2 tt pre10 [] rs s W2 P (proj1 soft10) (Forall_nil _) E) as [phi [_ [_ [_ [_ [L _]]]]]].
    + intros q Hq. change (In q [0; 1]%nat) in Hq. simpl in Hq. intuition lia.
    + exists rs, s, phi. split; [exact E|exact L].
  - exfalso. apply Exists_exists in X. destruct X as [c [Hc Ia]]. assert (N := proj1 soft10). rewrite Forall_forall in N.
    apply N in Hc. destruct c; simpl in *; contradiction.
Qed.
