(** * Two entangled qubits in binary64, measured *)
From Coq Require Import Reals NArith ZArith List Bool Lia Lra Permutation.
From Flocq Require Import IEEE754.BinarySingleNaN.
From Verif Require Import Cx Bits Arith ArithR IndexMap Sim SimExp SimApply Spec SpecExp SpecRun SimRun SpecAny Any AnyRun
  SpecNear SpecRound SpecLedger RoundThms RoundLedger LedgerBound Math Binary64 SpecBinary64 Binary64Lemmas Binary64Prob RoundEx.
Import ListNotations.
Local Open Scope R_scope.

(** A Bell pair, measured on one qubit with sample 0, forced on the other, listed, and released: all outcomes are 1. *)
Definition bell64 : list (@acall (Arith64 cos52 sin52)) :=
  [AAlloc; AAlloc; AGate AH 0; AMc AX [0%nat] 1; AMeasure 0; AForce true 1; AState; ARelease 1].
Definition bell : list call :=
  [CAlloc; CAlloc; CGate GH 0; CMc GX [0%nat] 1; CMeasure 0; CForce true 1; CState; CRelease 1].

Lemma outcome_1 : forall l qs psi x p, x = 0 -> born (width l) qs psi = p -> 0 < p -> outcome l qs psi x = true.
Proof. intros l qs psi x p -> E P. unfold outcome. rewrite E. destruct (Rlt_dec 0 p); [reflexivity|contradiction]. Qed.
Lemma born_0 : forall phi, born (width [0; 1]%nat) [0%nat] phi = Cn2 (phi 1%N) + Cn2 (phi 3%N).
Proof. intros. unfold born, qsum, Rsum. simpl. ring. Qed.
Lemma born_1 : forall phi, born (width [0; 1]%nat) [1%nat] phi = Cn2 (phi 2%N) + Cn2 (phi 3%N).
Proof. intros. unfold born, qsum, Rsum. simpl. ring. Qed.
(** The exact vectors: after the gates, after the measurement, after forcing. *)
Definition pair : qstate := cgate [0%nat] (gmat GX) 1 (gate1 (gmat GH) 0 ket0).
Definition pair1 : qstate := collapsed [0; 1]%nat [0%nat] true pair.
Definition pair2 : qstate := collapsed [0; 1]%nat [1%nat] true pair1.
Lemma pair_at : pair 0%N = rsqrt2 /\ pair 1%N = C0 /\ pair 2%N = C0 /\ pair 3%N = rsqrt2.
Proof.
  cbv -[C rsqrt2 C0 C1 Cmul Cadd Copp]. split; [ring|]. split; [ring|]. split; ring.
Qed.
Lemma half : Cn2 rsqrt2 = 1 / 2.
Proof.
  unfold rsqrt2, RtoC, Cn2. simpl. rewrite <- Rinv_mult, sqrt_sqrt by lra. lra.
Qed.
Lemma pair_born : born (width [0; 1]%nat) [0%nat] pair = 1 / 2.
Proof. destruct pair_at as (_ & P1 & _ & P3). rewrite born_0, P1, P3, half. unfold Cn2, C0. simpl. ring. Qed.
Lemma pair1_at : pair1 0%N = C0 /\ pair1 1%N = C0 /\ pair1 2%N = C0 /\ pair1 3%N = C1.
Proof.
  destruct pair_at as (P0 & P1 & P2 & P3). unfold pair1, collapsed. rewrite pair_born. unfold scale, proj. simpl.
  rewrite P1, P3. split; [ring|]. split; [ring|]. split; [ring|].
  unfold rsqrt2, RtoC, Cmul, C1. simpl. f_equal; [|ring].
  assert (E : sqrt (1 / 2) = / sqrt 2) by (unfold Rdiv; rewrite Rmult_1_l; apply sqrt_inv). rewrite E.
  assert (0 < sqrt 2) by (apply sqrt_lt_R0; lra). field. lra.
Qed.
Lemma pair1_born : born (width [0; 1]%nat) [1%nat] pair1 = 1.
Proof. destruct pair1_at as (_ & _ & P2 & P3). rewrite born_1, P2, P3. unfold Cn2, C0, C1. simpl. ring. Qed.
Lemma pair2_at : pair2 0%N = C0 /\ pair2 1%N = C0 /\ pair2 2%N = C0 /\ pair2 3%N = C1.
Proof.
  destruct pair1_at as (P0 & P1 & P2 & P3). unfold pair2, collapsed. rewrite pair1_born. unfold scale, proj. simpl.
  rewrite P2, P3, sqrt_1. split; [ring|]. split; [ring|]. split; [ring|]. unfold RtoC, Cmul, C1. simpl. f_equal; field.
Qed.
Lemma pair2_born : born (width [0; 1]%nat) [1%nat] pair2 = 1.
Proof. destruct pair2_at as (_ & _ & P2 & P3). rewrite born_1, P2, P3. unfold Cn2, C0, C1. simpl. ring. Qed.

Lemma bell_decided : forall x, x < 1 / 2 -> @decided _ E64 (ApproxP64 cos52 sin52) 2 (1 / 2) x (@initial _ E64 tt) bell.
Proof.
  intros x X. unfold bell. destruct f0_val as [_ V0].
  cbn [decided initial bk vec mgen live mstep1 sampled fst snd draw E64 projects bstep vstep draws_sample remove_id filter Nat.eqb
    negb insert_id fresh_id gap_from Nat.ltb Nat.leb pval ApproxP64].
  fold pair. rewrite (outcome_1 _ [0%nat] pair _ _ V0 pair_born) by lra. fold pair1. rewrite pair1_born.
  destruct (Req_EM_T 1 0) as [F|_]; [lra|]. fold pair2.
  rewrite (outcome_1 _ [1%nat] pair2 _ _ V0 pair2_born) by lra. unfold chance. rewrite pair_born, pair1_born, pair2_born, V0.
  assert (A1 : Rabs (0 - 1 / 2) = 1 / 2) by (rewrite Rabs_left; lra). assert (A2 : Rabs (0 - 1) = 1) by (rewrite Rabs_left; lra).
  rewrite A1, A2.
  repeat match goal with
  | |- _ /\ _ => split
  | |- True => exact I
  | |- forall q, In q _ -> _ => intros q Hq; simpl in Hq; intuition lia
  | |- _ => lra
  end.
Qed.
