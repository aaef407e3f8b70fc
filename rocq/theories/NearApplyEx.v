(** * Histories with matrices and the threshold of the code *)
From Coq Require Import Reals NArith List Bool Lia Lra Permutation FunctionalExtensionality.
From Verif Require Import Cx Bits BitsLemmas Arith ArithR IndexMap Sim SimExp SimApply Spec SpecExp SpecApply SpecRun SimRun
  SpecAny Any SpecNear SpecRound SpecLedger SpecRoundR RoundR World SimEx NearEx NearRunEx LedgerEx.
Import ListNotations.
Local Open Scope R_scope.

(** A Bell pair made with a controlled matrix, with the threshold of the code; all samples are 0. *)
Definition E10z : @Env (@RArith T10) := @Build_Env (@RArith T10) (fun l => l) unit (fun g => (0, g)).
Definition notm (r c : nat) : C := if Nat.eqb r c then C0 else C1.
Lemma notm_iso : isometry 2 notm.
Proof. intros v. unfold notm, Rsum, Csum. simpl. destruct (v 0%nat), (v 1%nat). unfold Cn2, Cadd, Cmul, C0, C1. simpl. ring. Qed.
Lemma notm_x : forall q psi, mat_op notm [q] psi = gate1 (gmat GX) q psi.
Proof.
  intros q psi. apply functional_extensionality. intros b. unfold mat_op, gate1, notm, Csum. cbn [length Nat.pow Nat.mul Nat.add seq map fold_right
    assign msb_index gmat]. change (bit (N.of_nat 0) 0) with false. change (bit (N.of_nat 1) 0) with true. unfold mX, mk2.
  destruct (bit b q); cbn [Nat.add Nat.eqb]; ring.
Qed.
Lemma notm_cx : forall psi, ctrl_op [0%nat] (mat_op notm [1%nat]) psi = cgate [0%nat] (gmat GX) 1 psi.
Proof. intros psi. apply functional_extensionality. intros b. unfold ctrl_op, cgate. now rewrite notm_x. Qed.
Lemma world10z : @order_ok T10 E10z /\ 0 <= @tol T10 <= 1 / 2.
Proof. split; [intros l; apply Permutation_refl|]. apply world10. Qed.
Definition gatesM : list call :=
  [CAlloc; CAlloc; CGate GH 0; CApply 2 2 notm [1%nat] (Some [0%nat]); CGate (GRx (2 * PI / 3)) 0; CGate (GRy 1) 0].
Ltac valid_history := repeat match goal with
  | |- _ /\ _ => split
  | |- True => exact I
  | |- NoDup _ => repeat constructor; simpl; intuition lia
  | |- incl _ _ => intros x Hx; simpl in *; intuition
  | |- _ \/ _ => simpl; auto
  end; auto.
Lemma sqrt8 : 0 <= sqrt (2 * 2 ^ 2) <= 3.
Proof. split; [apply sqrt_pos|]. replace 3 with (sqrt (3 * 3)) by (apply sqrt_square; lra). apply sqrt_le_1_alt. lra. Qed.

Definition bellM : list call :=
  [CAlloc; CAlloc; CGate GH 0; CApply 2 2 notm [1%nat] (Some [0%nat]); CMeasure 0; CForce true 1; CState; CRelease 1].
Lemma bellM_decided : forall x, x < 1 / 2 -> @decided _ E10z (ApproxPR T10) 2 (1 / 2) x (@initial _ E10z tt) bellM.
Proof.
  intros x X. unfold bellM.
  cbn [decided initial bk vec mgen live mstep1 sampled fst snd draw E10z projects bstep vstep draws_sample remove_id filter Nat.eqb
    negb insert_id fresh_id gap_from Nat.ltb Nat.leb pval ApproxPR ctl_list].
  rewrite notm_cx. fold pair. rewrite (outcome_1 _ [0%nat] pair _ _ eq_refl pair_born) by lra. fold pair1. rewrite pair1_born.
  destruct (Req_EM_T 1 0) as [F|_]; [lra|]. fold pair2.
  rewrite (outcome_1 _ [1%nat] pair2 _ _ eq_refl pair2_born) by lra. unfold chance. rewrite pair_born, pair1_born, pair2_born.
  assert (A1 : Rabs (0 - 1 / 2) = 1 / 2) by (rewrite Rabs_left; lra). assert (A2 : Rabs (0 - 1) = 1) by (rewrite Rabs_left; lra).
  rewrite A1, A2.
  repeat match goal with
  | |- _ /\ _ => split
  | |- True => exact I
  | |- forall q, In q _ -> _ => intros q Hq; simpl in Hq; intuition lia
  | |- _ => lra
  end.
Qed.
