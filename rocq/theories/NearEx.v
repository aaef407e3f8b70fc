(** * The defect of pending rotations with any threshold up to 1/2

    The run of [clash_history] (World) for C48: every comparison with the threshold goes as with threshold 0. *)
From Coq Require Import Reals NArith List Bool Lia Lra Permutation.
From Verif Require Import Cx Bits Arith ArithR IndexMap Sim SimExp SimApply Spec SpecExp SpecApply SpecRun SimRun World.
Import ListNotations.
Local Open Scope R_scope.

Section Clash.
Context (T : Tol) (B : 0 <= tol <= 1 / 2).
Let E : @Env (@RArith T) := @Build_Env (@RArith T) (fun l => l) unit (fun g => (1 / 2, g)).
Local Existing Instance E.

Lemma nzt_true : forall x, x = 0 -> rnz tol x = true.
Proof. intros. subst. unfold rnz, Rleb. rewrite Rabs_R0. destruct (Rle_dec 0 tol); auto. lra. Qed.
Lemma nzt_false : forall x, 1 / 2 < x \/ 1 / 2 < - x -> rnz tol x = false.
Proof.
  intros x H. unfold rnz, Rleb. destruct (Rle_dec (Rabs x) tol) as [r|]; auto.
  unfold Rabs in r. destruct (Rcase_abs x); lra.
Qed.
Lemma facT_not1 : @ais1 (@RArith T) fac = false.
Proof. exact fac_not1. Qed.
Lemma m00T_pi : @anz (@RArith T) (rot_m00 PI) = true.
Proof. simpl. rewrite (nzt_true (cos (PI / 2))), (nzt_true 0); auto. apply cos_PI2. Qed.
Lemma clashT_h : gate_h (mkSim [(0%N, C1)] [Some 0%nat] tt 0%N [Some PI] [Some (PI / 2)] []) 0 =
  Ok (mkSim [(1%N, (C1 * fac)%C)] [Some 0%nat] tt 1%N [None] [Some (- - (PI / 2))] []).
Proof.
  unfold gate_h. cbn -[mcrotation_with]. unfold flush_queue. cbn -[mcrotation_with].
  unfold mcrotation_with. rewrite m00T_pi. cbn -[ais1 rot_m01].
  change (@rot_m01 (@RArith T) PI false * C1)%C with fac. rewrite facT_not1. cbn -[rot_m01]. reflexivity.
Qed.
Lemma s4_half : 1 / 2 < sin (PI / 4).
Proof.
  rewrite sin_PI4. assert (sqrt 2 < 2).
  { replace 2 with (sqrt (2 * 2)) at 2 by (apply sqrt_square; lra). apply sqrt_lt_1_alt. lra. }
  assert (0 < sqrt 2) by (apply sqrt_lt_R0; lra). unfold Rdiv. rewrite !Rmult_1_l. apply Rinv_lt_contravar; lra.
Qed.
Lemma m00T_q : @anz (@RArith T) (rot_m00 (- - (PI / 2))) = false.
Proof.
  simpl. rewrite quarter, cos_sin. replace (PI / 2 + PI / 4) with (PI - PI / 4) by field. rewrite sin_PI_x.
  rewrite nzt_false; auto. left. apply s4_half.
Qed.
Lemma m01T_q : @anz (@RArith T) (rot_m01 (- - (PI / 2)) true) = false.
Proof.
  unfold rot_m01. simpl. rewrite quarter. apply andb_false_intro1. apply nzt_false. pose proof s4_half.
  ring_simplify (0 * (0 * 0 - -1 * 0) - 0 * 0). lra.
Qed.
Definition afterT_h : sim := mkSim [(1%N, (C1 * fac)%C)] [Some 0%nat] tt 1%N [None] [Some (- - (PI / 2))] [].
Lemma clashT_prob : exists s', joint_probability afterT_h [0%nat] = Ok (0, s').
Proof.
  unfold joint_probability, afterT_h. cbn -[mcrotation_with]. unfold flush_queue. cbn -[mcrotation_with fac].
  unfold mcrotation_with. rewrite m00T_q, m01T_q. cbn -[rot_m01 rot_m00 anz].
  match goal with |- context[Cadd ?a (Cmul ?b (@rot_m00 _ _))] =>
    match b with context[Copp] => 
      assert (Z : Cadd a (Cmul b (@rot_m00 (@RArith T) (- - (PI / 2)))) = C0) end end.
  { unfold rot_m00, rot_m01. ared. rewrite quarter, sin_cos_PI4. apply C_eq; simpl; ring. }
  rewrite Z. replace (@anz (@RArith T) C0) with true.
  2: { simpl. rewrite nzt_true; auto. }
  match goal with |- context[if anz ?c then _ else _] => destruct (@anz (@RArith T) c) end; cbn; eexists; reflexivity.
Qed.
Lemma clashT_exec : exists rs s, exec (new_sim tt) clash_history = Ok (rs, s) /\ nth_error rs 4 = Some (RProb 0).
Proof.
  destruct clashT_prob as [s' Ep].
  exists [RId 0%nat; RUnit; RUnit; RUnit; RProb 0], s'. split; [|reflexivity].
  unfold clash_history. cbn [exec].
  assert (A1 : run1 (new_sim tt) CAlloc = Ok (RId 0%nat, mkSim [(0%N, C1)] [Some 0%nat] tt 0%N [] [] [])) by reflexivity.
  rewrite A1. cbn [bind].
  assert (B1 : forall st, run1 (mkSim st [Some 0%nat] tt 0%N [] [] []) (CGate (GRx PI) 0) =
     Ok (RUnit, mkSim st [Some 0%nat] tt 0%N [Some PI] [] [])) by reflexivity.
  rewrite B1. cbn [bind].
  assert (B2 : forall st rx, run1 (mkSim st [Some 0%nat] tt 0%N rx [] []) (CGate (GRy (PI / 2)) 0) =
     Ok (RUnit, mkSim st [Some 0%nat] tt 0%N rx [Some (PI / 2)] [])) by reflexivity.
  rewrite B2. cbn [bind].
  assert (B3 : run1 (mkSim [(0%N, C1)] [Some 0%nat] tt 0%N [Some PI] [Some (PI / 2)] []) (CGate GH 0) = Ok (RUnit, afterT_h)).
  { cbn [run1 gate_call]. rewrite clashT_h. reflexivity. }
  rewrite B3. cbn [bind]. cbn [run1]. rewrite Ep. reflexivity.
Qed.
End Clash.
