(** * A concrete world and concrete histories, for examples and counterexamples *)
From Coq Require Import Reals NArith List Bool Lia Lra Permutation.
From Verif Require Import Cx Bits Arith ArithR IndexMap Sim SimExp SimApply Spec SpecExp SpecApply SpecRun SimRun.
Import ListNotations.
Local Open Scope R_scope.

(** Exact arithmetic, hash maps that keep insertion order, samples always 1/2. *)
Definition T0 : Tol := {| tol := 0 |}.
Definition E0 : @Env (@RArith T0) :=
  @Build_Env (@RArith T0) (fun l => l) unit (fun g => (1 / 2, g)).
Local Existing Instance T0.
Local Existing Instance E0.

Lemma exact0 : exact_world.
Proof.
  split; [reflexivity|]. split; [intros l; apply Permutation_refl|]. intros g. simpl. lra.
Qed.

Lemma nz_true : forall x, x = 0 -> rnz 0 x = true.
Proof. intros. subst. unfold rnz, Rleb. rewrite Rabs_R0. destruct (Rle_dec 0 0); auto. lra. Qed.
Lemma nz_false : forall x, x <> 0 -> rnz 0 x = false.
Proof.
  intros. unfold rnz, Rleb. destruct (Rle_dec (Rabs x) 0); auto. exfalso. apply H.
  destruct (Rabs_def2 x 1e-9) as [A B]; [lra|]. unfold Rabs in r. destruct (Rcase_abs x); lra.
Qed.

(** ** The defect of pending rotations *)
Definition clash_history : list call :=
  [CAlloc; CGate (GRx PI) 0; CGate (GRy (PI / 2)) 0; CGate GH 0; CJointProb [0%nat]].

Definition fac : C := (rot_m01 PI false * C1)%C.
Lemma m00_pi : anz (rot_m00 PI) = true.
Proof. simpl. rewrite (nz_true (cos (PI / 2))), (nz_true 0); auto. apply cos_PI2. Qed.
Lemma fac_not1 : ais1 fac = false.
Proof.
  unfold fac, rot_m01. simpl. unfold Reqb. destruct (Req_EM_T _ 1); auto.
  destruct (Req_EM_T _ 0); auto. exfalso. lra.
Qed.
Lemma fac_n2 : Cn2 fac = 1.
Proof. unfold fac, rot_m01, Cn2. simpl. rewrite sin_PI2. ring. Qed.
Lemma clash_h : gate_h (mkSim [(0%N, C1)] [Some 0%nat] tt 0%N [Some PI] [Some (PI / 2)] []) 0 =
  Ok (mkSim [(1%N, (C1 * fac)%C)] [Some 0%nat] tt 1%N [None] [Some (- - (PI / 2))] []).
Proof.
  unfold gate_h. cbn -[mcrotation_with]. unfold flush_queue. cbn -[mcrotation_with].
  unfold mcrotation_with. rewrite m00_pi. cbn -[ais1 rot_m01].
  change (@rot_m01 (@RArith T0) PI false * C1)%C with fac. rewrite fac_not1. cbn -[rot_m01]. reflexivity.
Qed.

Lemma looked_rx : exists r s', run1 (mkSim [(0%N, C1)] [Some 0%nat] tt 0%N [Some PI] [] []) (CIsZero 0) = Ok (r, s') /\
  im_get (rx_queue s') 0 = None.
Proof.
  cbn [run1]. unfold qubit_is_zero, joint_probability, maybe_flush_queue. cbn -[mcrotation_with]. unfold flush_queue. cbn -[mcrotation_with].
  unfold mcrotation_with. rewrite m00_pi. cbn -[ais1 rot_m01].
  change (@rot_m01 (@RArith T0) PI false * C1)%C with fac. rewrite fac_not1. cbn -[rot_m01]. eexists. eexists. split; reflexivity.
Qed.

Lemma quarter : - - (PI / 2) / 2 = PI / 4. Proof. field. Qed.
Lemma s4_pos : 0 < sin (PI / 4). Proof. pose proof PI_RGT_0. apply sin_gt_0; lra. Qed.
Lemma m00_q : anz (rot_m00 (- - (PI / 2))) = false.
Proof.
  simpl. rewrite quarter, cos_sin. replace (PI / 2 + PI / 4) with (PI - PI / 4) by field. rewrite sin_PI_x.
  rewrite nz_false; auto. pose proof s4_pos. lra.
Qed.
Lemma m01_q : anz (rot_m01 (- - (PI / 2)) true) = false.
Proof.
  unfold rot_m01. simpl. rewrite quarter. apply andb_false_intro1. apply nz_false. pose proof s4_pos.
  intros E. ring_simplify in E. lra.
Qed.
Definition after_h : sim := mkSim [(1%N, (C1 * fac)%C)] [Some 0%nat] tt 1%N [None] [Some (- - (PI / 2))] [].
Lemma clash_prob : exists s', joint_probability after_h [0%nat] = Ok (0, s').
Proof.
  unfold joint_probability, after_h. cbn -[mcrotation_with]. unfold flush_queue. cbn -[mcrotation_with fac].
  unfold mcrotation_with. rewrite m00_q, m01_q. cbn -[rot_m01 rot_m00 anz].
  match goal with |- context[Cadd ?a (Cmul ?b (@rot_m00 _ _))] =>
    match b with context[Copp] => 
      assert (Z : Cadd a (Cmul b (@rot_m00 (@RArith T0) (- - (PI / 2)))) = C0) end end.
  { unfold rot_m00, rot_m01. ared. rewrite quarter, sin_cos_PI4. apply C_eq; simpl; ring. }
  rewrite Z. replace (@anz (@RArith T0) C0) with true.
  2: { simpl. rewrite nz_true; auto. }
  match goal with |- context[if anz ?c then _ else _] => destruct (@anz (@RArith T0) c) end; cbn; eexists; reflexivity.
Qed.

Lemma clash_exec : exists rs s, exec (new_sim tt) clash_history = Ok (rs, s) /\ nth_error rs 4 = Some (RProb 0).
Proof.
  destruct clash_prob as [s' E].
  exists [RId 0%nat; RUnit; RUnit; RUnit; RProb 0], s'. split; [|reflexivity].
  unfold clash_history. cbn [exec].
  assert (A : run1 (new_sim tt) CAlloc = Ok (RId 0%nat, mkSim [(0%N, C1)] [Some 0%nat] tt 0%N [] [] [])) by reflexivity.
  rewrite A. cbn [bind].
  assert (B : forall st, run1 (mkSim st [Some 0%nat] tt 0%N [] [] []) (CGate (GRx PI) 0) =
     Ok (RUnit, mkSim st [Some 0%nat] tt 0%N [Some PI] [] [])) by reflexivity.
  rewrite B. cbn [bind].
  assert (B2 : forall st rx, run1 (mkSim st [Some 0%nat] tt 0%N rx [] []) (CGate (GRy (PI / 2)) 0) =
     Ok (RUnit, mkSim st [Some 0%nat] tt 0%N rx [Some (PI / 2)] [])) by reflexivity.
  rewrite B2. cbn [bind].
  assert (B3 : run1 (mkSim [(0%N, C1)] [Some 0%nat] tt 0%N [Some PI] [Some (PI / 2)] []) (CGate GH 0) = Ok (RUnit, after_h)).
  { cbn [run1 gate_call]. rewrite clash_h. reflexivity. }
  rewrite B3. cbn [bind]. cbn [run1]. rewrite E. reflexivity.
Qed.

(** Ideally the last qubit is certainly 1. *)
Lemma clash_ideal : born 1 [0%nat] (gate1 mH 0 (gate1 (mRy (PI / 2)) 0 (gate1 (mRx PI) 0 ket0))) = 1.
Proof.
  unfold born, qsum, basis. cbn -[gate1 Cn2]. unfold gate1. cbn -[Cn2 mH mRy mRx].
  unfold mH, mRy, mRx, mk2, ket0. cbn -[Cn2]. unfold Cn2. simpl.
  rewrite cos_PI2, sin_PI2. replace (PI / 2 / 2) with (PI / 4) by field. rewrite cos_PI4, sin_PI4.
  unfold Rdiv. set (r := / sqrt 2). assert (Q : r * r = / 2) by (unfold r; rewrite <- Rinv_mult, sqrt_sqrt; lra).
  transitivity (4 * ((r * r) * (r * r))); [ring|]. rewrite Q. field.
Qed.

(** ** A Bell pair *)
Definition bell_history : list call := [CAlloc; CAlloc; CGate GH 0; CMc GX [0%nat] 1].
Definition bell : qstate := cgate [0%nat] mX 1 (gate1 mH 0 ket0).
Lemma bell_proper : proper bell_history.
Proof.
  split; [|repeat constructor].
  simpl. split; auto. split; auto. split; auto. split; auto. split.
  - repeat constructor; simpl; intuition lia.
  - intros x [<-|[<-|[]]]; simpl; auto.
Qed.
Lemma bell_no_odd : no_odd_pi bell_history.
Proof. left. repeat constructor; simpl; auto. Qed.
Lemma bell_live : live_after bell_history = [0%nat; 1%nat].
Proof. reflexivity. Qed.
Lemma bell_vec : vec (mrun (EN := E0) draw (initial tt) bell_history) = bell.
Proof. reflexivity. Qed.
Lemma bell_born : born 2 [0%nat] bell = 1 / 2.
Proof.
  unfold born, qsum, basis. cbn -[bell Cn2]. unfold bell, cgate, gate1. cbn -[Cn2 mH mX].
  unfold mH, mX, mk2, ket0. cbn -[Cn2]. unfold Cn2. simpl.
  set (r := / sqrt 2). assert (Q : r * r = / 2) by (unfold r; rewrite <- Rinv_mult, sqrt_sqrt; lra).
  transitivity (r * r); [ring|]. rewrite Q. lra.
Qed.

(** ** A history with both rx and ry *)
Definition spin_history : list call := [CAlloc; CGate (GRx (2 * PI / 3)) 0; CGate (GRy 1) 0; CGate GH 0].
Definition thirds (a : R) : Prop := exists z : Z, a = IZR z * (2 * PI / 3).
Lemma thirds_subgroup : subgroup thirds.
Proof.
  split; [exists 0%Z; lra|split].
  - intros a [z ->]. exists (- z)%Z. rewrite opp_IZR. ring.
  - intros a b [z ->] [y ->]. exists (z + y)%Z. rewrite plus_IZR. ring.
Qed.
Lemma thirds_cos : forall a, thirds a -> cos (a / 2) <> 0.
Proof.
  intros a [z ->] H. destruct (cos_eq_0_0 _ H) as [k E]. pose proof PI_RGT_0.
  assert (Q : IZR z * 2 = IZR k * 6 + 3).
  { apply Rmult_eq_reg_l with (PI / 6); [|lra]. lra. }
  assert (Z : (z * 2 = k * 6 + 3)%Z) by (apply eq_IZR; rewrite plus_IZR, !mult_IZR; lra). lia.
Qed.
Lemma spin_proper : proper spin_history.
Proof. split; [|repeat constructor]. simpl. auto 10. Qed.
Lemma spin_no_odd : no_odd_pi spin_history.
Proof.
  right. exists thirds. split; [apply thirds_subgroup|]. split; [apply thirds_cos|].
  repeat constructor; simpl; auto. exists 1%Z. lra.
Qed.

(** ** Release of an identifier that is not allocated *)
Definition flipped : list call := [CAlloc; CGate GX 0].
Lemma flipped_proper : proper flipped.
Proof. split; [|repeat constructor]. simpl. auto. Qed.
Lemma flipped_no_odd : no_odd_pi flipped.
Proof. left. repeat constructor; simpl; auto. Qed.
Definition flipped_sim : sim := mkSim [(0%N, C1)] [Some 0%nat] tt 0%N [] [] [([], 0%nat, OX)].
Lemma flipped_exec : exec (new_sim tt) flipped = Ok ([RId 0%nat; RUnit], flipped_sim).
Proof. reflexivity. Qed.
Lemma flipped_state : exists s', get_state flipped_sim = Ok ([(1%N, C1)], 1%nat, s').
Proof. eexists. reflexivity. Qed.
Lemma flipped_release : exists s' s'', release flipped_sim 5 = Ok s' /\ get_state s' = Ok ([(0%N, C1)], 1%nat, s'').
Proof. eexists. eexists. split; reflexivity. Qed.

(** ** Gates on an identifier that is not allocated *)
Definition leak_history : list call := [CGate GH 0; CAlloc; CJointProb [0%nat]].
Lemma leak_exec : exists rs s, exec (new_sim tt) leak_history = Ok (rs, s) /\ nth_error rs 2 = Some (RProb (1 / 2)).
Proof.
  eexists. eexists. split; [reflexivity|]. simpl. f_equal. f_equal. unfold Cn2. simpl.
  set (r := / sqrt 2). assert (Q : r * r = / 2) by (unfold r; rewrite <- Rinv_mult, sqrt_sqrt; lra).
  transitivity (r * r); [ring|]. rewrite Q. lra.
Qed.
(** An error that is never reported: the pending X on the unallocated 7 is dropped. *)
Definition lost_history : list call := [CAlloc; CGate GX 7; CRelease 0; CAlloc; CState].
Lemma lost_exec : exists rs s, exec (new_sim tt) lost_history = Ok (rs, s) /\
  nth_error rs 4 = Some (RState [(0%N, C1)] 1).
Proof. eexists. eexists. split; reflexivity. Qed.

(** ** apply after a release *)
Definition hole_history : list call := [CAlloc; CAlloc; CAlloc; CSwap 0 2; CRelease 2].
Lemma hole_proper : proper hole_history.
Proof. split; [|repeat constructor]. simpl. auto 10. Qed.
Lemma hole_no_odd : no_odd_pi hole_history.
Proof. left. repeat constructor; simpl; auto. Qed.
Lemma half_lt : forall x, x = 0 -> Rltb (1 / 2) x = false.
Proof. intros x ->. unfold Rltb. destruct (Rlt_dec (1 / 2) 0); auto. lra. Qed.
Definition identity2 : nat -> nat -> C := fun i j => if Nat.eqb i j then C1 else C0.
Lemma identity2_iso : isometry 2 identity2.
Proof.
  intros v. simpl. unfold identity2. simpl. f_equal; [|f_equal]; f_equal; ring.
Qed.
Lemma hole_exec : exists rs s, exec (new_sim tt) hole_history = Ok (rs, s) /\
  exists e, apply_matrix s (@mkMatrix RArith 2 2 identity2) [0%nat] None = Panic e.
Proof.
  unfold hole_history.
  assert (A : exists rs s, exec (new_sim tt) [CAlloc; CAlloc; CAlloc; CSwap 0 2] = Ok (rs, s) /\
     s = mkSim [(0%N, C1)] [Some 2%nat; Some 1%nat; Some 0%nat] tt 0%N [] [] []).
  { eexists. eexists. split; reflexivity. }
  destruct A as [rs [s [E ->]]].
  assert (B : exists s', release (mkSim [(0%N, C1)] [Some 2%nat; Some 1%nat; Some 0%nat] tt 0%N [] [] []) 2 = Ok s' /\
    exists e, apply_matrix s' (@mkMatrix RArith 2 2 identity2) [0%nat] None = Panic e).
  { unfold release, measure. cbn -[plt collapse apply_matrix]. 
    replace (@plt (@RArith T0) (1 / 2) 0) with false by (symmetry; apply (half_lt 0 eq_refl)).
    eexists. split; [reflexivity|]. eexists. reflexivity. }
  destruct B as [s' [B1 B2]]. exists (rs ++ [RUnit]), s'. split; auto.
  change [CAlloc; CAlloc; CAlloc; CSwap 0 2; CRelease 2] with ([CAlloc; CAlloc; CAlloc; CSwap 0 2] ++ [CRelease 2]).
  assert (X : forall h1 c s rs s1 r s2, exec s h1 = Ok (rs, s1) -> run1 s1 c = Ok (r, s2) -> exec s (h1 ++ [c]) = Ok (rs ++ [r], s2)).
  { clear. induction h1 as [|a h1 IH]; simpl; intros c s rs s1 r s2 E1 E2.
    - inversion E1; subst. rewrite E2. reflexivity.
    - destruct (run1 s a) as [[ra sa]|]; [|discriminate]. simpl in *.
      destruct (exec sa h1) as [[rb sb]|] eqn:Eb; [|discriminate]. simpl in E1. inversion E1; subst.
      rewrite (IH c sa rb s1 r s2 Eb E2). reflexivity. }
  apply (X _ _ _ _ _ _ _ E). cbn [run1]. rewrite B1. reflexivity.
Qed.
Lemma bell_parity : born (width [0%nat; 1%nat]) [0%nat; 1%nat] bell = 0.
Proof.
  unfold born, qsum, basis. cbn -[bell Cn2]. unfold bell, cgate, gate1. cbn -[Cn2 mH mX].
  unfold mH, mX, mk2, ket0. cbn -[Cn2]. unfold Cn2. simpl. ring.
Qed.
Lemma bell_queue : exists rs s, @exec T0 E0 (@new_sim (@RArith T0) E0 tt) bell_history = Ok (rs, s) /\ op_queue s <> [].
Proof. eexists. eexists. split; [reflexivity|]. discriminate. Qed.
