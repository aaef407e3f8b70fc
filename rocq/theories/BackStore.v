(** * Result store, output prefix and initialisation of the backend *)
From Coq Require Import Reals NArith ZArith List Bool Lia Lra Arith.
From Verif Require Import Cx Bits Arith ArithR IndexMap Sim SimExp SimApply Spec SpecRun SimRun Text Backend SpecBackend.
Import ListNotations.

Section Store.
Context {T : Tol} {EN : Env} {D : Doubles} {SW : Shows}.

(** ** Calls that leave results and output alone *)
Definition frames {X} (m : B X) : Prop := forall b x b', m b = BOk x b' -> same_rest b b'.
Lemma same_rest_refl : forall b, same_rest b b.
Proof. split; auto. Qed.
Lemma same_rest_trans : forall a b c, same_rest a b -> same_rest b c -> same_rest a c.
Proof. intros a b c [H1 H2] [H3 H4]. split; congruence. Qed.
Lemma fr_ret : forall X (x : X), frames (bret x).
Proof. intros X x b y b' E. inversion E; subst. apply same_rest_refl. Qed.
Lemma fr_bind : forall X Y (m : B X) (f : X -> B Y), frames m -> (forall x, frames (f x)) -> frames (bbind m f).
Proof.
  intros X Y m f H1 H2 b y b' E. unfold bbind in E. destruct (m b) as [x b1|] eqn:Em; [|discriminate].
  eapply same_rest_trans; [eapply H1; eauto|eapply H2; eauto].
Qed.
Lemma fr_simcall : forall c, frames (simcall c).
Proof.
  intros c b x b' E. unfold simcall in E. destruct (run1 (bsim b) c) as [[r s]|]; inversion E; subst. split; reflexivity.
Qed.
Lemma fr_simdo : forall c, frames (simdo c).
Proof. intros. apply fr_bind; [apply fr_simcall|]. intros. apply fr_ret. Qed.
Lemma fr_simbit : forall c, frames (simbit c).
Proof. intros. apply fr_bind; [apply fr_simcall|]. intros. apply fr_ret. Qed.
Lemma fr_bfor : forall X (l : list X) f, (forall x, frames (f x)) -> frames (bfor l f).
Proof. induction l; intros f H; simpl; [apply fr_ret|]. apply fr_bind; auto. Qed.
Lemma fr_alloc_times : forall n, frames (alloc_times n).
Proof.
  induction n; cbn [alloc_times]; [apply fr_ret|]. apply fr_bind; [apply fr_simcall|]. intros. apply fr_bind; auto.
  intros b y b' E. inversion E; subst. split; reflexivity.
Qed.
Lemma fr_ensure : forall q, frames (ensure q).
Proof. intros q b x b' E. eapply fr_alloc_times; eauto. Qed.
Lemma fr_fail : forall X m, frames (@rt_fail _ _ _ X m).
Proof. intros X m b x b' E. discriminate. Qed.
Lemma fr_alloc : frames rt_qubit_allocate.
Proof.
  apply fr_bind; [apply fr_simcall|]. intros r b y b' E. inversion E; subst. split; reflexivity.
Qed.
Lemma fr_array : forall n, frames (rt_allocate_array n).
Proof.
  induction n; cbn [rt_allocate_array]; [apply fr_ret|]. apply fr_bind; [apply fr_alloc|]. intros. apply fr_bind; auto. intros. apply fr_ret.
Qed.
Ltac fr1 :=
  match goal with
  | |- frames (bret _) => apply fr_ret
  | |- frames (ensure _) => apply fr_ensure
  | |- frames (simdo _) => apply fr_simdo
  | |- frames (simbit _) => apply fr_simbit
  | |- frames (simcall _) => apply fr_simcall
  | |- frames (rt_fail _) => apply fr_fail
  | |- frames rt_qubit_allocate => apply fr_alloc
  | |- frames (rt_allocate_array _) => apply fr_array
  | |- frames (bfor _ _) => apply fr_bfor; intros
  | |- frames (bbind _ _) => apply fr_bind; [|intros]
  | |- frames (match ?x with _ => _ end) => destruct x
  | |- frames (let '(_, _) := ?x in _) => destruct x
  end.
Ltac fr := repeat fr1.
Lemma fr_map_to_z : forall ps qs, frames (map_to_z_basis ps qs).
Proof. intros. unfold map_to_z_basis, to_z. fr. Qed.

(** The effect of a call on the results. *)
Definition quiet (c : bcall) : Prop :=
  match c with
  | QMresetz _ _ | QMz _ _ | QReadResult _ | QWriteResult _ _ | QResult _ _ | QResultLegacy _ | QRecord _ | QDump _ | QFail _ | QInit => False
  | _ => True
  end.
Lemma quiet_frames : forall c, quiet c -> frames (bcall1 c).
Proof.
  intros c Q. destruct c; cbn [quiet] in Q; try contradiction; cbn [bcall1]; unfold vunit;
    unfold qis_gate, qis_c1, qis_c2, qis_ctl, qis_sx, qis_rxx, qis_ryy, qis_rzz, qis_r_adj, qis_r, qis_r_ctladj, qis_r_ctl,
      qis_exp_adj, qis_exp, qis_exp_ctladj, qis_exp_ctl, qis_swap, qis_reset, qis_m, qis_measure, api_qubit_is_zero, qis_assert,
      rt_qubit_release, rt_release_array, rt_qubit_to_string, api_capture, from_z, qis_c1, qis_gate; cbv zeta.
  all: try (unfold qis_rzz, qis_c1, qis_gate).
  all: repeat (first [apply fr_map_to_z | fr1 | progress unfold qis_ctl, rt_qubit_release]).
Qed.

Definition res_at (b : back) (i : nat) : bool := nth i (bres b) false.
Lemma nth_repeat_false : forall n i, nth i (repeat false n) false = false.
Proof. induction n; destruct i; simpl; auto. Qed.
Lemma nth_grow : forall r i j, nth j (grow_res r i) false = nth j r false.
Proof.
  intros r i j. unfold grow_res. destruct (Nat.lt_ge_cases j (length r)).
  - apply app_nth1; auto.
  - rewrite app_nth2, nth_repeat_false, nth_overflow; auto.
Qed.
Lemma len_grow : forall r i, (i < length (grow_res r i))%nat.
Proof. intros. unfold grow_res. rewrite app_length, repeat_length. lia. Qed.
Lemma nth_set : forall r i j v, (i < length r)%nat -> nth j (set_res r i v) false = if Nat.eqb i j then v else nth j r false.
Proof.
  intros r i j v H. unfold set_res. destruct (Nat.eqb_spec i j) as [->|N].
  - rewrite app_nth2; rewrite firstn_length_le by lia; auto. rewrite Nat.sub_diag. reflexivity.
  - destruct (Nat.lt_ge_cases j i).
    + rewrite app_nth1 by (rewrite firstn_length_le; lia).
      rewrite <- (firstn_skipn i r) at 2. rewrite app_nth1; auto. rewrite firstn_length_le; lia.
    + rewrite app_nth2; rewrite firstn_length_le by lia; auto. cbn [app].
      replace (j - i)%nat with (S (j - S i)) by lia. cbn [nth].
      rewrite <- (firstn_skipn (S i) r) at 2. rewrite app_nth2; rewrite firstn_length_le by lia; auto; lia.
Qed.
Lemma set_grow_nonnil : forall r i v, set_res r i v <> [].
Proof. intros r i v E. unfold set_res in E. apply app_eq_nil in E. destruct E as [_ E]. discriminate. Qed.
Lemma reads_at : forall b i v, reads_result b i v <-> res_at b i = v.
Proof.
  intros b i v. unfold reads_result, res_at. cbn [bcall1]. unfold bbind, qis_read_result, expand, get_res, bbind. cbn [with_res bres].
  rewrite nth_grow. split; [intros [b' E]; inversion E; auto|]. intros <-. eexists. reflexivity.
Qed.
Lemma vunit_ok : forall (m : B unit) b r b', vunit m b = BOk r b' -> m b = BOk tt b'.
Proof. intros m b r b' E. unfold vunit, bbind in E. destruct (m b) as [[] b1|]; inversion E; subst; auto. Qed.
Lemma mz_store : forall q i b x b', qis_mz q i b = BOk x b' ->
  (forall j, j <> i -> res_at b' j = res_at b j) /\ bres b' <> [] /\ bout b' = bout b.
Proof.
  intros q i b x b' E. unfold qis_mz, bbind in E. destruct (ensure q b) as [y b1|] eqn:E1; [|discriminate].
  destruct (fr_ensure q _ _ _ E1) as [R1 O1]. unfold expand in E. unfold put_res in E.
  destruct (simbit _ _) as [v b2|] eqn:E2; [|discriminate]. destruct (fr_simbit _ _ _ _ E2) as [R2 O2]. cbn [with_res bres bout] in *.
  inversion E; subst. unfold res_at. cbn [with_res bres bout]. split; [|split; [apply set_grow_nonnil|congruence]].
  intros j N. rewrite R2, nth_set by apply len_grow. destruct (Nat.eqb_spec i j); [congruence|]. rewrite nth_grow, R1. reflexivity.
Qed.
Lemma mresetz_store : forall q i b x b', qis_mresetz q i b = BOk x b' ->
  (forall j, j <> i -> res_at b' j = res_at b j) /\ bres b' <> [] /\ bout b' = bout b.
Proof.
  intros q i b x b' E. unfold qis_mresetz, bbind in E. destruct (ensure q b) as [y b1|] eqn:E1; [|discriminate].
  destruct (fr_ensure q _ _ _ E1) as [R1 O1]. unfold expand in E. unfold put_res in E.
  destruct (simbit _ _) as [v b2|] eqn:E2; [|discriminate]. destruct (fr_simbit _ _ _ _ E2) as [R2 O2]. cbn [with_res bres bout] in *.
  destruct ((if v then simdo (CGate GX q) else bret tt) b2) as [z b3|] eqn:E3; [|discriminate].
  assert (Fr : same_rest b2 b3) by (destruct v; [eapply fr_simdo; eauto|eapply fr_ret; eauto]). destruct Fr as [R3 O3].
  inversion E; subst. unfold res_at. cbn [with_res bres bout]. split; [|split; [apply set_grow_nonnil|congruence]].
  intros j N. rewrite R3, R2, nth_set by apply len_grow. destruct (Nat.eqb_spec i j); [congruence|]. rewrite nth_grow, R1. reflexivity.
Qed.
Lemma recorded_ok : forall i b x b', recorded i b = BOk x b' ->
  bsim b' = bsim b /\ bmax b' = bmax b /\ bout b' = bout b /\ (forall j, res_at b' j = res_at b j) /\
  (bres b = [] -> b' = b /\ x = Nat.eqb i 1) /\ (bres b <> [] -> bres b' <> [] /\ x = res_at b i).
Proof.
  intros i b x b' E. unfold recorded in E. destruct (bres b) as [|v l] eqn:Er.
  - inversion E; subst. do 4 (split; [reflexivity|]). split; [auto|]. intros H; destruct (H eq_refl).
  - unfold expand, get_res, bbind in E. inversion E; subst. cbn [with_res bsim bres bmax bout]. do 3 (split; [reflexivity|]).
    unfold res_at. cbn [with_res bres]. split; [intros; apply nth_grow|]. split; [intros; congruence|]. intros _.
    rewrite nth_grow. split; auto. rewrite Er. unfold grow_res. simpl. congruence.
Qed.
Lemma emit_ok : forall t b x b', emit t b = BOk x b' -> b' = with_out b (bout b ++ t).
Proof. intros t b x b' E. inversion E; auto. Qed.

Lemma call_store : forall c b r b' i, bcall1 c b = BOk r b' -> writes c <> Some i -> c <> QInit -> res_at b' i = res_at b i.
Proof.
  intros c b r b' i E W N. assert (Q : quiet c -> res_at b' i = res_at b i).
  { intros Q. destruct (quiet_frames c Q _ _ _ E) as [R _]. unfold res_at. rewrite R. auto. }
  destruct c; try (apply Q; exact Logic.I); cbn [bcall1] in E.
  - apply vunit_ok in E. eapply mresetz_store; eauto. intros ->. apply W. reflexivity.
  - apply vunit_ok in E. eapply mz_store; eauto. intros ->. apply W. reflexivity.
  - inversion E; subst. unfold res_at. cbn [with_res bres]. apply nth_grow.
  - inversion E; subst. unfold res_at. cbn [with_res bres]. rewrite nth_set by apply len_grow.
    destruct (Nat.eqb_spec i0 i); [subst; destruct W; reflexivity|apply nth_grow].
  - apply vunit_ok in E. destruct location; [|discriminate]. cbn [qis_dumpmachine] in E.
    unfold bbind in E. destruct (bres b) eqn:Er; cbn [bret emit] in E.
    + destruct (simcall CDump b) as [y b1|] eqn:E1; [|discriminate]. destruct (fr_simcall _ _ _ _ E1) as [R1 _].
      inversion E; subst. unfold res_at. cbn [with_out bres]. rewrite R1. auto.
    + destruct (simcall CDump _) as [y b1|] eqn:E1; [|discriminate]. destruct (fr_simcall _ _ _ _ E1) as [R1 _].
      inversion E; subst. unfold res_at. cbn [with_out bres] in *. rewrite R1. auto.
  - apply vunit_ok in E. unfold rt_result_record, bbind in E. destruct (recorded i0 b) as [v b1|] eqn:E1; [|discriminate].
    destruct (recorded_ok _ _ _ _ E1) as (_ & _ & _ & R & _). inversion E; subst. apply R.
  - apply vunit_ok in E. unfold rt_result_record_legacy, bbind in E. destruct (recorded i0 b) as [v b1|] eqn:E1; [|discriminate].
    destruct (recorded_ok _ _ _ _ E1) as (_ & _ & _ & R & _). inversion E; subst. apply R.
  - inversion E; subst. reflexivity.
  - discriminate.
  - congruence.
Qed.
Lemma bexec_cons : forall c h b rs b', bexec (c :: h) b = BOk rs b' ->
  exists r b1 rs', bcall1 c b = BOk r b1 /\ bexec h b1 = BOk rs' b' /\ rs = r :: rs'.
Proof.
  intros c h b rs b' E. cbn [bexec] in E. unfold bbind in E. destruct (bcall1 c b) as [r b1|]; [|discriminate].
  destruct (bexec h b1) as [rs' b2|] eqn:E2; [|discriminate]. inversion E; subst. eauto 6.
Qed.
Lemma bexec_mid : forall h1 h2 b rs b', bexec (h1 ++ h2) b = BOk rs b' ->
  exists rs1 b1 rs2, bexec h1 b = BOk rs1 b1 /\ bexec h2 b1 = BOk rs2 b' /\ rs = rs1 ++ rs2.
Proof.
  induction h1 as [|c h1 IH]; intros h2 b rs b' E; cbn [app] in E.
  - exists [], b, rs. auto.
  - apply bexec_cons in E. destruct E as (r & b1 & rs' & E1 & E2 & ->). apply IH in E2. destruct E2 as (rs1 & b2 & rs2 & E3 & E4 & ->).
    exists (r :: rs1), b2, rs2. split; auto. cbn [bexec]. unfold bbind. rewrite E1, E3. reflexivity.
Qed.
Lemma run_store : forall h b rs b' i, bexec h b = BOk rs b' -> Forall (fun c => writes c <> Some i /\ c <> QInit) h ->
  res_at b' i = res_at b i.
Proof.
  induction h as [|c h IH]; intros b rs b' i E F.
  - inversion E; auto.
  - apply bexec_cons in E. destruct E as (r & b1 & rs' & E1 & E2 & ->). inversion F; subst.
    rewrite (IH _ _ _ _ E2) by auto. eapply call_store; eauto; tauto.
Qed.
(** C26 *)
Lemma last_write_thm : forall h1 v i h2 b rs b', bexec (h1 ++ QWriteResult v i :: h2) b = BOk rs b' ->
  Forall (fun c => writes c <> Some i /\ c <> QInit) h2 -> reads_result b' i v.
Proof.
  intros h1 v i h2 b rs b' E F. apply bexec_mid in E. destruct E as (rs1 & b1 & rs2 & _ & E & _).
  apply bexec_cons in E. destruct E as (r & b2 & rs' & E1 & E2 & _). apply reads_at. rewrite (run_store _ _ _ _ _ E2 F).
  inversion E1; subst. unfold res_at. cbn [with_res bres]. rewrite nth_set by apply len_grow. rewrite Nat.eqb_refl. reflexivity.
Qed.
Lemma default_thm : forall h g rs b i, bexec h (back_default g) = BOk rs b ->
  Forall (fun c => writes c <> Some i /\ c <> QInit) h -> reads_result b i false.
Proof.
  intros h g rs b i E F. apply reads_at. rewrite (run_store _ _ _ _ _ E F). unfold res_at. cbn [back_default bres]. destruct i; reflexivity.
Qed.
Lemma init_thm : forall h1 h2 b rs b' i, bexec (h1 ++ QInit :: h2) b = BOk rs b' ->
  Forall (fun c => writes c <> Some i /\ c <> QInit) h2 -> reads_result b' i false.
Proof.
  intros h1 h2 b rs b' i E F. apply bexec_mid in E. destruct E as (rs1 & b1 & rs2 & _ & E & _).
  apply bexec_cons in E. destruct E as (r & b2 & rs' & E1 & E2 & _). apply reads_at. rewrite (run_store _ _ _ _ _ E2 F).
  inversion E1; subst. unfold res_at. cbn [bres]. destruct i; reflexivity.
Qed.
Lemma keep_thm : forall h b rs b' i v, bexec h b = BOk rs b' -> Forall (fun c => writes c <> Some i /\ c <> QInit) h ->
  (reads_result b' i v <-> reads_result b i v).
Proof. intros h b rs b' i v E F. rewrite !reads_at. rewrite (run_store _ _ _ _ _ E F). reflexivity. Qed.

(** ** C27 *)
Lemma call_nonnil : forall c b r b', bcall1 c b = BOk r b' -> c <> QInit -> (uses_store c \/ bres b <> []) -> bres b' <> [].
Proof.
  intros c b r b' E N H. assert (Q : quiet c -> bres b' <> []).
  { intros Q. destruct (quiet_frames c Q _ _ _ E) as [R _]. rewrite R. destruct H; auto. destruct c; contradiction. }
  destruct c; try (apply Q; exact Logic.I); cbn [bcall1] in E.
  - apply vunit_ok in E. eapply mresetz_store; eauto.
  - apply vunit_ok in E. eapply mz_store; eauto.
  - inversion E; subst. cbn [with_res bres]. intros X. assert (L := len_grow (bres b) i). rewrite X in L. simpl in L. lia.
  - inversion E; subst. cbn [with_res bres]. apply set_grow_nonnil.
  - destruct H as [[]|H]. apply vunit_ok in E. destruct location; [|discriminate]. cbn [qis_dumpmachine] in E.
    unfold bbind in E. destruct (bres b) eqn:Er; [congruence|]. cbn [emit] in E.
    destruct (simcall CDump _) as [y b1|] eqn:E1; [|discriminate]. destruct (fr_simcall _ _ _ _ E1) as [R1 _].
    inversion E; subst. cbn [with_out bres] in *. rewrite R1. congruence.
  - destruct H as [[]|H]. apply vunit_ok in E. unfold rt_result_record, bbind in E. destruct (recorded i b) as [v b1|] eqn:E1; [|discriminate].
    destruct (recorded_ok _ _ _ _ E1) as (_ & _ & _ & _ & _ & R). inversion E; subst. apply R; auto.
  - destruct H as [[]|H]. apply vunit_ok in E. unfold rt_result_record_legacy, bbind in E. destruct (recorded i b) as [v b1|] eqn:E1; [|discriminate].
    destruct (recorded_ok _ _ _ _ E1) as (_ & _ & _ & _ & _ & R). inversion E; subst. apply R; auto.
  - destruct H as [[]|H]. inversion E; subst. auto.
  - discriminate.
  - congruence.
Qed.
Lemma run_nonnil : forall h b rs b', bexec h b = BOk rs b' -> ~ In QInit h -> (Exists uses_store h \/ bres b <> []) -> bres b' <> [].
Proof.
  induction h as [|c h IH]; intros b rs b' E N H.
  - inversion E; subst. destruct H as [H|H]; auto. inversion H.
  - apply bexec_cons in E. destruct E as (r & b1 & rs' & E1 & E2 & ->). simpl in N. eapply IH; eauto.
    assert (Nc : c <> QInit) by (intros ->; apply N; auto).
    destruct H as [H|H]; [inversion H; subst|]; auto; right; eapply call_nonnil; eauto.
Qed.
Lemma call_nil : forall c b r b', bcall1 c b = BOk r b' -> ~ uses_store c -> bres b = [] -> bres b' = [].
Proof.
  intros c b r b' E N H. assert (Q : quiet c -> bres b' = []).
  { intros Q. destruct (quiet_frames c Q _ _ _ E) as [R _]. rewrite R. auto. }
  destruct c; try (apply Q; exact Logic.I); cbn [uses_store] in N; try (destruct (N Logic.I)); cbn [bcall1] in E.
  - apply vunit_ok in E. destruct location; [|discriminate]. cbn [qis_dumpmachine] in E.
    unfold bbind in E. rewrite H in E. cbn [bret] in E.
    destruct (simcall CDump _) as [y b1|] eqn:E1; [|discriminate]. destruct (fr_simcall _ _ _ _ E1) as [R1 _].
    inversion E; subst. cbn [with_out bres] in *. congruence.
  - apply vunit_ok in E. unfold rt_result_record, bbind in E. destruct (recorded i b) as [v b1|] eqn:E1; [|discriminate].
    destruct (recorded_ok _ _ _ _ E1) as (_ & _ & _ & _ & R & _). destruct (R H) as [-> _]. inversion E; subst. auto.
  - apply vunit_ok in E. unfold rt_result_record_legacy, bbind in E. destruct (recorded i b) as [v b1|] eqn:E1; [|discriminate].
    destruct (recorded_ok _ _ _ _ E1) as (_ & _ & _ & _ & R & _). destruct (R H) as [-> _]. inversion E; subst. auto.
  - inversion E; subst. auto.
  - discriminate.
  - inversion E; subst. auto.
Qed.
Lemma run_nil : forall h b rs b', bexec h b = BOk rs b' -> ~ Exists uses_store h -> bres b = [] -> bres b' = [].
Proof.
  induction h as [|c h IH]; intros b rs b' E N H.
  - inversion E; subst. auto.
  - apply bexec_cons in E. destruct E as (r & b1 & rs' & E1 & E2 & ->). eapply IH; eauto.
    eapply call_nil; eauto.
Qed.
(** What the two record calls print. *)
Definition prints (b : back) (i : nat) (v : bool) : Prop :=
  (forall tag, exists b', bcall1 (QResult i tag) b = BOk VUnit b' /\ bout b' = bout b ++ render (RecResult v tag)) /\
  exists b', bcall1 (QResultLegacy i) b = BOk VUnit b' /\ bout b' = bout b ++ render (LegResult v).
Lemma recorded_total : forall i b, exists x b', recorded i b = BOk x b'.
Proof. intros. unfold recorded, expand, get_res, bbind. destruct (bres b); eauto. Qed.
Lemma prints_ok : forall b i v, (bres b = [] -> v = Nat.eqb i 1) -> (bres b <> [] -> v = res_at b i) -> prints b i v.
Proof.
  intros b i v H1 H2. destruct (recorded_total i b) as (x & b1 & E). destruct (recorded_ok _ _ _ _ E) as (_ & _ & O & _ & R1 & R2).
  assert (Dc : bres b = [] \/ bres b <> []) by (destruct (bres b); [left; auto|right; congruence]).
  assert (x = v) by (destruct Dc as [Dc|Dc]; [rewrite (proj2 (R1 Dc)), (H1 Dc)|rewrite (proj2 (R2 Dc)), (H2 Dc)]; reflexivity).
  subst x. split.
  - intros tag. cbn [bcall1]. unfold vunit, rt_result_record, bbind. rewrite E. cbn [emit bret]. eexists. split; [reflexivity|].
    cbn [with_out bout]. congruence.
  - cbn [bcall1]. unfold vunit, rt_result_record_legacy, bbind. rewrite E. cbn [emit bret]. eexists. split; [reflexivity|].
    cbn [with_out bout]. congruence.
Qed.
Lemma static_record_thm : forall h g rs b i v, bexec h (back_default g) = BOk rs b -> ~ In QInit h -> Exists uses_store h ->
  reads_result b i v -> prints b i v.
Proof.
  intros h g rs b i v E N H R. apply reads_at in R. assert (X := run_nonnil _ _ _ _ E N (or_introl H)).
  apply prints_ok; intros; congruence.
Qed.
Lemma dynamic_record_thm : forall h g rs b i, bexec h (back_default g) = BOk rs b -> ~ Exists uses_store h ->
  prints b i (Nat.eqb i 1).
Proof.
  intros h g rs b i E N. assert (X := run_nil _ _ _ _ E N eq_refl). apply prints_ok; auto. congruence.
Qed.

(** ** C28: what the output buffer holds does not matter *)
Definition after (o : text) (b : back) : back := with_out b (o ++ bout b).
Definition pre {X} (o : text) (r : bresult X) : bresult X :=
  match r with BOk x b => BOk x (after o b) | BErr e u => BErr e (o ++ u) end.
Definition blind {X} (m : B X) : Prop := forall o b, m (after o b) = pre o (m b).
Lemma bl_ret : forall X (x : X), blind (bret x).
Proof. intros X x o b. reflexivity. Qed.
Lemma bl_bind : forall X Y (m : B X) (f : X -> B Y), blind m -> (forall x, blind (f x)) -> blind (bbind m f).
Proof. intros X Y m f H1 H2 o b. unfold bbind. rewrite H1. destruct (m b); simpl; auto. apply H2. Qed.
Lemma bl_simcall : forall c, blind (simcall c).
Proof. intros c o b. unfold simcall, after. cbn [with_out bsim bout]. destruct (run1 (bsim b) c) as [[r s]|]; reflexivity. Qed.
Lemma bl_simdo : forall c, blind (simdo c).
Proof. intros. apply bl_bind; [apply bl_simcall|]. intros. apply bl_ret. Qed.
Lemma bl_simbit : forall c, blind (simbit c).
Proof. intros. apply bl_bind; [apply bl_simcall|]. intros. apply bl_ret. Qed.
Lemma bl_bfor : forall X (l : list X) f, (forall x, blind (f x)) -> blind (bfor l f).
Proof. induction l; intros f H; simpl; [apply bl_ret|]. apply bl_bind; auto. Qed.
Lemma bl_alloc_times : forall n, blind (alloc_times n).
Proof.
  induction n; cbn [alloc_times]; [apply bl_ret|]. apply bl_bind; [apply bl_simcall|]. intros. apply bl_bind; auto.
  intros o b. reflexivity.
Qed.
Lemma bl_ensure : forall q, blind (ensure q).
Proof. intros q o b. apply (bl_alloc_times (S q - bmax b)). Qed.
Lemma bl_fail : forall X m, blind (@rt_fail _ _ _ X m).
Proof. intros X m o b. unfold rt_fail. cbn [pre]. rewrite app_assoc. reflexivity. Qed.
Lemma bl_emit : forall t, blind (emit t).
Proof. intros t o b. unfold emit, after. cbn [with_out pre bout bsim bres bmax]. unfold after. cbn [with_out bout bsim bres bmax]. rewrite app_assoc. reflexivity. Qed.
Lemma bl_alloc : blind rt_qubit_allocate.
Proof. apply bl_bind; [apply bl_simcall|]. intros r o b. reflexivity. Qed.
Lemma bl_array : forall n, blind (rt_allocate_array n).
Proof.
  induction n; cbn [rt_allocate_array]; [apply bl_ret|]. apply bl_bind; [apply bl_alloc|]. intros. apply bl_bind; auto. intros. apply bl_ret.
Qed.
Lemma bl_expand : forall i, blind (expand i).
Proof. intros i o b. reflexivity. Qed.
Lemma bl_put : forall i v, blind (put_res i v).
Proof. intros i v o b. reflexivity. Qed.
Lemma bl_get : forall i, blind (get_res i).
Proof. intros i o b. reflexivity. Qed.
Lemma bl_recorded : forall i, blind (recorded i).
Proof. intros i o b. unfold recorded. cbn [after with_out bres]. destruct (bres b); reflexivity. Qed.
Lemma bl_dump : forall l, blind (qis_dumpmachine l).
Proof.
  destruct l; intros o b; cbn [qis_dumpmachine]; [|reflexivity]. cbn [after with_out bres].
  destruct (bres b); apply bl_bind; try apply bl_ret; try apply bl_emit; intros; apply bl_bind; try apply bl_simcall; intros; apply bl_emit.
Qed.
Ltac bl1 :=
  match goal with
  | |- blind (bret _) => apply bl_ret
  | |- blind (ensure _) => apply bl_ensure
  | |- blind (simdo _) => apply bl_simdo
  | |- blind (simbit _) => apply bl_simbit
  | |- blind (simcall _) => apply bl_simcall
  | |- blind (rt_fail _) => apply bl_fail
  | |- blind (emit _) => apply bl_emit
  | |- blind (expand _) => apply bl_expand
  | |- blind (put_res _ _) => apply bl_put
  | |- blind (get_res _) => apply bl_get
  | |- blind (recorded _) => apply bl_recorded
  | |- blind (qis_dumpmachine _) => apply bl_dump
  | |- blind rt_qubit_allocate => apply bl_alloc
  | |- blind (rt_allocate_array _) => apply bl_array
  | |- blind (bfor _ _) => apply bl_bfor; intros
  | |- blind (bbind _ _) => apply bl_bind; [|intros]
  | |- blind (match ?x with _ => _ end) => destruct x
  | |- blind (let '(_, _) := ?x in _) => destruct x
  end.
Lemma bl_map_to_z : forall ps qs, blind (map_to_z_basis ps qs).
Proof. intros. unfold map_to_z_basis, to_z. repeat bl1. Qed.
Lemma bl_call : forall c, blind (bcall1 c).
Proof.
  intros c. destruct c; cbn [bcall1]; unfold vunit;
    unfold qis_gate, qis_c1, qis_c2, qis_ctl, qis_sx, qis_rxx, qis_ryy, qis_rzz, qis_r_adj, qis_r, qis_r_ctladj, qis_r_ctl,
      qis_exp_adj, qis_exp, qis_exp_ctladj, qis_exp_ctl, qis_swap, qis_reset, qis_m, qis_measure, api_qubit_is_zero, qis_assert,
      rt_qubit_release, rt_release_array, rt_qubit_to_string, api_capture, from_z, qis_c1, qis_gate, qis_mresetz, qis_mz,
      qis_read_result, rt_write_result, rt_result_record, rt_result_record_legacy; cbv zeta.
  all: try (unfold qis_rzz, qis_c1, qis_gate).
  all: repeat (first [apply bl_map_to_z | bl1 | progress unfold qis_ctl, rt_qubit_release]).
  intros o b. reflexivity.
Qed.
Lemma bl_exec : forall h, blind (bexec h).
Proof. induction h; cbn [bexec]; repeat bl1; auto. apply bl_call. Qed.

Definition outcome_of {X} (r : bresult X) : (X * gen * text) + (berr * text) :=
  match r with BOk x b => inl (x, rng (bsim b), bout b) | BErr e o => inr (e, o) end.
Lemma init_fresh_thm : forall h b,
  bexec (QInit :: h) b = pre (bout b) (match bexec h (back_default (rng (bsim b))) with BOk rs b' => BOk (VUnit :: rs) b' | BErr e o => BErr e o end).
Proof.
  intros h b. cbn [bexec]. unfold bbind. cbn [bcall1]. unfold vunit, bbind, rt_initialize. cbn [bret].
  replace (mkBack (new_sim (rng (bsim b))) [] 0 (bout b)) with (after (bout b) (back_default (rng (bsim b)))).
  - rewrite bl_exec. destruct (bexec h (back_default (rng (bsim b)))); reflexivity.
  - unfold after, back_default, with_out. cbn [bout bsim bres bmax]. rewrite app_nil_r. reflexivity.
Qed.
End Store.
