(** * Property lemmas on misuse and on the queue *)
From Coq Require Import Reals NArith List Bool Arith Lia Lra.
From Verif Require Import Cx Arith ArithR IndexMap Bits Sim SimExp SimApply IndexMapLemmas Spec SpecRun SimRun Abs RunLemmas SimProps Misuse RunThms.
Import ListNotations.

Section MT.
Context {T : Tol} {EN : Env}.
Ltac inv H := inversion H; subst; clear H.
Ltac bindH H :=
  match type of H with
  | bind ?m _ = Ok _ =>
      let x := fresh "x" in let E := fresh "E" in
      destruct m as [x|] eqn:E; simpl in H; [|discriminate]
  end.
Lemma quietly_ok : forall m r s', quietly m = Ok (r, s') -> m = Ok s'.
Proof. intros m r s' H. unfold quietly in H. bindH H. inv H. auto. Qed.

Lemma gate_call_frame : forall g s t s', gate_call g s t = Ok s' -> frame s s'.
Proof.
  intros g s t s' H. destruct g; simpl in H;
  first [eapply gate_x_frame; eassumption|eapply gate_y_frame; eassumption|eapply gate_z_frame; eassumption|eapply gate_h_frame; eassumption
    |eapply diag_checked; eassumption|eapply gate_rx_frame; eassumption|eapply gate_ry_frame; eassumption].
Qed.
Lemma mc_call_frame : forall g s cs t s', mc_call g s cs t = Ok s' -> frame s s'.
Proof.
  intros g s cs t s' H. destruct g; simpl in H;
  first [eapply mcx_checked; eassumption|eapply mcy_checked; eassumption|eapply mcz_checked; eassumption|eapply mch_checked; eassumption
    |eapply mcdiag_checked; eassumption|eapply mcrx_frame; eassumption|eapply mcry_frame; eassumption].
Qed.
(** ** One call *)
Lemma run1_len : forall s c r s', run1 s c = Ok (r, s') ->
  (N.of_nat (length (op_queue s)) <= 10000)%N -> (N.of_nat (length (op_queue s')) <= 10000)%N.
Proof.
  intros s c r s' H. destruct c; simpl in H; try apply quietly_ok in H.
  - apply gate_call_frame in H. apply H.
  - apply mc_call_frame in H. apply H.
  - apply mcphase_checked in H. apply H.
  - unfold exp_gate in H. apply mcexp_checked in H. apply H.
  - apply mcexp_checked in H. apply H.
  - apply apply_checked in H. apply H.
  - inv H. auto.
  - apply release_queue in H. apply H.
  - apply swap_ids_frame in H. apply H.
  - bindH H. destruct x. inv H. apply measure_frame in E. apply E.
  - bindH H. destruct x. inv H. apply joint_measure_frame in E. apply E.
  - bindH H. destruct x. inv H. apply joint_prob_frame in E. apply E.
  - unfold qubit_is_zero in H. bindH H. bindH E. destruct x0. inv E. inv H. apply joint_prob_frame in E0. apply E0.
  - bindH H. destruct x. inv H. apply force_frame in E. apply E.
  - bindH H. destruct x as [[st n] s1]. inv H. apply get_state_frame in E. apply E.
  - bindH H. destruct x as [st s1]. inv H. apply dump_frame in E. apply E.
Qed.
Lemma queue_thm : forall g h rs s, exec (new_sim g) h = Ok (rs, s) -> (N.of_nat (length (op_queue s)) <= 10000)%N.
Proof.
  assert (G : forall h s0 rs s, exec s0 h = Ok (rs, s) -> (N.of_nat (length (op_queue s0)) <= 10000)%N -> (N.of_nat (length (op_queue s)) <= 10000)%N).
  { induction h as [|c h IH]; simpl; intros s0 rs s H L; [inv H; auto|]. bindH H. destruct x as [r s1]. bindH H. destruct x as [rs1 s2]. inv H.
    eapply IH; eauto. eapply run1_len; eauto. }
  intros g h rs s H. eapply G; eauto. simpl. lia.
Qed.
(** With a bad operation queued, nothing but allocation or the release of the only qubit goes on as usual. *)
Lemma run1_stuck : forall s c r s', stuck s -> c <> CAlloc -> (is_release c -> length (im_iter (id_map s)) <> 1%nat) ->
  run1 s c = Ok (r, s') -> frame s s' /\ ~ reads c.
Proof.
  intros s c r s' X NA NR H. destruct c; simpl in H; try apply quietly_ok in H.
  - apply gate_call_frame in H. simpl; tauto.
  - apply mc_call_frame in H. simpl; tauto.
  - apply mcphase_checked in H. tauto.
  - unfold exp_gate in H. apply mcexp_checked in H. tauto.
  - apply mcexp_checked in H. tauto.
  - apply apply_checked in H. tauto.
  - congruence.
  - exfalso. apply release_queue in H. destruct H as [_ H]. specialize (NR I). tauto.
  - apply swap_ids_frame in H. tauto.
  - bindH H. destruct x. inv H. apply measure_frame in E. tauto.
  - bindH H. destruct x. inv H. apply joint_measure_frame in E. tauto.
  - bindH H. destruct x. inv H. apply joint_prob_frame in E. tauto.
  - unfold qubit_is_zero in H. bindH H. bindH E. destruct x0. inv E. inv H. apply joint_prob_frame in E0. tauto.
  - bindH H. destruct x. inv H. apply force_frame in E. tauto.
  - bindH H. destruct x as [[st n] s1]. inv H. apply get_state_frame in E. tauto.
  - bindH H. destruct x as [st s1]. inv H. apply dump_frame in E. tauto.
Qed.
Lemma keys_same : forall s s', (forall q, allocd s' q <-> allocd s q) -> length (im_iter (id_map s')) = length (im_iter (id_map s)).
Proof.
  intros s s' H. rewrite !im_iter_keys_length. f_equal. apply im_keys_ext. intros q. specialize (H q). unfold allocd in H.
  assert (Z : forall m : imap nat, (exists v, im_get m q = Some v) <-> im_get m q <> None).
  { intros m. destruct (im_get m q); split; try congruence; eauto. intros [v Hv]. discriminate. }
  rewrite !Z. exact H.
Qed.
Lemma stuck_end : forall later s o rs s', stuck s -> Forall (fun c => c <> CAlloc) later ->
  (length (im_iter (id_map s)) <> 1%nat \/ Forall (fun c => ~ is_release c) later) -> reads o ->
  exec s (later ++ [o]) = Ok (rs, s') -> False.
Proof.
  induction later as [|c later IH]; simpl; intros s o rs s' X NA NR RO H; bindH H; destruct x as [r s1].
  - destruct (run1_stuck s o r s1 X) as [_ K]; auto; destruct o; simpl in *; try tauto; discriminate.
  - bindH H. destruct x as [rs1 s2]. inversion NA; subst. destruct (run1_stuck s c r s1 X) as [F _]; auto.
    + intros RC. destruct NR as [?|NR]; auto. inversion NR; tauto.
    + eapply IH; [eapply stuck_frame; eauto|auto| |exact RO|exact E0].
      rewrite (keys_same s s1 (fr_keys _ _ F)). destruct NR as [?|NR]; auto. right. inversion NR; auto.
Qed.
(** ** A gate with bad identifiers *)
Lemma anz_rot : forall th b, (tol < Rabs (sin (th / 2)))%R -> anz (rot_m01 th b) = false.
Proof.
  intros th b L. apply not_true_is_false. intros A. revert A. unfold rot_m01, anz. cbn -[Rabs]. intros A. apply andb_prop in A. destruct A as [A1 A2].
  unfold rnz, Rleb in A1, A2. destruct b; cbn -[Rabs] in A1, A2;
  repeat match type of A1 with context[Rle_dec ?x ?y] => destruct (Rle_dec x y); [|discriminate] end;
  repeat match type of A2 with context[Rle_dec ?x ?y] => destruct (Rle_dec x y); [|discriminate] end.
  - match type of r with (Rabs ?x <= _)%R => replace x with (- sin (th / 2))%R in r by ring end. rewrite Rabs_Ropp in r. lra.
  - match type of r0 with (Rabs ?x <= _)%R => replace x with (- sin (th / 2))%R in r0 by ring end. rewrite Rabs_Ropp in r0. lra.
Qed.
Lemma gate_bad : forall s c r s', checked_gate c -> bad_ids s (names c) -> run1 s c = Ok (r, s') -> frame s s' /\ stuck s'.
Proof.
  intros s c r s' G B H. destruct c; simpl in G; try tauto; simpl in H; apply quietly_ok in H; simpl in B.
  - destruct g; simpl in *; try tauto;
    first [apply gate_x_bad in H; tauto|apply gate_y_bad in H; tauto|apply gate_z_bad in H; tauto|apply diag_checked in H; tauto].
  - destruct g; simpl in *;
    first [apply mcx_checked in H; tauto|apply mcy_checked in H; tauto|apply mcz_checked in H; tauto|apply mch_checked in H; tauto
      |apply mcdiag_checked in H; tauto|exfalso; apply mcrx_bad in H; auto; rewrite anz_rot in H; auto; discriminate
      |exfalso; apply mcry_bad in H; auto; rewrite anz_rot in H; auto; discriminate].
  - apply mcphase_checked in H. tauto.
  - unfold exp_gate in H. apply mcexp_checked in H. tauto.
  - apply mcexp_checked in H. tauto.
  - apply apply_checked in H. tauto.
Qed.
Lemma misuse_bad : forall s l c, ids s = l -> misuse l c -> bad_ids s (names c).
Proof.
  intros s l c E [N|[q [I Q]]]; [left; auto|right]. exists q. split; auto. intros A. apply Q. rewrite <- E. unfold ids. apply im_keys_In.
  unfold allocd in A. destruct (im_get (id_map s) q); eauto. congruence.
Qed.
Lemma live_ids : order_ok -> forall g h rs s, valid_run (mkBook [] true) h -> exec (new_sim g) h = Ok (rs, s) -> ids s = live_after h.
Proof. intros Ho g h rs s V E. exact (tr_ids _ _ (tracks_reached Ho g h rs s V E)). Qed.
Lemma misuse_thm : order_ok -> forall g h rs s c later o,
  valid_run (mkBook [] true) h -> exec (new_sim g) h = Ok (rs, s) ->
  checked_gate c -> misuse (live_after h) c ->
  Forall (fun c => c <> CAlloc) later -> (length (live_after h) <> 1%nat \/ Forall (fun c => ~ is_release c) later) -> reads o ->
  exists e, exec s (c :: later ++ [o]) = Panic e.
Proof.
  intros Ho g h rs s c later o V E G M NA NR RO.
  destruct (exec s (c :: later ++ [o])) as [[rs' s']|e] eqn:X; [exfalso|eauto].
  simpl in X. bindH X. destruct x as [r s1]. bindH X. destruct x as [rs2 s2].
  pose proof (live_ids Ho g h rs s V E) as L.
  destruct (gate_bad s c r s1 G (misuse_bad _ _ _ L M) E0) as [F S1].
  eapply stuck_end; eauto. rewrite (keys_same s s1 (fr_keys _ _ F)). rewrite im_iter_keys_length. fold (ids s). rewrite L. auto.
Qed.
Lemma read_bad : forall s c r s', reads c \/ (exists a b, c = CSwap a b) -> bad_ids s (names c) -> run1 s c = Ok (r, s') -> False.
Proof.
  intros s c r s' G B H.
  destruct c; simpl in G; try (destruct G as [[]|[? [? ?]]]; discriminate); clear G; simpl in B, H; try apply quietly_ok in H.
  - apply swap_ids_frame in H. destruct H as [_ [_ [A1 A2]]]. destruct (Nat.eqb_spec a b).
    + destruct B as [N|[q [[<-|[]] Q]]]; [|auto]. apply N. repeat constructor; auto.
    + destruct B as [N|[q [[<-|[<-|[]]] Q]]]; [|auto|auto]. apply N. repeat constructor; simpl; auto. intros [?|[]]; auto.
  - bindH H. destruct x. apply measure_frame in E. destruct E as [_ [_ E]]. destruct B as [N|[x [[<-|[]] Q]]]; [|auto]. apply N. repeat constructor; auto.
  - bindH H. destruct x. inv H. apply joint_measure_frame in E. tauto.
  - bindH H. destruct x. inv H. apply joint_prob_frame in E. tauto.
  - unfold qubit_is_zero in H. bindH H. bindH E. destruct x0. inv E. inv H. apply joint_prob_frame in E0. tauto.
  - bindH H. destruct x. apply force_frame in E. destruct E as [_ [_ E]]. destruct B as [N|[x [[<-|[]] Q]]]; [|auto]. apply N. repeat constructor; auto.
  - destruct B as [N|[q [[] _]]]. apply N. constructor.
  - destruct B as [N|[q [[] _]]]. apply N. constructor.
Qed.
Lemma misread_thm : order_ok -> forall g h rs s c, valid_run (mkBook [] true) h -> exec (new_sim g) h = Ok (rs, s) ->
  reads c \/ (exists a b, c = CSwap a b) -> misuse (live_after h) c -> exists e, run1 s c = Panic e.
Proof.
  intros Ho g h rs s c V E G M. destruct (run1 s c) as [[r s']|e] eqn:X; [exfalso|eauto].
  eapply read_bad; eauto. exact (misuse_bad _ _ _ (live_ids Ho g h rs s V E) M).
Qed.
Lemma limit_thm : exact_world -> forall s l psi, reached s l -> shows s l psi -> exists s', flush_ops s = Ok s' /\ shows s' l psi.
Proof.
  intros EW s l psi R Sh. destruct (flush_thm EW s l psi [] LHRxRy R Sh) as [s' [H [_ S']]]; [intros ? []|]. eauto.
Qed.
End MT.
