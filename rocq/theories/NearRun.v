(** * Histories up to the amplitudes dropped below the threshold *)
From Coq Require Import Reals NArith List Bool Lia Lra Permutation Arith Sorted FunctionalExtensionality.
From Verif Require Import Cx Arith ArithR IndexMap IndexMapLemmas Bits BitsLemmas Spec QLib QSum Sim SimExp SimApply SpecExp
  SpecApply StateLemmas Loc Abs Gates Gates2 Meas Reg ExpLemmas ApplyLemmas SpecRun SpecLemmas SimRun RunLemmas
  SpecNear Near NearGates NearGates2 NearExp.
Import ListNotations.
Local Open Scope R_scope.

Lemma ct_swap : forall n a b, (a < n)%nat -> (b < n)%nat -> contraction n (swap_qubits a b).
Proof.
  intros. constructor; intros; [reflexivity|]. rewrite norm2_swap; auto. lra.
Qed.

Section NR.
Context {T : Tol} {EN : Env}.
Hypothesis horder_perm : horder_ok.
Hypothesis tol_lo : 0 <= tol.
Hypothesis tol_hi : tol <= 1 / 2.
Variable w : nat.

Notation nearw := (near w).
Notation nst := (NearGates.nst w).

(** ** Listings and probabilities *)
Lemma canonicalize_n : forall s s' l, wf s -> canonicalize s = Ok (s', l) ->
  bounds w s -> norm2 w (abs s) <= 1 ->
  nearw (3 * length (ids s)) (abs s') (abs s) /\ norm2 w (abs s') <= norm2 w (abs s).
Proof.
  intros s s' l W E B N. unfold canonicalize in E. fold (ids s) in E.
  assert (A : Forall (alloc s) (ids s)).
  { rewrite Forall_forall. intros. apply ids_In; auto. }
  destruct (flush_queue_n horder_perm tol_lo tol_hi w LHRxRy (ids s) s W A) as [s1 [E1 [G1 [L1 [_ [D1 Q1]]]]]].
  rewrite E1 in E. cbn [bind] in E.
  assert (Qt : quiet s1).
  { split; auto. intros q. destruct (in_dec Nat.eq_dec q (ids s)); [apply D1; auto|].
    assert (NA : ~ alloc s1 q) by (rewrite (nst_alloc _ _ _ _ _ q G1), <- ids_In; auto).
    pose proof (ns_wf _ _ _ _ _ G1) as W1. unfold no_pend.
    destruct (bit (h_flag s1) q) eqn:Eh; [exfalso; apply NA, (wf_h _ W1); auto|].
    destruct (im_get (rx_queue s1) q) eqn:Ex; [exfalso; apply NA; eapply (wf_rx _ W1); eauto|].
    destruct (im_get (ry_queue s1) q) eqn:Ey; [exfalso; apply NA; eapply (wf_ry _ W1); eauto|]. auto. }
  assert (A1 : Forall (alloc s1) (ids s)) by (eapply nst_Forall; eauto).
  destruct (place_keys_ok (ids s) [] s1 (ns_wf _ _ _ _ _ G1) Qt) as [s2 [E2 [S2 P2]]]; auto.
  { simpl. apply ids_nodup. }
  { intros [|j] q; discriminate. }
  unfold enumerate in E. simpl in E2. rewrite E2 in E. cbn [bind] in E. inversion E; subst s2. destruct S2.
  rewrite sr_abs. destruct (ns_near _ _ _ _ _ G1 B N) as [_ H]. exact H.
Qed.

Lemma get_state_n : forall s st n s', wf s -> get_state s = Ok (st, n, s') ->
  bounds w s -> norm2 w (abs s) <= 1 ->
  nearw (3 * length (ids s)) (abs s') (abs s) /\ norm2 w (abs s') <= norm2 w (abs s).
Proof.
  intros s st n s' W E. unfold get_state in E. destruct (canonicalize s) as [[s1 l]|] eqn:Ec; [|discriminate].
  simpl in E. inversion E; subst. eapply canonicalize_n; eauto.
Qed.
Lemma dump_n : forall s st s', wf s -> dump s = Ok (st, s') ->
  bounds w s -> norm2 w (abs s) <= 1 ->
  nearw (3 * length (ids s)) (abs s') (abs s) /\ norm2 w (abs s') <= norm2 w (abs s).
Proof.
  intros s st s' W E. unfold dump in E. destruct (canonicalize s) as [[s1 l]|] eqn:Ec; [|discriminate].
  simpl in E. destruct (canonicalize_ok horder_perm s W) as [s2 [E2 [_ [_ [W2 _]]]]]. rewrite Ec in E2.
  inversion E2; subst s2. inversion E; subst.
  intros B N. destruct (canonicalize_n s s1 _ W Ec B N) as [H1 H2].
  match goal with |- context[abs ?x] => replace (abs x) with (abs s1) end; auto.
  symmetry. apply abs_perm_state; auto. apply sort_state_perm.
Qed.
Lemma joint_probability_n : forall s qs p s', wf s -> NoDup qs -> Forall (alloc s) qs ->
  joint_probability s qs = Ok (p, s') ->
  bounds w s -> norm2 w (abs s) <= 1 ->
  p = born w qs (abs s') /\
  nearw (3 * length qs) (abs s') (abs s) /\ norm2 w (abs s') <= norm2 w (abs s).
Proof.
  intros s qs p s' W D A E B N.
  destruct (joint_probability_ok horder_perm s qs W D A) as [p1 [s1 [E' [_ [_ [_ [Hp _]]]]]]].
  rewrite E in E'. inversion E'; subst p1 s1. split; [apply Hp; auto|]. clear E' Hp.
  unfold joint_probability in E.
  destruct (maybe_flush_n horder_perm tol_lo tol_hi w qs s W A) as [s1 [E1 [G1 [L1 [_ D1]]]]].
  rewrite E1 in E. cbn [bind] in E. unfold check_for_duplicates in E. rewrite check_dup_ok in E by auto. cbn [bind] in E.
  assert (A1 : Forall (alloc s1) qs) by (eapply nst_Forall; eauto).
  destruct (mapM_find_ok s1 qs A1) as [locs [E2 R2]]. rewrite E2 in E. cbn [bind] in E.
  destruct (check_joint_ok s1 qs locs (ns_wf _ _ _ _ _ G1) D R2) as [p2 [s2 [E3 [C3 [Q3 [K3 B3]]]]]].
  rewrite E3 in E. inversion E; subst p2 s2.
  assert (Ab : abs s' = abs s1).
  { unfold abs. rewrite (frame_ids _ _ (cs_frame _ _ _ C3)), K3. apply pendl_ext. intros. apply frame_pm. apply C3. }
  rewrite Ab. destruct (ns_near _ _ _ _ _ G1 B N) as [_ H]. exact H.
Qed.

(** ** One call *)
Definition moved (s s' : sim) (c : call) (n : nat) : Prop :=
  exists k F, Cn2 k = 1 /\ contraction w F /\ (forall d psi, F (scale d psi) = scale d (F psi)) /\
    (forall l psi x, vstep l psi x (effective s c) = F psi) /\
    nearw n (abs s') (scale k (F (abs s))) /\ norm2 w (abs s') <= norm2 w (abs s).

Lemma moved_nst : forall s s' c n j k F, nst j s s' (fun psi => scale k (F psi)) -> (j <= n)%nat -> Cn2 k = 1 ->
  (bounds w s -> contraction w F) -> (forall d psi, F (scale d psi) = scale d (F psi)) ->
  (forall l psi x, vstep l psi x (effective s c) = F psi) ->
  bounds w s -> norm2 w (abs s) <= 1 -> moved s s' c n.
Proof.
  intros s s' c n j k F G L K Ct Li V B N. destruct (ns_near _ _ _ _ _ G B N) as [_ [H1 H2]].
  exists k, F. repeat (split; auto). eapply near_mono; eauto.
Qed.
Lemma moved_nst1 : forall s s' c n j F, nst j s s' F -> (j <= n)%nat ->
  (bounds w s -> contraction w F) -> (forall d psi, F (scale d psi) = scale d (F psi)) ->
  (forall l psi x, vstep l psi x (effective s c) = F psi) ->
  bounds w s -> norm2 w (abs s) <= 1 -> moved s s' c n.
Proof.
  intros s s' c n j F G. intros. eapply (moved_nst s s' c n j C1 F); eauto using Cn2_C1.
  eapply nst_ext; [exact G|]. intros. now rewrite scale_1.
Qed.
Lemma moved_id : forall s s' c n, nearw n (abs s') (abs s) -> norm2 w (abs s') <= norm2 w (abs s) ->
  (forall l psi x, vstep l psi x (effective s c) = psi) -> moved s s' c n.
Proof.
  intros s s' c n H1 H2 V. exists C1, (fun x => x). repeat (split; auto using Cn2_C1, ct_id).
  now rewrite scale_1.
Qed.

Ltac same_ok E := match type of E with _ = Ok ?x => match goal with H : _ = Ok ?y |- _ =>
  first [constr_eq x y; fail 1 | let X := fresh in pose proof (eq_trans (eq_sym E) H) as X; inversion X; subst; clear X H] end end.

Lemma gate_moved : forall g s b t s', tracks s b -> In t (live b) -> gate_call g s t = Ok s' ->
  bounds w s -> norm2 w (abs s) <= 1 -> moved s s' (CGate g t) 4.
Proof.
  intros g s b t s' Tr Ht R B N. assert (W : wf s) by apply Tr. assert (A : alloc s t) by (eapply tracks_alloc; eauto).
  assert (Ct : bounds w s -> contraction w (gate1 (gmat g) t)) by (intros; apply ct_gate1; auto; apply ugmat).
  assert (Li := fun d psi => gate1_scale (gmat g) t d psi).
  destruct g; simpl in *.
  - destruct (gate_x_n tol_lo w s t W A) as [s1 [E [G _]]]. same_ok E. eapply moved_nst1; eauto; lia.
  - destruct (gate_y_n tol_lo w s t W A) as [s1 [E [G _]]]. same_ok E.
    eapply (moved_nst s s' _ _ 0 (ysign (bit (h_flag s) t)) (gate1 mY t)); eauto using Cn2_ysign; lia.
  - destruct (gate_z_n tol_lo w s t W A) as [s1 [E G]]. same_ok E. eapply moved_nst1; eauto; lia.
  - destruct (gate_h_n horder_perm tol_lo tol_hi w s t W A) as [s1 [E G]]. same_ok E. eapply moved_nst1; eauto; lia.
  - destruct (gate_diag_n horder_perm tol_lo tol_hi w OS s t W A) as [s1 [E G]]. same_ok E. eapply moved_nst1; eauto; lia.
  - destruct (gate_diag_n horder_perm tol_lo tol_hi w OSadj s t W A) as [s1 [E G]]. same_ok E. eapply moved_nst1; eauto; lia.
  - destruct (gate_diag_n horder_perm tol_lo tol_hi w OT s t W A) as [s1 [E G]]. same_ok E. eapply moved_nst1; eauto; lia.
  - destruct (gate_diag_n horder_perm tol_lo tol_hi w OTadj s t W A) as [s1 [E G]]. same_ok E. eapply moved_nst1; eauto; lia.
  - destruct (gate_rx_n horder_perm tol_lo tol_hi w s th t W A) as [s1 [E [_ [_ [_ [_ H]]]]]]. same_ok E.
    destruct (H B N) as [H1 [H2 H3]]. exists C1, (gate1 (mRx th) t). repeat (split; auto using Cn2_C1). now rewrite scale_1.
  - destruct (gate_ry_n tol_lo w s th t W A) as [s1 [E [_ [_ [_ [_ H]]]]]]. same_ok E.
    destruct (H B N) as [H2 H3]. exists C1, (gate1 (mRy (ry_angle s th t)) t).
    split; [apply Cn2_C1|]. split; [apply ct_gate1; auto using uRy|].
    split; [intros; apply gate1_scale|]. split; [reflexivity|]. split; auto. rewrite scale_1.
    eapply near_mono; [auto| |exact H2]. lia.
  - destruct (gate_diag_n horder_perm tol_lo tol_hi w (@ORz RArith th) s t W A) as [s1 [E G]]. same_ok E. eapply moved_nst1; eauto; lia.
Qed.

Lemma mc_moved : forall g s b cs t s', tracks s b -> targets_ok b (t :: cs) -> mc_call g s cs t = Ok s' ->
  bounds w s -> norm2 w (abs s) <= 1 -> moved s s' (CMc g cs t) (gcost (length (t :: cs))).
Proof.
  intros g s b cs t s' Tr [D Inc] R B N. assert (W : wf s) by apply Tr.
  assert (A : Forall (alloc s) (t :: cs)) by (eapply tracks_Forall; eauto).
  assert (Ct : bounds w s -> contraction w (cgate cs (gmat g) t)).
  { intros. inversion A; inversion D; subst. apply ct_cgate; auto. apply ugmat. }
  assert (Li := fun d psi => cgate_scale cs (gmat g) t d psi).
  assert (Ln : (3 * length (t :: cs) <= gcost (length (t :: cs)))%nat) by (unfold gcost; lia).
  destruct g; simpl gmat in *; simpl mc_call in *.
  - destruct (gate_mcx_n horder_perm tol_lo tol_hi w s cs t W D A) as [s1 [E [G _]]]. same_ok E. eapply moved_nst1; eauto.
  - destruct (gate_mcy_n horder_perm tol_lo tol_hi w s cs t W D A) as [s1 [E [G1 [G2 _]]]]. same_ok E. destruct cs as [|c0 cs].
    + eapply (moved_nst s s' _ _ 0 (ysign (bit (h_flag s) t)) (cgate [] mY t)); eauto using Cn2_ysign; try lia.
    + eapply moved_nst1; eauto. apply G1. left. discriminate.
  - destruct (gate_mcz_n horder_perm tol_lo tol_hi w s cs t W D A) as [s1 [E G]]. same_ok E. eapply moved_nst1; eauto.
  - destruct (gate_mch_n horder_perm tol_lo tol_hi w s cs t W D A) as [s1 [E G]]. same_ok E. eapply moved_nst1; eauto.
  - destruct (gate_mcdiag_n horder_perm tol_lo tol_hi w OS s cs t W D A) as [s1 [E G]]. same_ok E. eapply moved_nst1; eauto.
  - destruct (gate_mcdiag_n horder_perm tol_lo tol_hi w OSadj s cs t W D A) as [s1 [E G]]. same_ok E. eapply moved_nst1; eauto.
  - destruct (gate_mcdiag_n horder_perm tol_lo tol_hi w OT s cs t W D A) as [s1 [E G]]. same_ok E. eapply moved_nst1; eauto.
  - destruct (gate_mcdiag_n horder_perm tol_lo tol_hi w OTadj s cs t W D A) as [s1 [E G]]. same_ok E. eapply moved_nst1; eauto.
  - destruct (gate_mcrx_n horder_perm tol_lo tol_hi w s cs th t W D A) as [s1 [E G]]. same_ok E. eapply moved_nst1; eauto.
  - destruct (gate_mcry_n horder_perm tol_lo tol_hi w s cs th t W D A) as [s1 [E G]]. same_ok E. eapply moved_nst1; eauto.
  - destruct (gate_mcdiag_n horder_perm tol_lo tol_hi w (@ORz RArith th) s cs t W D A) as [s1 [E G]]. same_ok E. eapply moved_nst1; eauto.
Qed.

Lemma exp_moved : forall s b cs ps th ts s' c, tracks s b -> targets_ok b (cs ++ ts) -> (length ps <= length ts)%nat ->
  mcexp s cs ps th ts = Ok s' -> bounds w s -> norm2 w (abs s) <= 1 ->
  (forall l psi x, vstep l psi x (effective s c) = ctrl_op cs (exp_op th (combine ps ts)) psi) ->
  moved s s' c (expcost (length (cs ++ ts))).
Proof.
  intros s b cs ps th ts s' c Tr [D Inc] Le R B N V. assert (W : wf s) by apply Tr.
  assert (A : Forall (alloc s) (cs ++ ts)) by (eapply tracks_Forall; eauto).
  destruct (mcexp_n horder_perm tol_lo tol_hi w s cs ps th ts W D A Le) as [s1 [E G]]. same_ok E.
  eapply moved_nst1; eauto.
  - intros _. apply ct_exp; auto. intros q Hq. apply B. rewrite Forall_forall in A. apply A, in_or_app; auto.
  - intros; apply ctrl_exp_scale.
Qed.

Lemma quietly_ok : forall m r s', quietly m = Ok (r, s') -> m = Ok s'.
Proof. intros [s|] r s' H; simpl in H; [inversion H; auto|discriminate]. Qed.

Lemma call_moved : forall c s b r s', tracks s b -> valid b c -> unit_call c -> soft c ->
  run1 s c = Ok (r, s') -> bounds w s -> norm2 w (abs s) <= 1 ->
  moved s s' c (cost (live b) c).
Proof.
  intros c s b r s' Tr V U So R B N. assert (W : wf s) by apply Tr.
  assert (Le : length (ids s) = length (live b)) by now rewrite (tr_ids s b Tr).
  destruct c; simpl in V, U, So, R; try contradiction; try apply quietly_ok in R.
  - eapply gate_moved; eauto.
  - exact (mc_moved g s b cs t s' Tr V R B N).
  - destruct V as [D Inc].
    assert (A : Forall (alloc s) (t :: cs)) by (eapply tracks_Forall; eauto).
    destruct (gate_mcphase_n horder_perm tol_lo tol_hi w s cs p t W D A U) as [s1 [E G]]. same_ok E.
    eapply moved_nst1; eauto.
    + intros. inversion A; inversion D; subst. apply ct_cgate; auto. apply uPhase; auto.
    + intros; apply cgate_scale.
  - destruct V as [V1 V2]. unfold exp_gate in R.
    exact (exp_moved s b [] ps th ts s' (CExp ps th ts) Tr V1 V2 R B N (fun _ _ _ => eq_refl)).
  - destruct V as [V1 V2]. simpl cost. rewrite <- app_length.
    exact (exp_moved s b cs ps th ts s' (CMcExp cs ps th ts) Tr V1 V2 R B N (fun _ _ _ => eq_refl)).
  - destruct (allocate_ok s W) as [_ [_ [_ [_ [_ [_ Ab]]]]]].
    replace (fst (allocate s)) with s' in Ab by (inversion R; reflexivity).
    apply moved_id; auto; rewrite Ab; [apply near_refl; auto|lra].
  - destruct V as [Ha Hb]. assert (Aa : alloc s a) by (eapply tracks_alloc; eauto).
    assert (Ab : alloc s b0) by (eapply tracks_alloc; eauto).
    destruct (swap_qubit_ids_ok s a b0 W Aa Ab) as [s1 [E [_ [_ [_ [_ H]]]]]]. same_ok E.
    assert (Ct : contraction w (swap_qubits a b0)) by (apply ct_swap; auto).
    exists C1, (swap_qubits a b0). split; [apply Cn2_C1|]. split; [exact Ct|]. split; [reflexivity|].
    split; [reflexivity|]. rewrite H, scale_1. split; [apply near_refl; auto|apply Ct].
  - destruct V as [D Inc]. assert (A : Forall (alloc s) qs) by (eapply tracks_Forall; eauto).
    destruct (joint_probability s qs) as [[p s1]|] eqn:E; [|discriminate]. simpl in R. inversion R; subst.
    destruct (joint_probability_n s qs p s' W D A E B N) as [_ [H1 H2]]. apply moved_id; auto.
  - unfold qubit_is_zero in R. destruct (joint_probability s [q]) as [[p s1]|] eqn:E; [|discriminate].
    simpl in R. inversion R; subst.
    destruct (joint_probability_n s [q] p s' W (nodup1 q)) as [_ [H1 H2]]; auto.
    { constructor; auto. eapply tracks_alloc; eauto. }
    apply moved_id; auto.
  - destruct (get_state s) as [[[st n] s1]|] eqn:E; [|discriminate]. simpl in R. inversion R; subst.
    destruct (get_state_n s st n s' W E B N). apply moved_id; auto. simpl. now rewrite <- Le.
  - destruct (dump s) as [[st s1]|] eqn:E; [|discriminate]. simpl in R. inversion R; subst.
    destruct (dump_n s st s' W E B N). apply moved_id; auto. simpl. now rewrite <- Le.
Qed.

(** ** Histories *)
Lemma soft_not_apply : forall c, soft c -> ~ is_apply c.
Proof. destruct c; simpl; auto. Qed.
Lemma live_grows : forall c b, soft c -> incl (live b) (live (bstep b c)).
Proof.
  intros c b So. destruct c; simpl in *; try contradiction; try apply incl_refl.
  intros x Hx. apply insert_id_In. auto.
Qed.
Lemma live_grows_run : forall h b, Forall soft h -> incl (live b) (live (fold_left bstep h b)).
Proof.
  induction h; intros b F; simpl; [apply incl_refl|]. inversion F; subst.
  eapply incl_tran; [apply live_grows; eauto|auto].
Qed.

(** [ry] calls made while no [rx] close to an odd multiple of pi is pending. *)
Fixpoint straight (s : sim) (h : list call) : Prop :=
  match h with
  | [] => True
  | c :: h' => effective s c = c /\ match run1 s c with Ok (_, s1) => straight s1 h' | Panic _ => True end
  end.

Lemma exec_near : forall h s b psi n k, tracks s b -> valid_run b h -> Forall unit_call h -> Forall soft h ->
  (forall q, In q (live (fold_left bstep h b)) -> (q < w)%nat) ->
  norm2 w (abs s) <= 1 -> norm2 w psi <= 1 -> Cn2 k = 1 -> nearw n (abs s) (scale k psi) ->
  exists rs s' h' k', exec s h = Ok (rs, s') /\ Forall2 up_to_ry_sign h h' /\ (straight s h -> h' = h) /\
    tracks s' (fold_left bstep h b) /\ Cn2 k' = 1 /\ norm2 w (abs s') <= 1 /\
    norm2 w (evolve h' psi) <= 1 /\
    nearw (n + total_cost b h) (abs s') (scale k' (evolve h' psi)).
Proof.
  induction h as [|c h IH]; intros s b psi n k Tr V U So Bw Na Nv K Ne; simpl.
  - exists [], s, [], k. rewrite Nat.add_0_r. auto 10.
  - destruct V as [V1 V2]. inversion U; subst. inversion So; subst. simpl in Bw.
    destruct (run1_ok horder_perm s b c Tr V1) as [[r [s1 [E [Tr1 _]]]]|[Ia _]].
    2:{ exfalso. eapply soft_not_apply; eauto. }
    assert (B : bounds w s).
    { intros q Hq. apply Bw. apply live_grows_run; auto. apply live_grows; auto. eapply tracks_alloc; eauto. }
    destruct (call_moved c s b r s1 Tr V1 H1 H3 E B Na) as [kc [F [Kc [Ct [Li [Ve [Nc No]]]]]]].
    destruct (IH s1 (bstep b c) (F psi) (n + cost (live b) c)%nat (kc * k)%C)
      as [rs [s2 [h' [k' [E2 [F2 [St [Tr2 [K2 [N2 [Nv2 Ne2]]]]]]]]]]]; auto.
    + lra.
    + eapply Rle_trans; [apply Ct|auto].
    + rewrite Cn2_mul, Kc, K. lra.
    + rewrite <- scale_scale, <- Li. rewrite Nat.add_comm. eapply near_trans; [exact Nc|].
      apply near_ct; [apply ct_scale; lra|]. apply near_ct; auto.
    + rewrite E. cbn [bind]. rewrite E2. cbn [bind]. exists (r :: rs), s2, (effective s c :: h'), k'.
      assert (Ee : evolve (effective s c :: h') psi = evolve h' (F psi)) by (unfold evolve; simpl; now rewrite Ve).
      rewrite Ee.
      split; [reflexivity|]. split; [constructor; auto using effective_sign|].
      split; [intros [S1 S2]; rewrite S1, St; auto|]. rewrite Nat.add_assoc. auto 10.
Qed.

Lemma straight_angles : forall G, subgroup G -> (forall a, G a -> tol < Rabs (cos (a / 2))) ->
  forall h s b, tracks s b -> valid_run b h -> rxin G s -> Forall (rx_angles G) h -> straight s h.
Proof.
  intros G SG Gc. induction h as [|c h IH]; intros s b Tr V N F; simpl; auto.
  inversion F; subst. destruct V as [V1 V2]. split.
  - destruct c; simpl; auto. destruct g; simpl; auto. unfold ry_angle.
    destruct (im_get (rx_queue s) t) as [a|] eqn:Ea; auto. destruct (cz a) eqn:Ez; auto. exfalso.
    assert (H := Gc a (N _ _ Ea)). apply cz_cos in Ez; auto.
    assert (E2 : Rabs (cos (a / 2)) * Rabs (cos (a / 2)) = cos (a / 2) * cos (a / 2)) by (rewrite <- Rabs_mult; apply Rabs_pos_eq; nra).
    nra.
  - destruct (run1_ok horder_perm s b c Tr V1) as [[r [s1 [E [Tr1 [X _]]]]]|[_ [E _]]]; rewrite E; auto.
    eapply IH; eauto.
Qed.
Lemma straight_no_ry : forall h s, Forall (fun c => ~ is_ry c) h -> straight s h.
Proof.
  induction h as [|c h IH]; intros s F; simpl; auto. inversion F; subst. split.
  - destruct c; simpl; auto. destruct g; simpl; auto. simpl in H1. tauto.
  - destruct (run1 s c) as [[r s1]|]; auto.
Qed.
Lemma far_straight : forall h s b, tracks s b -> valid_run b h -> (forall G, rxin G s) ->
  far_from_odd_pi h -> straight s h.
Proof.
  intros h s b Tr V R [F|[G [SG [Gc F]]]]; [apply straight_no_ry; auto|]. eapply straight_angles; eauto.
Qed.
End NR.
