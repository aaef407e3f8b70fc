(** * The truncation error of whole histories *)
From Coq Require Import Reals NArith List Bool Lia Lra Permutation Arith Sorted FunctionalExtensionality.
From Verif Require Import Cx Arith ArithR IndexMap IndexMapLemmas Bits BitsLemmas Spec QLib QSum Sim SimExp SimApply SpecExp
  SpecApply StateLemmas Loc Abs Gates Gates2 Meas Reg ExpLemmas ApplyLemmas SpecRun SpecLemmas SimRun RunLemmas RunProps RunThms
  SpecNear Near NearGates NearGates2 NearExp NearRun.
Import ListNotations.
Local Open Scope R_scope.

(** ** Lengths of projections *)
Lemma norm_collapse : forall n qs (r : bool) p phi, p = born n qs phi -> norm2 n phi <= 1 ->
  (if r then p else 1 - p) <> 0 -> norm2 n (scale (outcome_factor p r) (proj qs r phi)) <= 1.
Proof.
  intros n qs r p phi Ep N Hp. unfold outcome_factor. rewrite norm2_scale, norm2_proj, Cn2_RtoC, <- Ep.
  pose proof (born_nonneg n qs phi) as B1. pose proof (born_le_norm n qs phi) as B2. rewrite <- Ep in B1, B2.
  set (x := if r then p else 1 - p) in *. assert (0 < x) by (unfold x in *; destruct r; lra).
  assert (sqrt x <> 0) by (apply Rgt_not_eq, sqrt_lt_R0; auto).
  assert (E : 1 / sqrt x * (1 / sqrt x) = / x).
  { transitivity (1 / (sqrt x * sqrt x)); [field; auto|]. rewrite sqrt_sqrt by lra. field. lra. }
  rewrite E. apply (Rmult_le_reg_l x); auto. rewrite <- Rmult_assoc, Rinv_r, Rmult_1_l, Rmult_1_r by lra.
  unfold x. destruct r; lra.
Qed.

Lemma ct_proj : forall n qs v, contraction n (proj qs v).
Proof.
  intros. constructor; intros.
  - apply functional_extensionality. intros b. unfold proj, qdiff. destruct (Bool.eqb _ _); auto. ring.
  - rewrite norm2_proj. pose proof (born_nonneg n qs psi). pose proof (born_le_norm n qs psi). destruct v; lra.
Qed.

(** Probabilities of close vectors are close. *)
Lemma qnorm_close : forall n phi psi, Rabs (qnorm n phi - qnorm n psi) <= dist n phi psi.
Proof.
  intros. assert (Z : forall a, qnorm n a = dist n a (fun _ => C0)).
  { intros a. rewrite dist_norm. unfold qnorm. f_equal. unfold norm2. apply qsum_ext. intros. unfold qdiff. f_equal. ring. }
  assert (Sy : dist n psi phi = dist n phi psi).
  { unfold dist. f_equal. unfold norm2. apply qsum_ext. intros. unfold qdiff. unfold Cn2. simpl. ring. }
  rewrite !Z. apply Rabs_le. split.
  - assert (H := dist_tri n psi phi (fun _ => C0)). lra.
  - assert (H := dist_tri n phi psi (fun _ => C0)). lra.
Qed.
Lemma qnorm_le_1 : forall n phi, norm2 n phi <= 1 -> qnorm n phi <= 1.
Proof. intros. unfold qnorm. rewrite <- sqrt_1. apply sqrt_le_1_alt. auto. Qed.
Lemma born_close : forall n qs phi psi, norm2 n phi <= 1 -> norm2 n psi <= 1 ->
  Rabs (born n qs phi - born n qs psi) <= 2 * dist n phi psi.
Proof.
  intros n qs phi psi H1 H2. assert (E := fun x => norm2_proj n qs true x). simpl in E.
  rewrite <- !E, <- !qnorm_sq.
  assert (Q1 : qnorm n (proj qs true phi) <= 1).
  { apply qnorm_le_1. eapply Rle_trans; [apply (ct_proj n qs true)|auto]. }
  assert (Q2 : qnorm n (proj qs true psi) <= 1).
  { apply qnorm_le_1. eapply Rle_trans; [apply (ct_proj n qs true)|auto]. }
  assert (D := qnorm_close n (proj qs true phi) (proj qs true psi)).
  assert (D2 := ct_dist n (proj qs true) phi psi (ct_proj n qs true)).
  assert (P1 := qnorm_nonneg n (proj qs true phi)). assert (P2 := qnorm_nonneg n (proj qs true psi)).
  set (x := qnorm n (proj qs true phi)) in *. set (y := qnorm n (proj qs true psi)) in *.
  replace (x * x - y * y) with ((x - y) * (x + y)) by ring. rewrite Rabs_mult, (Rabs_pos_eq (x + y)) by lra.
  assert (P3 := Rabs_pos (x - y)). nra.
Qed.

Section NT.
Context {T : Tol} {EN : Env}.
Hypothesis horder_perm : horder_ok.
Hypothesis tol_lo : 0 <= tol.
Hypothesis tol_hi : tol <= 1 / 2.

(** ** Measurement acts exactly on a vector close to the one it is given *)
Lemma joint_measure_n : forall w s qs r s', wf s -> NoDup qs -> Forall (alloc s) qs ->
  joint_measure s qs = Ok (r, s') -> bounds w s -> norm2 w (abs s) <= 1 ->
  exists phi, near w (3 * length qs) phi (abs s) /\ norm2 w phi <= norm2 w (abs s) /\
    r = Rltb (fst (draw (rng s))) (born w qs phi) /\
    abs s' = scale (outcome_factor (born w qs phi) r) (proj qs r phi).
Proof.
  intros w s qs r s' W D A E B N. unfold joint_measure in E.
  destruct (maybe_flush_n horder_perm tol_lo tol_hi w qs s W A) as [s1 [E1 [G1 [L1 [_ D1]]]]].
  rewrite E1 in E. cbn [bind] in E. unfold check_for_duplicates in E. rewrite check_dup_ok in E by auto. cbn [bind] in E.
  assert (A1 : Forall (alloc s1) qs) by (eapply nst_Forall; eauto).
  destruct (mapM_find_ok s1 qs A1) as [locs [E2 R2]]. rewrite E2 in E. cbn [bind] in E.
  assert (Rg : rng s1 = rng s) by apply (ns_rng _ _ _ _ _ G1). rewrite Rg in E.
  destruct (draw (rng s)) as [x g] eqn:Ed. simpl fst.
  set (s2 := with_rng s1 g) in *.
  assert (W1 : wf s1) by apply (ns_wf _ _ _ _ _ G1).
  assert (W2 : wf s2) by (apply wf_with_rng; auto).
  destruct (check_joint_ok s2 qs locs W2 D R2) as [p [s3 [E3 [C3 [Q3 [K3 B3]]]]]].
  rewrite E3 in E. cbn [bind] in E. injection E as Er Es. change (plt x p) with (Rltb x p) in *. rewrite Er in Es.
  assert (R3 : Forall2 (resolved (id_map s3)) qs locs) by (destruct C3 as [[] _ _]; rewrite fr_id; auto).
  destruct (joint_collapse_ok s3 qs locs r p (cs_wf _ _ _ C3) Q3 D R3) as [F4 [W4 [Q4 [Z4 K4]]]].
  rewrite Es in *. rename s' into s4.
  assert (F24 : frame s2 s4) by (eapply frame_trans; [apply C3|exact F4]).
  assert (B1 : bounds w s1) by (eapply NearGates.bounds_id; [apply (ns_id _ _ _ _ _ G1)|auto]).
  assert (Ep : p = born w qs (abs s1)).
  { rewrite (B3 w) by exact B1. change (core s2) with (core s1). symmetry. apply abs_born; auto. }
  exists (abs s1). destruct (ns_near _ _ _ _ _ G1 B N) as [_ [H1 H2]]. split; [exact H1|]. split; [exact H2|].
  rewrite <- Ep. split; [auto|].
  unfold abs at 1. rewrite (frame_ids _ _ F24).
  rewrite K4, K3. change (core s2) with (core s1).
  rewrite (pendl_ext (pm s4) (pm s1)) by (intros; apply (frame_pm s2); auto).
  change (ids s2) with (ids s1).
  unfold abs. rewrite proj_pendl by (intros; apply no_pend_pm; auto).
  rewrite <- pendl_scale. reflexivity.
Qed.

(** ** No call makes the vector longer than one *)
Notation drawn := samples_ok.

Lemma measure_norm : forall w s qs r s', drawn -> wf s -> NoDup qs -> Forall (alloc s) qs ->
  joint_measure s qs = Ok (r, s') -> bounds w s -> norm2 w (abs s) <= 1 ->
  norm2 w (abs s') <= 1 /\ forall b, par qs b <> r -> abs s' b = C0.
Proof.
  intros w s qs r s' Dr W D A E B N.
  destruct (joint_measure_n w s qs r s' W D A E B N) as [phi [_ [H [Er Ea]]]]. rewrite Ea. split.
  - apply norm_collapse; auto; [lra|]. specialize (Dr (rng s)). pose proof (born_nonneg w qs phi).
    pose proof (born_le_norm w qs phi). rewrite Er. unfold Rltb. destruct (Rlt_dec _ _); lra.
  - intros b Hb. unfold scale, proj. destruct (Bool.eqb (par qs b) r) eqn:Eq; [apply eqb_prop in Eq; contradiction|ring].
Qed.
Lemma force_norm : forall w s v q p s', wf s -> alloc s q ->
  force_collapse s v q = Ok (p, s') -> bounds w s -> norm2 w (abs s) <= 1 -> norm2 w (abs s') <= 1.
Proof.
  intros w s v q p0 s' W A E B N. unfold force_collapse in E.
  destruct (maybe_flush_n horder_perm tol_lo tol_hi w [q] s W) as [s1 [E1 [G1 [L1 [_ D1]]]]]; auto.
  rewrite E1 in E. cbn [bind] in E.
  assert (A1 : alloc s1 q) by (eapply nst_alloc; eauto).
  destruct A1 as [loc El]. rewrite (find_ok _ _ _ El) in E. cbn [bind] in E.
  assert (R1 : Forall2 (resolved (id_map s1)) [q] [loc]) by (repeat constructor; auto).
  assert (W1 : wf s1) by apply (ns_wf _ _ _ _ _ G1).
  destruct (check_joint_ok s1 [q] [loc] W1 (nodup1 q) R1) as [p [s2 [E2 [C2 [Q2 [K2 B2]]]]]].
  rewrite E2 in E. cbn [bind] in E. inversion E; subst s'. clear E H0.
  assert (R2 : Forall2 (resolved (id_map s2)) [q] [loc]) by (destruct C2 as [[] _ _]; rewrite fr_id; auto).
  destruct (joint_collapse_ok s2 [q] [loc] v p (cs_wf _ _ _ C2) Q2 (nodup1 q) R2) as [F3 [W3 [Q3 [_ K3]]]].
  change (joint_collapse s2 [loc] v p) with (collapse s2 loc v p) in *.
  set (cnd := (v && negb (pnz p)) || (negb v && negb (pnz (pcompl p)))) in *.
  assert (B1 : bounds w s1) by (eapply NearGates.bounds_id; [apply (ns_id _ _ _ _ _ G1)|auto]).
  assert (B2' : bounds w s2) by (destruct C2 as [[] _ _]; eapply NearGates.bounds_id; eauto).
  assert (N1 : norm2 w (core s1) <= 1).
  { rewrite <- abs_norm by auto. destruct (ns_near _ _ _ _ _ G1 B N) as [_ [_ H2]]. lra. }
  change (v && negb (rnz tol p) || negb v && negb (rnz tol (1 - p))) with cnd.
  destruct cnd eqn:Ec.
  - assert (B3 : bounds w (collapse s2 loc v p)) by (destruct F3; eapply NearGates.bounds_id; eauto).
    rewrite abs_norm by auto. rewrite K3, K2.
    replace (@pscale RArith (if v then p else pcompl p)) with (outcome_factor p v) by (destruct v; reflexivity).
    apply norm_collapse; auto. unfold cnd in Ec.
    assert (Z : forall x : R, negb (@pnz RArith x) = true -> x <> 0).
    { intros x Hx ->. apply negb_true_iff in Hx. unfold pnz in Hx. simpl in Hx. unfold rnz, Rleb in Hx.
      rewrite Rabs_R0 in Hx. destruct (Rle_dec 0 tol); [discriminate|contradiction]. }
    destruct v; simpl in Ec; rewrite ?orb_false_r in Ec; apply Z in Ec; exact Ec.
  - rewrite abs_norm by auto. rewrite K2. exact N1.
Qed.

Lemma call_norm : forall w c s b r s', drawn -> tracks s b -> valid b c -> unit_call c -> ~ is_apply c ->
  run1 s c = Ok (r, s') -> bounds w s -> norm2 w (abs s) <= 1 -> norm2 w (abs s') <= 1.
Proof.
  intros w c s b r s' Dr Tr V U Na R B N. assert (W : wf s) by apply Tr.
  assert (So : soft c -> norm2 w (abs s') <= 1).
  { intros So. destruct (call_moved horder_perm tol_lo tol_hi w c s b r s' Tr V U So R B N) as [k [F [_ [_ [_ [_ [_ H]]]]]]]. lra. }
  destruct c; try (apply So; exact I); simpl in V, R, Na; try (exfalso; apply Na; exact I); clear So.
  - assert (A : alloc s q) by (eapply tracks_alloc; eauto).
    destruct (Nat.eq_dec (length (ids s)) 1) as [L|L].
    + apply (length_one _ _ q) in L; [|apply ids_In; auto].
      destruct (release_last_ok s q W L) as [s1 [E [_ [_ [_ [_ [_ [_ Ab]]]]]]]].
      apply quietly_ok in R. rewrite E in R. inversion R; subst s1. rewrite Ab.
      rewrite (norm2_width []); [rewrite ket0_norm; lra|apply ket0_supported|intros ? []].
    + destruct (release_ok horder_perm s q W A L) as [r1 [s1 [s2 [M [E [_ [_ [_ [_ [_ [_ Ab]]]]]]]]]]].
      apply quietly_ok in R. rewrite E in R. inversion R; subst s2. rewrite Ab.
      rewrite measure_joint in M.
      destruct (measure_norm w s [q] r1 s1 Dr W (nodup1 q)) as [H1 H2]; auto.
      rewrite norm2_drop; auto. intros z Hz. apply H2. unfold par. simpl. rewrite xorb_false_r. auto.
  - rewrite measure_joint in R. destruct (joint_measure s [q]) as [[r1 s1]|] eqn:E; [|discriminate].
    simpl in R. inversion R; subst.
    apply (measure_norm w s [q] r1 s' Dr W (nodup1 q)); auto. constructor; auto. eapply tracks_alloc; eauto.
  - destruct V as [D Inc]. destruct (joint_measure s qs) as [[r1 s1]|] eqn:E; [|discriminate].
    simpl in R. inversion R; subst.
    apply (measure_norm w s qs r1 s' Dr W D); auto. eapply tracks_Forall; eauto.
  - destruct (force_collapse s v q) as [[p s1]|] eqn:E; [|discriminate]. simpl in R. inversion R; subst.
    eapply force_norm; eauto. eapply tracks_alloc; eauto.
Qed.

Lemma tracks_norm : forall n m s b, tracks s b -> bounds n s -> bounds m s -> norm2 n (abs s) = norm2 m (abs s).
Proof.
  intros n m s b Tr Bn Bm. assert (S := supported_abs s (tr_wf s b Tr)).
  rewrite (norm2_width (ids s) n), (norm2_width (ids s) m); auto; intros q Hq; [apply Bm|apply Bn]; apply ids_In; auto.
Qed.

Lemma exec_norm : forall h s b rs s', drawn -> tracks s b -> valid_run b h -> Forall unit_call h ->
  Forall (fun c => ~ is_apply c) h -> exec s h = Ok (rs, s') ->
  (forall n, bounds n s -> norm2 n (abs s) <= 1) ->
  tracks s' (fold_left bstep h b) /\ (forall n, bounds n s' -> norm2 n (abs s') <= 1).
Proof.
  induction h as [|c h IH]; intros s b rs s' Dr Tr V U Na E N; simpl in *.
  - inversion E; subst. auto.
  - destruct V as [V1 V2]. inversion U; subst. inversion Na; subst.
    destruct (run1_ok horder_perm s b c Tr V1) as [[r [s1 [E1 [Tr1 _]]]]|[Ia _]]; [|contradiction].
    rewrite E1 in E. cbn [bind] in E. destruct (exec s1 h) as [[rs2 s2]|] eqn:E2; [|discriminate].
    simpl in E. inversion E; subst. eapply (IH s1); eauto.
    intros n Bn. set (m := Nat.max n (width (live b))).
    assert (Bm : bounds m s1) by (intros q Hq; apply Bn in Hq; unfold m; lia).
    assert (Bm0 : bounds m s).
    { intros q Hq. apply (tracks_bounds s b Tr) in Hq. unfold m; lia. }
    rewrite (tracks_norm n m s1 _ Tr1) by auto. eapply (call_norm m c s b); eauto.
Qed.
Lemma exec_rxin : forall G h s b rs s', subgroup G -> tracks s b -> valid_run b h -> Forall (rx_angles G) h ->
  exec s h = Ok (rs, s') -> rxin G s -> rxin G s'.
Proof.
  intros G. induction h as [|c h IH]; intros s b rs s' SG Tr V F E X; simpl in *.
  - inversion E; subst; auto.
  - destruct V as [V1 V2]. inversion F; subst.
    destruct (run1_ok horder_perm s b c Tr V1) as [[r [s1 [E1 [Tr1 [X1 _]]]]]|[_ [E1 _]]]; rewrite E1 in E; [|discriminate].
    cbn [bind] in E. destruct (exec s1 h) as [[rs2 s2]|] eqn:E2; [|discriminate].
    simpl in E. inversion E; subst. eapply (IH s1); eauto.
Qed.

(** ** What is listed *)
Lemma lists_near : forall w s b, tracks s b -> bounds w s -> norm2 w (abs s) <= 1 ->
  exists phi, lists s (live b) phi /\ near w (3 * length (live b)) phi (abs s) /\ norm2 w phi <= 1.
Proof.
  intros w s b Tr B N. assert (W : wf s) by apply Tr.
  destruct (get_state_ok horder_perm s W) as [st [s' [E [_ [A [W' [_ [_ [_ L]]]]]]]]].
  destruct (get_state_n horder_perm tol_lo tol_hi w s st _ s' W E B N) as [H1 H2].
  rewrite (tr_ids s b Tr) in *. exists (abs s'). split; [|split; [auto|lra]].
  split; [|exists st, s'; auto]. assert (I : ids s' = live b).
  { apply ids_eq; [eapply tracks_sorted; eauto|]. intros q. rewrite A. eapply tracks_alloc; eauto. }
  rewrite <- I. apply supported_abs; auto.
Qed.

Lemma near_sym : forall n k a b, near n k a b -> near n k b a.
Proof.
  intros n k a b H. unfold near in *. replace (dist n b a) with (dist n a b); auto.
  unfold dist. f_equal. unfold norm2. apply qsum_ext. intros. unfold qdiff, Cn2. simpl. ring.
Qed.

Lemma far_straight_from : forall g h0 h rs0 s, proper (h0 ++ h) -> exec (new_sim g) h0 = Ok (rs0, s) ->
  tracks s (fold_left bstep h0 (mkBook [] true)) -> far_from_odd_pi (h0 ++ h) -> straight s h.
Proof.
  intros g h0 h rs0 s [V U] E Tr F. apply valid_run_app in V. destruct V as [V0 V].
  destruct F as [F|[G [SG [Gc F]]]]; apply Forall_app in F.
  - apply straight_no_ry. tauto.
  - destruct F as [F0 F]. eapply straight_angles; eauto. eapply (exec_rxin G h0 (new_sim g)); eauto; [apply new_tracks|apply new_rxin].
Qed.

(** The main statement: gates applied to whatever state a history has led to. *)
Lemma truncation : forall w g h0 h rs0 s, drawn -> proper (h0 ++ h) ->
  Forall no_matrix h0 -> Forall soft h -> exec (new_sim g) h0 = Ok (rs0, s) ->
  (forall q, In q (live_after (h0 ++ h)) -> (q < w)%nat) ->
  let b0 := fold_left bstep h0 (mkBook [] true) in
  exists phi0 rs s' h' k, lists s (live b0) phi0 /\ exec s h = Ok (rs, s') /\
    Forall2 up_to_ry_sign h h' /\ (far_from_odd_pi (h0 ++ h) -> h' = h) /\ Cn2 k = 1 /\
    tracks s' (fold_left bstep h b0) /\ norm2 w (abs s') <= 1 /\ norm2 w (evolve h' phi0) <= 1 /\
    near w (3 * length (live b0) + total_cost b0 h) (abs s') (scale k (evolve h' phi0)).
Proof.
  intros w g h0 h rs0 s Dr P Nm So E Bw b0. destruct P as [V U]. assert (P : proper (h0 ++ h)) by (split; auto).
  apply valid_run_app in V. destruct V as [V0 V]. apply Forall_app in U. destruct U as [U0 U].
  unfold live_after in Bw. rewrite fold_left_app in Bw. fold b0 in Bw, V.
  destruct (exec_norm h0 (new_sim g) (mkBook [] true) rs0 s Dr (new_tracks g) V0 U0) as [Tr N]; auto.
  { eapply Forall_impl; [|exact Nm]. intros c. destruct c; simpl; auto. }
  { intros n _. rewrite abs_new. rewrite (norm2_width []); [rewrite ket0_norm; lra|apply ket0_supported|intros ? []]. }
  fold b0 in Tr. assert (B : bounds w s).
  { intros q Hq. apply Bw. apply live_grows_run; auto. eapply tracks_alloc; eauto. }
  destruct (lists_near w s b0 Tr B (N w B)) as [phi0 [L0 [N0 Q0]]].
  destruct (exec_near horder_perm tol_lo tol_hi w h s b0 phi0 (3 * length (live b0)) C1 Tr V U So Bw (N w B) Q0 Cn2_C1)
    as [rs [s' [h' [k [E' [F' [St [Tr' [K [N' [Ne Nr]]]]]]]]]]].
  { rewrite scale_1. apply near_sym. auto. }
  exists phi0, rs, s', h', k. repeat (split; [now auto|]). split; auto.
  intros Far. apply St. eapply far_straight_from; eauto.
Qed.
Lemma lists_unique : forall s b a c, tracks s b -> lists s (live b) a -> lists s (live b) c -> a = c.
Proof.
  intros s b a c Tr [Sa [st [s1 [E1 L1]]]] [Sc [st2 [s2 [E2 L2]]]]. rewrite E1 in E2. injection E2 as Est _. subst st2.
  apply (supported_ext (live b)); auto; [eapply live_nodup; eauto|]. intros x Hx. eapply listing_fun; eauto.
Qed.

(** What is listed after the calls is close to their exact effect on what was listed before. *)
Lemma truncation_lists : forall w g h0 h rs0 s phi0, drawn -> proper (h0 ++ h) ->
  Forall no_matrix h0 -> Forall soft h -> exec (new_sim g) h0 = Ok (rs0, s) -> lists s (live_after h0) phi0 ->
  (forall q, In q (live_after (h0 ++ h)) -> (q < w)%nat) ->
  exists rs s' phi h' k, exec s h = Ok (rs, s') /\ lists s' (live_after (h0 ++ h)) phi /\
    Forall2 up_to_ry_sign h h' /\ (far_from_odd_pi (h0 ++ h) -> h' = h) /\ Cn2 k = 1 /\
    dist w phi (scale k (evolve h' phi0)) <=
      INR (3 * length (live_after h0) + total_cost (fold_left bstep h0 (mkBook [] true)) h +
           3 * length (live_after (h0 ++ h))) * unit_err w.
Proof.
  intros w g h0 h rs0 s phi0 Dr P Nm So E L0 Bw.
  destruct (truncation w g h0 h rs0 s Dr P Nm So E Bw) as
    [phi1 [rs [s' [h' [k [L1 [E1 [F1 [Fa [K [Tr' [N' [_ Ne]]]]]]]]]]]]].
  assert (Tr : tracks s (fold_left bstep h0 (mkBook [] true))).
  { destruct P as [V _]. apply valid_run_app in V. destruct V as [V _].
    destruct (exec_tracks horder_perm h0 (new_sim g) _ (new_tracks g) V) as [[rs1 [s1 [X Tr]]]|[X _]].
    - rewrite E in X. inversion X; subst. auto.
    - rewrite E in X. discriminate. }
  rewrite (lists_unique s _ phi0 phi1 Tr L0 L1) in *. clear L0.
  unfold live_after in *. rewrite fold_left_app in *.
  destruct (lists_near w s' _ Tr') as [phi [L2 [N2 _]]]; auto.
  { intros q Hq. apply Bw. eapply tracks_alloc; eauto. }
  exists rs, s', phi, h', k. repeat (split; [now auto|]).
  rewrite Nat.add_comm. exact (near_trans _ _ _ _ _ _ N2 Ne).
Qed.
(** Probabilities: what is returned is close to the exact one. *)
Lemma truncation_prob : forall w g h0 h rs0 s phi0 qs, drawn -> proper (h0 ++ h) ->
  Forall no_matrix h0 -> Forall soft h -> exec (new_sim g) h0 = Ok (rs0, s) -> lists s (live_after h0) phi0 ->
  (forall q, In q (live_after (h0 ++ h)) -> (q < w)%nat) -> NoDup qs -> incl qs (live_after (h0 ++ h)) ->
  exists rs s' h', exec s h = Ok (rs, s') /\
    Forall2 up_to_ry_sign h h' /\ (far_from_odd_pi (h0 ++ h) -> h' = h) /\
    exists p, Rabs (p - born w qs (evolve h' phi0)) <=
      2 * (INR (3 * length (live_after h0) + total_cost (fold_left bstep h0 (mkBook [] true)) h + 3 * length qs) * unit_err w) /\
    0 <= p <= 1 /\
    (exists s1, joint_probability s' qs = Ok (p, s1)) /\
    (exists r s2, joint_measure s' qs = Ok (r, s2) /\ r = Rltb (fst (draw (rng s'))) p).
Proof.
  intros w g h0 h rs0 s phi0 qs Dr P Nm So E L0 Bw D Inc.
  destruct (truncation w g h0 h rs0 s Dr P Nm So E Bw) as
    [phi1 [rs [s' [h' [k [L1 [E1 [F1 [Fa [K [Tr' [N' [Nv Ne]]]]]]]]]]]]].
  assert (Tr : tracks s (fold_left bstep h0 (mkBook [] true))).
  { destruct P as [V _]. apply valid_run_app in V. destruct V as [V _].
    destruct (exec_tracks horder_perm h0 (new_sim g) _ (new_tracks g) V) as [[rs1 [s1 [X Tr]]]|[X _]].
    - rewrite E in X. inversion X; subst. auto.
    - rewrite E in X. discriminate. }
  rewrite (lists_unique s _ phi0 phi1 Tr L0 L1) in *. clear L0.
  unfold live_after in *. rewrite fold_left_app in *.
  assert (B : bounds w s') by (intros q Hq; apply Bw; eapply tracks_alloc; eauto).
  assert (W : wf s') by apply Tr'.
  assert (A : Forall (alloc s') qs) by (eapply tracks_Forall; eauto).
  exists rs, s', h'. repeat (split; [now auto|]).
  destruct (joint_probability_ok horder_perm s' qs W D A) as [p [s1 [Ep _]]].
  destruct (joint_probability_n horder_perm tol_lo tol_hi w s' qs p s1 W D A Ep B N') as [Hp [Np Qp]].
  exists p. split; [|split; [|split; [exists s1; exact Ep|]]].
  - rewrite Hp. rewrite <- (born_phase w qs k (evolve h' phi1) K).
    eapply Rle_trans; [apply born_close; [lra|]|].
    + rewrite norm2_scale, K. lra.
    + apply Rmult_le_compat_l; [lra|]. rewrite (Nat.add_comm _ (3 * length qs)).
      exact (near_trans _ _ _ _ _ _ Np Ne).
  - rewrite Hp. pose proof (born_nonneg w qs (abs s1)). pose proof (born_le_norm w qs (abs s1)). lra.
  - destruct (joint_measure_ok horder_perm s' qs W D A) as [r [s2 [Em _]]].
    exists r, s2. split; [exact Em|].
    unfold joint_probability in Ep. unfold joint_measure in Em.
    destruct (maybe_flush_n horder_perm tol_lo tol_hi w qs s' W A) as [s3 [E3 [G3 _]]].
    assert (A3 : Forall (alloc s3) qs) by (eapply nst_Forall; eauto).
    assert (W3 : wf s3) by apply (ns_wf _ _ _ _ _ G3).
    assert (B3 : bounds w s3) by (eapply NearGates.bounds_id; [apply (ns_id _ _ _ _ _ G3)|auto]).
    assert (Rg : rng s3 = rng s') by apply (ns_rng _ _ _ _ _ G3).
    rewrite E3 in Em, Ep. cbn [bind] in Em, Ep.
    unfold check_for_duplicates in Em, Ep. rewrite check_dup_ok in Em, Ep by auto. cbn [bind] in Em, Ep.
    destruct (mapM_find_ok s3 qs A3) as [locs [E4 R4]]. rewrite E4 in Em, Ep. cbn [bind] in Em, Ep.
    rewrite Rg in Em. destruct (draw (rng s')) as [x g'] eqn:Ed. simpl fst.
    destruct (check_joint_ok s3 qs locs W3 D R4) as [p1 [s4 [E5 [_ [_ [_ P5]]]]]].
    destruct (check_joint_ok (with_rng s3 g') qs locs (wf_with_rng _ _ W3) D R4) as [p2 [s5 [E6 [_ [_ [_ P6]]]]]].
    rewrite E5 in Ep. rewrite E6 in Em. cbn [bind] in Em. injection Ep as Ep1 _. injection Em as Er _.
    rewrite <- Er. change (plt x p2) with (Rltb x p2). f_equal. rewrite <- Ep1, (P5 w B3), (P6 w B3). reflexivity.
Qed.
(** ** No listed vector is longer than one *)
Lemma listed_norm : forall w g h rs s phi, drawn -> proper h -> Forall no_matrix h ->
  exec (new_sim g) h = Ok (rs, s) -> lists s (live_after h) phi ->
  (forall q, In q (live_after h) -> (q < w)%nat) -> norm2 w phi <= 1.
Proof.
  intros w g h rs s phi Dr [V U] Nm E L Bw. unfold live_after in *.
  destruct (exec_norm h (new_sim g) (mkBook [] true) rs s Dr (new_tracks g) V U) as [Tr N]; auto.
  { eapply Forall_impl; [|exact Nm]. intros c. destruct c; simpl; auto. }
  { intros n _. rewrite abs_new. rewrite (norm2_width []); [rewrite ket0_norm; lra|apply ket0_supported|intros ? []]. }
  assert (B : bounds w s) by (intros q Hq; apply Bw; eapply tracks_alloc; eauto).
  destruct (lists_near w s _ Tr B (N w B)) as [phi' [L' [_ N']]].
  rewrite (lists_unique s _ phi phi' Tr L L'). auto.
Qed.
End NT.

(** ** The number of truncating steps is linear in the number of calls *)
Lemma short : forall l w, NoDup l -> (forall q, In q l -> (q < w)%nat) -> (length l <= w)%nat.
Proof.
  intros l w D H. rewrite <- (seq_length w 0). apply NoDup_incl_length; auto.
  intros q Hq. apply in_seq. apply H in Hq. lia.
Qed.
Lemma cost_le : forall b c w, valid b c -> NoDup (live b) -> (forall q, In q (live b) -> (q < w)%nat) ->
  (cost (live b) c <= 7 * w + 4)%nat.
Proof.
  intros b c w V D H. assert (X : forall l, targets_ok b l -> (length l <= w)%nat).
  { intros l [D' I]. apply short; auto. }
  destruct c; simpl in *; try lia.
  - apply X in V. simpl in V. lia.
  - apply X in V. simpl in V. lia.
  - destruct V as [V _]. apply X in V. lia.
  - destruct V as [V _]. apply X in V. rewrite app_length in V. lia.
  - apply X in V. lia.
  - assert (length (live b) <= w)%nat by (apply short; auto). lia.
  - assert (length (live b) <= w)%nat by (apply short; auto). lia.
Qed.
Lemma insert_sorted : forall q l, ~ In q l -> StronglySorted lt l -> StronglySorted lt (insert_id q l).
Proof.
  induction l as [|k l IH]; simpl; intros N S; [repeat constructor|].
  inversion S; subst. destruct (Nat.ltb_spec q k).
  - constructor; auto. constructor; auto. eapply Forall_impl; [|exact H2]. intros. simpl in *. lia.
  - constructor; [apply IH; auto|]. apply Forall_forall. intros x Hx. apply insert_id_In in Hx.
    rewrite Forall_forall in H2. destruct Hx as [->|Hx]; auto. assert (q <> k) by (intros ->; auto). lia.
Qed.
Lemma gap_not_in : forall l i, StronglySorted lt l -> ~ In (gap_from i l) l \/ exists k, In k l /\ (k < i)%nat.
Proof.
  induction l as [|k l IH]; simpl; intros i So; [auto|]. inversion So; subst.
  destruct (Nat.eqb_spec i k) as [->|N].
  - left. destruct (IH (S k) H1) as [H|[x [Hx L]]].
    + intros [E|E]; [|auto]. assert (G : forall m j, (j <= gap_from j m)%nat).
      { clear. induction m as [|a m IH]; intros j; simpl; auto. destruct (Nat.eqb_spec j a); auto. specialize (IH (S j)). lia. }
      specialize (G l (S k)). lia.
    + rewrite Forall_forall in H2. apply H2 in Hx. lia.
  - destruct (Nat.lt_ge_cases k i); [right; exists k; auto|]. left. intros [E|E]; [lia|].
    rewrite Forall_forall in H2. apply H2 in E. lia.
Qed.
Lemma bstep_sorted : forall c b, soft c -> StronglySorted lt (live b) -> StronglySorted lt (live (bstep b c)).
Proof.
  intros c b So S. destruct c; simpl in *; auto; try contradiction. apply insert_sorted; auto.
  destruct (gap_not_in (live b) 0 S) as [H|[k [_ H]]]; auto. lia.
Qed.
Lemma total_cost_le : forall h b w, valid_run b h -> Forall soft h -> StronglySorted lt (live b) ->
  (forall q, In q (live (fold_left bstep h b)) -> (q < w)%nat) ->
  (total_cost b h <= length h * (7 * w + 4))%nat.
Proof.
  induction h as [|c h IH]; intros b w V So S H; simpl in *; [lia|].
  destruct V as [V1 V2]. inversion So; subst.
  assert (total_cost (bstep b c) h <= length h * (7 * w + 4))%nat.
  { apply IH; auto. apply bstep_sorted; auto. }
  assert (cost (live b) c <= 7 * w + 4)%nat.
  { apply cost_le; auto.
    - clear - S. induction S; constructor; auto. rewrite Forall_forall in H. intros I. apply H in I. lia.
    - intros q Hq. apply H. apply live_grows_run; auto. apply live_grows; auto. }
  lia.
Qed.

Section Linear.
Context {T : Tol} {EN : Env}.
Hypothesis horder_perm : horder_ok.
Hypothesis tol_lo : 0 <= tol.
Hypothesis tol_hi : tol <= 1 / 2.
Lemma unit_err_nonneg : forall w, 0 <= unit_err w.
Proof. intros. unfold unit_err. apply Rmult_le_pos; auto. apply sqrt_pos. Qed.

Lemma truncation_linear : forall w g h0 h rs0 s phi0, samples_ok -> proper (h0 ++ h) ->
  Forall no_matrix h0 -> Forall soft h -> exec (new_sim g) h0 = Ok (rs0, s) -> lists s (live_after h0) phi0 ->
  (forall q, In q (live_after (h0 ++ h)) -> (q < w)%nat) ->
  exists rs s' phi h' k, exec s h = Ok (rs, s') /\ lists s' (live_after (h0 ++ h)) phi /\
    Forall2 up_to_ry_sign h h' /\ (far_from_odd_pi (h0 ++ h) -> h' = h) /\ Cn2 k = 1 /\
    dist w phi (scale k (evolve h' phi0)) <= INR ((length h + 2) * (7 * w + 4)) * unit_err w.
Proof.
  intros w g h0 h rs0 s phi0 Dr P Nm So E L Bw.
  destruct (truncation_lists horder_perm tol_lo tol_hi w g h0 h rs0 s phi0 Dr P Nm So E L Bw)
    as [rs [s' [phi [h' [k [E1 [L1 [F [Fa [K D]]]]]]]]]].
  exists rs, s', phi, h', k. repeat (split; [now auto|]).
  eapply Rle_trans; [exact D|]. apply Rmult_le_compat_r; [apply unit_err_nonneg|]. apply le_INR.
  destruct P as [V _]. apply valid_run_app in V. destruct V as [V0 V].
  assert (Tr : tracks s (fold_left bstep h0 (mkBook [] true))).
  { destruct (exec_tracks horder_perm h0 (new_sim g) _ (new_tracks g) V0) as [[rs1 [s1 [X Tr]]]|[X _]].
    - rewrite E in X. inversion X; subst. auto.
    - rewrite E in X. discriminate. }
  assert (Tr' : tracks s' (fold_left bstep (h0 ++ h) (mkBook [] true))).
  { rewrite fold_left_app. destruct (exec_tracks horder_perm h s _ Tr V) as [[rs1 [s1 [X Tr']]]|[X _]].
    - rewrite E1 in X. inversion X; subst. auto.
    - rewrite E1 in X. discriminate. }
  assert (N1 : (length (live_after (h0 ++ h)) <= w)%nat) by (apply short; auto; eapply live_nodup; eauto).
  assert (Bw' : forall q, In q (live (fold_left bstep h (fold_left bstep h0 (mkBook [] true)))) -> (q < w)%nat)
    by (unfold live_after in Bw; rewrite fold_left_app in Bw; exact Bw).
  assert (N0 : (length (live_after h0) <= w)%nat).
  { apply short; [eapply live_nodup; eauto|]. intros q Hq. apply Bw'. apply live_grows_run; auto. }
  assert (N2 := total_cost_le h _ w V So (tracks_sorted _ _ Tr) Bw'). lia.
Qed.
End Linear.
