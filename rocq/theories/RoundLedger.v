(** * Whole histories with measurements, with rounding *)
From Coq Require Import Reals NArith List Bool Lia Lra Permutation Arith Sorted FunctionalExtensionality.
From Verif Require Import Cx Arith ArithR IndexMap IndexMapLemmas Bits BitsLemmas Spec QLib QSum Sim SimExp SpecExp
  StateLemmas Loc Abs Gates Gates2 Meas Reg ExpLemmas SpecRun SpecLemmas SimRun RunLemmas SpecAny Any AnyRun
  SpecNear Near NearGates NearGates2 NearExp NearRun NearThms SpecRound Round RoundGates RoundExp RoundReg RoundRun RoundThms
  SpecLedger RoundMeas.
Import ListNotations.
Local Open Scope R_scope.

(** ** Projections of close vectors *)
Lemma qnorm_scale : forall n c psi, qnorm n (scale c psi) = cmod c * qnorm n psi.
Proof.
  intros. unfold qnorm, cmod. rewrite norm2_scale. apply sqrt_mult; [apply Cn2_nonneg|apply norm2_nonneg].
Qed.
Lemma dist_scale : forall n c phi psi, dist n (scale c phi) (scale c psi) = cmod c * dist n phi psi.
Proof.
  intros. rewrite !dist_norm, <- qnorm_scale. f_equal. apply functional_extensionality. intros b.
  unfold qdiff, scale. ring.
Qed.
Lemma born_scale : forall n qs c psi, born n qs (scale c psi) = Cn2 c * born n qs psi.
Proof.
  intros. unfold born, qsum. induction (basis n) as [|b l IH]; unfold Rsum in *; simpl; [ring|].
  rewrite IH. unfold scale at 1. rewrite Cn2_mul. destruct (par qs b); ring.
Qed.
Lemma proj_scale : forall qs r c psi, proj qs r (scale c psi) = scale c (proj qs r psi).
Proof.
  intros. apply functional_extensionality. intros b. unfold proj, scale. destruct (Bool.eqb _ _); auto. ring.
Qed.
Lemma cmod_bound : forall c, Cn2 c <= 3 / 2 -> cmod c <= 5 / 4.
Proof. intros c H. apply cmod_le; lra. Qed.
Lemma born_near : forall n qs c phi psi e, norm2 n psi = 1 -> Cn2 c <= 3 / 2 -> dist n phi (scale c psi) <= e -> e <= 1 / 2 ->
  Rabs (born n qs phi - Cn2 c * born n qs psi) <= 3 * e.
Proof.
  intros n qs c phi psi e Nv Hc D He. rewrite <- born_scale. assert (E := fun x => norm2_proj n qs true x). simpl in E.
  rewrite <- !E, <- !qnorm_sq.
  assert (D1 := qnorm_close n (proj qs true phi) (proj qs true (scale c psi))).
  assert (D2 := ct_dist n (proj qs true) phi (scale c psi) (ct_proj n qs true)).
  assert (Q : qnorm n (proj qs true (scale c psi)) <= 5 / 4).
  { eapply Rle_trans; [apply qnorm_ct; apply ct_proj|]. rewrite qnorm_scale. unfold qnorm at 1. rewrite Nv, sqrt_1, Rmult_1_r.
    apply cmod_bound; auto. }
  assert (P1 := qnorm_nonneg n (proj qs true phi)). assert (P2 := qnorm_nonneg n (proj qs true (scale c psi))).
  set (x := qnorm n (proj qs true phi)) in *. set (y := qnorm n (proj qs true (scale c psi))) in *.
  assert (D3 : Rabs (x - y) <= e) by lra. assert (D4 := rabs_bt _ _ D3).
  replace (x * x - y * y) with ((x - y) * (x + y)) by ring. rewrite Rabs_mult, (Rabs_pos_eq (x + y)) by lra.
  assert (P3 := Rabs_pos (x - y)).
  replace (3 * e) with (e * 3) by ring. apply Rmult_le_compat; lra.
Qed.
Lemma ct_drop : forall n q r, (q < n)%nat -> contraction n (drop_qubit q r).
Proof.
  intros n q r L. constructor; intros.
  - apply functional_extensionality. intros b. unfold drop_qubit, qdiff. destruct (bit b q); auto. ring.
  - assert (E : drop_qubit q r psi = drop_qubit q r (proj [q] r psi)).
    { apply functional_extensionality. intros b. unfold drop_qubit, proj. destruct (bit b q); auto.
      unfold par. simpl. rewrite bit_set_same, xorb_false_r, eqb_reflx. reflexivity. }
    rewrite E, norm2_drop; auto; [apply ct_proj|].
    intros b Hb. unfold proj, par. simpl. rewrite xorb_false_r. destruct (Bool.eqb (bit b q) r) eqn:Eb; auto.
    apply eqb_prop in Eb. tauto.
Qed.
Lemma drop_scale : forall q r c psi, drop_qubit q r (scale c psi) = scale c (drop_qubit q r psi).
Proof. intros. apply functional_extensionality. intros b. unfold drop_qubit, scale. destruct (bit b q); auto. ring. Qed.

Section RL.
Context {A : Arith} {EN : Env} {AP : Approx} {PP : ApproxP}.
Hypothesis laws : approx_ok.
Hypothesis plaws : approx_p_ok.
Hypothesis horder_perm : any_order.
Variable w : nat.

(** ** One projection *)
Section Proj.
Variables (qs : list nat) (r : bool) (psi phi : qstate) (c : C) (e : ledger) (p : prb).
Let eps := prob_err w e.
Let p' := if r then p else pcompl p.
Let ch := if r then born w qs psi else 1 - born w qs psi.
Hypothesis Nv : norm2 w psi = 1.
Hypothesis Dc : Rabs (Cn2 c - 1) <= dev e.
Hypothesis Dd : dev e <= 1 / 2.
Hypothesis Do : dist w phi (scale c psi) <= off e.
Hypothesis De : off e <= 1 / 2.
Hypothesis Ep : eps <= 2.
Hypothesis Pc : pclose p (born w qs phi) (2 * 2 ^ w * perr).

Lemma pr_pos : 0 <= 2 * 2 ^ w * perr /\ 0 <= perr /\ 0 <= off e /\ 0 <= dev e.
Proof.
  assert (E0 := pp_err plaws). assert (P2 : 0 <= 2 ^ w) by (apply pow_le; lra).
  assert (D0 := dist_nonneg w phi (scale c psi)). assert (R0 := Rabs_pos (Cn2 c - 1)).
  repeat split; try lra. apply Rmult_le_pos; lra.
Qed.
Lemma pr_born : 0 <= born w qs psi <= 1.
Proof. assert (H1 := born_nonneg w qs psi). assert (H2 := born_le_norm w qs psi). lra. Qed.
Lemma pr_raw : Rabs (pval p - Cn2 c * born w qs psi) <= 3 * off e + 2 * 2 ^ w * perr.
Proof.
  destruct Pc as [Fp Hp]. assert (Hc := rabs_bt _ _ Dc).
  assert (Bn := born_near w qs c phi psi (off e) Nv ltac:(lra) Do De).
  assert (K1 := rabs_bt _ _ Hp). assert (K2 := rabs_bt _ _ Bn). apply Rabs_le. lra.
Qed.
Lemma pr_odd : Rabs (pval p - born w qs psi) <= eps - perr.
Proof.
  assert (K1 := rabs_bt _ _ pr_raw). assert (K2 := rabs_bt _ _ Dc). assert (B := pr_born). destruct pr_pos as [? [? [? ?]]].
  assert (K3 : Rabs (Cn2 c * born w qs psi - born w qs psi) <= dev e).
  { replace (Cn2 c * born w qs psi - born w qs psi) with ((Cn2 c - 1) * born w qs psi) by ring.
    rewrite Rabs_mult, (Rabs_pos_eq (born w qs psi)) by lra. assert (R0 := Rabs_pos (Cn2 c - 1)). nra. }
  assert (K4 := rabs_bt _ _ K3). unfold eps, prob_err. apply Rabs_le. lra.
Qed.
Lemma pr_small : Rabs (pval p) <= 8.
Proof.
  assert (K1 := rabs_bt _ _ pr_odd). assert (B := pr_born). destruct pr_pos as [? [? [? ?]]]. apply Rabs_le. lra.
Qed.
Lemma pr_chance : pclose p' ch eps.
Proof.
  destruct Pc as [Fp _]. assert (K1 := rabs_bt _ _ pr_odd). destruct pr_pos as [? [? [? ?]]]. unfold p', ch. destruct r.
  - split; auto. apply Rabs_le. lra.
  - destruct (pp_compl plaws p Fp pr_small) as [Fc Hc]. split; auto. assert (K2 := rabs_bt _ _ Hc). apply Rabs_le. lra.
Qed.
Lemma pr_weight : Rabs (pval p' - Cn2 c * ch) <= eps.
Proof.
  destruct Pc as [Fp _]. assert (K1 := rabs_bt _ _ pr_raw). destruct pr_pos as [? [? [? ?]]]. unfold p', ch, eps, prob_err. destruct r.
  - apply Rabs_le. lra.
  - destruct (pp_compl plaws p Fp pr_small) as [Fc Hc]. assert (K2 := rabs_bt _ _ Hc). assert (K3 := rabs_bt _ _ Dc).
    apply Rabs_le. lra.
Qed.
Hypothesis C0p : 0 < ch.
Hypothesis C2 : 2 * eps <= ch.
Lemma pr_sized : pfin p' /\ 0 < pval p' /\ perr <= pval p' <= 2.
Proof.
  destruct pr_chance as [Fp Hp]. assert (K := rabs_bt _ _ Hp). destruct pr_pos as [? [? [? ?]]]. assert (B := pr_born).
  assert (ch <= 1) by (unfold ch; destruct r; lra). assert (perr <= eps) by (unfold eps, prob_err; lra).
  repeat split; auto; lra.
Qed.
Lemma pr_after : forall phi', dist w phi' (scale (RtoC (/ sqrt (pval p'))) (proj qs r phi)) <= runit w * / sqrt (pval p') ->
  exists c', Rabs (Cn2 c' - 1) <= eps / (ch - eps) /\
    dist w phi' (scale c' (scale (RtoC (1 / sqrt ch)) (proj qs r psi))) <= (off e + drift w 1) / sqrt (ch - eps).
Proof.
  intros phi' D. destruct pr_sized as [Fp [P0 P1]]. destruct pr_chance as [_ Hp]. assert (K := rabs_bt _ _ Hp).
  destruct pr_pos as [? [? [? ?]]]. assert (perr <= eps) by (unfold eps, prob_err; lra).
  assert (S1 : 0 < sqrt (pval p')) by (apply sqrt_lt_R0; auto).
  assert (S2 : 0 < sqrt ch) by (apply sqrt_lt_R0; auto).
  assert (S3 : 0 < sqrt (ch - eps)) by (apply sqrt_lt_R0; lra).
  assert (Le : sqrt (ch - eps) <= sqrt (pval p')) by (apply sqrt_le_1_alt; lra).
  exists (c * RtoC (sqrt ch / sqrt (pval p')))%C. split.
  - rewrite Cn2_mul, Cn2_RtoC.
    assert (Q : sqrt ch / sqrt (pval p') * (sqrt ch / sqrt (pval p')) = ch / pval p').
    { replace (sqrt ch / sqrt (pval p') * (sqrt ch / sqrt (pval p'))) with ((sqrt ch * sqrt ch) / (sqrt (pval p') * sqrt (pval p'))) by (field; lra).
      rewrite !sqrt_sqrt by lra. reflexivity. }
    rewrite Q. replace (Cn2 c * (ch / pval p') - 1) with ((Cn2 c * ch - pval p') / pval p') by (field; lra).
    unfold Rdiv. rewrite Rabs_mult, (Rabs_pos_eq (/ pval p')) by (apply Rlt_le, Rinv_0_lt_compat; auto).
    assert (W := pr_weight). rewrite Rabs_minus_sym in W. apply Rmult_le_compat; auto.
    + apply Rabs_pos.
    + apply Rlt_le, Rinv_0_lt_compat; auto.
    + apply Rinv_le_contravar; lra.
  - assert (E : scale (c * RtoC (sqrt ch / sqrt (pval p')))%C (scale (RtoC (1 / sqrt ch)) (proj qs r psi)) =
      scale (RtoC (/ sqrt (pval p'))) (proj qs r (scale c psi))).
    { rewrite proj_scale, !scale_scale. f_equal.
      assert (Z : (RtoC (sqrt ch / sqrt (pval p')) * RtoC (1 / sqrt ch))%C = RtoC (/ sqrt (pval p'))).
      { unfold RtoC, Cmul; simpl; f_equal; field; lra. }
      rewrite <- Z. ring. }
    rewrite E. eapply Rle_trans; [apply (dist_tri w _ (scale (RtoC (/ sqrt (pval p'))) (proj qs r phi)))|].
    rewrite (dist_scale w). assert (Cm : cmod (RtoC (/ sqrt (pval p'))) = / sqrt (pval p')).
    { unfold cmod. rewrite Cn2_RtoC. apply sqrt_square. apply Rlt_le, Rinv_0_lt_compat; auto. }
    rewrite Cm. assert (D2 := ct_dist w (proj qs r) phi (scale c psi) (ct_proj w qs r)).
    assert (I1 : 0 < / sqrt (pval p')) by (apply Rinv_0_lt_compat; auto).
    assert (I2 : / sqrt (pval p') <= / sqrt (ch - eps)) by (apply Rinv_le_contravar; auto).
    assert (Ru := runit_pos laws w).
    assert (Dr : drift w 1 = runit w) by (rewrite drift_eq; simpl; ring). rewrite Dr.
    assert (M1 : / sqrt (pval p') * dist w (proj qs r phi) (proj qs r (scale c psi)) <= / sqrt (pval p') * off e)
      by (apply Rmult_le_compat_l; lra).
    assert (M2 : (off e + runit w) * / sqrt (pval p') <= (off e + runit w) * / sqrt (ch - eps)) by (apply Rmult_le_compat_l; lra).
    unfold Rdiv. lra.
Qed.
End Proj.

(** ** The exact vector *)
Definition vec_ok (l : list nat) (psi : qstate) : Prop := supported l psi /\ norm2 w psi = 1.
Lemma vec_born : forall l qs psi, vec_ok l psi -> (forall q, In q l -> (q < w)%nat) -> born (width l) qs psi = born w qs psi.
Proof. intros l qs psi [S _] B. symmetry. apply born_width; auto. Qed.
Lemma vec_chance : forall l qs r psi, vec_ok l psi -> (forall q, In q l -> (q < w)%nat) ->
  chance l qs r psi = if r then born w qs psi else 1 - born w qs psi.
Proof. intros. unfold chance. rewrite !vec_born; auto. Qed.
Lemma vec_collapsed : forall l qs r psi, vec_ok l psi -> (forall q, In q l -> (q < w)%nat) -> 0 < chance l qs r psi ->
  vec_ok l (collapsed l qs r psi).
Proof.
  intros l qs r psi [S N] B C. split; [apply supported_collapsed; auto|].
  rewrite (norm2_width l) by (auto; apply supported_collapsed; auto). apply norm2_collapsed.
  - rewrite <- (norm2_width l w); auto.
  - unfold chance in C. destruct r; lra.
Qed.
Lemma vec_step : forall b c c' psi x, call_means c c' -> avalid b c -> (forall q, In q (live b) -> (q < w)%nat) ->
  vec_ok (live b) psi -> vec_ok (live (abstep b c)) (vstep (live b) psi x c').
Proof.
  intros b c c' psi x M V B [S N]. unfold vec_ok.
  destruct c, c'; simpl in M; try contradiction; simpl in V; simpl vstep; simpl abstep; cbn [live]; auto.
  - destruct M as [M ->]. split; [apply supported_gate1; auto|]. rewrite norm2_gate1; auto. apply ugmat.
  - destruct M as [M [-> ->]]. destruct V as [D I]. inversion D; subst. split; [apply supported_cgate; auto; apply I; left; auto|].
    rewrite norm2_cgate; auto; [apply ugmat|]. apply B, I. left; auto.
  - destruct M as [M [K [-> ->]]]. destruct V as [D I]. inversion D; subst. split; [apply supported_cgate; auto; apply I; left; auto|].
    rewrite norm2_cgate; auto; [apply uPhase; auto|]. apply B, I. left; auto.
  - destruct M as [_ [-> ->]]. destruct V as [[D I] _].
    split; [apply (supported_exp _ []); auto|]. rewrite <- N. apply (norm2_exp w []); auto.
  - destruct M as [_ [-> [-> ->]]]. destruct V as [[D I] _]. assert (J : forall q, In q ts -> In q (live b)).
    { intros q Hq. apply I, in_or_app. auto. }
    split; [apply supported_exp; auto|]. rewrite norm2_exp; auto.
  - destruct M as [_ [Iso [-> [-> [-> ->]]]]]. destruct V as [[D I] [V1 _]]. subst rows.
    assert (J : forall q, In q ts -> In q (live b)) by (intros q Hq; apply I, in_or_app; auto).
    split; [apply supported_mat; auto|]. rewrite norm2_mat; auto.
  - split; auto. intros k i Hk Hi. apply (S k i Hk). intro. apply Hi. apply insert_id_In. auto.
  - destruct M as [-> ->]. destruct V as [Ha Hb]. split; [apply supported_swap; auto|]. rewrite norm2_swap; auto.
Qed.

(** ** Simulator and exact machine side by side *)
Notation wf := inv.
Notation bounds := (RoundGates.bounds w).
Notation abs := RoundGates.abs.
Notation rxin := RoundGates.rxin.
Notation alloc := RoundGates.alloc.
Notation ids := RoundGates.ids.
Definition tracked (s : sim) (psi : qstate) (e : ledger) : Prop :=
  exists c, Rabs (Cn2 c - 1) <= dev e /\ dist w (abs s) (scale c psi) + INR (ql s) * runit w <= off e.
Record tied (s : sim) (m : machine) (e : ledger) (b : R) : Prop := {
  td_book : abook s (bk m);
  td_rng : rng s = mgen m;
  td_sound : soundB b s;
  td_vec : vec_ok (live (bk m)) (vec m);
  td_near : tracked s (vec m) e
}.
Lemma drift_plus : forall j k, drift w (j + k) = drift w j + drift w k.
Proof. intros. unfold drift. rewrite plus_INR. ring. Qed.
Lemma drift_le : forall j k, (j <= k)%nat -> INR j * runit w <= INR k * runit w.
Proof. intros. apply Rmult_le_compat_r; [apply (runit_pos laws)|]. apply le_INR; auto. Qed.
(** The vector after [n] steps. *)
Lemma near_off : forall s psi c j n phi o, dist w (abs s) (scale c psi) + INR (ql s) * runit w <= o ->
  (j <= n + ql s)%nat -> nearr w j phi (abs s) -> dist w phi (scale c psi) <= o + drift w n.
Proof.
  intros s psi c j n phi o D L N. assert (T := dist_tri w phi (abs s) (scale c psi)).
  assert (M := drift_le j (n + ql s) L). rewrite plus_INR, Rmult_plus_distr_r in M.
  change (dist w phi (abs s) <= INR j * runit w) in N. rewrite drift_eq. lra.
Qed.
Lemma tracked_budget : forall s psi e n, bounds s -> norm2 w psi = 1 -> tracked s psi e -> dev e <= 1 / 2 ->
  off e + drift w n <= 1 / 2 -> budget w n s.
Proof.
  intros s psi e n Bd Nv [c [Dc D]] Hd Ho. unfold budget. rewrite <- qnorm_abs by auto. rewrite drift_eq in Ho.
  assert (Q := qnorm_dist w (abs s) (scale c psi)). assert (K := rabs_bt _ _ Dc).
  assert (Qc : qnorm w (scale c psi) <= 5 / 4).
  { rewrite qnorm_scale. unfold qnorm. rewrite Nv, sqrt_1, Rmult_1_r. apply cmod_bound. lra. }
  rewrite plus_INR, Rmult_plus_distr_r. lra.
Qed.

Lemma joint_probability_p : forall b s qs, b <= lim -> wf s -> NoDup qs -> Forall (alloc s) qs ->
  exists p s', joint_probability s qs = Ok (p, s') /\
    (bounds s -> soundB b s -> budget w (9 * length qs) s -> 2 * 2 ^ w * perr <= 4 ->
     exists phi j, (j <= 9 * length qs + ql s)%nat /\ nearr w j phi (abs s) /\ pclose p (born w qs phi) (2 * 2 ^ w * perr)).
Proof.
  intros b s qs Lb W D Al. unfold joint_probability.
  destruct (maybe_flush_n laws horder_perm w b Lb qs s W Al) as [s1 [E1 [G1 [L1 [_ D1]]]]].
  rewrite E1. cbn [bind]. rewrite acheck by auto. cbn [bind].
  assert (A1 : Forall (alloc s1) qs) by (eapply nst_Forall; eauto).
  destruct (amapM_find s1 qs A1) as [locs [E2 R2]]. rewrite E2. cbn [bind].
  destruct (check_after_flush laws plaws w b s s1 qs locs Lb W D G1 D1 R2) as [p [s3 [E3 [F3 [W3 [Q3 [N3 H3]]]]]]].
  exists p, s3. split; [exact E3|]. intros Bd Sd Q Ep. destruct (H3 Bd Sd Q Ep) as [_ [_ [[j [Lj Nj]] Pc]]].
  exists (abs s3), j. auto.
Qed.

(** A multiple of modulus near 1 is near a phase. *)
Lemma to_phase : forall c psi d, norm2 w psi = 1 -> Rabs (Cn2 c - 1) <= d -> d <= 1 / 2 ->
  exists k, Cn2 k = 1 /\ dist w (scale c psi) (scale k psi) <= d.
Proof.
  intros c psi d Nv Hc Hd. assert (K := rabs_bt _ _ Hc).
  assert (M0 : 0 < cmod c) by (unfold cmod; apply sqrt_lt_R0; lra). assert (Ms := cmod_sq c).
  exists (c * RtoC (/ cmod c))%C. split.
  - rewrite Cn2_mul, Cn2_RtoC, <- Ms. field. lra.
  - assert (E : qdiff (scale c psi) (scale (c * RtoC (/ cmod c))%C psi) = scale (c * RtoC (1 - / cmod c))%C psi).
    { apply functional_extensionality. intros b. unfold qdiff, scale. unfold RtoC. cunfold. apply injective_projections; simpl; ring. }
    rewrite dist_norm, E, qnorm_scale. unfold qnorm. rewrite Nv, sqrt_1, Rmult_1_r, cmod_mul.
    assert (Cm : cmod (RtoC (1 - / cmod c)) = Rabs (1 - / cmod c)).
    { unfold cmod. rewrite Cn2_RtoC. apply sqrt_Rsqr_abs. }
    rewrite Cm. rewrite <- (Rabs_pos_eq (cmod c)) at 1 by lra. rewrite <- Rabs_mult.
    replace (cmod c * (1 - / cmod c)) with (cmod c - 1) by (field; lra).
    assert (F : Cn2 c - 1 = (cmod c - 1) * (cmod c + 1)) by (rewrite <- Ms; ring).
    rewrite F, Rabs_mult, (Rabs_pos_eq (cmod c + 1)) in Hc by lra. assert (P := Rabs_pos (cmod c - 1)). nra.
Qed.

Lemma means_book : forall c c' b, call_means c c' -> bstep b c' = abstep b c.
Proof. intros c c' b M. destruct c, c'; simpl in M; try contradiction; reflexivity. Qed.
Lemma means_draws : forall c c' l, call_means c c' -> draws_sample l c' = false /\ adraws l c = false.
Proof. intros c c' l M. destruct c, c'; simpl in M; try contradiction; auto. Qed.
Lemma means_proj : forall c c' l psi x e, call_means c c' ->
  projects l psi x c' = None /\ lcost l c = rcost l c /\ next w e l psi x c c' = stepped w e l c.
Proof. intros c c' l psi x e M. unfold next. destruct c, c'; simpl in M; try contradiction; auto. Qed.

Ltac same_ok E := match type of E with _ = Ok ?x => match goal with H : _ = Ok ?y |- _ =>
  first [constr_eq x y; fail 1 | let X := fresh in pose proof (eq_trans (eq_sym E) H) as X; inversion X; subst; clear X H] end end.

Section Step.
Variables (s s1 : sim) (m : machine) (e : ledger) (b b' : R) (c : acall) (c' : call) (r : areply) (n : nat) (h' : list call).
Let l := live (bk m).
Let psi := vec m.
Let x := fst (sampled (mgen m)).
Let e1 := stepped w e l c.
Hypothesis Td : tied s m e b.
Hypothesis Va : avalid (bk m) c.
Hypothesis Bw : forall q, In q l -> (q < w)%nat.
Hypothesis Fi : fits w e l psi x c c'.
Hypothesis Hd : held b c.
Hypothesis B0 : 0 <= b.
Hypothesis Hb : b + turn c <= b'.
Hypothesis Bl : b' <= lim.
Hypothesis Cl : clearing s n (c' :: h').
Hypothesis Er : arun1 s c = Ok (r, s1).
Hypothesis Bk1 : abook s1 (abstep (bk m) c).
Hypothesis Rg1 : rng s1 = if adraws l c then snd (draw (rng s)) else rng s.
Hypothesis Rp : areply_ok l c r.

Let Bk : abook s (bk m) := td_book _ _ _ _ Td.
Let W : wf s := ab_inv _ _ Bk.
Lemma Bd : bounds s.
Proof. intros q Hq. apply Bw. apply (ab_has s (bk m)); auto. Qed.
Lemma b_b' : b <= b'. Proof. assert (T := turn_pos laws c). lra. Qed.
Lemma Lb : b <= lim. Proof. assert (T := b_b'). lra. Qed.
Lemma Qc : budget w (lcost l c) s.
Proof.
  destruct Fi as [F1 [F2 _]]. apply (tracked_budget s psi e); [apply Bd|apply Td|apply Td|exact F2|exact F1].
Qed.
Lemma Eta : 2 * 2 ^ w * perr <= 4.
Proof.
  destruct Fi as [_ [_ [F3 _]]]. unfold prob_err in F3. destruct (td_near _ _ _ _ Td) as [k [K1 K2]].
  assert (P := pp_err plaws). assert (D0 := dist_nonneg w (abs s) (scale k (vec m))). assert (R0 := Rabs_pos (Cn2 k - 1)).
  assert (R1 : 0 <= INR (ql s) * runit w) by (apply Rmult_le_pos; [apply pos_INR|apply (runit_pos laws)]).
  assert (R2 : 0 <= drift w (lcost l c)) by (rewrite drift_eq; apply Rmult_le_pos; [apply pos_INR|apply (runit_pos laws)]).
  unfold stepped in F3. simpl in F3. lra.
Qed.

Lemma soft_step : call_means c c' ->
  tied s1 (mstep1 sampled m c') (next w e l psi x c c') b' /\ reply_near w e l psi x c c' r /\ rkept s s1 c'.
Proof.
  intros M. destruct (means_proj c c' l psi x e M) as [Ep [Lc Nx]]. destruct (means_draws c c' l M) as [Dr1 Dr2].
  assert (Q := Qc). rewrite Lc in Q. fold e1 in Nx.
  destruct Fi as [F1 [F2 [F3 _]]]. fold e1 in F1, F2, F3.
  destruct (td_vec _ _ _ _ Td) as [Sv Nv].
  destruct (td_near _ _ _ _ Td) as [k0 [K1 K2]].
  destruct (call_rmoved laws horder_perm w b b' B0 b_b' Bl c c' s (bk m) r s1 Bk Va M Hd Hb Er Bd (td_sound _ _ _ _ Td) Q)
    as [[kc [F [Kc [Ct [Li [Ve [Sd1 [i [Li1 Ni]]]]]]]]] Rk].
  assert (Ac : acts_as s c c' = c') by (apply (clearing_acts laws s n c c' h' b); auto; [apply Lb|apply Td]).
  rewrite Ac in Ve.
  assert (Near : Rabs (Cn2 (kc * k0)%C - 1) <= dev e1 /\
     dist w (abs s1) (scale (kc * k0)%C (vstep l psi x c')) + INR (ql s1) * runit w <= off e1).
  { split; [rewrite Cn2_mul, Kc, Rmult_1_l; exact K1|]. rewrite Ve, <- scale_scale, <- Li.
    assert (T := dist_tri w (abs s1) (scale kc (F (abs s))) (scale kc (F (scale k0 psi)))).
    rewrite (dist_scale w) in T. assert (Cm : cmod kc = 1) by (unfold cmod; rewrite Kc; apply sqrt_1). rewrite Cm, Rmult_1_l in T.
    assert (D2 := ct_dist w F (abs s) (scale k0 psi) Ct).
    change (dist w (abs s1) (scale kc (F (abs s))) <= INR i * runit w) in Ni.
    fold l in Li1. assert (Dl := drift_le _ _ Li1). rewrite !plus_INR, !Rmult_plus_distr_r in Dl.
    unfold e1, stepped. simpl. rewrite Lc, drift_eq. fold psi in K2. lra. }
  split; [|split; [|exact Rk]].
  - rewrite Nx. unfold mstep1, sampled. constructor; cbn [bk vec mgen].
    + rewrite (means_book c c' (bk m) M). exact Bk1.
    + rewrite Rg1, Dr2. fold l. rewrite Dr1. apply Td.
    + exact Sd1.
    + rewrite (means_book c c' (bk m) M). apply vec_step; auto. split; auto.
    + exists (kc * k0)%C. exact Near.
  - assert (Off : forall phi j, (j <= rcost l c + ql s)%nat -> nearr w j phi (abs s) -> dist w phi (scale k0 psi) <= off e1).
    { intros phi j Lj Nj. unfold e1, stepped. simpl. rewrite Lc. eapply near_off; eauto. }
    assert (List : forall st, finl st -> listing (values st) l (abs s1) -> vstep l psi x c' = psi -> live (abstep (bk m) c) = l ->
       all_finite st /\ exists phi k, supported l phi /\ listing (values st) l phi /\ Cn2 k = 1 /\
         dist w phi (scale k psi) <= off e1 + dev e1).
    { intros st Fst Ls Ev El. split; [exact Fst|]. destruct Near as [N1 N2]. rewrite Ev in N2.
      destruct (to_phase (kc * k0)%C psi (dev e1) Nv N1 F2) as [k [Kk Dk]].
      exists (abs s1), k. split.
      { assert (Sa := supported_abs s1 (ab_inv _ _ Bk1)).
        assert (Ei : ids s1 = l) by (unfold RoundGates.ids; rewrite (ab_ids _ _ Bk1); exact El).
        rewrite Ei in Sa. exact Sa. }
      split; [exact Ls|]. split; [exact Kk|].
      assert (T := dist_tri w (abs s1) (scale (kc * k0)%C psi) (scale k psi)).
      assert (0 <= INR (ql s1) * runit w) by (apply Rmult_le_pos; [apply pos_INR|apply (runit_pos laws)]). lra. }
    assert (Idl : ids s = l) by (unfold RoundGates.ids; apply (ab_ids _ _ Bk)).
    assert (Prob : forall qs, NoDup qs -> incl qs l -> rcost l c = (9 * length qs)%nat ->
       exists p s2, joint_probability s qs = Ok (p, s2) /\ pclose p (born (width l) qs psi) (prob_err w e1)).
    { intros qs D I Rc. assert (Al : Forall (alloc s) qs) by (apply (ab_Forall s (bk m)); auto).
      destruct (joint_probability_p b s qs Lb W D Al) as [p [s2 [E2 H2]]]. exists p, s2. split; [exact E2|].
      destruct H2 as [phi [j [Lj [Nj Pc]]]]; [apply Bd|apply Td|rewrite <- Rc; exact Q|apply Eta|].
      rewrite vec_born; [|split; auto|auto]. split; [apply Pc|].
      assert (Do : dist w phi (scale k0 psi) <= off e1) by (apply (Off phi j); auto; rewrite Rc; auto).
      assert (O := pr_odd qs psi phi k0 e1 p Nv K1 F2 Do F1 Pc). assert (P := pp_err plaws). lra. }
    unfold reply_near. fold e1. cbv zeta. unfold reply_within. assert (LB := Lb). assert (BD := Bd). assert (SD := td_sound _ _ _ _ Td).
    destruct c, c'; simpl in M; try contradiction; simpl in Rp; auto.
    + subst qs0. destruct Va as [D I]. destruct (Prob qs D I eq_refl) as [p [s2 [E2 P2]]].
      simpl in Er. rewrite E2 in Er. simpl in Er. inversion Er; subst. exists p. auto.
    + subst q0. simpl in Va. destruct (Prob [q] (nodup1 q)) as [p [s2 [E2 [Fp Hp]]]]; [intros y [<-|[]]; auto|reflexivity|].
      simpl in Er. unfold qubit_is_zero in Er. rewrite E2 in Er. simpl in Er. inversion Er; subst. exists (pnz p).
      split; [reflexivity|]. assert (K := rabs_bt _ _ Hp).
      assert (Bp : 0 <= born (width l) [q] psi) by apply born_nonneg.
      split.
      * intros Z. apply (pp_nz plaws p Fp) in Z. assert (K3 := rabs_bt _ _ Z). lra.
      * intros Z. destruct (Rlt_dec (thr - prob_err w e1) (born (width l) [q] psi)) as [|Hn]; auto. exfalso.
        assert (Y : pnz p = true); [|congruence]. apply (pp_nz plaws p Fp). apply Rabs_le.
        lra.
    + destruct (get_state_r laws horder_perm w b s LB W) as [st [s2 [E2 [_ [Ls H2]]]]]. simpl in Er. rewrite E2 in Er. simpl in Er.
      inversion Er; subst. rewrite Idl in *. exists st. split; [reflexivity|].
      destruct H2 as [Fst _]; [exact BD|exact SD|exact Q|]. apply List; auto.
    + destruct (dump_r laws horder_perm w b s LB W) as [st [s2 [E2 [_ [Ls H2]]]]]. simpl in Er. rewrite E2 in Er. simpl in Er.
      inversion Er; subst. rewrite Idl in *. exists st. split; [reflexivity|].
      destruct H2 as [Fst _]; [exact BD|exact SD|exact Q|]. apply List; auto.
Qed.

(** *** Projections *)
Lemma sample_val : x = pval (fst (draw (rng s))).
Proof. unfold x, sampled. simpl. now rewrite (td_rng _ _ _ _ Td). Qed.
Lemma measured : forall qs r0 s2, NoDup qs -> incl qs l -> lcost l c = (9 * length qs)%nat ->
  projects l psi x c' = Some (qs, outcome l qs psi x) -> match c' with CForce _ _ => False | _ => True end ->
  joint_measure s qs = Ok (r0, s2) ->
  r0 = outcome l qs psi x /\ soundB b s2 /\ (forall G, symm G -> rxin G s -> rxin G s2) /\ ql s2 = 0%nat /\
  vec_ok l (collapsed l qs r0 psi) /\ tracked s2 (collapsed l qs r0 psi) (next w e l psi x c c').
Proof.
  intros qs r0 s2 D I Lc Pj Nf Em. assert (Q := Qc). rewrite Lc in Q. assert (ET := Eta). unfold next. fold e1. unfold fits in Fi. fold e1 in Fi.
  rewrite Pj in *. destruct Fi as [F1 [F2 [F3 [C0p [C2 F4]]]]].
  assert (F5 : prob_err w e1 < Rabs (x - born (width l) qs psi)) by (destruct c'; auto; contradiction). clear F4 Nf.
  destruct (td_vec _ _ _ _ Td) as [Sv Nv]. destruct (td_near _ _ _ _ Td) as [k0 [K1 K2]]. fold psi in Nv, Sv, K2. fold l in Sv.
  assert (Al : Forall (alloc s) qs) by (apply (ab_Forall s (bk m)); auto).
  destruct (joint_measure_r laws plaws horder_perm w b s qs Lb W D Al)
    as [p [r1 [s3 [E3 [Rd [_ [Q3 [_ [_ [_ [_ [Rx H3]]]]]]]]]]]].
  rewrite Em in E3. injection E3 as <- <-.
  destruct H3 as [phi [[j [Lj Nj]] [Pc H3]]]; [apply Bd|apply Td|exact Q|exact ET|].
  assert (Vo : vec_ok l psi) by (split; auto).
  assert (Do : dist w phi (scale k0 psi) <= off e1).
  { unfold e1, stepped. simpl. rewrite Lc. eapply near_off; eauto. }
  assert (O := pr_odd qs psi phi k0 e1 p Nv K1 F2 Do F1 Pc). rewrite (vec_born l) in F5 by auto.
  assert (Eo : r0 = outcome l qs psi x).
  { assert (Fs := pp_draw plaws (rng s)). assert (Lt := pp_lt plaws (fst (draw (rng s))) p Fs (proj1 Pc)). rewrite <- Rd, <- sample_val in Lt.
    assert (P := pp_err plaws). assert (K := rabs_bt _ _ O).
    unfold outcome. rewrite vec_born by auto. destruct (Rlt_dec x (born w qs psi)) as [H|H].
    - apply Lt. rewrite Rabs_left in F5 by lra. lra.
    - destruct r0; auto. exfalso. assert (Z : x < pval p) by (apply Lt; auto). rewrite Rabs_pos_eq in F5 by lra. lra. }
  rewrite <- Eo in *. rewrite vec_chance in C2 by auto.
  assert (C0w := C0p). rewrite vec_chance in C0w by auto.
  destruct (pr_sized qs r0 psi phi k0 e1 p Nv K1 F2 Do F1 F3 Pc C0w C2) as [Fp [P0 P1]].
  destruct (H3 Fp P0 P1) as [Sd2 D2].
  destruct (pr_after qs r0 psi phi k0 e1 p Nv K1 F2 Do F1 F3 Pc C0w C2 (abs s2) D2) as [k [Kk Dk]].
  split; [reflexivity|]. split; [exact Sd2|]. split; [exact Rx|]. split; [unfold ql; rewrite Q3; reflexivity|].
  split; [apply vec_collapsed; auto|].
  exists k. unfold next. cbn [off dev]. rewrite vec_chance by auto. split; [exact Kk|].
  unfold ql. rewrite Q3. cbn [length INR]. rewrite Rmult_0_l, Rplus_0_r. unfold collapsed. rewrite vec_born by auto. exact Dk.
Qed.
Lemma forced : forall v q, c = AForce v q -> c' = CForce v q ->
  exists p, r = AProb p /\ pclose p (chance l [q] v psi) (prob_err w e1) /\ soundB b s1 /\
    (forall G, symm G -> rxin G s -> rxin G s1) /\ ql s1 = 0%nat /\
    vec_ok l (vstep l psi x c') /\ tracked s1 (vstep l psi x c') (next w e l psi x c c').
Proof.
  intros v q Ec Ec'. assert (Q := Qc). assert (ET := Eta). unfold next. fold e1. unfold fits in Fi. fold e1 in Fi.
  rewrite Ec in Q, Va, Er. simpl lcost in Q. rewrite Ec' in *. cbn [projects] in *.
  destruct Fi as [F1 [F2 [F3 [C0p [C2 F5]]]]].
  destruct (td_vec _ _ _ _ Td) as [Sv Nv]. destruct (td_near _ _ _ _ Td) as [k0 [K1 K2]]. fold psi in Nv, Sv, K2. fold l in Sv.
  assert (Al : alloc s q) by (apply (ab_has s (bk m)); auto).
  destruct (force_collapse_r laws plaws horder_perm w b s v q Lb W Al)
    as [p [s3 [E3 [_ [Q3 [_ [_ [Rx H3]]]]]]]].
  simpl in Er. rewrite E3 in Er. simpl in Er. injection Er as Erp Ers. rewrite <- Ers. rewrite <- Erp.
  destruct H3 as [phi [[j [Lj Nj]] [Pc H3]]]; [apply Bd|apply Td|exact Q|exact ET|].
  assert (Vo : vec_ok l psi) by (split; auto).
  assert (Do : dist w phi (scale k0 psi) <= off e1).
  { unfold e1, stepped. rewrite Ec. cbn [off lcost]. eapply near_off; eauto. }
  rewrite vec_chance in C2, F5 by auto.
  assert (C0w := C0p). rewrite vec_chance in C0w by auto.
  assert (Pch := pr_chance [q] v psi phi k0 e1 p Nv K1 F2 Do F1 F3 Pc).
  destruct (pr_sized [q] v psi phi k0 e1 p Nv K1 F2 Do F1 F3 Pc C0w C2) as [Fp [P0 P1]].
  assert (Pt : thr < pval (if v then p else pcompl p)).
  { destruct Pch as [_ Hp]. assert (K := rabs_bt _ _ Hp). lra. }
  destruct (H3 Fp Pt P1) as [Sd2 D2].
  destruct (pr_after [q] v psi phi k0 e1 p Nv K1 F2 Do F1 F3 Pc C0w C2 (abs s3) D2) as [k [Kk Dk]].
  assert (Ev : vstep l psi x (CForce v q) = collapsed l [q] v psi).
  { simpl. destruct (Req_EM_T _ 0) as [Z|]; auto. exfalso. unfold chance in C0p. destruct v; lra. }
  exists (if v then p else pcompl p). split; [reflexivity|]. split; [rewrite vec_chance by auto; exact Pch|].
  split; [exact Sd2|]. split; [exact Rx|]. split; [unfold ql; rewrite Q3; reflexivity|].
  rewrite Ev. split; [apply vec_collapsed; auto|].
  exists k. cbn [off dev]. rewrite vec_chance by auto. split; [exact Kk|].
  unfold ql. rewrite Q3. cbn [length INR]. rewrite Rmult_0_l, Rplus_0_r. unfold collapsed. rewrite vec_born by auto. exact Dk.
Qed.

Lemma call_step : call_stands c c' ->
  tied s1 (mstep1 sampled m c') (next w e l psi x c c') b' /\ reply_near w e l psi x c c' r /\ rkept s s1 c'.
Proof.
  intros M.
  assert (Dec : call_means c c' \/ (exists q, c = ARelease q) \/ (exists q, c = AMeasure q) \/
                (exists qs, c = AJointMeasure qs) \/ (exists v q, c = AForce v q)).
  { clear - M. destruct c; eauto 7. }
  assert (Rn : rng s1 = if adraws l c then snd (draw (mgen m)) else mgen m) by (rewrite Rg1, (td_rng _ _ _ _ Td); reflexivity).
  assert (Mono := sound_mono b b'). assert (BB := b_b'). assert (Er' := Er). assert (Va' := Va). assert (Bk1' := Bk1).
  destruct Dec as [Me|[[q0 Ec]|[[q0 Ec]|[[qs0 Ec]|[v0 [q0 Ec]]]]]]; [apply soft_step; auto|..]; rewrite Ec in M, Rn, Er', Va', Bk1'.
  - (* release *)
    assert (Ec' : c' = CRelease q0) by (destruct c'; simpl in M; try contradiction; now subst).
    simpl in Va'. assert (RO := remove_only q0 (live (bk m)) (ab_sorted s (bk m) Bk) Va'). fold l in RO.
    destruct (remove_id q0 l) as [|y ys] eqn:Er0.
    + assert (Li : l = [q0]) by (apply RO; auto).
      destruct (release_last_r laws b s q0 W) as [s2 [E2 [_ [Sd2 [Q2 [X2 A2]]]]]].
      { unfold RoundGates.ids. rewrite (ab_ids s (bk m) Bk). exact Li. }
      simpl in Er'. rewrite E2 in Er'. simpl in Er'. injection Er' as Erp Ers. rewrite <- Ers in Bk1', Rn. rewrite <- Ers, <- Erp.
      unfold next. rewrite Ec'. cbn [projects reply_near reply_within]. rewrite Er0. split; [|split; [reflexivity|]].
      * unfold mstep1, sampled. constructor; cbn [bk vec mgen bstep vstep draws_sample]; fold l; rewrite ?Er0.
        -- simpl abstep in Bk1'. fold l in Bk1'. rewrite Er0 in Bk1'. exact Bk1'.
        -- rewrite Rn. simpl. rewrite Er0. reflexivity.
        -- apply Mono; auto.
        -- cbn [live]. split; [apply ket0_supported|apply ket0_norm].
        -- exists C1. cbn [off dev]. rewrite Cn2_C1, Rminus_eq_0, Rabs_R0. split; [lra|].
           rewrite A2, scale_1, dist_refl, Q2. simpl. lra.
      * apply rkept_norx. intros. apply X2.
    + assert (Ln : length (ids s) <> 1%nat).
      { intro H. unfold RoundGates.ids in H. rewrite (ab_ids s (bk m) Bk) in H. apply (length_one _ _ q0) in H; auto. apply RO in H. discriminate. }
      destruct (release_r laws plaws horder_perm w b s q0 Lb W) as [r0 [s2 [s3 [Em [E3 [_ [Q3 [X3 [S3 A3]]]]]]]]]; auto.
      { apply (ab_has s (bk m)); auto. }
      destruct (measured [q0] r0 s2) as [Eo [Sd2 [Rx [Q2 [Vo Tr]]]]]; auto.
      { apply nodup1. }
      { intros z [<-|[]]. exact Va'. }
      { rewrite Ec. reflexivity. }
      { rewrite Ec'. simpl. rewrite Er0. reflexivity. }
      { rewrite Ec'. exact Logic.I. }
      simpl in Er'. rewrite E3 in Er'. simpl in Er'. injection Er' as Erp Ers. rewrite <- Ers in Bk1', Rn. rewrite <- Ers, <- Erp.
      split; [|split; [rewrite Ec'; reflexivity|]].
      * unfold mstep1, sampled. constructor; cbn [bk vec mgen].
        -- rewrite Ec'. exact Bk1'.
        -- rewrite Rn, Ec'. simpl. fold l. rewrite Er0. reflexivity.
        -- apply Mono; auto.
        -- rewrite Ec'. cbn [bstep vstep]. fold l. rewrite Er0. cbn [live]. rewrite <- Er0. fold psi.
           change (fst (sampled (mgen m))) with x. change (pval (fst (draw (mgen m)))) with x. rewrite <- Eo.
           destruct Vo as [V1 V2]. split; [apply supported_drop; auto|]. rewrite norm2_drop; auto.
           intros k Hk. apply collapsed_value; auto.
        -- assert (Ev : vstep l psi x c' = drop_qubit q0 r0 (collapsed l [q0] r0 psi)).
           { rewrite Ec'. cbn [vstep]. rewrite Er0, <- Eo. reflexivity. }
           change (tracked s3 (vstep l psi x c') (next w e l psi x c c')). rewrite Ev.
           destruct Tr as [k [T1 T2]]. exists k. split; [exact T1|]. rewrite Q2 in T2. rewrite Q3, A3, <- drop_scale.
           eapply Rle_trans; [|exact T2]. apply Rplus_le_compat_r. apply ct_dist. apply ct_drop. auto.
      * apply rkept_norx. intros. apply X3. apply Rx; auto.
  - (* measure *)
    assert (Ec' : c' = CMeasure q0) by (destruct c'; simpl in M; try contradiction; now subst).
    assert (Mj : measure s q0 = joint_measure s [q0]).
    { unfold measure, joint_measure, check_for_duplicates. simpl.
      destruct (maybe_flush_queue s [q0] LHRxRy) as [z|z]; simpl; auto. destruct (find_qubit z q0); simpl; auto. }
    simpl in Er'. rewrite Mj in Er'. destruct (joint_measure s [q0]) as [[r0 s2]|] eqn:Em; simpl in Er'; [|discriminate].
    destruct (measured [q0] r0 s2) as [Eo [Sd2 [Rx [Q2 [Vo Tr]]]]]; auto.
    { apply nodup1. }
    { intros z [<-|[]]. exact Va'. }
    { rewrite Ec. reflexivity. }
    { rewrite Ec'. reflexivity. }
    { rewrite Ec'. exact Logic.I. }
    injection Er' as Erp Ers. rewrite <- Ers in Bk1', Rn. rewrite <- Ers, <- Erp.
    assert (Ev : vstep l psi x c' = collapsed l [q0] r0 psi) by (rewrite Ec', Eo; reflexivity).
    split; [|split].
    + unfold mstep1, sampled. constructor; cbn [bk vec mgen].
      * rewrite Ec'. exact Bk1'.
      * rewrite Rn, Ec'. reflexivity.
      * apply Mono; auto.
      * change (vec_ok (live (bstep (bk m) c')) (vstep l psi x c')). rewrite Ev, Ec'. exact Vo.
      * change (tracked s2 (vstep l psi x c') (next w e l psi x c c')). rewrite Ev. exact Tr.
    + rewrite Ec', Eo. reflexivity.
    + apply rkept_norx. exact Rx.
  - (* joint_measure *)
    assert (Ec' : c' = CJointMeasure qs0) by (destruct c'; simpl in M; try contradiction; now subst).
    simpl in Er'. destruct (joint_measure s qs0) as [[r0 s2]|] eqn:Em; simpl in Er'; [|discriminate].
    destruct Va' as [Dq Iq].
    destruct (measured qs0 r0 s2) as [Eo [Sd2 [Rx [Q2 [Vo Tr]]]]]; auto.
    { rewrite Ec. reflexivity. }
    { rewrite Ec'. reflexivity. }
    { rewrite Ec'. exact Logic.I. }
    injection Er' as Erp Ers. rewrite <- Ers in Bk1', Rn. rewrite <- Ers, <- Erp.
    assert (Ev : vstep l psi x c' = collapsed l qs0 r0 psi) by (rewrite Ec', Eo; reflexivity).
    split; [|split].
    + unfold mstep1, sampled. constructor; cbn [bk vec mgen].
      * rewrite Ec'. exact Bk1'.
      * rewrite Rn, Ec'. reflexivity.
      * apply Mono; auto.
      * change (vec_ok (live (bstep (bk m) c')) (vstep l psi x c')). rewrite Ev, Ec'. exact Vo.
      * change (tracked s2 (vstep l psi x c') (next w e l psi x c c')). rewrite Ev. exact Tr.
    + rewrite Ec', Eo. reflexivity.
    + apply rkept_norx. exact Rx.
  - (* force_collapse *)
    assert (Ec' : c' = CForce v0 q0) by (destruct c'; simpl in M; try contradiction; destruct M; now subst).
    destruct (forced v0 q0 Ec Ec') as [p [Ep [Pc [Sd2 [Rx [Q2 [Vo Tr]]]]]]].
    split; [|split].
    + unfold mstep1, sampled. constructor; cbn [bk vec mgen].
      * rewrite Ec'. exact Bk1'.
      * rewrite Rn, Ec'. reflexivity.
      * apply Mono; auto.
      * change (vec_ok (live (bstep (bk m) c')) (vstep l psi x c')). rewrite Ec' in *. exact Vo.
      * exact Tr.
    + unfold e1 in Pc. rewrite Ec', Ep. exists p. split; [reflexivity|exact Pc].
    + apply rkept_norx. exact Rx.
Qed.
End Step.

Lemma stands_book : forall c c' b, call_stands c c' -> bstep b c' = abstep b c.
Proof.
  intros c c' b M. destruct c, c'; simpl in M; try contradiction; try reflexivity.
  subst. reflexivity.
Qed.
Lemma stands_apply : forall c c', call_stands c c' -> is_apply c -> call_means c c'.
Proof. intros c c' M. destruct c, c'; simpl in *; tauto. Qed.

(** Multiplying by a matrix leaves a vector of some length. *)
Lemma not_emptied : forall s m e b c c', tied s m e b -> avalid (bk m) c -> (forall q, In q (live (bk m)) -> (q < w)%nat) ->
  fits w e (live (bk m)) (vec m) (fst (sampled (mgen m))) c c' -> 0 <= b -> b <= lim -> call_means c c' -> is_apply c ->
  arun1 s c <> Panic EEmptyState.
Proof.
  intros s m e b c c' Td V Bw [F1 [F2 _]] B0 Bl M Ia Ep.
  destruct (means_proj c c' (live (bk m)) (vec m) 0 e M) as [_ [Lc _]].
  assert (Bd : bounds s) by (intros q Hq; apply Bw; apply (ab_has s (bk m)); auto; apply Td).
  assert (Q : budget w (rcost (live (bk m)) c) s).
  { rewrite <- Lc. apply (tracked_budget s (vec m) e); auto; apply Td. }
  destruct (call_empty laws horder_perm w b b (Rle_refl _) Bl c c' s (bk m) (td_book _ _ _ _ Td) V M Ia Ep Bd (td_sound _ _ _ _ Td) Q)
    as [i [Ei Qi]].
  destruct (td_near _ _ _ _ Td) as [k [K1 K2]]. destruct (td_vec _ _ _ _ Td) as [_ Nv].
  assert (Q1 : qnorm w (scale k (vec m)) = cmod k) by (rewrite qnorm_scale; unfold qnorm; rewrite Nv, sqrt_1; ring).
  assert (Q2 := qnorm_dist w (scale k (vec m)) (abs s)). rewrite dist_comm in Q2.
  unfold stepped in F1, F2. cbn [off dev] in F1, F2. rewrite Lc, Ei, drift_eq, plus_INR in F1.
  rewrite plus_INR in Qi. assert (Ru := runit_pos laws w). assert (Z := rabs_bt _ _ K1).
  assert (Cm := cmod_sq k). assert (Cp : 0 <= cmod k) by apply sqrt_pos.
  rewrite Rmult_plus_distr_r in F1, Qi. simpl (INR 1) in F1.
  assert (cmod k <= 1 / 2) by lra. nra.
Qed.

Lemma exec_ledger : forall h h' s m e b n, tied s m e b -> avalid_run (bk m) h -> Forall2 call_stands h h' ->
  0 <= b -> b + turns h <= lim -> Forall (held b) h -> clearing s n h' -> fits_run w e m h h' ->
  exists rs s', aexec s h = Ok (rs, s') /\ replies_near w e m h h' rs.
Proof.
  induction h as [|c h IH]; intros h' s m e b n Td V M B0 Bl Hd Cl Fi; inversion M; subst.
  - exists [], s. split; [reflexivity|exact Logic.I].
  - rename y into c'. rename l' into h'. rename H1 into Mc. rename H3 into Mh.
    destruct V as [V1 V2]. inversion Hd; subst. change (b + (turn c + turns h) <= lim) in Bl.
    assert (Tp := turn_pos laws c). assert (Tps := turns_pos laws h). cbn [fits_run] in Fi. destruct Fi as [Bw [F1 F2]].
    destruct (one_call horder_perm s (bk m) c (td_book _ _ _ _ Td) V1) as [[r [s1 [E [Bk1 [Rp Rg]]]]]|[Ia Ep]].
    2:{ exfalso. eapply (not_emptied s m e b c c'); eauto. lra. apply stands_apply; auto. }
    assert (Bl' : b + turn c <= lim) by lra.
    destruct (call_step s s1 m e b (b + turn c) c c' r n h' Td V1 Bw F1 H1 B0 (Rle_refl _) Bl' Cl E Bk1 Rg Rp Mc) as [Td1 [Rn Rk]].
    destruct (IH h' s1 (mstep1 sampled m c') (next w e (live (bk m)) (vec m) (fst (sampled (mgen m))) c c') (b + turn c) (S n))
      as [rs [s2 [E2 R2]]]; auto.
    + unfold mstep1, sampled. cbn [bk]. rewrite (stands_book c c' (bk m) Mc). exact V2.
    + lra.
    + lra.
    + eapply Forall_impl; [|exact H2]. intros c0. apply held_mono. lra.
    + eapply clearing_step; eauto.
    + exists (r :: rs), s2. split; [simpl; rewrite E; cbn [bind]; rewrite E2; reflexivity|]. split; [exact Rn|exact R2].
Qed.

Theorem measuring : forall g h h', avalid_run (mkBook [] true) h -> Forall2 call_stands h h' -> angles_fit h ->
  clear_of_odd_pi h' -> fits_run w (mkLedger 0 0) (initial g) h h' ->
  exists rs s, aexec (new_sim g) h = Ok (rs, s) /\ replies_near w (mkLedger 0 0) (initial g) h h' rs.
Proof.
  intros g h h' V M [An Hd] Cl Fi. apply (exec_ledger h h' (new_sim g) (initial g) (mkLedger 0 0) (lim - turns h) 0); auto; try lra.
  - constructor; cbn [bk vec mgen initial].
    + apply new_abook.
    + reflexivity.
    + apply sound_new; auto.
    + split; [apply ket0_supported|apply ket0_norm].
    + exists C1. cbn [off dev]. rewrite Cn2_C1, Rminus_eq_0, Rabs_R0. split; [lra|].
      rewrite abs_new, scale_1, dist_refl by auto. unfold ql. simpl. lra.
  - apply clear_clearing; auto.
Qed.
End RL.
