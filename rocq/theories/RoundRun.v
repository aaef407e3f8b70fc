(** * Histories with rounding *)
From Coq Require Import Reals NArith List Bool Lia Lra Permutation Arith Sorted FunctionalExtensionality.
From Verif Require Import Cx Arith ArithR IndexMap IndexMapLemmas Bits BitsLemmas Spec QLib QSum Sim SimExp SimApply
  SpecExp SpecApply StateLemmas Loc Abs Gates Gates2 Meas Reg ExpLemmas SpecRun SpecLemmas SimRun RunLemmas SpecAny Any
  AnyRun SpecNear Near NearGates NearGates2 NearExp NearRun SpecRound Round RoundGates RoundExp RoundReg RoundApply.
Import ListNotations.
Local Open Scope R_scope.

Section RN.
Context {A : Arith} {EN : Env} {AP : Approx}.
Hypothesis laws : approx_ok.
Hypothesis horder_perm : any_order.
Variable w : nat.
Notation wf := inv.
Notation alloc := RoundGates.alloc.
Notation core := RoundGates.core.
Notation ids := RoundGates.ids.
Notation abs := RoundGates.abs.
Notation rxin := RoundGates.rxin.
Notation bounds := (RoundGates.bounds w).
Notation ry_angle := RoundGates.ry_angle.
Notation cz := RoundGates.cz.
Notation nst := (RoundGates.nst w).

(** The exact call that [c'] amounts to in state [s]. *)
Definition acts_as (s : sim) (c : acall) (c' : call) : call :=
  match c, c' with
  | AGate (ARy th) t, CGate (GRy _) t' => CGate (GRy (ry_angle s th t)) t'
  | _, _ => c'
  end.
Lemma acts_sign : forall s c c', call_means c c' -> up_to_ry_sign c' (acts_as s c c').
Proof.
  intros s c c' M. destruct c; simpl; try (left; reflexivity). destruct g; try (left; reflexivity).
  destruct c'; try (left; reflexivity). destruct g; try (left; reflexivity).
  simpl in M. destruct M as [[_ ->] ->]. unfold ry_angle. destruct (im_get (rx_queue s) t) as [a|]; [|left; reflexivity].
  destruct (cz a); [right; eauto|left; reflexivity].
Qed.

(** Angles within [n] additions of an element of [G]. *)
Definition around (G : R -> Prop) (n : nat) (x : R) : Prop := exists g e, G g /\ Rabs e <= INR n * dlt /\ x = g + e.
Lemma around_symm : forall G n, subgroup G -> symm (around G n).
Proof.
  intros G n [_ [H _]] x [g [e [Hg [He ->]]]]. exists (- g), (- e). split; auto. rewrite Rabs_Ropp. split; auto. ring.
Qed.
Lemma around_mono : forall G n m x, (n <= m)%nat -> around G n x -> around G m x.
Proof.
  intros G n m x L [g [e [Hg [He ->]]]]. exists g, e. split; auto. split; auto.
  eapply Rle_trans; [exact He|]. apply Rmult_le_compat_r; [apply laws|]. apply le_INR; auto.
Qed.

Definition rmoved (b' : R) (s s' : sim) (c : acall) (c' : call) (n : nat) : Prop :=
  exists k F, Cn2 k = 1 /\ contraction w F /\ (forall d psi, F (scale d psi) = scale d (F psi)) /\
    (forall l psi x, vstep l psi x (acts_as s c c') = F psi) /\
    soundB b' s' /\ exists j, (j + ql s' <= n + ql s)%nat /\ nearr w j (abs s') (scale k (F (abs s))).
(** One more [rx] angle takes sums in [P] to sums in [P']. *)
Definition rx_adds (P P' : R -> Prop) (c' : call) : Prop :=
  match c' with CGate (GRx x) _ => P' x /\ forall a e, P a -> Rabs e <= dlt -> P' (a + x + e) | _ => True end.
Definition rkept (s s' : sim) (c' : call) : Prop :=
  forall P P' : R -> Prop, symm P -> (forall a, P a -> P' a) -> rx_adds P P' c' -> rxin P s -> rxin P' s'.

Lemma rxin_mono : forall (G G' : R -> Prop) s, (forall x, G x -> G' x) -> rxin G s -> rxin G' s.
Proof. intros G G' s H R q a Ha. apply H. eapply R; eauto. Qed.
Lemma rkept_norx : forall s s' c', (forall G, symm G -> rxin G s -> rxin G s') -> rkept s s' c'.
Proof.
  intros s s' c' H P P' SP Sub _ R. apply (rxin_mono P); auto.
Qed.
Lemma rkept_around : forall s s' c' G n, rkept s s' c' -> subgroup G -> rx_angles G c' ->
  rxin (around G n) s -> rxin (around G (S n)) s'.
Proof.
  intros s s' c' G n K SG Rx R. apply (K (around G n)); auto.
  - apply around_symm; auto.
  - intros x. apply around_mono. lia.
  - assert (Dl := ap_dlt laws). destruct c'; simpl; auto. destruct g; simpl; auto. simpl in Rx. split.
    + exists th, 0. split; auto. rewrite Rabs_R0. split; [|ring]. apply Rmult_le_pos; [apply pos_INR|auto].
    + intros x e [g0 [e0 [Hg [He ->]]]] He'. exists (g0 + th), (e0 + e).
      split; [apply SG; auto|]. split; [|ring]. eapply Rle_trans; [apply Rabs_triang|]. rewrite S_INR. lra.
Qed.
Lemma rkept_within : forall s s' c' m, rkept s s' c' -> 0 <= m -> rxin (fun x => Rabs x <= m) s ->
  rxin (fun x => Rabs x <= m + rx_turn c' + dlt) s'.
Proof.
  intros s s' c' m K M R. assert (Dl := ap_dlt laws).
  assert (T : 0 <= rx_turn c') by (destruct c'; simpl; try lra; destruct g; try lra; apply Rabs_pos).
  apply (K (fun x => Rabs x <= m)); auto.
  - intros x X. rewrite Rabs_Ropp. exact X.
  - intros x X. lra.
  - destruct c'; simpl; auto. destruct g; simpl; auto. simpl in T. split; [lra|]. intros a e X E.
    assert (T1 := Rabs_triang (a + th) e). assert (T2 := Rabs_triang a th). lra.
Qed.
Lemma sound_mono : forall b b' s, b <= b' -> soundB b s -> soundB b' s.
Proof.
  intros b b' s L []. constructor; auto.
  - intros q a H. destruct (sd_rx q a H). split; auto. lra.
  - intros q a H. destruct (sd_ry q a H). split; auto. lra.
  - eapply Forall_impl; [|exact sd_ops]. intros o. unfold opang. destruct (snd o); auto. intros [K1 K2]. split; auto. lra.
Qed.

Section Call.
Variables b b' : R.
Hypothesis b_pos : 0 <= b.
Hypothesis b_b' : b <= b'.
Hypothesis b'_lim : b' <= lim.
Lemma b_lim : b <= lim. Proof. lra. Qed.
Hint Resolve b_lim : core.

Lemma rmoved_nst : forall s s' c c' n j k F, nst b j s s' (fun psi => scale k (F psi)) -> (j <= n)%nat -> Cn2 k = 1 ->
  (bounds s -> contraction w F) -> (forall d psi, F (scale d psi) = scale d (F psi)) ->
  (forall l psi x, vstep l psi x (acts_as s c c') = F psi) ->
  bounds s -> soundB b s -> budget w n s -> rmoved b' s s' c c' n /\ rkept s s' c'.
Proof.
  intros s s' c c' n j k F G L K Ct Li V Bd Sd Q. apply (nst_mono laws w b j n) in G; auto.
  destruct (ns_near _ _ _ _ _ _ G Bd Sd Q) as [_ [S1 [i [H1 H2]]]].
  split; [|apply rkept_norx; intros P SP; eapply ns_norx; eauto].
  exists k, F. split; [auto|]. split; [auto|]. split; [auto|]. split; [auto|].
  split; [apply (sound_mono b b'); auto|]. exists i. auto.
Qed.
Lemma rmoved_nst1 : forall s s' c c' n j F, nst b j s s' F -> (j <= n)%nat ->
  (bounds s -> contraction w F) -> (forall d psi, F (scale d psi) = scale d (F psi)) ->
  (forall l psi x, vstep l psi x (acts_as s c c') = F psi) ->
  bounds s -> soundB b s -> budget w n s -> rmoved b' s s' c c' n /\ rkept s s' c'.
Proof.
  intros s s' c c' n j F G. intros. eapply (rmoved_nst s s' c c' n j C1 F); eauto using Cn2_C1.
  eapply nst_ext; [exact G|]. intros. now rewrite scale_1.
Qed.
Lemma rmoved_id : forall s s' c c' n, mva w b n s s' (abs s) ->
  (forall G, symm G -> rxin G s -> rxin G s') ->
  (forall l psi x, vstep l psi x (acts_as s c c') = psi) -> rmoved b' s s' c c' n /\ rkept s s' c'.
Proof.
  intros s s' c c' n [S1 [j [L N]]] X V. split; [|apply rkept_norx; auto].
  exists C1, (fun x => x). split; [apply Cn2_C1|]. split; [apply ct_id|]. split; [auto|]. split; [auto|].
  split; [apply (sound_mono b b'); auto|]. exists j. rewrite scale_1. auto.
Qed.

Ltac same_ok E := match type of E with _ = Ok ?x => match goal with H : _ = Ok ?y |- _ =>
  first [constr_eq x y; fail 1 | let X := fresh in pose proof (eq_trans (eq_sym E) H) as X; inversion X; subst; clear X H] end end.

Lemma gate_rmoved : forall g g' s t s', wf s -> alloc s t -> gate_means g g' ->
  held b (AGate g t) -> b + turn (AGate g t) <= b' -> agate_call g s t = Ok s' ->
  bounds s -> soundB b s -> budget w 11 s ->
  rmoved b' s s' (AGate g t) (CGate g' t) 11 /\ rkept s s' (CGate g' t).
Proof.
  intros g g' s t s' W Al M Hd Tu R Bd Sd Q.
  assert (Ct : bounds s -> contraction w (gate1 (gmat g') t)) by (intros; apply ct_gate1; auto; apply ugmat).
  assert (Li := fun d psi => gate1_scale (gmat g') t d psi).
  destruct g, g'; simpl in M; try contradiction; simpl in R; simpl gmat in *.
  - destruct (gate_x_n laws w b b_lim s t W Al) as [s1 [E [G _]]]. same_ok E. eapply rmoved_nst1; eauto; lia.
  - destruct (gate_y_n laws w b b_lim s t W Al) as [s1 [E [G _]]]. same_ok E.
    eapply (rmoved_nst s s' _ _ 11 1 (ysign (bit (h_flag s) t)) (gate1 mY t)); eauto using Cn2_ysign; lia.
  - destruct (gate_z_n laws w b b_lim s t W Al) as [s1 [E G]]. same_ok E. eapply rmoved_nst1; eauto; lia.
  - destruct (gate_h_n laws horder_perm w b b_lim s t W Al) as [s1 [E G]]. same_ok E. eapply rmoved_nst1; eauto; lia.
  - destruct (gate_diag_n laws horder_perm w b b_lim OS s t W Al Logic.I) as [s1 [E G]]. same_ok E. eapply rmoved_nst1; eauto; lia.
  - destruct (gate_diag_n laws horder_perm w b b_lim OSadj s t W Al Logic.I) as [s1 [E G]]. same_ok E. eapply rmoved_nst1; eauto; lia.
  - destruct (gate_diag_n laws horder_perm w b b_lim OT s t W Al Logic.I) as [s1 [E G]]. same_ok E. eapply rmoved_nst1; eauto; lia.
  - destruct (gate_diag_n laws horder_perm w b b_lim OTadj s t W Al Logic.I) as [s1 [E G]]. same_ok E. eapply rmoved_nst1; eauto; lia.
  - destruct M as [Ft ->]. simpl in Tu. assert (Dl := ap_dlt laws).
    assert (An : angle_ok th) by (split; auto; lra).
    destruct (gate_rx_n laws horder_perm w b b_lim b' s th t W Al An b_pos Tu) as [s1 [E [_ [_ [_ [X H]]]]]]. same_ok E.
    destruct (H Bd Sd Q) as [Ct1 [S1 [j [Lj Nj]]]]. split.
    + exists C1, (gate1 (mRx (tval th)) t). split; [apply Cn2_C1|]. split; [auto|]. split; [auto|].
      split; [reflexivity|]. split; [auto|]. exists j. rewrite scale_1. auto.
    + intros P P' SP Sub [Rx Ra] R0. eapply (X P P'); auto.
  - destruct M as [Ft ->]. simpl in Tu. assert (Dl := ap_dlt laws).
    assert (An : angle_ok th) by (split; auto; lra).
    destruct (gate_ry_n laws w b b_lim b' s th t W Al An b_pos Tu) as [s1 [E [_ [_ [_ [X H]]]]]]. same_ok E.
    assert (Q2 : budget w 2 s) by (eapply (budget_mono laws); [|exact Q]; lia).
    destruct (H Bd Sd Q2) as [S1 [j [Lj Nj]]]. split.
    + exists C1, (gate1 (mRy (ry_angle s th t)) t). split; [apply Cn2_C1|].
      split; [apply ct_gate1; auto using uRy|]. split; [intros; apply gate1_scale|].
      split; [reflexivity|]. split; [auto|]. exists j. rewrite scale_1. split; [lia|auto].
    + apply rkept_norx. intros G _ Rx. eapply rxin_eq; [exact X|auto].
  - destruct M as [Ft ->]. simpl in Hd.
    destruct (gate_diag_n laws horder_perm w b b_lim (ORz th) s t W Al) as [s1 [E G]]; [split; auto|].
    same_ok E. eapply rmoved_nst1; eauto; lia.
Qed.

Lemma mc_rmoved : forall g g' s cs t s', wf s -> NoDup (t :: cs) -> Forall (alloc s) (t :: cs) -> gate_means g g' ->
  held b (AMc g cs t) -> amc_call g s cs t = Ok s' ->
  bounds s -> soundB b s -> budget w (23 * (1 + length cs)) s ->
  rmoved b' s s' (AMc g cs t) (CMc g' cs t) (23 * (1 + length cs)) /\ rkept s s' (CMc g' cs t).
Proof.
  intros g g' s cs t s' W D Al M Hd R Bd Sd Q.
  assert (Ct : bounds s -> contraction w (cgate cs (gmat g') t)).
  { intros. inversion Al; inversion D; subst. apply ct_cgate; auto. apply ugmat. }
  assert (Li := fun d psi => cgate_scale cs (gmat g') t d psi).
  assert (Ln : (gcost (length (t :: cs)) <= 23 * (1 + length cs))%nat) by (unfold gcost; simpl length; lia).
  destruct g, g'; simpl in M; try contradiction; simpl amc_call in R; simpl gmat in *.
  - destruct (gate_mcx_n laws horder_perm w b b_lim s cs t W D Al) as [s1 [E [G _]]]. same_ok E.
    eapply rmoved_nst1; eauto. simpl length. lia.
  - destruct (gate_mcy_n laws horder_perm w b b_lim s cs t W D Al) as [s1 [E [G1 [G2 _]]]]. same_ok E. destruct cs as [|c0 cs].
    + eapply (rmoved_nst s s' _ _ _ 1 (ysign (bit (h_flag s) t)) (cgate [] mY t)); eauto using Cn2_ysign; simpl length; lia.
    + assert (G : c0 :: cs <> [] \/ bit (h_flag s) t = false) by (left; discriminate). apply G1 in G.
      eapply rmoved_nst1; eauto. simpl length. lia.
  - destruct (gate_mcz_n laws horder_perm w b b_lim s cs t W D Al) as [s1 [E G]]. same_ok E. eapply rmoved_nst1; eauto.
  - destruct (gate_mch_n laws horder_perm w b b_lim s cs t W D Al) as [s1 [E G]]. same_ok E. eapply rmoved_nst1; eauto.
  - destruct (gate_mcdiag_n laws horder_perm w b b_lim OS s cs t W D Al Logic.I) as [s1 [E G]]. same_ok E. eapply rmoved_nst1; eauto.
  - destruct (gate_mcdiag_n laws horder_perm w b b_lim OSadj s cs t W D Al Logic.I) as [s1 [E G]]. same_ok E. eapply rmoved_nst1; eauto.
  - destruct (gate_mcdiag_n laws horder_perm w b b_lim OT s cs t W D Al Logic.I) as [s1 [E G]]. same_ok E. eapply rmoved_nst1; eauto.
  - destruct (gate_mcdiag_n laws horder_perm w b b_lim OTadj s cs t W D Al Logic.I) as [s1 [E G]]. same_ok E. eapply rmoved_nst1; eauto.
  - destruct M as [Ft ->]. destruct (gate_mcrx_n laws horder_perm w b b_lim s cs th t W D Al) as [s1 [E G]]; [split; auto|].
    same_ok E. eapply rmoved_nst1; eauto.
  - destruct M as [Ft ->]. destruct (gate_mcry_n laws horder_perm w b b_lim s cs th t W D Al) as [s1 [E G]]; [split; auto|].
    same_ok E. eapply rmoved_nst1; eauto.
  - destruct M as [Ft ->]. destruct (gate_mcdiag_n laws horder_perm w b b_lim (ORz th) s cs t W D Al) as [s1 [E G]]; [split; auto|].
    same_ok E. eapply rmoved_nst1; eauto.
Qed.

Lemma exp_rmoved : forall s cs ps th ts s' c c' n, wf s -> NoDup (cs ++ ts) -> Forall (alloc s) (cs ++ ts) ->
  (length ps <= length ts)%nat -> tfin th -> Rabs (tval th) <= b ->
  mcexp s cs ps th ts = Ok s' -> (expcost (length (cs ++ ts)) <= n)%nat ->
  (forall l psi x, vstep l psi x (acts_as s c c') = ctrl_op cs (exp_op (tval th) (combine ps ts)) psi) ->
  bounds s -> soundB b s -> budget w n s -> rmoved b' s s' c c' n /\ rkept s s' c'.
Proof.
  intros s cs ps th ts s' c c' n W D Al Le Ft Hb R Ln V Bd Sd Q.
  destruct (mcexp_n laws horder_perm w b b_lim s cs ps th ts W D Al Le) as [s1 [E G]]; [split; auto|]. same_ok E.
  eapply rmoved_nst1; eauto.
  - intros _. apply ct_exp; auto. intros q Hq. apply Bd. rewrite Forall_forall in Al. apply Al, in_or_app; auto.
  - intros; apply ctrl_exp_scale.
Qed.

Lemma aquietly_ok : forall m r s', aquietly m = Ok (r, s') -> m = Ok s'.
Proof. intros [s|] r s' H; simpl in H; [inversion H; auto|discriminate]. Qed.

Lemma apply_call : forall s bk U u ts cs, abook s bk -> NoDup (ctl_list cs ++ ts) -> incl (ctl_list cs ++ ts) (live bk) ->
  tidy bk = true ->
  (forall r k, (r < Nat.pow 2 (length ts))%nat -> (k < Nat.pow 2 (length ts))%nat -> close (u r k) (U r k) (10 * dlt)) ->
  isometry (Nat.pow 2 (length ts)) U ->
  let F := ctrl_op (ctl_list cs) (mat_op U ts) in
  let n := length (ctl_list cs ++ ts) in
  let M := mkMatrix (Nat.pow 2 (length ts)) (Nat.pow 2 (length ts)) u in
  (exists s', apply_matrix s M ts cs = Ok s' /\ (forall G, symm G -> rxin G s -> rxin G s') /\
     (bounds s -> soundB b s -> budget w (mcost n) s -> mva w b (mcost n) s s' (F (abs s)))) \/
  (apply_matrix s M ts cs = Panic EEmptyState /\
     (bounds s -> soundB b s -> budget w (mcost n) s -> qnorm w (abs s) <= INR (mcost n + ql s) * runit w)).
Proof.
  intros s bk U u ts cs Bk D Inc Ti En Iso F n M.
  apply (apply_n laws horder_perm w b b_lim s M U ts cs); auto.
  - apply Bk.
  - apply (ab_Forall s bk); auto.
  - intros i Hi. eapply (ab_dense _ _ Bk); auto. eapply Nat.lt_le_trans; [exact Hi|]. apply NoDup_incl_length; auto.
Qed.
(** A vector that matrix multiplication empties was nearly zero. *)
Lemma call_empty : forall c c' s bk, abook s bk -> avalid bk c -> call_means c c' -> is_apply c ->
  arun1 s c = Panic EEmptyState -> bounds s -> soundB b s -> budget w (rcost (live bk) c) s ->
  exists n, (rcost (live bk) c = n + 1)%nat /\ qnorm w (abs s) <= INR (n + ql s) * runit w.
Proof.
  intros c c' s bk Bk V M Ia R Bd Sd Q. destruct c; simpl in Ia; try contradiction.
  destruct c'; simpl in M; try contradiction. simpl in V, R. simpl rcost in *.
  destruct M as [En [Iso [-> [-> [-> ->]]]]]. destruct V as [[D Inc] [V1 [V2 V3]]]. subst rows cols.
  exists (mcost (length (ctl_list cs ++ ts))). split; [reflexivity|].
  destruct (apply_call s bk u0 u ts cs Bk D Inc V3 En Iso) as [[s1 [E _]]|[_ N]].
  - rewrite E in R. discriminate.
  - apply N; auto. eapply (budget_mono laws); [|exact Q]. unfold mcost. lia.
Qed.
(** The exact calls preserve lengths. *)
Lemma means_norm : forall c c' s bk l psi x, call_means c c' -> avalid bk c -> (forall q, In q (live bk) -> (q < w)%nat) ->
  norm2 w (vstep l psi x (acts_as s c c')) = norm2 w psi.
Proof.
  intros c c' s bk l psi x M V L. destruct c, c'; simpl in M; try contradiction; simpl in V.
  - destruct M as [M ->]. assert (K : forall g', norm2 w (gate1 (gmat g') t psi) = norm2 w psi).
    { intros. apply norm2_gate1; auto. apply ugmat. }
    destruct g; try apply (K g0). destruct g0; simpl in M; try contradiction. simpl. apply (K (GRy _)).
  - destruct M as [M [-> ->]]. destruct V as [D Inc]. inversion D; subst. simpl. apply norm2_cgate; auto; [apply ugmat|].
    apply L, Inc. left. auto.
  - destruct M as [M [K [-> ->]]]. destruct V as [D Inc]. inversion D; subst. simpl. apply norm2_cgate; auto; [apply uPhase; auto|].
    apply L, Inc. left. auto.
  - destruct M as [_ [-> ->]]. destruct V as [[D Inc] _]. simpl. apply (norm2_exp w []); auto.
  - destruct M as [_ [-> [-> ->]]]. destruct V as [[D Inc] _]. simpl. apply norm2_exp; auto.
    intros q Hq. apply L, Inc, in_or_app. auto.
  - destruct M as [En [Iso [-> [-> [-> ->]]]]]. destruct V as [[D Inc] [V1 _]]. subst rows. simpl. apply norm2_mat; auto.
    intros q Hq. apply L, Inc, in_or_app. auto.
  - reflexivity.
  - destruct M as [-> ->]. destruct V. simpl. apply norm2_swap; auto.
  - reflexivity.
  - reflexivity.
  - reflexivity.
  - reflexivity.
Qed.

Lemma call_rmoved : forall c c' s bk r s', abook s bk -> avalid bk c -> call_means c c' ->
  held b c -> b + turn c <= b' -> arun1 s c = Ok (r, s') ->
  bounds s -> soundB b s -> budget w (rcost (live bk) c) s ->
  rmoved b' s s' c c' (rcost (live bk) c) /\ rkept s s' c'.
Proof.
  intros c c' s bk r s' Bk V M Hd Tu R Bd Sd Q. assert (W : wf s) by apply Bk.
  assert (Le : length (ids s) = length (live bk)) by (unfold ids; now rewrite (ab_ids s bk Bk)).
  destruct c, c'; simpl in M; try contradiction; simpl in V, R; try apply aquietly_ok in R; simpl rcost in *.
  - destruct M as [M ->]. apply gate_rmoved; auto. apply (ab_has s bk); auto.
  - destruct M as [M [-> ->]]. destruct V as [D Inc]. apply mc_rmoved; auto. apply (ab_Forall s bk); auto.
  - destruct M as [M [K [-> ->]]]. destruct V as [D Inc].
    assert (Al : Forall (alloc s) (t :: cs)) by (apply (ab_Forall s bk); auto).
    destruct (gate_mcphase_n laws horder_perm w b b_lim s cs p p0 t W D Al M K) as [s1 [E G]]. same_ok E.
    eapply rmoved_nst1; eauto.
    + intros. inversion Al; inversion D; subst. apply ct_cgate; auto. apply uPhase; auto.
    + intros; apply cgate_scale.
  - destruct M as [[Ft ->] [-> ->]]. destruct V as [[D Inc] V2]. unfold exp_gate in R.
    eapply (exp_rmoved s [] ps th ts); eauto; try reflexivity. apply (ab_Forall s bk); auto.
  - destruct M as [[Ft ->] [-> [-> ->]]]. destruct V as [[D Inc] V2].
    eapply (exp_rmoved s cs ps th ts); eauto; try reflexivity; [apply (ab_Forall s bk); auto|].
    unfold expcost. rewrite app_length. lia.
  - destruct M as [En [Iso [-> [-> [-> ->]]]]]. destruct V as [[D Inc] [V1 [V2 V3]]]. subst rows cols.
    destruct (apply_call s bk u0 u ts cs Bk D Inc V3 En Iso) as [[s1 [E [X N]]]|[E _]].
    2:{ rewrite E in R. discriminate. }
    same_ok E. destruct (N Bd Sd) as [S1 [j [Lj Nj]]].
    { eapply (budget_mono laws); [|exact Q]. unfold mcost. lia. }
    split; [|apply rkept_norx; auto].
    exists C1, (ctrl_op (ctl_list cs) (mat_op u0 ts)). split; [apply Cn2_C1|].
    split. { apply ct_mat; auto. intros q Hq. apply Bd. apply (ab_has s bk _ Bk). apply Inc, in_or_app. auto. }
    split; [intros; apply ctrl_mat_scale|]. split; [reflexivity|]. split; [apply (sound_mono b b'); auto|].
    exists j. rewrite scale_1. unfold mcost in Lj. split; [lia|exact Nj].
  - destruct (allocate_n s W) as [Ea [Er [El Es]]]. 
    replace s' with (fst (allocate s)) by (inversion R; reflexivity).
    apply rmoved_id; [|intros G _; apply rxin_eq; auto|reflexivity].
    split; [auto|]. exists 0%nat. split; [rewrite El; lia|]. rewrite Ea. apply (nrefl laws).
  - destruct M as [-> ->]. destruct V as [Ha Hb]. apply (ab_has s bk _ Bk) in Ha. apply (ab_has s bk _ Bk) in Hb.
    destruct (swap_ids_n laws w b s a b0 b_lim W Ha Hb) as [s1 [E [X N]]]. same_ok E.
    destruct (N Bd Sd Q) as [S1 [j [Lj Nj]]]. split; [|apply rkept_norx; auto].
    assert (Ct : contraction w (swap_qubits a b0)) by (apply ct_swap; apply Bd; auto).
    exists C1, (swap_qubits a b0). split; [apply Cn2_C1|]. split; [exact Ct|]. split; [reflexivity|].
    split; [reflexivity|]. split; [apply (sound_mono b b'); auto|].
    exists j. rewrite scale_1. auto.
  - subst qs0. destruct V as [D Inc]. assert (Al : Forall (alloc s) qs) by (apply (ab_Forall s bk); auto).
    destruct (joint_probability_r laws horder_perm w b s qs b_lim W D Al) as [p [s1 [E [X N]]]].
    rewrite E in R. simpl in R. inversion R; subst. apply rmoved_id; auto.
  - subst q0. unfold qubit_is_zero in R.
    destruct (joint_probability_r laws horder_perm w b s [q] b_lim W (nodup1 q)) as [p [s1 [E [X N]]]].
    { constructor; auto. apply (ab_has s bk); auto. }
    rewrite E in R. simpl in R. inversion R; subst. apply rmoved_id; auto.
  - destruct (get_state_r laws horder_perm w b s b_lim W) as [st [s1 [E [X [_ N]]]]].
    rewrite E in R. simpl in R. inversion R; subst. rewrite Le in N. apply rmoved_id; auto. apply N; auto.
  - destruct (dump_r laws horder_perm w b s b_lim W) as [st [s1 [E [X [_ N]]]]].
    rewrite E in R. simpl in R. inversion R; subst. rewrite Le in N. apply rmoved_id; auto. apply N; auto.
Qed.
End Call.
End RN.
