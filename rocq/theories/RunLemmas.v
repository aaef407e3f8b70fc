(** * Refinement of whole histories *)
From Coq Require Import Reals NArith List Bool Lia Lra Permutation Arith Sorted FunctionalExtensionality.
From Verif Require Import Cx Arith ArithR IndexMap IndexMapLemmas Bits BitsLemmas Spec QLib QSum Sim SimExp SimApply SpecExp
  SpecApply StateLemmas Loc Abs Gates Gates2 Meas Reg ExpLemmas ApplyLemmas SpecRun SpecLemmas SimRun.
Import ListNotations.
Local Open Scope R_scope.

(** ** Lists of identifiers *)
Lemma gap_from_ok : forall l i, StronglySorted lt l -> Forall (fun k => (i <= k)%nat) l ->
  ~ In (gap_from i l) l /\ (i <= gap_from i l)%nat /\ forall x, (i <= x < gap_from i l)%nat -> In x l.
Proof.
  induction l as [|k l IH]; intros i S F; simpl; [repeat split; auto; lia|].
  inversion S as [|? ? S' F']; subst. inversion F; subst. destruct (Nat.eqb_spec i k).
  - subst. destruct (IH (Datatypes.S k) S') as [H [H0 H3]].
    { rewrite Forall_forall in *. intros y Hy. apply F' in Hy. lia. }
    split; [intros [E|E]; [|tauto]|].
    + lia.
    + split; [lia|]. intros x Hx. destruct (Nat.eq_dec x k); [left; auto|right; apply H3; lia].
  - split; [|split; [lia|intros; lia]]. intros [E|E]; [lia|]. rewrite Forall_forall in F'. apply F' in E. lia.
Qed.
Lemma fresh_id_ok : forall l, StronglySorted lt l ->
  ~ In (fresh_id l) l /\ forall x, (x < fresh_id l)%nat -> In x l.
Proof.
  intros l S. destruct (gap_from_ok l 0 S) as [H [_ H2]].
  - rewrite Forall_forall. intros; lia.
  - split; auto. intros. apply H2. unfold fresh_id in *. lia.
Qed.
Lemma insert_id_In : forall q l x, In x (insert_id q l) <-> x = q \/ In x l.
Proof.
  induction l as [|k l IH]; simpl; intros; [intuition|]. destruct (Nat.ltb q k); simpl; [intuition|].
  rewrite IH. intuition.
Qed.
Lemma insert_id_sorted : forall q l, StronglySorted lt l -> ~ In q l -> StronglySorted lt (insert_id q l).
Proof.
  induction l as [|k l IH]; simpl; intros S N; [repeat constructor|]. inversion S as [|? ? S' F]; subst.
  destruct (Nat.ltb_spec q k).
  - constructor; auto. constructor; auto. rewrite Forall_forall in *. intros y Hy. apply F in Hy. lia.
  - constructor; [apply IH; tauto|]. rewrite Forall_forall in *. intros y Hy. apply insert_id_In in Hy.
    destruct Hy as [->|Hy]; auto. assert (k <> q) by tauto. lia.
Qed.
Lemma remove_id_In : forall q l x, In x (remove_id q l) <-> In x l /\ x <> q.
Proof.
  intros. unfold remove_id. rewrite filter_In. destruct (Nat.eqb_spec x q); simpl; intuition.
Qed.
Lemma filter_sorted : forall f l, StronglySorted lt l -> StronglySorted lt (filter f l).
Proof.
  induction l; simpl; intros S; auto. inversion S; subst. destruct (f a); auto. constructor; auto.
  rewrite Forall_forall in *. intros x Hx. apply filter_In in Hx. apply H2. tauto.
Qed.

Section RunL.
Context {T : Tol} {EN : Env}.
Hypothesis horder_perm : horder_ok.

(** ** Bookkeeping *)
Definition dense (s : sim) : Prop := forall l, (l < length (ids s))%nat -> occupied s l.
Record tracks (s : sim) (b : book) : Prop := {
  tr_wf : wf s;
  tr_ids : ids s = live b;
  tr_dense : tidy b = true -> dense s
}.

Lemma tracks_same : forall s s' b, tracks s b -> wf s' -> id_map s' = id_map s -> tracks s' b.
Proof.
  intros s s' b [W I D] W' E. constructor; auto.
  - unfold ids in *. now rewrite E.
  - intros H l. unfold ids. rewrite E. intros Hl. destruct (D H l Hl) as [q Hq]. exists q. now rewrite E.
Qed.
Lemma ids_eq : forall s l, StronglySorted lt l -> (forall q, alloc s q <-> In q l) -> ids s = l.
Proof.
  intros. apply sorted_unique; auto; [apply im_keys_sorted|]. intros x. rewrite ids_In. auto.
Qed.
Lemma tracks_sorted : forall s b, tracks s b -> StronglySorted lt (live b).
Proof. intros s b []. rewrite <- tr_ids0. apply im_keys_sorted. Qed.
Lemma tracks_alloc : forall s b q, tracks s b -> (alloc s q <-> In q (live b)).
Proof. intros s b q []. rewrite <- tr_ids0. symmetry. apply ids_In. Qed.
Lemma tracks_Forall : forall s b qs, tracks s b -> incl qs (live b) -> Forall (alloc s) qs.
Proof. intros. rewrite Forall_forall. intros. eapply tracks_alloc; eauto. Qed.
Lemma tracks_bounds : forall s b, tracks s b -> bounds (width (live b)) s.
Proof. intros s b H q Hq. apply width_lt. eapply tracks_alloc; eauto. Qed.

Lemma allocate_loc : forall s, wf s -> exists v,
  (forall x, im_get (id_map (fst (allocate s))) x =
     if Nat.eqb (snd (allocate s)) x then Some v else im_get (id_map s) x) /\
  ~ occupied s v /\ forall l, (l < v)%nat -> occupied s l.
Proof.
  intros s W. unfold allocate. simpl. set (v := first_gap (sort_nat (im_values (id_map s)))).
  exists v. split; [intros; apply im_get_insert|].
  destruct (first_gap_ok (sort_nat (im_values (id_map s)))) as [V1 V2].
  - apply sorted_le_lt; [apply sort_nat_sorted|].
    eapply Permutation_NoDup; [apply Permutation_sym, sort_nat_perm|]. apply values_nodup. apply W.
  - fold v in V1, V2. split.
    + intros [q Hq]. apply V1. eapply Permutation_in; [apply Permutation_sym, sort_nat_perm|]. apply im_values_In. eauto.
    + intros l Hl. apply V2 in Hl. apply (Permutation_in _ (sort_nat_perm _)) in Hl. apply im_values_In in Hl. auto.
Qed.
Lemma length_values : forall m : imap nat, length (im_values m) = length (im_keys m).
Proof. intros. unfold im_values, im_keys. now rewrite !map_length. Qed.

Lemma dense_alloc : forall s, wf s -> dense s -> dense (fst (allocate s)).
Proof.
  intros s W D. destruct (allocate_ok s W) as [K1 [K2 [_ [A _]]]].
  destruct (allocate_loc s W) as [v [G [V1 V2]]]. set (s' := fst (allocate s)) in *. set (q := snd (allocate s)) in *.
  assert (L : length (ids s') = S (length (ids s))).
  { rewrite (ids_eq s' (insert_id q (ids s))).
    - clear. induction (ids s); simpl; auto. destruct (Nat.ltb q a); simpl; auto.
    - apply insert_id_sorted; [apply im_keys_sorted|]. now rewrite ids_In.
    - intros x. rewrite A, insert_id_In, ids_In. tauto. }
  assert (Vn : v = length (ids s)).
  { destruct (Nat.lt_trichotomy v (length (ids s))) as [H|[H|H]]; auto.
    - exfalso. apply V1. apply D. auto.
    - exfalso. assert (I : incl (seq 0 (S (length (ids s)))) (im_values (id_map s))).
      { intros x Hx. apply in_seq in Hx. apply im_values_In. apply V2. lia. }
      apply NoDup_incl_length in I; [|apply seq_NoDup]. rewrite seq_length, length_values in I.
      unfold ids in I. lia. }
  intros l Hl. rewrite L in Hl. destruct (Nat.eq_dec l v).
  - subst l. exists q. rewrite G, Nat.eqb_refl. auto.
  - destruct (D l) as [x Hx]; [lia|]. exists x. rewrite G. destruct (Nat.eqb_spec q x); auto.
    exfalso. apply K1. subst x. exists l; auto.
Qed.
Lemma swap_locs : forall s a b s', wf s -> alloc s a -> alloc s b -> swap_qubit_ids s a b = Ok s' ->
  forall i, im_get (id_map s') i = im_get (id_map s) (sw a b i).
Proof.
  intros s a b s' W Aa Ab E. unfold swap_qubit_ids in E.
  destruct (flush_ops_ok s W) as [s1 [E1 [C1 Q1]]]. rewrite E1 in E. cbn [bind] in E.
  assert (I1 : id_map s1 = id_map s) by apply C1.
  destruct Aa as [la Ea]. destruct Ab as [lb Eb].
  unfold find_qubit in E. simpl in E. rewrite I1, Ea, Eb in E. simpl in E. inversion E; subst. simpl.
  intros i. rewrite !im_get_update. unfold sw.
  destruct (Nat.eqb_spec i a); destruct (Nat.eqb_spec i b); destruct (Nat.eqb_spec a i);
    destruct (Nat.eqb_spec b i); subst; try congruence; simpl; rewrite ?Ea, ?Eb; simpl; congruence.
Qed.

(** ** The simulation relation *)
Record refines (s : sim) (m : machine) : Prop := {
  rf_tr : tracks s (bk m);
  rf_rng : rng s = mgen m;
  rf_vec : exists c, Cn2 c = 1 /\ abs s = scale c (vec m);
  rf_sup : supported (live (bk m)) (vec m);
  rf_norm : norm2 (width (live (bk m))) (vec m) = 1
}.

Definition draws (g : gen) : R * gen := draw g.

Lemma refine_next : forall s s' m c k F,
  refines s m -> tracks s' (bstep (bk m) c) ->
  rng s' = (if draws_sample (live (bk m)) c then snd (draws (mgen m)) else mgen m) ->
  abs s' = scale k (F (abs s)) -> Cn2 k = 1 -> (forall c psi, F (scale c psi) = scale c (F psi)) ->
  vstep (live (bk m)) (vec m) (fst (draws (mgen m))) c = F (vec m) ->
  supported (live (bstep (bk m) c)) (F (vec m)) ->
  norm2 (width (live (bstep (bk m) c))) (F (vec m)) = 1 ->
  refines s' (mstep1 draws m c).
Proof.
  intros s s' m c k F R Tr Rg A Hk Lin V Su No. unfold mstep1.
  destruct (draws (mgen m)) as [x g]. simpl in *. destruct (rf_vec s m R) as [d [Hd Ed]].
  constructor; simpl; auto.
  - exists (k * d)%C. rewrite Cn2_mul, Hk, Hd. split; [lra|]. rewrite A, Ed, Lin, scale_scale, V. reflexivity.
  - rewrite V. auto.
  - rewrite V. auto.
Qed.

Lemma born_refines : forall s m n qs, refines s m -> bounds n s ->
  born n qs (abs s) = born (width (live (bk m))) qs (vec m).
Proof.
  intros s m n qs R B. destruct (rf_vec s m R) as [c [Hc Ec]]. rewrite Ec, born_scale, Hc, Rmult_1_l.
  apply born_width; [apply R|]. intros q Hq. apply B. eapply tracks_alloc; [apply R|auto].
Qed.
Lemma refines_born_range : forall s m qs, refines s m -> 0 <= born (width (live (bk m))) qs (vec m) <= 1.
Proof.
  intros s m qs R. split; [apply born_nonneg|]. rewrite <- (rf_norm s m R). apply born_le_norm.
Qed.

(** Calls that act as a length-preserving linear operator and do not move or add qubits. *)
Lemma gate_next : forall s s' m c k F, refines s m ->
  wf s' -> id_map s' = id_map s -> rng s' = rng s ->
  abs s' = scale k (F (abs s)) -> Cn2 k = 1 -> (forall c psi, F (scale c psi) = scale c (F psi)) ->
  bstep (bk m) c = bk m -> draws_sample (live (bk m)) c = false ->
  vstep (live (bk m)) (vec m) (fst (draws (mgen m))) c = F (vec m) ->
  supported (live (bk m)) (F (vec m)) -> norm2 (width (live (bk m))) (F (vec m)) = norm2 (width (live (bk m))) (vec m) ->
  refines s' (mstep1 draws m c).
Proof.
  intros s s' m c k F R W I G A K L B D V Su No.
  apply (refine_next s s' m c k F); auto; rewrite ?B, ?D; auto.
  - eapply tracks_same; eauto; apply R.
  - rewrite G. apply R.
  - rewrite No. apply R.
Qed.

(** The call a call amounts to: [ry] after a pending [rx] of an odd multiple of pi turns the other way. *)
Definition effective (s : sim) (c : call) : call :=
  match c with CGate (GRy th) t => CGate (GRy (ry_angle s th t)) t | _ => c end.
Lemma effective_sign : forall s c, up_to_ry_sign c (effective s c).
Proof.
  intros s c. destruct c; simpl; try (left; reflexivity). destruct g; simpl; try (left; reflexivity).
  unfold ry_angle. destruct (im_get (rx_queue s) t) as [a|]; [|left; reflexivity]. destruct (cz a); [right; eauto|left; reflexivity].
Qed.
Lemma effective_no_clash : forall s c, tol = 0 -> no_clash s c -> effective s c = c.
Proof.
  intros s c H0 N. destruct c; simpl; auto. destruct g; simpl; auto. simpl in N. unfold ry_angle.
  destruct (im_get (rx_queue s) t) as [a|] eqn:E; auto. destruct (cz a) eqn:Ez; auto.
  exfalso. apply (N a eq_refl). apply anz_zero in Ez; auto. ared. inversion Ez. auto.
Qed.
Lemma effective_bstep : forall s b c, bstep b (effective s c) = bstep b c.
Proof. intros. destruct c; auto. destruct g; auto. Qed.

(** What is shown of one call. *)
Definition call_ok (s : sim) (b : book) (c : call) : Prop :=
  exists r s', run1 s c = Ok (r, s') /\ tracks s' (bstep b c) /\
    (forall G, subgroup G -> rx_angles G c -> rxin G s -> rxin G s') /\
    (forall m, tol = 0 -> bk m = b -> refines s m -> unit_call c ->
       (forall g, 0 <= fst (draws g) < 1) ->
       reply_ok (live b) (vec m) (fst (draws (mgen m))) c r /\ refines s' (mstep1 draws m (effective s c))).

Lemma gstep_call : forall s b c s' k F, tracks s b -> bstep b c = b ->
  (forall l, draws_sample l c = false) -> effective s c = c ->
  run1 s c = Ok (RUnit, s') -> gstep s s' (fun psi => scale k (F psi)) -> Cn2 k = 1 ->
  (forall c psi, F (scale c psi) = scale c (F psi)) ->
  (forall l psi x, vstep l psi x c = F psi) ->
  (forall l psi x, reply_ok l psi x c RUnit) ->
  (forall psi, supported (live b) psi -> supported (live b) (F psi)) ->
  (unit_call c -> forall psi, norm2 (width (live b)) (F psi) = norm2 (width (live b)) psi) ->
  call_ok s b c.
Proof.
  intros s b c s' k F Tr B D Ef E G K L V P Su No. exists RUnit, s'. split; [auto|].
  assert (I : id_map s' = id_map s) by apply G.
  split; [rewrite B; eapply tracks_same; eauto; apply G|].
  split; [intros PS [_ [SP _]] _; exact (gs_norx _ _ _ G PS SP)|].
  intros m H0 Eb R U Dr. split; [apply P|]. subst b. rewrite Ef.
  apply (gate_next s s' m c k F); auto; try apply G; auto; try apply R.
  apply Su. apply R.
Qed.

Lemma gstep_one : forall s s' F, gstep s s' F -> gstep s s' (fun psi => scale C1 (F psi)).
Proof. intros. eapply gstep_ext; [eauto|]. intros. now rewrite scale_1. Qed.
Lemma ugmat : forall g, unitary (gmat g).
Proof.
  destruct g; simpl; auto using uX, uY, uZ, uH, uS, uSadj, uT, uTadj, uRx, uRy, uRz.
Qed.

Lemma gate_call_ok : forall g s b t, tracks s b -> In t (live b) -> call_ok s b (CGate g t).
Proof.
  intros g s b t Tr Ht. assert (W : wf s) by apply Tr. assert (A : alloc s t) by (eapply tracks_alloc; eauto).
  assert (Gen : effective s (CGate g t) = CGate g t -> forall s' k, gate_call g s t = Ok s' -> Cn2 k = 1 ->
    gstep s s' (fun psi => scale k (gate1 (gmat g) t psi)) -> call_ok s b (CGate g t)).
  { intros Ef s' k E Hk G. apply (gstep_call s b _ s' k (gate1 (gmat g) t)); auto.
    - simpl. rewrite E. reflexivity.
    - intros; apply gate1_scale.
    - intros; reflexivity.
    - intros; apply supported_gate1; auto.
    - intros _ psi. apply norm2_gate1; [apply ugmat|apply width_lt; auto]. }
  assert (GenI : effective s (CGate g t) = CGate g t ->
    forall s', gate_call g s t = Ok s' -> gstep s s' (gate1 (gmat g) t) -> call_ok s b (CGate g t)).
  { intros Ef s' E G. apply (Gen Ef s' C1); auto using Cn2_C1, gstep_one. }
  destruct g; simpl in GenI, Gen.
  - destruct (gate_x_ok s t W A) as [s' [E [G _]]]. eauto.
  - destruct (gate_y_ok s t W A) as [s' [E [G _]]]. eapply Gen; eauto. apply Cn2_ysign.
  - destruct (gate_z_ok s t W A) as [s' [E G]]. eauto.
  - destruct (gate_h_ok horder_perm s t W A) as [s' [E G]]. eauto.
  - destruct (gate_diag_ok horder_perm OS s t W A) as [s' [E G]]. eauto.
  - destruct (gate_diag_ok horder_perm OSadj s t W A) as [s' [E G]]. eauto.
  - destruct (gate_diag_ok horder_perm OT s t W A) as [s' [E G]]. eauto.
  - destruct (gate_diag_ok horder_perm OTadj s t W A) as [s' [E G]]. eauto.
  - destruct (gate_rx_ok horder_perm s th t W A) as [s' [E [I [Rg [W' [X B]]]]]]. exists RUnit, s'.
    split; [exact (f_equal quietly E)|]. split; [eapply tracks_same; eauto|].
    split; [intros PS [_ [SP PP]] Ga; exact (X PS SP PP Ga)|].
    intros m H0 Eb R U Dr. split; [reflexivity|]. subst b.
    apply (gate_next s s' m _ C1 (gate1 (mRx th) t)); auto using Cn2_C1.
    + rewrite scale_1. apply B; auto.
    + intros; apply gate1_scale.
    + apply supported_gate1; auto. apply R.
    + apply norm2_gate1; [apply uRx|apply width_lt; auto].
  - destruct (gate_ry_ok s th t W A) as [s' [E [I [Rg [W' [X B]]]]]]. exists RUnit, s'.
    split; [exact (f_equal quietly E)|]. split; [eapply tracks_same; eauto|].
    split; [intros PS _ _; apply rxin_eq; exact X|].
    intros m H0 Eb R U Dr. split; [reflexivity|]. subst b.
    apply (gate_next s s' m _ C1 (gate1 (mRy (ry_angle s th t)) t)); auto using Cn2_C1.
    + rewrite scale_1. auto.
    + intros; apply gate1_scale.
    + apply supported_gate1; auto. apply R.
    + apply norm2_gate1; [apply uRy|apply width_lt; auto].
  - destruct (gate_diag_ok horder_perm (@ORz RArith th) s t W A) as [s' [E G]]. eauto.
Qed.

Lemma mc_call_ok : forall g s b cs t, tracks s b -> targets_ok b (t :: cs) -> call_ok s b (CMc g cs t).
Proof.
  intros g s b cs t Tr [D Inc]. assert (W : wf s) by apply Tr.
  assert (A : Forall (alloc s) (t :: cs)) by (eapply tracks_Forall; eauto).
  assert (Ht : In t (live b)) by (apply Inc; left; auto).
  assert (Nt : ~ In t cs) by (inversion D; auto).
  assert (Gen : forall s' k, mc_call g s cs t = Ok s' -> Cn2 k = 1 ->
    gstep s s' (fun psi => scale k (cgate cs (gmat g) t psi)) -> call_ok s b (CMc g cs t)).
  { intros s' k E Hk G. apply (gstep_call s b _ s' k (cgate cs (gmat g) t)); auto.
    - simpl. rewrite E. reflexivity.
    - intros; apply cgate_scale.
    - intros; reflexivity.
    - intros; apply supported_cgate; auto.
    - intros _ psi. apply norm2_cgate; auto; [apply ugmat|apply width_lt; auto]. }
  assert (GenI : forall s', mc_call g s cs t = Ok s' -> gstep s s' (cgate cs (gmat g) t) -> call_ok s b (CMc g cs t)).
  { intros s' E G. apply (Gen s' C1); auto using Cn2_C1, gstep_one. }
  destruct g; simpl in GenI, Gen.
  - destruct (gate_mcx_ok horder_perm s cs t W D A) as [s' [E [G _]]]. eauto.
  - destruct (gate_mcy_ok horder_perm s cs t W D A) as [s' [E [G1 [G2 _]]]]. destruct cs as [|c0 cs].
    + apply (Gen s' (ysign (bit (h_flag s) t))); auto using Cn2_ysign.
    + apply (GenI s'); auto. apply G1. left. discriminate.
  - destruct (gate_mcz_ok horder_perm s cs t W D A) as [s' [E G]]. eauto.
  - destruct (gate_mch_ok horder_perm s cs t W D A) as [s' [E G]]. eauto.
  - destruct (gate_mcdiag_ok horder_perm OS s cs t W D A) as [s' [E G]]. eauto.
  - destruct (gate_mcdiag_ok horder_perm OSadj s cs t W D A) as [s' [E G]]. eauto.
  - destruct (gate_mcdiag_ok horder_perm OT s cs t W D A) as [s' [E G]]. eauto.
  - destruct (gate_mcdiag_ok horder_perm OTadj s cs t W D A) as [s' [E G]]. eauto.
  - destruct (gate_mcrx_ok horder_perm s cs th t W D A) as [s' [E G]]. eauto.
  - destruct (gate_mcry_ok horder_perm s cs th t W D A) as [s' [E G]]. eauto.
  - destruct (gate_mcdiag_ok horder_perm (@ORz RArith th) s cs t W D A) as [s' [E G]]. eauto.
Qed.

Lemma phase_call_ok : forall s b cs p t, tracks s b -> targets_ok b (t :: cs) -> call_ok s b (CPhase cs p t).
Proof.
  intros s b cs p t Tr [D Inc]. assert (W : wf s) by apply Tr.
  assert (A : Forall (alloc s) (t :: cs)) by (eapply tracks_Forall; eauto).
  assert (Ht : In t (live b)) by (apply Inc; left; auto).
  assert (Nt : ~ In t cs) by (inversion D; auto).
  destruct (gate_mcphase_ok horder_perm s cs p t W D A) as [s' [E G]].
  apply (gstep_call s b _ s' C1 (cgate cs (mPhase p) t)); auto using Cn2_C1, gstep_one.
  - simpl. rewrite E. reflexivity.
  - intros; apply cgate_scale.
  - intros; reflexivity.
  - intros; apply supported_cgate; auto.
  - intros U psi. apply norm2_cgate; auto; [apply uPhase; auto|apply width_lt; auto].
Qed.

Lemma mcexp_call_ok : forall s b cs ps th ts, tracks s b -> targets_ok b (cs ++ ts) ->
  (length ps <= length ts)%nat -> call_ok s b (CMcExp cs ps th ts).
Proof.
  intros s b cs ps th ts Tr [D Inc] Le. assert (W : wf s) by apply Tr.
  assert (A : Forall (alloc s) (cs ++ ts)) by (eapply tracks_Forall; eauto).
  destruct (mcexp_ok horder_perm s cs ps th ts W D A Le) as [s' [E G]].
  apply (gstep_call s b _ s' C1 (ctrl_op cs (exp_op th (combine ps ts)))); auto using Cn2_C1, gstep_one.
  - simpl. rewrite E. reflexivity.
  - intros; apply ctrl_exp_scale.
  - intros; reflexivity.
  - intros psi Hs; apply supported_exp; auto. intros. apply Inc, in_or_app; auto.
  - intros _ psi. apply norm2_exp; auto. intros. apply width_lt, Inc, in_or_app; auto.
Qed.
Lemma exp_call_ok : forall s b ps th ts, tracks s b -> targets_ok b ts ->
  (length ps <= length ts)%nat -> call_ok s b (CExp ps th ts).
Proof.
  intros s b ps th ts Tr H Le. destruct (mcexp_call_ok s b [] ps th ts Tr H Le) as [r [s' [E [Tr' [N R]]]]].
  exists r, s'. split; [exact E|]. split; [exact Tr'|]. split; [intros; apply N; auto|]. exact R.
Qed.

Lemma ctrl_mat_scale : forall cs U ts c psi,
  ctrl_op cs (mat_op U ts) (scale c psi) = scale c (ctrl_op cs (mat_op U ts) psi).
Proof.
  intros. apply functional_extensionality. intros b. unfold ctrl_op. rewrite mat_op_scale. unfold scale.
  destruct (forallb (bit b) cs); auto.
Qed.

Definition is_apply (c : call) : Prop := match c with CApply _ _ _ _ _ => True | _ => False end.

Lemma apply_call_ok : forall s b rows cols u ts cs, tracks s b ->
  valid b (CApply rows cols u ts cs) ->
  call_ok s b (CApply rows cols u ts cs) \/
  (run1 s (CApply rows cols u ts cs) = Panic EEmptyState /\
   forall m, tol = 0 -> bk m = b -> refines s m -> unit_call (CApply rows cols u ts cs) -> False).
Proof.
  intros s b rows cols u ts cs Tr [[D Inc] [Er [Ec Ti]]]. assert (W : wf s) by apply Tr.
  change (ctl_list cs) with (opt_list cs) in *.
  assert (A : Forall (alloc s) (opt_list cs ++ ts)) by (eapply tracks_Forall; eauto).
  assert (Dn : dense s) by (apply Tr; auto).
  assert (Len : (length (opt_list cs ++ ts) <= length (ids s))%nat).
  { apply NoDup_incl_length; auto. intros x Hx. rewrite (tr_ids s b Tr). auto. }
  assert (Inct : forall q, In q ts -> In q (live b)) by (intros; apply Inc, in_or_app; auto).
  subst rows cols.
  destruct (apply_ok horder_perm s (@mkMatrix RArith (Nat.pow 2 (length ts)) (Nat.pow 2 (length ts)) u) ts cs W D A
    eq_refl eq_refl) as [[s' [E [R O]]]|[E Z]].
  { intros i Hi. apply Dn. lia. }
  - left. exists RUnit, s'. simpl. rewrite E. split; [reflexivity|].
    assert (Tr' : tracks s' b).
    { assert (I : ids s' = live b).
      { apply ids_eq; [eapply tracks_sorted; eauto|]. intros q. rewrite (rs_alloc _ _ _ R). eapply tracks_alloc; eauto. }
      constructor; [apply R|exact I|]. intros _ l Hl. apply O. apply Dn.
      rewrite I in Hl. rewrite (tr_ids s b Tr). auto. }
    split; [exact Tr'|]. split; [intros PS [_ [SP _]] _; exact (rs_norx _ _ _ R PS SP)|].
    intros m H0 Eb Rf U _. split; [reflexivity|]. subst b.
    apply (refine_next s s' m _ C1 (ctrl_op (opt_list cs) (mat_op u ts))); auto using Cn2_C1.
    + simpl. rewrite (rs_rng _ _ _ R). apply Rf.
    + rewrite scale_1. apply R; auto.
    + intros; apply ctrl_mat_scale.
    + apply supported_mat; auto. apply Rf.
    + simpl bstep. rewrite norm2_mat; auto; [apply Rf|]. intros; apply width_lt; auto.
  - right. split; [simpl; rewrite E; reflexivity|]. intros m H0 Eb Rf U. subst b.
    specialize (Z H0). destruct (rf_vec s m Rf) as [c [Hc Ec]].
    assert (N1 : norm2 (width (live (bk m))) (ctrl_op (opt_list cs) (mat_op u ts) (abs s)) = 1).
    { rewrite norm2_mat; auto; [|intros; apply width_lt; auto]. rewrite Ec, norm2_scale, Hc, (rf_norm s m Rf). ring. }
    change (entry _) with u in Z. simpl entry in Z. rewrite Z in N1. unfold norm2, qsum in N1.
    rewrite Rsum_zero in N1 by (intros; unfold qzero; apply Cn2_C0). lra.
Qed.

Lemma alloc_call_ok : forall s b, tracks s b -> call_ok s b CAlloc.
Proof.
  intros s b Tr. assert (W : wf s) by apply Tr. destruct (allocate_ok s W) as [K1 [K2 [Rg [A [W' [X Ab]]]]]].
  exists (RId (snd (allocate s))), (fst (allocate s)).
  assert (Srt := tracks_sorted s b Tr). destruct (fresh_id_ok (live b) Srt) as [F1 F2].
  assert (Eq : snd (allocate s) = fresh_id (live b)).
  { destruct (Nat.lt_trichotomy (snd (allocate s)) (fresh_id (live b))) as [H|[H|H]]; auto.
    - exfalso. apply K1. apply (tracks_alloc s b _ Tr). auto.
    - exfalso. apply F1. apply (tracks_alloc s b _ Tr). auto. }
  assert (Tr' : tracks (fst (allocate s)) (bstep b CAlloc)).
  { constructor; auto; simpl.
    - apply ids_eq; [apply insert_id_sorted; auto|]. intros q. rewrite A, insert_id_In, Eq, (tracks_alloc s b q Tr). tauto.
    - intros H. apply dense_alloc; auto. apply Tr; auto. }
  split; [simpl; destruct (allocate s); reflexivity|]. split; [exact Tr'|].
  split; [intros PS _ _; apply rxin_eq; exact X|].
  intros m H0 Eb R _ _. split; [exact (f_equal RId Eq)|]. subst b.
  apply (refine_next s _ m CAlloc C1 (fun x => x)); auto using Cn2_C1.
  - rewrite Rg. apply R.
  - rewrite scale_1. auto.
  - simpl. intros z i Hz Hi. apply (rf_sup s m R z i); auto. intro. apply Hi. apply insert_id_In. auto.
  - simpl. rewrite (norm2_width (live (bk m))); [apply R|apply R|].
    intros q Hq. apply width_lt. apply insert_id_In. auto.
Qed.

Lemma swap_call_ok : forall s b x y, tracks s b -> In x (live b) -> In y (live b) -> call_ok s b (CSwap x y).
Proof.
  intros s b x y Tr Hx Hy. assert (W : wf s) by apply Tr.
  assert (Ax : alloc s x) by (eapply tracks_alloc; eauto). assert (Ay : alloc s y) by (eapply tracks_alloc; eauto).
  destruct (swap_qubit_ids_ok s x y W Ax Ay) as [s' [E [Rg [A [W' [X B]]]]]].
  exists RUnit, s'. simpl. rewrite E. split; [reflexivity|].
  assert (G := swap_locs s x y s' W Ax Ay E).
  assert (I : ids s' = live b).
  { apply ids_eq; [eapply tracks_sorted; eauto|]. intros q. rewrite A. eapply tracks_alloc; eauto. }
  assert (Tr' : tracks s' b).
  { constructor; auto. intros H l Hl. rewrite I, <- (tr_ids s b Tr) in Hl.
    destruct (tr_dense s b Tr H l Hl) as [q Hq]. exists (sw x y q). rewrite G, sw_sw. auto. }
  split; [exact Tr'|]. split; [intros PS [_ [SP _]] _; exact (X PS SP)|].
  intros m H0 Eb R _ _. split; [reflexivity|]. subst b.
  apply (refine_next s s' m _ C1 (swap_qubits x y)); auto using Cn2_C1.
  - simpl. rewrite Rg. apply R.
  - rewrite scale_1. auto.
  - apply supported_swap; auto. apply R.
  - simpl bstep. rewrite norm2_swap; [apply R|apply width_lt; auto|apply width_lt; auto].
Qed.

Lemma outcome_prob : forall s m qs, refines s m -> (forall g, 0 <= fst (draws g) < 1) ->
  let p := born (width (live (bk m))) qs (vec m) in
  (if outcome (live (bk m)) qs (vec m) (fst (draws (mgen m))) then p else 1 - p) <> 0.
Proof.
  intros s m qs R Dr p. specialize (Dr (mgen m)). pose proof (refines_born_range s m qs R). fold p in H.
  unfold outcome. fold p. destruct (Rlt_dec (fst (draws (mgen m))) p); lra.
Qed.
Lemma collapse_lin : forall k qs r c psi, scale k (proj qs r (scale c psi)) = scale c (scale k (proj qs r psi)).
Proof. intros. rewrite proj_scale, !scale_scale. f_equal. ring. Qed.

Lemma measure_next : forall s m qs c r s', refines s m -> tracks s' (bk m) ->
  (forall g, 0 <= fst (draws g) < 1) ->
  bstep (bk m) c = bk m -> draws_sample (live (bk m)) c = true ->
  vstep (live (bk m)) (vec m) (fst (draws (mgen m))) c =
    collapsed (live (bk m)) qs (outcome (live (bk m)) qs (vec m) (fst (draws (mgen m)))) (vec m) ->
  rng s' = snd (draw (rng s)) ->
  (r = Rltb (fst (draw (rng s))) (born (width (live (bk m))) qs (abs s)) /\
   abs s' = scale (outcome_factor (born (width (live (bk m))) qs (abs s)) r) (proj qs r (abs s))) ->
  r = outcome (live (bk m)) qs (vec m) (fst (draws (mgen m))) /\ refines s' (mstep1 draws m c).
Proof.
  intros s m qs c r s' R Tr Dr B D V Rg [Er Ab].
  assert (Bn : born (width (live (bk m))) qs (abs s) = born (width (live (bk m))) qs (vec m)).
  { apply born_refines; auto. apply tracks_bounds. apply R. }
  rewrite Bn in *. rewrite (rf_rng s m R) in *.
  assert (Eo : r = outcome (live (bk m)) qs (vec m) (fst (draws (mgen m)))).
  { rewrite Er. unfold outcome, Rltb, draws. destruct (Rlt_dec _ _); auto. }
  split; [exact Eo|].
  set (k := outcome_factor (born (width (live (bk m))) qs (vec m)) r) in *.
  assert (Ec : scale k (proj qs r (vec m)) = collapsed (live (bk m)) qs r (vec m)) by reflexivity.
  apply (refine_next s s' m c C1 (fun psi => scale k (proj qs r psi))); auto using Cn2_C1.
  - rewrite B. auto.
  - rewrite D. exact Rg.
  - now rewrite scale_1.
  - intros; apply collapse_lin.
  - rewrite V, <- Eo, Ec. reflexivity.
  - rewrite B, Ec. apply supported_collapsed. apply R.
  - rewrite B, Ec. apply norm2_collapsed; [apply R|]. rewrite Eo. apply (outcome_prob s m qs R Dr).
Qed.

Lemma joint_measure_call_ok : forall s b qs, tracks s b -> targets_ok b qs -> call_ok s b (CJointMeasure qs).
Proof.
  intros s b qs Tr [D Inc]. assert (W : wf s) by apply Tr.
  assert (A : Forall (alloc s) qs) by (eapply tracks_Forall; eauto).
  destruct (joint_measure_ok horder_perm s qs W D A) as [r [s' [E [Rg [_ [_ [_ [I [W' [X Z]]]]]]]]]].
  exists (RBit r), s'. simpl. rewrite E. split; [reflexivity|].
  assert (Tr' : tracks s' b) by (eapply tracks_same; eauto).
  split; [exact Tr'|]. split; [intros PS [_ [SP _]] _; exact (X PS SP)|].
  intros m H0 Eb R _ Dr. subst b.
  destruct (measure_next s m qs (CJointMeasure qs) r s') as [Z1 Z2]; auto.
  - apply Z; auto. apply tracks_bounds. apply R.
  - split; auto. now rewrite Z1 at 1.
Qed.
Lemma measure_call_ok : forall s b q, tracks s b -> In q (live b) -> call_ok s b (CMeasure q).
Proof.
  intros s b q Tr Hq. destruct (joint_measure_call_ok s b [q] Tr) as [r [s' [E [Tr' [N R]]]]].
  { split; [repeat constructor; auto|]. intros x [<-|[]]; auto. }
  exists r, s'. split; [|split; [exact Tr'|split; [intros; apply N; auto|exact R]]].
  simpl in *. rewrite measure_joint. exact E.
Qed.

Lemma prob_call_ok : forall s b qs, tracks s b -> targets_ok b qs -> call_ok s b (CJointProb qs).
Proof.
  intros s b qs Tr [D Inc]. assert (W : wf s) by apply Tr.
  assert (A : Forall (alloc s) qs) by (eapply tracks_Forall; eauto).
  destruct (joint_probability_ok horder_perm s qs W D A) as [p [s' [E [G [_ [_ [_ P]]]]]]].
  exists (RProb p), s'. simpl. rewrite E. split; [reflexivity|].
  split; [eapply tracks_same; eauto; apply G|]. split; [intros PS [_ [SP _]] _; exact (gs_norx _ _ _ G PS SP)|].
  intros m H0 Eb R _ Dr. subst b. split.
  - rewrite (P H0  _ (tracks_bounds s _ Tr)). f_equal. apply born_refines; auto. apply tracks_bounds; auto.
  - apply (gate_next s s' m _ C1 (fun x => x)); auto using Cn2_C1; try apply G; try apply R; auto.
    rewrite scale_1. apply G; auto.
Qed.
Lemma rnz0 : forall x, tol = 0 -> (rnz tol x = true <-> x = 0).
Proof.
  intros x H. unfold rnz, Rleb. rewrite H. destruct (Rle_dec (Rabs x) 0).
  - split; auto. intros _. pose proof (Rabs_pos x). destruct (Req_dec x 0); auto.
    apply Rabs_pos_lt in H1. lra.
  - split; [discriminate|]. intros ->. rewrite Rabs_R0 in n. lra.
Qed.
Lemma is_zero_call_ok : forall s b q, tracks s b -> In q (live b) -> call_ok s b (CIsZero q).
Proof.
  intros s b q Tr Hq. assert (W : wf s) by apply Tr. assert (A : alloc s q) by (eapply tracks_alloc; eauto).
  destruct (qubit_is_zero_ok horder_perm s q W A) as [r [s' [E [G [_ P]]]]].
  exists (RBit r), s'. simpl. rewrite E. split; [reflexivity|].
  split; [eapply tracks_same; eauto; apply G|]. split; [intros PS [_ [SP _]] _; exact (gs_norx _ _ _ G PS SP)|].
  intros m H0 Eb R _ Dr. subst b. split.
  - exists r. split; auto. rewrite (P H0  _ (tracks_bounds s _ Tr)).
    rewrite (born_refines s m) by (auto; apply tracks_bounds; auto). apply rnz0; auto.
  - apply (gate_next s s' m _ C1 (fun x => x)); auto using Cn2_C1; try apply G; try apply R; auto.
    rewrite scale_1. apply G; auto.
Qed.
Lemma force_call_ok : forall s b v q, tracks s b -> In q (live b) -> call_ok s b (CForce v q).
Proof.
  intros s b v q Tr Hq. assert (W : wf s) by apply Tr. assert (A : alloc s q) by (eapply tracks_alloc; eauto).
  destruct (force_collapse_ok horder_perm s v q W A) as [p [s' [E [Rg [_ [_ [I [W' [X Z]]]]]]]]].
  exists (RProb p), s'. simpl. rewrite E. split; [reflexivity|].
  split; [eapply tracks_same; eauto|]. split; [intros PS [_ [SP _]] _; exact (X PS SP)|].
  intros m H0 Eb R _ Dr. subst b.
  destruct (Z (width (live (bk m))) H0  (tracks_bounds s _ Tr)) as [Z1 Z2].
  rewrite (born_refines s m) in Z1, Z2 by (auto; apply tracks_bounds; auto).
  split; [now rewrite Z1|].
  set (pv := if v then born (width (live (bk m))) [q] (vec m) else 1 - born (width (live (bk m))) [q] (vec m)) in *.
  destruct (Req_EM_T pv 0) as [P0|P0].
  - assert (Rz : rnz tol pv = true) by (apply rnz0; auto). rewrite Rz in Z2.
    apply (gate_next s s' m _ C1 (fun x => x)); auto using Cn2_C1; try apply R; auto.
    + now rewrite scale_1.
    + simpl. fold pv. destruct (Req_EM_T pv 0); [auto|contradiction].
  - assert (Rz : rnz tol pv = false).
    { apply not_true_iff_false. intro H. apply P0. apply rnz0; auto. }
    rewrite Rz in Z2.
    assert (Ec : scale (RtoC (1 / sqrt pv)) (proj [q] v (vec m)) = collapsed (live (bk m)) [q] v (vec m)) by reflexivity.
    apply (gate_next s s' m _ C1 (fun psi => scale (RtoC (1 / sqrt pv)) (proj [q] v psi))); auto using Cn2_C1; try apply R; auto.
    + now rewrite scale_1.
    + intros; apply collapse_lin.
    + simpl. fold pv. destruct (Req_EM_T pv 0); [contradiction|reflexivity].
    + rewrite Ec. apply supported_collapsed. apply R.
    + rewrite Ec. rewrite norm2_collapsed; auto; [symmetry|]; apply R.
Qed.

Lemma placed_tracks : forall s s' b c, tracks s b -> wf s' -> (forall q, alloc s' q <-> alloc s q) ->
  (forall j q, nth_error (ids s) j = Some q -> im_get (id_map s') q = Some j) ->
  bstep b c = mkBook (live b) true -> tracks s' (bstep b c).
Proof.
  intros s s' b c Tr W' A P ->.
  assert (I : ids s' = live b).
  { apply ids_eq; [eapply tracks_sorted; eauto|]. intros q. rewrite A. eapply tracks_alloc; eauto. }
  constructor; auto. intros _ l Hl. rewrite I, <- (tr_ids s b Tr) in Hl.
  destruct (nth_error (ids s) l) as [q|] eqn:E; [exists q; auto|]. apply nth_error_None in E. lia.
Qed.

Lemma state_call_ok : forall s b, tracks s b -> call_ok s b CState.
Proof.
  intros s b Tr. assert (W : wf s) by apply Tr.
  destruct (get_state_ok horder_perm s W) as [st [s' [E [Rg [A [W' [Q [B [P L]]]]]]]]].
  exists (RState st (length (ids s))), s'. simpl. rewrite E. split; [reflexivity|].
  assert (Tr' : tracks s' (bstep b CState)) by (eapply placed_tracks; eauto).
  split; [exact Tr'|]. split; [intros P1 _ _ _ q a Ha; destruct Q as [_ Q]; destruct (Q q) as [_ [Q2 _]]; congruence|].
  intros m H0 Eb R _ _. subst b. rewrite (tr_ids s _ Tr) in *.
  assert (R' : refines s' (mstep1 draws m CState)).
  { apply (refine_next s s' m _ C1 (fun x => x)); auto using Cn2_C1.
    - simpl. rewrite Rg. apply R.
    - rewrite scale_1. apply B; auto.
    - simpl. apply R.
    - simpl. apply R. }
  split; [|exact R']. destruct (rf_vec s m R) as [c [Hc Ec]]. exists st, c. split; auto. split; auto.
  rewrite <- Ec, <- B; auto.
Qed.
Lemma dump_call_ok : forall s b, tracks s b -> call_ok s b CDump.
Proof.
  intros s b Tr. assert (W : wf s) by apply Tr.
  destruct (dump_ok horder_perm s W) as [st [s' [E [Rg [A [W' [Q [B [P L]]]]]]]]].
  exists (RDump st), s'. simpl. rewrite E. split; [reflexivity|].
  assert (Tr' : tracks s' (bstep b CDump)) by (eapply placed_tracks; eauto).
  split; [exact Tr'|]. split; [intros P1 _ _ _ q a Ha; destruct Q as [_ Q]; destruct (Q q) as [_ [Q2 _]]; congruence|].
  intros m H0 Eb R _ _. subst b. rewrite (tr_ids s _ Tr) in *.
  assert (R' : refines s' (mstep1 draws m CDump)).
  { apply (refine_next s s' m _ C1 (fun x => x)); auto using Cn2_C1.
    - simpl. rewrite Rg. apply R.
    - rewrite scale_1. apply B; auto.
    - simpl. apply R.
    - simpl. apply R. }
  split; [|exact R']. destruct (rf_vec s m R) as [c [Hc Ec]]. exists st, c. split; auto. split; auto.
  rewrite <- Ec, <- B; auto.
Qed.

Lemma remove_only : forall q l, StronglySorted lt l -> In q l -> (remove_id q l = [] <-> l = [q]).
Proof.
  intros q l S H. split.
  - intros E. assert (forall x, In x l -> x = q).
    { intros x Hx. destruct (Nat.eq_dec x q); auto. exfalso.
      assert (In x (remove_id q l)) by (apply remove_id_In; auto). rewrite E in H0. destruct H0. }
    apply sorted_unique; auto; [repeat constructor|]. intros x. split; [intros Hx; left; symmetry; auto|].
    intros [<-|[]]; auto.
  - intros ->. unfold remove_id. simpl. now rewrite Nat.eqb_refl.
Qed.

Lemma release_call_ok : forall s b q, tracks s b -> In q (live b) -> call_ok s b (CRelease q).
Proof.
  intros s b q Tr Hq. assert (W : wf s) by apply Tr. assert (A : alloc s q) by (eapply tracks_alloc; eauto).
  assert (Srt := tracks_sorted s b Tr). pose proof (remove_only q (live b) Srt Hq) as RO.
  destruct (remove_id q (live b)) as [|y ys] eqn:Er.
  - assert (Li : live b = [q]) by (apply RO; auto).
    destruct (release_last_ok s q W) as [s' [E [Rg [NA [W' [_ [Q [P Ab]]]]]]]]; [rewrite (tr_ids s b Tr); auto|].
    exists RUnit, s'. simpl. rewrite E. split; [reflexivity|].
    assert (Tr' : tracks s' (mkBook [] true)).
    { assert (I : ids s' = []) by (apply ids_eq; [constructor|]; intros x; split; [intro H; exfalso; eapply NA; eauto|intros []]).
      constructor; auto. intros _ l Hl. rewrite I in Hl. simpl in Hl. lia. }
    rewrite Er. split; [exact Tr'|]. split; [intros P1 _ _ _ x a Ha; destruct (P x) as [_ [P2 _]]; congruence|].
    intros m H0 Eb R _ _. split; [reflexivity|]. subst b. unfold mstep1.
    destruct (draws (mgen m)) as [x g]. simpl. rewrite Er. constructor; simpl; auto.
    + rewrite Rg. apply R.
    + exists C1. rewrite scale_1. auto using Cn2_C1.
    + apply ket0_supported.
    + apply ket0_norm.
  - assert (Ln : length (ids s) <> 1%nat).
    { intro H. rewrite (tr_ids s b Tr) in H. apply (length_one _ _ q) in H; auto.
      apply RO in H. discriminate. }
    destruct (release_ok horder_perm s q W A Ln) as [r [s1 [s' [M [E [Rg [A' [W' [X [Q [P Ab]]]]]]]]]]].
    exists RUnit, s'. simpl. rewrite E. split; [reflexivity|]. rewrite Er.
    assert (Srt' : StronglySorted lt (y :: ys)) by (rewrite <- Er; apply filter_sorted; auto).
    assert (Tr' : tracks s' (mkBook (y :: ys) false)).
    { constructor; auto; [|discriminate]. simpl. apply ids_eq; auto. intros x. rewrite A', <- Er, remove_id_In.
      rewrite (tracks_alloc s b x Tr). tauto. }
    split; [exact Tr'|]. split; [intros PS [_ [SP _]] _; exact (X PS SP)|].
    intros m H0 Eb R _ Dr. split; [reflexivity|]. subst b.
    assert (A1 : Forall (alloc s) [q]) by (constructor; auto).
    destruct (joint_measure_ok horder_perm s [q] W) as [r1 [s1' [E1 [Rg1 [_ [_ [_ [I1 [W1 [_ Z]]]]]]]]]];
      [repeat constructor; auto|auto|].
    rewrite measure_joint in M. rewrite E1 in M. inversion M; subst r1 s1'. clear M.
    assert (Tr1 : tracks s1 (bk m)) by (eapply tracks_same; eauto).
    destruct (measure_next s m [q] (CMeasure q) r s1) as [Z1 Z2]; auto.
    { apply Z; auto. apply tracks_bounds. auto. }
    assert (V : vec (mstep1 draws m (CMeasure q)) = collapsed (live (bk m)) [q] r (vec m)).
    { unfold mstep1. rewrite Z1. destruct (draws (mgen m)); reflexivity. }
    destruct (rf_vec _ _ Z2) as [c [Hc Ec]]. rewrite V in Ec.
    assert (S2 := rf_sup _ _ Z2). rewrite V in S2.
    assert (Lv : live (bk (mstep1 draws m (CMeasure q))) = live (bk m)) by (unfold mstep1; destruct (draws (mgen m)); reflexivity).
    rewrite Lv in S2. assert (No := rf_norm _ _ Z2). rewrite V, Lv in No.
    unfold mstep1. simpl in Z1. destruct (draws (mgen m)) as [x g] eqn:Edr. simpl in *. rewrite Er.
    assert (Sd : supported (y :: ys) (drop_qubit q r (collapsed (live (bk m)) [q] r (vec m)))).
    { rewrite <- Er. apply supported_drop; auto. }
    constructor; simpl; auto.
    + rewrite Rg, Rg1, (rf_rng s m R). fold (draws (mgen m)). now rewrite Edr.
    + exists c. split; auto. rewrite Ab, Ec, <- Z1. apply functional_extensionality. intros z.
      unfold drop_qubit, scale. destruct (bit z q); [|reflexivity]. ring.
    + rewrite <- Z1. exact Sd.
    + rewrite <- Z1. rewrite <- (norm2_width _ (width (live (bk m))) _ Sd).
      * rewrite norm2_drop; [exact No|apply width_lt; auto|]. intros z Hz. apply collapsed_value; auto.
      * intros z Hz. apply width_lt. rewrite <- Er in Hz. apply remove_id_In in Hz. tauto.
Qed.

Lemma run1_ok : forall s b c, tracks s b -> valid b c ->
  call_ok s b c \/
  (is_apply c /\ run1 s c = Panic EEmptyState /\
   forall m, tol = 0 -> bk m = b -> refines s m -> unit_call c -> False).
Proof.
  intros s b c Tr V. destruct c; simpl in V; try (left; solve [
    apply gate_call_ok; tauto | apply mc_call_ok; tauto | apply phase_call_ok; tauto | apply exp_call_ok; tauto
    | apply mcexp_call_ok; tauto | apply alloc_call_ok; tauto | apply release_call_ok; tauto
    | apply swap_call_ok; tauto | apply measure_call_ok; tauto | apply joint_measure_call_ok; tauto
    | apply prob_call_ok; tauto | apply is_zero_call_ok; tauto | apply force_call_ok; tauto
    | apply state_call_ok; tauto | apply dump_call_ok; tauto ]).
  destruct (apply_call_ok s b rows cols u ts cs Tr V) as [H|[H1 H2]]; [left; auto|right].
  split; [exact I|]. auto.
Qed.

(** ** Whole histories *)
Lemma wf_new : forall g, wf (new_sim g).
Proof.
  intros g. assert (NP : forall x, no_pend (new_sim g) x).
  { intros x. unfold no_pend. simpl. rewrite !im_get_empty. auto using bit_0. }
  constructor.
  - split; simpl; [repeat constructor; auto|]. intros k [<-|[]] i Hi. rewrite bit_0 in Hi. discriminate.
  - intros i j l. simpl. rewrite im_get_empty. discriminate.
  - constructor.
  - intros x. destruct (NP x) as [Hh _]. rewrite Hh. discriminate.
  - intros x a. destruct (NP x) as [_ [Hx _]]. rewrite Hx. discriminate.
  - intros x a. destruct (NP x) as [_ [_ Hx]]. rewrite Hx. discriminate.
  - simpl. unfold QUEUE_LIMIT. lia.
Qed.
Lemma abs_new : forall g, abs (new_sim g) = ket0.
Proof.
  intros g. set (s' := new_sim g). unfold abs.
  assert (G : forall x, im_get (id_map s') x = None) by (intros; apply im_get_empty).
  assert (I' : im_inj (id_map s')) by (intros i j l; rewrite G; discriminate).
  change (ids s') with (@nil nat). unfold pendl. simpl. unfold core. change (op_queue s') with (@nil (@qop RArith)).
  unfold opsem. simpl. apply functional_extensionality. intros b. unfold base, baseof, ket0.
  assert (Ei : inb (id_map s') b = N.eqb b 0).
  { apply eq_true_iff_eq. rewrite inb_spec by auto. rewrite N.eqb_eq. split.
    - intros H. apply bits_ext. intros i. rewrite bit_0. destruct (bit b i) eqn:Eb; auto.
      destruct (H i Eb) as [l Hl]. rewrite G in Hl. discriminate.
    - intros -> i Hi. rewrite bit_0 in Hi. discriminate. }
  rewrite Ei. destruct (N.eqb_spec b 0); auto.
Qed.
Lemma new_tracks : forall g, tracks (new_sim g) (mkBook [] true).
Proof.
  intros g. assert (I : ids (new_sim g) = []) by reflexivity. constructor; auto.
  - apply wf_new.
  - intros _ l Hl. rewrite I in Hl. simpl in Hl. lia.
Qed.
Lemma new_refines : forall g, refines (new_sim g) (initial g).
Proof.
  intros g. constructor; simpl.
  - apply new_tracks.
  - reflexivity.
  - exists C1. split; [apply Cn2_C1|]. rewrite scale_1. apply abs_new.
  - apply ket0_supported.
  - apply ket0_norm.
Qed.

Theorem exec_tracks : forall h s b, tracks s b -> valid_run b h ->
  (exists rs s', exec s h = Ok (rs, s') /\ tracks s' (fold_left bstep h b)) \/
  (exec s h = Panic EEmptyState /\ Exists is_apply h).
Proof.
  induction h as [|c h IH]; intros s b Tr V; simpl.
  - left. exists [], s. auto.
  - destruct V as [V1 V2]. destruct (run1_ok s b c Tr V1) as [[r [s1 [E [Tr1 _]]]]|[Ia [E _]]].
    + rewrite E. cbn [bind]. destruct (IH s1 (bstep b c) Tr1 V2) as [[rs [s2 [E2 Tr2]]]|[E2 X]]; rewrite E2; cbn [bind].
      * left. eauto.
      * right. auto.
    + rewrite E. simpl. right. auto.
Qed.

(** Every history of valid calls behaves as the ideal machine does on that history with
    some single-qubit [ry] angles negated. *)
Theorem exec_effective : tol = 0 -> (forall g, 0 <= fst (draws g) < 1) ->
  forall h s m, refines s m -> valid_run (bk m) h -> Forall unit_call h ->
  exists rs s' h', exec s h = Ok (rs, s') /\ Forall2 up_to_ry_sign h h' /\ (clash_free s h -> h' = h) /\
    replies_ok draws m h' rs /\ refines s' (mrun draws m h').
Proof.
  intros H0 Dr. induction h as [|c h IH]; intros s m R V U; simpl.
  - exists [], s, []. auto 6.
  - destruct V as [V1 V2]. inversion U; subst.
    destruct (run1_ok s (bk m) c (rf_tr s m R) V1) as [[r [s1 [E [_ [_ Z]]]]]|[_ [_ Z]]].
    2:{ exfalso. eapply Z; eauto. }
    destruct (Z m H0 eq_refl R) as [P R1]; auto. rewrite E in *. cbn [bind].
    destruct (IH s1 (mstep1 draws m (effective s c)) R1) as [rs [s2 [h' [E2 [F2 [C2 [P2 R2]]]]]]]; auto.
    { unfold mstep1. destruct (draws (mgen m)). simpl. rewrite effective_bstep. exact V2. }
    rewrite E2. cbn [bind]. exists (r :: rs), s2, (effective s c :: h'). split; [reflexivity|].
    split; [constructor; auto using effective_sign|].
    split; [intros [N1 N2]; rewrite effective_no_clash, C2; auto|]. split; [|exact R2]. split; [|exact P2].
    destruct c; try exact P. destruct g; exact P.
Qed.

Theorem exec_refines : tol = 0 -> (forall g, 0 <= fst (draws g) < 1) ->
  forall h s m, refines s m -> valid_run (bk m) h -> Forall unit_call h -> clash_free s h ->
  exists rs s', exec s h = Ok (rs, s') /\ replies_ok draws m h rs /\ refines s' (mrun draws m h).
Proof.
  intros H0 Dr. induction h as [|c h IH]; intros s m R V U Cf; simpl.
  - exists [], s. auto.
  - destruct V as [V1 V2]. inversion U; subst. destruct Cf as [C1 C2].
    destruct (run1_ok s (bk m) c (rf_tr s m R) V1) as [[r [s1 [E [_ [_ Z]]]]]|[_ [_ Z]]].
    2:{ exfalso. eapply Z; eauto. }
    destruct (Z m H0 eq_refl R) as [P R1]; auto. rewrite effective_no_clash in R1 by auto. rewrite E in *. cbn [bind].
    destruct (IH s1 (mstep1 draws m c) R1) as [rs [s2 [E2 [P2 R2]]]]; auto.
    { unfold mstep1. destruct (draws (mgen m)). exact V2. }
    rewrite E2. cbn [bind]. exists (r :: rs), s2. auto.
Qed.

(** Histories whose [rx] angles generate no odd multiple of pi are clash free. *)
Lemma angles_clash_free : forall G, subgroup G -> (forall a, G a -> cos (a / 2) <> 0) ->
  forall h s b, tracks s b -> valid_run b h -> rxin G s -> Forall (rx_angles G) h -> clash_free s h.
Proof.
  intros G SG Gc. induction h as [|c h IH]; intros s b Tr V N F; simpl; auto.
  inversion F; subst. destruct V as [V1 V2]. split.
  - destruct c; simpl; auto. destruct g; simpl; auto. intros a Ha. apply Gc. eapply N; eauto.
  - destruct (run1_ok s b c Tr V1) as [[r [s1 [E [Tr1 [X _]]]]]|[_ [E _]]]; rewrite E; auto.
    eapply IH; eauto.
Qed.
Lemma no_ry_clash_free : forall h s, Forall (fun c => ~ is_ry c) h -> clash_free s h.
Proof.
  induction h as [|c h IH]; intros s F; simpl; auto. inversion F; subst. split.
  - destruct c; simpl; auto. destruct g; simpl; auto. simpl in H1. tauto.
  - destruct (run1 s c) as [[r s1]|]; auto.
Qed.
Lemma new_rxin : forall G g, rxin G (new_sim g).
Proof. intros G g q a. simpl. rewrite im_get_empty. discriminate. Qed.
End RunL.
