(** * Proofs of the backend theorems *)
From Coq Require Import String Reals NArith List Bool Lia Lra Arith Sorted Permutation FunctionalExtensionality.
From Verif Require Import Cx Bits BitsLemmas Arith ArithR IndexMap Sim SimExp SimApply Spec SpecExp SpecApply SpecRun SimRun QLib QSum SpecLemmas ExpLemmas
  Abs RunLemmas RunProps RunThms SimProps Text Backend SpecBackend BackLemmas BackMath BackSem BackStore.
Import ListNotations.
Local Open Scope R_scope.

Section Thms.
Context {T : Tol} {EN : Env} {D : Doubles} {SW : Shows}.

Lemma bproper_app : forall h1 h2 k, bproper k (h1 ++ h2) <-> bproper k h1 /\ bproper (fold_left bbstep h1 k) h2.
Proof. induction h1; simpl; intros; [tauto|]. rewrite IHh1. tauto. Qed.
Lemma bexec_app : forall h1 h2 b, bexec (h1 ++ h2) b =
  match bexec h1 b with
  | BOk rs b' => match bexec h2 b' with BOk rs' b'' => BOk (rs ++ rs') b'' | BErr e o => BErr e o end
  | BErr e o => BErr e o
  end.
Proof.
  induction h1 as [|c h1 IH]; intros h2 b; cbn [app bexec].
  - unfold bret. destruct (bexec h2 b); reflexivity.
  - unfold bbind. destruct (bcall1 c b) as [r b1|]; auto. rewrite IH. destruct (bexec h1 b1) as [rs b2|]; auto. unfold bret.
    destruct (bexec h2 b2); reflexivity.
Qed.

Section Order.
Hypothesis Ho : order_ok.
Lemma breached_K : forall b l, breached b l -> K b (mkBBook (bmax b) l).
Proof.
  intros b l H. destruct (breached_k Ho b l H) as [m [R M]]. cbn [bb_live bb_max] in *. split; auto.
Qed.
Lemma breached_step : forall b l c r b', breached b l -> bvalid (mkBBook (bmax b) l) c -> bcall1 c b = BOk r b' ->
  breached b' (bb_live (bbstep (mkBBook (bmax b) l) c)).
Proof.
  intros b l c r b' H V E. assert (Kb := breached_K b l H). destruct H as (g & h & rs & P & Ex & ->).
  assert (Kh := bexec_k Ho h _ _ rs b (K_start g) P Ex).
  assert (Eb : fold_left bbstep h bbstart = mkBBook (bmax b) (bb_live (fold_left bbstep h bbstart))).
  { destruct Kh as [_ M]. rewrite M. destruct (fold_left bbstep h bbstart); reflexivity. }
  exists g, (h ++ [c]), (rs ++ [r]). split; [|split].
  - apply bproper_app. split; auto. simpl. split; auto. rewrite Eb. exact V.
  - rewrite bexec_app, Ex. cbn [bexec]. unfold bbind. rewrite E. reflexivity.
  - rewrite fold_left_app. cbn [fold_left]. rewrite Eb at 2. reflexivity.
Qed.
Lemma no_abort_thm : forall g h, bproper bbstart h ->
  (exists rs b, bexec h (back_default g) = BOk rs b) \/
  (exists m o, bexec h (back_default g) = BErr (EFail m) o /\ Exists is_assert h).
Proof. intros g h P. eapply bexec_ok; eauto. apply K_start. Qed.
Lemma rch_ids : forall s l, rch s l -> im_keys (id_map s) = l /\ StronglySorted lt l.
Proof.
  intros s l (g & h & rs & P & _ & E & ->). assert (Tr := tracks_reached Ho g h rs s (proj1 P) E).
  split; [apply (tr_ids _ _ Tr)|]. eapply tracks_sorted; eauto.
Qed.
Lemma held_thm : forall b l, breached b l -> held b = l.
Proof. intros b l H. apply rch_ids. apply (proj1 (breached_K b l H)). Qed.
End Order.

(** ** Static identifiers *)
Lemma gap_seq : forall n s, gap_from s (seq s n) = (s + n)%nat.
Proof. induction n; intros s; simpl; [lia|]. rewrite Nat.eqb_refl, IHn. lia. Qed.
Lemma insert_seq : forall n s, insert_id (s + n) (seq s n) = seq s (S n).
Proof.
  induction n; intros s; simpl; [now rewrite Nat.add_0_r|].
  assert (X : Nat.ltb (s + S n) s = false) by (apply Nat.ltb_ge; lia). rewrite X.
  replace (s + S n)%nat with (S s + n)%nat by lia. rewrite IHn. reflexivity.
Qed.
Lemma grow_seq : forall k n, grow k (seq 0 n) = seq 0 (k + n).
Proof.
  induction k; intros n; cbn [grow]; auto. unfold fresh_id. rewrite gap_seq, insert_seq, IHk. f_equal. lia.
Qed.
Lemma opened_seq : forall m qs, opened m (seq 0 m) qs = seq 0 (Nat.max m (top qs)).
Proof. intros. unfold opened. rewrite grow_seq. f_equal. lia. Qed.
Lemma in_opened_seq : forall m qs q, In q qs -> In q (opened m (seq 0 m) qs).
Proof. intros m qs q H. rewrite opened_seq. apply in_seq. assert (X := top_In q qs H). lia. Qed.
Lemma static_valid : forall m c, is_static c -> well_named c -> bvalid (mkBBook m (seq 0 m)) c.
Proof.
  intros m c S W. unfold bvalid. cbn [bb_max bb_live].
  destruct c; cbn [is_static well_named bnames] in *; try contradiction;
    try (split; [exact W|intros x Hx; apply in_opened_seq; exact Hx]);
    try (split; [apply W|split; [intros x Hx; apply in_opened_seq; exact Hx|apply W]]); auto.
  - inversion W as [|? ? X _]; subst. split; [apply in_opened_seq; simpl; auto|]. split; [apply in_opened_seq; simpl; auto|].
    intros ->. apply X. simpl; auto.
  - inversion W as [|? ? X _]; subst. split; [apply in_opened_seq; simpl; auto|]. split; [apply in_opened_seq; simpl; auto|].
    intros ->. apply X. simpl; auto.
  - split; apply in_opened_seq; simpl; auto.
Qed.
Lemma static_step : forall m c, is_static c ->
  bbstep (mkBBook m (seq 0 m)) c = mkBBook (Nat.max m (top (bnames c))) (seq 0 (Nat.max m (top (bnames c)))).
Proof.
  intros m c S. destruct c; cbn [is_static] in S; try contradiction; cbn [bbstep bb_max bb_live]; rewrite opened_seq; reflexivity.
Qed.
Lemma static_run : forall h m, Forall is_static h -> Forall well_named h ->
  bproper (mkBBook m (seq 0 m)) h /\
  fold_left bbstep h (mkBBook m (seq 0 m)) =
    mkBBook (Nat.max m (top (flat_map bnames h))) (seq 0 (Nat.max m (top (flat_map bnames h)))).
Proof.
  induction h as [|c h IH]; intros m S W; cbn [bproper fold_left flat_map].
  - split; auto. rewrite Nat.max_0_r. reflexivity.
  - inversion S; inversion W; subst. rewrite static_step by auto.
    destruct (IH (Nat.max m (top (bnames c)))) as [P F]; auto. split; [split; [apply static_valid; auto|auto]|].
    rewrite F, top_app, Nat.max_assoc. reflexivity.
Qed.
Lemma static_thm : order_ok -> forall g h, Forall is_static h -> Forall well_named h ->
  bproper bbstart h /\
  forall rs b, bexec h (back_default g) = BOk rs b -> held b = seq 0 (top (flat_map bnames h)) /\ breached b (held b).
Proof.
  intros Ho g h S W. destruct (static_run h 0 S W) as [P F]. split; auto. intros rs b E.
  assert (R : breached b (seq 0 (top (flat_map bnames h)))).
  { exists g, h, rs. split; auto. split; auto. unfold bbstart. change (@nil nat) with (seq 0 0). rewrite F. reflexivity. }
  rewrite (held_thm Ho _ _ R). auto.
Qed.

(** Untouched qubits *)
Definition zero_on (q : nat) (psi : qstate) : Prop := forall b, bit b q = true -> psi b = C0.
Lemma zero_ket0 : forall q, zero_on q ket0.
Proof. intros q b H. unfold ket0. destruct (N.eqb_spec b 0); auto. subst. rewrite bit_zero in H. discriminate. Qed.
Lemma zero_gate1 : forall q U t psi, t <> q -> zero_on q psi -> zero_on q (gate1 U t psi).
Proof. intros q U t psi N Z b H. unfold gate1. rewrite !Z by (rewrite bit_set_other; auto). ring. Qed.
Lemma zero_ctrl : forall q cs F psi, zero_on q psi -> zero_on q (F psi) -> zero_on q (ctrl_op cs F psi).
Proof. intros q cs F psi Z1 Z2 b H. unfold ctrl_op. destruct (forallb (bit b) cs); auto. Qed.
Lemma zero_cgate : forall q cs U t psi, t <> q -> zero_on q psi -> zero_on q (cgate cs U t psi).
Proof. intros. apply zero_ctrl; auto. apply zero_gate1; auto. Qed.
Lemma zero_pauli : forall q l psi, ~ In q (map snd l) -> zero_on q psi -> zero_on q (pauli_product l psi).
Proof. induction l as [|[p t] l IH]; simpl; intros psi N Z; auto. apply zero_gate1; [tauto|]. apply IH; tauto. Qed.
Lemma zero_exp : forall q th l psi, ~ In q (map snd l) -> zero_on q psi -> zero_on q (exp_op th l psi).
Proof. intros q th l psi N Z b H. unfold exp_op. rewrite (zero_pauli q l psi N Z b H), !(Z b H). ring. Qed.
Lemma zero_scale : forall q c psi, zero_on q psi -> zero_on q (scale c psi).
Proof. intros q c psi Z b H. unfold scale. rewrite Z by auto. ring. Qed.
Lemma zero_proj : forall q qs v psi, zero_on q psi -> zero_on q (proj qs v psi).
Proof. intros q qs v psi Z b H. unfold proj. destruct (Bool.eqb _ _); auto. Qed.
Lemma zero_collapsed : forall q l qs r psi, zero_on q psi -> zero_on q (collapsed l qs r psi).
Proof. intros. apply zero_scale, zero_proj. auto. Qed.
Lemma zero_drop : forall q t r psi, t <> q -> zero_on q psi -> zero_on q (drop_qubit t r psi).
Proof. intros q t r psi N Z b H. unfold drop_qubit. destruct (bit b t); auto. apply Z. rewrite bit_set_other; auto. Qed.
Lemma zero_after : forall q n l r psi, ~ In q (map snd l) -> zero_on q psi -> zero_on q (after_result n l r psi).
Proof.
  intros q n l r psi N Z. apply zero_scale. intros b H. unfold eigen_proj. rewrite (zero_pauli q l psi N Z b H), !(Z b H).
  destruct r; ring.
Qed.
Lemma zero_swap : forall q x y psi, x <> q -> y <> q -> zero_on q psi -> zero_on q (swap_qubits x y psi).
Proof.
  intros q x y psi N1 N2 Z b H. unfold swap_qubits. apply Z. unfold swap_assign. rewrite !bit_set_other by auto. exact H.
Qed.

(** Every angle allowed. *)
Lemma allG : subgroup (fun _ => True).
Proof. repeat split. Qed.
Lemma bangles_all : forall c, bangles (fun _ => True) c.
Proof. destruct c; simpl; auto; try (destruct g; simpl; auto); try (destruct p; simpl; auto). Qed.
Section Exact.
Hypothesis EW : exact_world.
Let Ho : order_ok := proj1 (proj2 EW).

Lemma ry_any : forall th q b l psi, In q (opened (bmax b) l [q]) -> st (bsim b) l psi ->
  exists th' s', qis_gate (GRy th) q b = BOk tt (upd b s' (Nat.max (bmax b) (S q))) /\
    st s' (opened (bmax b) l [q]) (gate1 (mRy th') q psi).
Proof.
  intros th q b l psi Hq S. destruct (ensure_st EW (fun _ => True) allG q b l psi S) as (s1 & E1 & S1 & _ & _).
  destruct (st_call EW (fun _ => True) allG s1 _ psi (CGate (GRy th) q) S1) as (r & s2 & E2 & _ & S2 & _); simpl; auto.
  { intros bk E. rewrite E. auto. }
  cbn [effective vstep bstep live gmat] in S2.
  eexists _, s2. split; [|exact S2]. unfold qis_gate, bbind. rewrite E1. unfold simdo, bbind, simcall.
  change (bsim (upd b s1 (Nat.max (bmax b) (Datatypes.S q)))) with s1. rewrite E2. reflexivity.
Qed.
Definition rest_zero (q : nat) (b' : back) (l' : list nat) : Prop := exists phi, st (bsim b') l' phi /\ zero_on q phi.
Lemma op_zero : forall c F q psi, bop c = Some F -> ~ In q (bnames c) -> zero_on q psi -> zero_on q (F psi).
Proof.
  intros c F q psi E N Z. destruct c; cbn [bop bnames] in *; inversion E; subst; clear E; simpl in N;
    try (apply zero_gate1; tauto); try (apply zero_cgate; tauto); try (apply zero_exp; simpl; tauto); auto.
  - destruct p; simpl in N; try (apply zero_exp; simpl; tauto). rewrite ri_exp. apply zero_scale; auto.
  - destruct p; simpl in N; rewrite half_neg; try (apply zero_exp; simpl; tauto). rewrite ri_exp. apply zero_scale; auto.
  - apply zero_ctrl; auto. destruct cs, p; simpl in N; try (apply zero_exp; simpl; tauto).
    rewrite ri_exp. apply zero_scale; auto.
  - apply zero_ctrl; auto. rewrite half_neg. destruct cs, p; simpl in N; try (apply zero_exp; simpl; tauto).
    rewrite ri_exp. apply zero_scale; auto.
  - apply zero_exp; auto. intros H. apply N. eapply in_combine_snd; eauto.
  - apply zero_exp; auto. intros H. apply N. eapply in_combine_snd; eauto.
  - apply zero_ctrl; auto. apply zero_exp; auto. intros H. apply N. apply in_or_app. right. eapply in_combine_snd; eauto.
  - apply zero_ctrl; auto. apply zero_exp; auto. intros H. apply N. apply in_or_app. right. eapply in_combine_snd; eauto.
  - apply zero_swap; tauto.
Qed.
Lemma vunit_inv : forall (m : B unit) b r b', vunit m b = BOk r b' -> m b = BOk tt b'.
Proof. intros m b r b' E. unfold vunit, bbind in E. destruct (m b) as [[] b1|]; inversion E; subst; auto. Qed.
Lemma rbind_inv : forall X (m : B X) (f : X -> breply) b r b', bbind m (fun x => bret (f x)) b = BOk r b' ->
  exists x, m b = BOk x b' /\ r = f x.
Proof. intros X m f b r b' E. unfold bbind in E. destruct (m b) as [x b1|]; inversion E; subst; eauto. Qed.

Lemma call_zero : forall q b l psi c r b', st (bsim b) l psi -> bvalid (mkBBook (bmax b) l) c -> is_static c ->
  ~ In q (bnames c) -> zero_on q psi -> bcall1 c b = BOk r b' ->
  rest_zero q b' (opened (bmax b) l (bnames c)).
Proof.
  intros q b l psi c r b' S V Is N Z E.
  destruct (bop c) as [F|] eqn:Eo.
  - assert (Y : turns_y c = None -> rest_zero q b' (opened (bmax b) l (bnames c))).
    { intros Ey. destruct (op_does EW (fun _ => True) allG b l psi c F V Eo) as (s' & E1 & S1 & _); auto.
      - intros x a Hx. congruence.
      - apply bangles_all.
      - rewrite E1 in E. inversion E; subst. exists (F psi). split; auto. eapply op_zero; eauto. }
    assert (G : forall th x, In x (opened (bmax b) l [x]) -> x <> q -> qis_gate (GRy th) x b = BOk tt b' ->
                rest_zero q b' (opened (bmax b) l [x])).
    { intros th x Hx Nx Eg. destruct (ry_any th x b l psi Hx S) as (th' & s' & E1 & S1). rewrite E1 in Eg. inversion Eg; subst.
      eexists. split; [exact S1|]. apply zero_gate1; auto. }
    destruct c; try (apply Y; reflexivity); cbn [bcall1] in E.
    + destruct g; try (apply Y; reflexivity). apply vunit_inv in E. eapply G; eauto; [apply V; simpl; auto|]. intros ->. apply N. simpl; auto.
    + destruct p; try (apply Y; reflexivity). apply vunit_inv in E. eapply (G th q0); eauto; [apply V; simpl; auto|]. intros ->. apply N. simpl; auto.
    + destruct p; try (apply Y; reflexivity). apply vunit_inv in E. eapply (G (- th) q0); eauto; [apply V; simpl; auto|]. intros ->. apply N. simpl; auto.
  - destruct c; cbn [bop is_static] in *; try discriminate; try contradiction; cbn [bcall1] in E;
      unfold bvalid in V; cbn [bnames bb_max bb_live] in *; rewrite ?opened_nil.
    + apply vunit_inv in E. destruct (reset_st EW (fun _ => True) allG q0 b l psi) as (v & s' & _ & E1 & S1 & _); [apply V; simpl; auto|auto|].
      rewrite E1 in E. inversion E; subst. eexists. split; [exact S1|]. apply zero_drop; [intros ->; apply N; simpl; auto|].
      apply zero_collapsed; auto.
    + apply vunit_inv in E. destruct (mresetz_st EW (fun _ => True) allG q0 i b l psi) as (v & s' & _ & E1 & S1 & _); [apply V; simpl; auto|auto|].
      rewrite E1 in E. inversion E; subst. eexists. split; [exact S1|]. apply zero_drop; [intros ->; apply N; simpl; auto|].
      apply zero_collapsed; auto.
    + apply vunit_inv in E. destruct (mz_st EW (fun _ => True) allG q0 i b l psi) as (v & s' & _ & E1 & S1 & _); [apply V; simpl; auto|auto|].
      rewrite E1 in E. inversion E; subst. eexists. split; [exact S1|]. apply zero_collapsed; auto.
    + inversion E; subst. eexists; split; eauto.
    + inversion E; subst. eexists; split; eauto.
    + apply rbind_inv in E. destruct E as [x [E _]]. destruct (m_st EW (fun _ => True) allG q0 b l psi) as (v & s' & _ & E1 & S1 & _); [apply V; simpl; auto|auto|].
      rewrite E1 in E. inversion E; subst. eexists. split; [exact S1|]. apply zero_collapsed; auto.
    + apply rbind_inv in E. destruct E as [x [E _]]. destruct V as [V1 [V2 V3]].
      destruct (measure_st EW (fun _ => True) allG ps qs b l psi V3 V1 V2 S) as (v & s' & E1 & _ & S1 & _).
      rewrite E1 in E. inversion E; subst. eexists. split; [exact S1|]. apply zero_after; auto.
    + apply rbind_inv in E. destruct E as [x [E _]]. destruct (is_zero_st EW (fun _ => True) allG q0 b l psi) as (v & s' & E1 & _ & S1 & _); [apply V; simpl; auto|auto|].
      rewrite E1 in E. inversion E; subst. eexists. split; [exact S1|]. auto.
    + apply vunit_inv in E. destruct V as [V1 [V2 V3]].
      destruct (assert_st EW (fun _ => True) allG ps qs result prob msg tolerance b l psi V3 V1 V2 S) as [A1 A2].
      match type of A2 with ?t < Rabs ?x -> _ => destruct (Rlt_dec t (Rabs x)) as [H|H] end.
      * rewrite (A2 H) in E. discriminate.
      * destruct A1 as (s' & E1 & S1 & _); [lra|]. rewrite E1 in E. inversion E; subst. eexists. split; [exact S1|]. auto.
    + inversion E; subst. eexists; split; eauto.
    + apply rbind_inv in E. destruct E as [x [E _]]. unfold api_capture, bbind, simcall in E.
      destruct (st_call EW (fun _ => True) allG (bsim b) l psi CState S) as (v & s' & E1 & _ & S1 & _); simpl; auto.
      rewrite E1 in E. inversion E; subst. eexists. split; [exact S1|]. auto.
    + apply vunit_inv in E. subst location. unfold qis_dumpmachine in E.
      destruct (st_call EW (fun _ => True) allG (bsim b) l psi CDump S) as (v & s' & E1 & _ & S1 & _); simpl; auto.
      assert (X : bsim b' = s').
      { unfold bbind, simcall in E. destruct (bres b); cbn [bret emit with_out bsim] in E; rewrite E1 in E; inversion E; reflexivity. }
      exists psi. rewrite X. split; auto.
    + apply vunit_inv in E. unfold rt_result_record, bbind, recorded in E. destruct (bres b); inversion E; subst; eexists; split; eauto.
    + apply vunit_inv in E. unfold rt_result_record_legacy, bbind, recorded in E. destruct (bres b); inversion E; subst; eexists; split; eauto.
    + inversion E; subst. eexists; split; eauto.
Qed.
Lemma shows_unique : forall s l psi phi, reached s l -> shows s l psi -> shows s l phi -> exists c, Cn2 c = 1 /\ psi = scale c phi.
Proof.
  intros s l psi phi R S1 S2. destruct (reached_case EW s l phi R S2) as (m & c & Rf & <- & Hc & ->).
  destruct (shows_vec Ho s m psi (ew0 EW) Rf S1) as (d & Hd & ->). destruct (unit_inv c Hc) as (e & He & Ee).
  exists (d * e)%C. split; [rewrite Cn2_mul, Hd, He; ring|]. rewrite scale_scale.
  replace (d * e * c)%C with (d * (e * c))%C by ring. rewrite Ee. f_equal. ring.
Qed.
Lemma new_st : forall g, st (new_sim g) [] ket0.
Proof.
  intros g. split; [apply rch_new|]. assert (P : proper []) by (split; [exact Logic.I|constructor]).
  destruct (history_thm EW g [] P) as (rs & s & h' & E & F & _ & _ & Sh). inversion E; subst. inversion F; subst. exact Sh.
Qed.
Lemma run_zero : forall q h b m psi rs b', st (bsim b) (seq 0 m) psi -> bmax b = m -> Forall is_static h -> Forall well_named h ->
  ~ In q (flat_map bnames h) -> zero_on q psi -> bexec h b = BOk rs b' ->
  rest_zero q b' (seq 0 (Nat.max m (top (flat_map bnames h)))).
Proof.
  induction h as [|c h IH]; intros b m psi rs b' S M Is W N Z E.
  - inversion E; subst. simpl. rewrite Nat.max_0_r. exists psi. auto.
  - inversion Is; inversion W; subst. cbn [flat_map] in *.
    cbn [bexec] in E. unfold bbind in E. destruct (bcall1 c b) as [r b1|] eqn:E1; [|discriminate].
    destruct (bexec h b1) as [rs' b2|] eqn:E2; [|discriminate]. inversion E; subst.
    assert (V := static_valid (bmax b) c H1 H5).
    destruct (call_zero q b (seq 0 (bmax b)) psi c r b1 S V H1) as (phi & S1 & Z1); auto.
    { intros X. apply N. apply in_or_app. auto. }
    rewrite opened_seq in S1.
    assert (Kb : K b (mkBBook (bmax b) (seq 0 (bmax b)))) by (split; [apply S|reflexivity]).
    assert (Kc := wp_ok _ _ _ _ _ _ _ E1 (bcall_k Ho b _ c Kb V)).
    destruct Kc as [_ Mc]. rewrite static_step in Mc by auto. cbn [bb_max] in Mc.
    rewrite top_app, Nat.max_assoc. eapply IH; eauto. intros X. apply N. apply in_or_app. auto.
Qed.
Lemma zero_born : forall n q psi, zero_on q psi -> born n [q] psi = 0.
Proof. intros n q psi Z. unfold born. apply Rsum_zero. intros k _. rewrite par1. destruct (bit k q) eqn:E; auto. rewrite Z by auto. apply Cn2_C0. Qed.
(** C24 *)
Lemma untouched_thm : forall g h rs b q psi, Forall is_static h -> Forall well_named h -> bexec h (back_default g) = BOk rs b ->
  ~ In q (flat_map bnames h) -> bshows b (held b) psi -> forall k, bit k q = true -> psi k = C0.
Proof.
  intros g h rs b q psi Is W E N Sh. destruct (static_thm Ho g h Is W) as [_ H]. destruct (H rs b E) as [Hh Br].
  destruct (run_zero q h (back_default g) 0 ket0 rs b (new_st g) eq_refl Is W N (zero_ket0 q) E) as (phi & S & Z).
  rewrite Nat.max_0_l, <- Hh in S.
  destruct (shows_unique (bsim b) (held b) psi phi) as (c & _ & ->); [apply rch_reached; apply S|exact Sh|apply S|].
  apply zero_scale. exact Z.
Qed.

Lemma breached_st : forall b l psi, breached b l -> bshows b l psi -> st (bsim b) l psi.
Proof. intros b l psi R Sh. split; [apply (proj1 (breached_K Ho b l R))|exact Sh]. Qed.
Lemma breached_shows : forall b l, breached b l -> exists psi, bshows b l psi /\ norm2 (width l) psi = 1.
Proof.
  intros b l R. assert (Kb := proj1 (breached_K Ho b l R)). destruct (reached_shows EW (bsim b) l (rch_reached _ _ Kb)) as [psi Sh].
  exists psi. split; auto. eapply st_norm; eauto. split; eauto.
Qed.
Lemma open_step : forall b l c r s' m, is_static c -> breached b l -> bvalid (mkBBook (bmax b) l) c -> forall b', bcall1 c b = BOk r b' ->
  bsim b' = s' -> bmax b' = m -> breached b' (opened (bmax b) l (bnames c)).
Proof.
  intros b l c r s' m Is R V b' E _ _. assert (X := breached_step Ho b l c r b' R V E).
  destruct c; cbn [is_static] in Is; try contradiction; exact X.
Qed.
(** C20 *)
Lemma op_thm : forall b l psi c F, breached b l -> bshows b l psi -> bvalid (mkBBook (bmax b) l) c -> bop c = Some F -> y_free b c ->
  exists b', bcall1 c b = BOk VUnit b' /\ breached b' (opened (bmax b) l (bnames c)) /\
    bshows b' (opened (bmax b) l (bnames c)) (F psi) /\ same_rest b b'.
Proof.
  intros b l psi c F R Sh V E Y. destruct (op_does EW (fun _ => True) allG b l psi c F V E Y (bangles_all c) (breached_st _ _ _ R Sh)) as (s' & E1 & S1 & _).
  eexists. split; [exact E1|]. split; [|split; [apply S1|split; reflexivity]].
  eapply open_step; eauto. destruct c; try discriminate; exact Logic.I.
Qed.
(** C21 *)
Lemma measure_thm' : forall b l psi ps qs, let c := QMeasure ps qs in let l' := opened (bmax b) l (bnames c) in
  let p := one_prob (width l') (combine ps qs) psi in
  breached b l -> bshows b l psi -> bvalid (mkBBook (bmax b) l) c ->
  0 <= p <= 1 /\
  exists (r : bool) b', bcall1 c b = BOk (VResult (if r then 1 else 0)%nat) b' /\ (r = true <-> fst (draw (rng (bsim b))) < p) /\
    breached b' l' /\ bshows b' l' (after_result (width l') (combine ps qs) r psi) /\
    norm2 (width l') (after_result (width l') (combine ps qs) r psi) = 1 /\ same_rest b b'.
Proof.
  intros b l psi ps qs c l' p R Sh V. assert (V' := V). destruct V' as [V1 [V2 V3]]. assert (S := breached_st _ _ _ R Sh).
  destruct (measure_st EW (fun _ => True) allG ps qs b l psi V3 V1 V2 S) as (r & s' & E & Hr & S' & _).
  assert (Sl : exists s1, st s1 l' psi).
  { destruct (map_to_z_st EW (fun _ => True) allG ps qs b l psi V3 V2 S) as (s1 & E1 & S1 & G1).
    destruct (from_z_st EW (fun _ => True) allG (paired ps qs) (upd b s1 0) l' _ V2 S1) as (s2 & E2 & S2 & _). exists s2.
    rewrite turn_back in S2 by exact V1. exact S2. }
  destruct Sl as (s1 & Sl). split.
  - unfold p. rewrite <- paired_prob. eapply one_prob_range; eauto.
  - exists r. eexists. split; [unfold c; cbn [bcall1]; unfold bbind; rewrite E; destruct r; reflexivity|].
    unfold p. rewrite <- paired_prob, <- paired_after. split; [exact Hr|]. split.
    { eapply open_step with (c := c); eauto; [exact Logic.I|]. unfold c; cbn [bcall1]; unfold bbind; rewrite E; reflexivity. }
    split; [apply S'|]. split; [eapply st_norm; eauto|split; reflexivity].
Qed.
Lemma lengths_thm : forall b ps qs, length ps <> length qs ->
  let m := codes "Pauli array and Qubit array must be the same size." in
  bcall1 (QMeasure ps qs) b = BErr (EFail m) (bout b ++ render (RecMessage m)) /\
  forall res pr msg tl, bcall1 (QAssert ps qs res pr msg tl) b = BErr (EFail m) (bout b ++ render (RecMessage m)).
Proof.
  intros b ps qs N m. apply Nat.eqb_neq in N. split; intros; cbn [bcall1]; unfold vunit, qis_measure, qis_assert, map_to_z_basis, bbind;
    rewrite N; reflexivity.
Qed.
(** C22 *)
Lemma assert_thm : forall b l psi ps qs res prob msg tl, let c := QAssert ps qs res prob msg tl in
  let l' := opened (bmax b) l (bnames c) in let p := result_prob (width l') (combine ps qs) (negb (Nat.eqb res 0)) psi in
  breached b l -> bshows b l psi -> bvalid (mkBBook (bmax b) l) c ->
  (Rabs (p - prob) <= tl -> exists b', bcall1 c b = BOk VUnit b' /\ breached b' l' /\ bshows b' l' psi /\ same_rest b b') /\
  (tl < Rabs (p - prob) -> bcall1 c b = BErr (EFail msg) (bout b ++ render (RecMessage msg))).
Proof.
  intros b l psi ps qs res prob msg tl c l' p R Sh V. assert (V' := V). destruct V' as [V1 [V2 V3]]. assert (S := breached_st _ _ _ R Sh).
  assert (Ep : result_prob (width l') (paired ps qs) (negb (Nat.eqb res 0)) psi = p).
  { unfold p, result_prob. rewrite paired_prob. reflexivity. }
  destruct (assert_st EW (fun _ => True) allG ps qs res prob msg tl b l psi V3 V1 V2 S) as [A1 A2]. fold l' in A1, A2.
  change (map snd (paired ps qs)) with (bnames c) in A1, A2. fold l' in A1, A2. rewrite Ep in A1, A2. split; intros Hp.
  - destruct (A1 Hp) as (s' & E & S' & _).
    assert (Ec : bcall1 c b = BOk VUnit (upd b s' (Nat.max (bmax b) (top (bnames c))))) by (unfold c; cbn [bcall1]; unfold vunit, bbind; rewrite E; reflexivity).
    eexists. split; [exact Ec|]. split; [eapply open_step; eauto; exact Logic.I|]. split; [apply S'|split; reflexivity].
  - unfold c; cbn [bcall1]; unfold vunit, bbind; rewrite (A2 Hp); reflexivity.
Qed.
(** C23 *)
Lemma drop_zero : forall q r psi, zero_on q (drop_qubit q r psi).
Proof. intros q r psi k H. unfold drop_qubit. rewrite H. reflexivity. Qed.
Lemma reset_thm : forall b l psi q, let l' := opened (bmax b) l [q] in
  breached b l -> bshows b l psi -> In q l' ->
  exists (r : bool) b', bcall1 (QReset q) b = BOk VUnit b' /\ (r = true <-> fst (draw (rng (bsim b))) < born (width l') [q] psi) /\
    let phi := drop_qubit q r (collapsed l' [q] r psi) in
    breached b' l' /\ bshows b' l' phi /\ norm2 (width l') phi = 1 /\ born (width l') [q] phi = 0 /\ same_rest b b'.
Proof.
  intros b l psi q l' R Sh Hq. assert (S := breached_st _ _ _ R Sh).
  assert (V : bvalid (mkBBook (bmax b) l) (QReset q)).
  { split; [constructor; [intros []|constructor]|]. intros x [<-|[]]. exact Hq. }
  destruct (reset_st EW (fun _ => True) allG q b l psi Hq S) as (r & s' & -> & E & S' & _). fold l' in S'. fold l'.
  assert (Ec : bcall1 (QReset q) b = BOk VUnit (upd b s' (Nat.max (bmax b) (Datatypes.S q)))) by (cbn [bcall1]; unfold vunit, bbind; rewrite E; reflexivity).
  exists (outcome l' [q] psi (fst (draw (rng (bsim b))))). eexists. split; [exact Ec|]. split; [apply outcome_iff|]. cbv zeta.
  split; [eapply (open_step b l (QReset q)); eauto; exact Logic.I|]. split; [apply S'|]. split; [eapply st_norm; eauto|].
  split; [apply zero_born, drop_zero|split; reflexivity].
Qed.
Lemma mresetz_thm : forall b l psi q i, let l' := opened (bmax b) l [q] in
  breached b l -> bshows b l psi -> In q l' ->
  exists (r : bool) b', bcall1 (QMresetz q i) b = BOk VUnit b' /\ (r = true <-> fst (draw (rng (bsim b))) < born (width l') [q] psi) /\
    let phi := drop_qubit q r (collapsed l' [q] r psi) in
    breached b' l' /\ bshows b' l' phi /\ norm2 (width l') phi = 1 /\ born (width l') [q] phi = 0 /\
    reads_result b' i r /\ (forall j v, j <> i -> (reads_result b' j v <-> reads_result b j v)) /\ bout b' = bout b.
Proof.
  intros b l psi q i l' R Sh Hq. assert (S := breached_st _ _ _ R Sh).
  assert (V : bvalid (mkBBook (bmax b) l) (QMresetz q i)).
  { split; [constructor; [intros []|constructor]|]. intros x [<-|[]]. exact Hq. }
  destruct (mresetz_st EW (fun _ => True) allG q i b l psi Hq S) as (r & s' & -> & E & S' & _). fold l' in E, S'. set (r := outcome l' [q] psi (fst (draw (rng (bsim b))))) in *.
  match type of E with _ = BOk tt ?z => assert (Ec : bcall1 (QMresetz q i) b = BOk VUnit z) by (cbn [bcall1]; unfold vunit, bbind; rewrite E; reflexivity) end.
  exists r. eexists. split; [exact Ec|]. split; [apply outcome_iff|]. cbv zeta.
  split; [eapply (open_step b l (QMresetz q i)); eauto; exact Logic.I|]. split; [apply S'|]. split; [eapply st_norm; eauto|].
  split; [apply zero_born, drop_zero|]. split; [|split; [|reflexivity]].
  - apply reads_at. unfold res_at. cbn [bres]. rewrite nth_set, Nat.eqb_refl by apply len_grow. reflexivity.
  - intros j v N. rewrite !reads_at. unfold res_at. cbn [bres]. rewrite nth_set by apply len_grow.
    destruct (Nat.eqb_spec i j); [congruence|]. rewrite nth_grow. reflexivity.
Qed.
Lemma mz_thm : forall b l psi q i, let l' := opened (bmax b) l [q] in
  breached b l -> bshows b l psi -> In q l' ->
  exists (r : bool) b', bcall1 (QMz q i) b = BOk VUnit b' /\ (r = true <-> fst (draw (rng (bsim b))) < born (width l') [q] psi) /\
    breached b' l' /\ bshows b' l' (collapsed l' [q] r psi) /\ norm2 (width l') (collapsed l' [q] r psi) = 1 /\
    reads_result b' i r /\ (forall j v, j <> i -> (reads_result b' j v <-> reads_result b j v)) /\ bout b' = bout b.
Proof.
  intros b l psi q i l' R Sh Hq. assert (S := breached_st _ _ _ R Sh).
  assert (V : bvalid (mkBBook (bmax b) l) (QMz q i)).
  { split; [constructor; [intros []|constructor]|]. intros x [<-|[]]. exact Hq. }
  destruct (mz_st EW (fun _ => True) allG q i b l psi Hq S) as (r & s' & -> & E & S' & _). fold l' in E, S'. set (r := outcome l' [q] psi (fst (draw (rng (bsim b))))) in *.
  match type of E with _ = BOk tt ?z => assert (Ec : bcall1 (QMz q i) b = BOk VUnit z) by (cbn [bcall1]; unfold vunit, bbind; rewrite E; reflexivity) end.
  exists r. eexists. split; [exact Ec|]. split; [apply outcome_iff|].
  split; [eapply (open_step b l (QMz q i)); eauto; exact Logic.I|]. split; [apply S'|]. split; [eapply st_norm; eauto|].
  split; [|split; [|reflexivity]].
  - apply reads_at. unfold res_at. cbn [bres]. rewrite nth_set, Nat.eqb_refl by apply len_grow. reflexivity.
  - intros j v N. rewrite !reads_at. unfold res_at. cbn [bres]. rewrite nth_set by apply len_grow.
    destruct (Nat.eqb_spec i j); [congruence|]. rewrite nth_grow. reflexivity.
Qed.
Lemma m_thm : forall b l psi q, let l' := opened (bmax b) l [q] in
  breached b l -> bshows b l psi -> In q l' ->
  exists (r : bool) b', bcall1 (QM q) b = BOk (VResult (if r then 1 else 0)%nat) b' /\
    (r = true <-> fst (draw (rng (bsim b))) < born (width l') [q] psi) /\
    breached b' l' /\ bshows b' l' (collapsed l' [q] r psi) /\ norm2 (width l') (collapsed l' [q] r psi) = 1 /\ same_rest b b'.
Proof.
  intros b l psi q l' R Sh Hq. assert (S := breached_st _ _ _ R Sh).
  assert (V : bvalid (mkBBook (bmax b) l) (QM q)).
  { split; [constructor; [intros []|constructor]|]. intros x [<-|[]]. exact Hq. }
  destruct (m_st EW (fun _ => True) allG q b l psi Hq S) as (r & s' & -> & E & S' & _). fold l' in E, S'. set (r := outcome l' [q] psi (fst (draw (rng (bsim b))))) in *.
  exists r. eexists. split; [cbn [bcall1]; unfold bbind; rewrite E; reflexivity|]. split; [apply outcome_iff|].
  split; [eapply (open_step b l (QM q)); eauto; [exact Logic.I|cbn [bcall1]; unfold bbind; rewrite E; reflexivity]|].
  split; [apply S'|]. split; [eapply st_norm; eauto|split; reflexivity].
Qed.

(** C25 *)
Lemma alloc_thm : forall b l psi, breached b l -> bshows b l psi ->
  exists q b', bcall1 QAlloc b = BOk (VQubit q) b' /\ ~ In q l /\ breached b' (insert_id q l) /\
    bshows b' (insert_id q l) psi /\ same_rest b b'.
Proof.
  intros b l psi R Sh. assert (S := breached_st _ _ _ R Sh).
  destruct (st_call EW (fun _ => True) allG (bsim b) l psi CAlloc S) as (r & s' & E & Rp & S' & _); simpl; auto.
  cbn [reply_ok] in Rp. subst r. cbn [bstep live effective vstep] in S'.
  assert (Ec : bcall1 QAlloc b = BOk (VQubit (fresh_id l)) (mkBack s' (bres b) (Nat.max (bmax b) (Datatypes.S (fresh_id l))) (bout b))).
  { cbn [bcall1]. unfold bbind, rt_qubit_allocate, bbind, simcall. rewrite E. reflexivity. }
  exists (fresh_id l). eexists. split; [exact Ec|]. split; [|split; [|split; [apply S'|split; reflexivity]]].
  - apply fresh_id_ok. apply (rch_ids Ho (bsim b)). apply S.
  - exact (breached_step Ho b l QAlloc _ _ R (conj (NoDup_nil _) (incl_nil_l _)) Ec).
Qed.
Lemma release_thm : forall b l psi q, breached b l -> bshows b l psi -> In q l ->
  exists (r : bool) b', bcall1 (QRelease q) b = BOk VUnit b' /\ breached b' (remove_id q l) /\
    bshows b' (remove_id q l) (drop_qubit q r (collapsed l [q] r psi)) /\
    (remove_id q l <> [] -> (r = true <-> fst (draw (rng (bsim b))) < born (width l) [q] psi)) /\ same_rest b b'.
Proof.
  intros b l psi q R Sh Hq. assert (S := breached_st _ _ _ R Sh).
  destruct (st_call EW (fun _ => True) allG (bsim b) l psi (CRelease q) S) as (r & s' & E & Rp & S' & _); simpl; auto.
  { intros bk El. rewrite El. auto. }
  cbn [reply_ok] in Rp. subst r. rewrite live_release in S'. cbn [effective vstep] in S'.
  set (r := outcome l [q] psi (fst (draw (rng (bsim b))))) in *.
  assert (Ec : bcall1 (QRelease q) b = BOk VUnit (with_sim b s')).
  { cbn [bcall1]. unfold vunit, rt_qubit_release, simdo, bbind, simcall. rewrite E. reflexivity. }
  exists r. eexists. split; [exact Ec|]. split; [exact (breached_step Ho b l (QRelease q) _ _ R Hq Ec)|].
  split; [|split; [intros _; apply outcome_iff|split; reflexivity]].
  destruct (remove_id q l) as [|x l2] eqn:El; [|apply S'].
  set (phi := drop_qubit q r (collapsed l [q] r psi)).
  assert (Hl : forall x, In x l -> x = q).
  { intros x Hx. destruct (Nat.eq_dec x q); auto. exfalso. assert (X : In x (remove_id q l)) by (apply remove_id_In; auto). rewrite El in X. destruct X. }
  assert (Z : forall k, k <> 0%N -> phi k = C0).
  { intros k Hk. unfold phi, drop_qubit. destruct (bit k q) eqn:Eq; auto. unfold collapsed, scale, proj.
    destruct (Bool.eqb _ _); [|ring]. destruct Sh as [Su _].
    assert (X : exists i, bit k i = true /\ i <> q).
    { destruct (N.eq_dec k 0) as [|]; [contradiction|]. exists (N.to_nat (N.log2 k)). split.
      - unfold bit. rewrite N2Nat.id. apply N.bit_log2; auto.
      - intros <-. unfold bit in Eq. rewrite N2Nat.id, N.bit_log2 in Eq by auto. discriminate. }
    destruct X as (i & Hi & Ni). rewrite (Su (set_bit k q r) i); [ring|rewrite bit_set_other; auto|].
    intros Hin. apply Ni, Hl, Hin. }
  assert (Np : norm2 (width l) phi = 1).
  { assert (Nc : norm2 (width l) (collapsed l [q] r psi) = 1).
    { apply norm2_collapsed; [eapply st_norm; eauto|]. apply (outcome_pos l [q] psi). apply (ews EW). }
    unfold phi. rewrite <- flip_drop.
    - destruct r; auto. rewrite norm2_gate1; auto using uX. apply width_lt; auto.
    - intros k Hk. unfold collapsed, scale, proj. rewrite par1. destruct (Bool.eqb_spec (bit k q) r); [contradiction|]. ring. }
  assert (Ep : phi = scale (phi 0%N) ket0).
  { apply functional_extensionality. intros k. unfold scale, ket0. destruct (N.eqb_spec k 0); [subst; ring|]. rewrite Z by auto. ring. }
  assert (Hc : Cn2 (phi 0%N) = 1).
  { rewrite Ep, norm2_scale in Np. rewrite ket0_norm in Np. lra. }
  unfold bshows. rewrite Ep. apply shows_scale; auto. apply S'.
Qed.
Lemma array_thm : forall n b l psi, breached b l -> bshows b l psi ->
  exists qs b', bcall1 (QAllocArray n) b = BOk (VQubits qs) b' /\ length qs = n /\ NoDup qs /\ (forall q, In q qs -> ~ In q l) /\
    breached b' (held b') /\ (forall q, In q (held b') <-> In q l \/ In q qs) /\ bshows b' (held b') psi /\ same_rest b b'.
Proof.
  assert (X : forall n b l psi, breached b l -> bshows b l psi -> exists qs b', rt_allocate_array n b = BOk qs b' /\ breached b' (grow n l) /\ length qs = n /\ NoDup qs /\
    (forall q, In q qs -> ~ In q l) /\ (forall q, In q (grow n l) <-> In q l \/ In q qs) /\ bshows b' (grow n l) psi /\ same_rest b b').
  { induction n; intros b l psi R Sh; cbn [rt_allocate_array].
    - exists [], b. cbn [grow]. split; auto. split; auto. split; auto. split; [constructor|]. split; [intros q []|]. split; [simpl; tauto|].
      split; auto. split; reflexivity.
    - destruct (alloc_thm b l psi R Sh) as (q & b1 & E1 & Nq & R1 & Sh1 & Sr1).
      cbn [bcall1] in E1. unfold bbind in E1. destruct (rt_qubit_allocate b) as [q' b1'|] eqn:E; [|discriminate]. inversion E1; subst q' b1'.
      destruct (IHn b1 _ psi R1 Sh1) as (qs & b2 & E2 & R2 & L & N & Dj & In2 & Sh2 & Sr2).
      assert (Eq : q = fresh_id l).
      { assert (W := wp_alloc Ho False (fun x b1 => x = fresh_id l) b l (proj1 (breached_K Ho b l R))).
        destruct (wp_elim _ _ _ _ (W (fun s' Hs => eq_refl))) as (x & y & Ex & ->). rewrite E in Ex. inversion Ex; auto. }
      exists (q :: qs), b2. unfold bbind. rewrite E, E2. split; auto. cbn [grow]. rewrite <- Eq. split; auto. split; [simpl; auto|].
      split; [constructor; auto; intros Hx; apply (Dj _ Hx); apply insert_id_In; auto|].
      split; [intros x [<-|Hx]; auto; intros Hy; apply (Dj _ Hx); apply insert_id_In; auto|].
      split; [|split; [auto|eapply same_rest_trans; eauto]].
      intros x. rewrite In2, insert_id_In. simpl. assert (x = q <-> q = x) by (split; intros; symmetry; assumption). tauto. }
  intros n b l psi R Sh. destruct (X n b l psi R Sh) as (qs & b' & E & R' & L & N & Dj & In' & Sh' & Sr).
  exists qs, b'. rewrite (held_thm Ho _ _ R'). split; [cbn [bcall1]; unfold bbind; rewrite E; reflexivity|]. tauto.
Qed.
Lemma state_thm : forall b l psi, breached b l -> bshows b l psi ->
  exists st c b', bcall1 QCapture b = BOk (VState st (length l)) b' /\ Cn2 c = 1 /\ listing st l (scale c psi) /\
    breached b' l /\ bshows b' l psi /\ same_rest b b'.
Proof.
  intros b l psi R Sh. assert (S := breached_st _ _ _ R Sh).
  destruct (st_call EW (fun _ => True) allG (bsim b) l psi CState S) as (r & s' & E & Rp & S' & _); simpl; auto.
  destruct Rp as (lst & c & -> & Hc & L). cbn [bstep live effective vstep] in S'.
  assert (Ec : bcall1 QCapture b = BOk (VState lst (length l)) (with_sim b s')).
  { cbn [bcall1]. unfold bbind, api_capture, bbind, simcall. rewrite E. reflexivity. }
  exists lst, c. eexists. split; [exact Ec|]. split; auto. split; auto. split; [|split; [apply S'|split; reflexivity]].
  assert (X := breached_step Ho b l QCapture _ _ R (conj (NoDup_nil _) (incl_nil_l _)) Ec). cbn [bbstep bb_live bb_max bnames] in X.
  rewrite opened_nil in X. exact X.
Qed.
End Exact.

(** Bookkeeping, for every threshold. *)
Lemma alloc_ids : order_ok -> forall n b l, breached b l ->
  exists qs b', bcall1 (QAllocArray n) b = BOk (VQubits qs) b' /\ length qs = n /\ NoDup qs /\ (forall q, In q qs -> ~ In q l) /\
    breached b' (held b') /\ (forall q, In q (held b') <-> In q l \/ In q qs).
Proof.
  intros Ho n b l R. assert (Kb := breached_K Ho b l R).
  assert (X : forall n b l, rch (bsim b) l -> exists qs b', rt_allocate_array n b = BOk qs b' /\ rch (bsim b') (grow n l) /\ length qs = n /\ NoDup qs /\
    (forall q, In q qs -> ~ In q l) /\ (forall q, In q (grow n l) <-> In q l \/ In q qs)).
  { clear - Ho. induction n; intros b l R; cbn [rt_allocate_array].
    - exists [], b. cbn [grow]. split; auto. split; auto. split; auto. split; [constructor|]. split; [intros q []|]. simpl. tauto.
    - destruct (rch_ids Ho _ _ R) as [_ Sr]. destruct (fresh_id_ok l Sr) as [F1 _].
      assert (W := wp_alloc Ho False (fun q b1 => q = fresh_id l /\ rch (bsim b1) (insert_id (fresh_id l) l)) b l R).
      destruct (wp_elim _ _ _ _ (W (fun s' Hs => conj eq_refl Hs))) as (q & b1 & E1 & -> & R1).
      destruct (IHn b1 _ R1) as (qs & b2 & E2 & R2 & L & N & Dj & In2).
      exists (fresh_id l :: qs), b2. unfold bbind. rewrite E1, E2. split; auto. cbn [grow]. split; auto. split; [simpl; auto|].
      split; [constructor; auto; intros Hx; apply (Dj _ Hx); apply insert_id_In; auto|].
      split.
      + intros q [<-|Hq]; auto. intros Hx. apply (Dj _ Hq). apply insert_id_In. auto.
      + intros q. rewrite In2, insert_id_In. simpl. assert (q = fresh_id l <-> fresh_id l = q) by (split; intros; symmetry; assumption). tauto. }
  destruct (X n b l (proj1 Kb)) as (qs & b' & E & R' & L & N & Dj & In').
  assert (Ec : bcall1 (QAllocArray n) b = BOk (VQubits qs) b') by (cbn [bcall1]; unfold bbind; rewrite E; reflexivity).
  assert (Hb := breached_step Ho b l (QAllocArray n) _ _ R (conj (NoDup_nil _) (incl_nil_l _)) Ec). cbn [bbstep bb_live bb_max] in Hb.
  exists qs, b'. rewrite (held_thm Ho _ _ Hb). tauto.
Qed.
End Thms.
