(** * Proofs of the simulator properties *)
From Coq Require Import Reals NArith List Bool Lia Lra Permutation Arith Sorted FunctionalExtensionality.
From Verif Require Import Cx Arith ArithR IndexMap IndexMapLemmas Bits BitsLemmas Spec QLib QSum Sim SimExp SimApply SpecExp
  SpecApply StateLemmas Loc Abs Gates Gates2 Meas Reg ExpLemmas ApplyLemmas SpecRun SpecLemmas SimRun RunLemmas RunProps.
Import ListNotations.
Local Open Scope R_scope.

(** ** Lists of calls *)
Lemma valid_run_app : forall h1 h2 b, valid_run b (h1 ++ h2) <-> valid_run b h1 /\ valid_run (fold_left bstep h1 b) h2.
Proof. induction h1; simpl; intros; [tauto|]. rewrite IHh1. tauto. Qed.

Section A.
Context {T : Tol} {EN : Env}.
Lemma exec_app : forall h1 h2 s, exec s (h1 ++ h2) =
  let* (r1, s1) := exec s h1 in let* (r2, s2) := exec s1 h2 in Ok (r1 ++ r2, s2).
Proof.
  induction h1 as [|c h1 IH]; simpl; intros.
  - destruct (exec s h2) as [[? ?]|]; reflexivity.
  - destruct (run1 s c) as [[r s1]|]; simpl; auto. rewrite IH. destruct (exec s1 h1) as [[? ?]|]; simpl; auto.
    destruct (exec s0 h2) as [[? ?]|]; simpl; auto.
Qed.
Lemma clash_free_app : forall h1 h2 s rs s1, clash_free s (h1 ++ h2) -> exec s h1 = Ok (rs, s1) -> clash_free s1 h2.
Proof.
  induction h1 as [|c h1 IH]; simpl; intros h2 s rs s1 C E.
  - inversion E; subst; auto.
  - destruct C as [_ C]. destruct (run1 s c) as [[r s2]|]; simpl in E; [|discriminate].
    destruct (exec s2 h1) as [[? ?]|] eqn:E2; simpl in E; inversion E; subst. eauto.
Qed.
End A.
Lemma proper_app : forall h1 h2, proper (h1 ++ h2) -> proper h1.
Proof. intros h1 h2 [V U]. apply valid_run_app in V. apply Forall_app in U. split; tauto. Qed.
Lemma no_odd_app : forall h1 h2, no_odd_pi (h1 ++ h2) -> no_odd_pi h1.
Proof.
  intros h1 h2 [F|[G [S [Gc F]]]]; apply Forall_app in F; [left; tauto|right; exists G; tauto].
Qed.
Lemma mrun_app : forall {A0 : Arith} {EN : Env} dr h1 h2 m, mrun dr m (h1 ++ h2) = mrun dr (mrun dr m h1) h2.
Proof. induction h1; simpl; auto. Qed.

(** ** The ideal machine and phases *)
Lemma born_phase : forall n qs c psi, Cn2 c = 1 -> born n qs (scale c psi) = born n qs psi.
Proof. intros. rewrite born_scale, H. ring. Qed.
Lemma collapsed_scale : forall l qs r c psi, Cn2 c = 1 ->
  collapsed l qs r (scale c psi) = scale c (collapsed l qs r psi).
Proof.
  intros. unfold collapsed. rewrite born_phase by auto. rewrite proj_scale, !scale_scale. f_equal. ring.
Qed.
Lemma outcome_scale : forall l qs x c psi, Cn2 c = 1 -> outcome l qs (scale c psi) x = outcome l qs psi x.
Proof. intros. unfold outcome. rewrite born_phase by auto. reflexivity. Qed.
Lemma swap_scale : forall a b c psi, swap_qubits a b (scale c psi) = scale c (swap_qubits a b psi).
Proof. reflexivity. Qed.
Lemma drop_scale : forall q r c psi, drop_qubit q r (scale c psi) = scale c (drop_qubit q r psi).
Proof.
  intros. apply functional_extensionality. intros b. unfold drop_qubit, scale. destruct (bit b q); auto. ring.
Qed.
Lemma action_vstep : forall c F l psi x, gate_action c = Some F -> vstep l psi x c = F psi.
Proof. intros c F l psi x H. destruct c; simpl in H; inversion H; reflexivity. Qed.
Lemma action_scale : forall c F k psi, gate_action c = Some F -> F (scale k psi) = scale k (F psi).
Proof.
  intros c F k psi H. destruct c; simpl in H; inversion H; subst; clear H;
    auto using gate1_scale, cgate_scale, exp_op_scale, ctrl_exp_scale, ctrl_mat_scale.
Qed.
Lemma action_bstep : forall c F b, gate_action c = Some F -> bstep b c = b.
Proof. intros c F b H. destruct c; simpl in H; inversion H; reflexivity. Qed.

Lemma gates_mrun : forall {A0 : Arith} {EN : Env} dr gs m k psi phi, Cn2 k = 1 -> gates_action gs psi = Some phi ->
  psi = scale k (vec m) -> bk (mrun dr m gs) = bk m /\ phi = scale k (vec (mrun dr m gs)).
Proof.
  intros A0 EN dr. induction gs as [|c gs IH]; simpl; intros m k psi phi Hk E Ep.
  - inversion E; subst. auto.
  - destruct (gate_action c) as [F|] eqn:EF; [|discriminate].
    destruct (IH (mstep1 dr m c) k (F psi) phi Hk E) as [H1 H2].
    + rewrite Ep, (action_scale c F) by auto. unfold mstep1. destruct (dr (mgen m)) as [x g]. simpl.
      rewrite (action_vstep c F) by auto. reflexivity.
    + split; auto. rewrite H1. unfold mstep1. destruct (dr (mgen m)). simpl. eapply action_bstep; eauto.
Qed.

(** ** Collapse *)
Lemma born_collapsed : forall l qs (r : bool) psi, norm2 (width l) psi = 1 ->
  (let p := born (width l) qs psi in (if r then p else 1 - p) <> 0) ->
  born (width l) qs (collapsed l qs r psi) = if r then 1 else 0.
Proof.
  intros l qs r psi N P. unfold collapsed. rewrite born_scale, born_proj. unfold Cn2. simpl.
  pose proof (born_nonneg (width l) qs psi). pose proof (born_le_norm (width l) qs psi). rewrite N in H0.
  cbv zeta in P. destruct r; [|ring].
  set (p := born (width l) qs psi) in *. assert (0 < p) by lra.
  assert (sqrt p * sqrt p = p) by (apply sqrt_sqrt; lra). assert (sqrt p <> 0) by (intro E; rewrite E in H2; lra).
  field_simplify; auto. replace (sqrt p ^ 2) with (sqrt p * sqrt p) by ring. rewrite H2. field. lra.
Qed.
Lemma proj_id : forall qs v psi, (forall b, par qs b <> v -> psi b = C0) -> proj qs v psi = psi.
Proof.
  intros. apply functional_extensionality. intros b. unfold proj. destruct (Bool.eqb (par qs b) v) eqn:E; auto.
  symmetry. apply H. apply eqb_false_iff in E. auto.
Qed.
Lemma collapsed_par : forall l qs r psi b, par qs b <> r -> collapsed l qs r psi b = C0.
Proof.
  intros. unfold collapsed, scale, proj. destruct (Bool.eqb (par qs b) r) eqn:E; [|ring].
  apply eqb_prop in E. congruence.
Qed.
Lemma collapsed_twice : forall l qs (r : bool) psi, norm2 (width l) psi = 1 ->
  (let p := born (width l) qs psi in (if r then p else 1 - p) <> 0) ->
  collapsed l qs r (collapsed l qs r psi) = collapsed l qs r psi.
Proof.
  intros l qs r psi N P. unfold collapsed at 1. rewrite born_collapsed by auto.
  rewrite proj_id by (intros; apply collapsed_par; auto).
  replace (if r then if r then 1 else 0 else 1 - (if r then 1 else 0)) with 1 by (destruct r; ring).
  rewrite sqrt_1. replace (RtoC (1 / 1)) with C1 by (unfold RtoC, C1; f_equal; field). apply scale_1.
Qed.

(** ** Sums over listings *)
Lemma lt_bits : forall n x i, (x < 2 ^ N.of_nat n)%N -> bit x i = true -> (i < n)%nat.
Proof. intros n x i H. apply basis_In in H. rewrite basis_bits in H. auto. Qed.
Lemma spread_inj : forall l x y, NoDup l -> (x < 2 ^ N.of_nat (length l))%N -> (y < 2 ^ N.of_nat (length l))%N ->
  spread l x = spread l y -> x = y.
Proof.
  intros l x y N Hx Hy E. apply bits_ext. intros i. destruct (nth_error l i) as [q|] eqn:Ei.
  - pose proof (spread_from_nth l 0 x i q N Ei) as A. pose proof (spread_from_nth l 0 y i q N Ei) as B.
    unfold spread in E. simpl in A, B. congruence.
  - apply nth_error_None in Ei.
    destruct (bit x i) eqn:Bx; [apply (lt_bits _ _ _ Hx) in Bx; lia|].
    destruct (bit y i) eqn:By; [apply (lt_bits _ _ _ Hy) in By; lia|]. auto.
Qed.
Lemma spread_width : forall l x, In (spread l x) (basis (width l)).
Proof.
  intros. apply basis_bits. intros i Hi. apply spread_from_bit in Hi. destruct Hi as [j [Hj _]].
  apply width_lt. eapply nth_error_In; eauto.
Qed.
Lemma sorted_nodup : forall l, StronglySorted N.lt l -> NoDup l.
Proof.
  induction 1; constructor; auto. intro I. rewrite Forall_forall in H0. apply H0 in I. lia.
Qed.
Lemma listing_sum : forall st l psi, NoDup l -> supported l psi -> listing st l psi ->
  Rsum (map (fun kv => Cn2 (snd kv)) st) = norm2 (width l) psi.
Proof.
  intros st l psi N Su L. unfold norm2, qsum.
  transitivity (Rsum (map (fun b => Cn2 (psi b)) (map (fun kv => spread l (fst kv)) st))).
  - rewrite map_map. apply Rsum_map_ext. intros [x v] I. simpl. rewrite (ls_amp _ _ _ L x v I). auto.
  - apply Rsum_supp.
    + assert (Hn := sorted_nodup _ (ls_sorted _ _ _ L)). assert (Rg := ls_range _ _ _ L). clear L.
      induction st as [|[x v] st IH]; simpl; constructor.
      * intros I. apply in_map_iff in I. destruct I as [[y w] [E I]]. simpl in E.
        assert (y = x). { apply (spread_inj l); auto; [apply (Rg y w); right; auto|apply (Rg x v); left; auto]. }
        subst. inversion Hn; subst. apply H1. apply in_map_iff. exists (x, w). auto.
      * apply IH; [inversion Hn; auto|]. intros. apply (Rg x0 v0). right; auto.
    + apply basis_nodup.
    + intros b Hz. split.
      * intros I. apply in_map_iff in I. destruct I as [kv [<- _]]. apply spread_width.
      * intros _. destruct (support_dec l b) as [D|[i [B I]]].
        2:{ exfalso. apply Hz. rewrite (Su b i B I). apply Cn2_C0. }
        destruct (listing_lookup st l psi (gather_from 0 l b) (gather_lt l b) L) as [[v [I E]]|[_ E]];
          rewrite (spread_gather l b N D) in E.
        -- apply in_map_iff. exists (gather_from 0 l b, v). simpl. rewrite (spread_gather l b N D). auto.
        -- exfalso. apply Hz. rewrite E. apply Cn2_C0.
Qed.

(** ** Properties *)
Section Props.
Context {T : Tol} {EN : Env}.
Hypothesis EW : exact_world.

Lemma ew0 : tol = 0. Proof. apply EW. Qed.
Lemma ewo : order_ok. Proof. apply EW. Qed.
Lemma ews : samples_ok. Proof. apply EW. Qed.
Hint Resolve ew0 ewo ews : core.

Lemma reached_case : forall s l psi, reached s l -> shows s l psi ->
  exists m c, refines s m /\ live (bk m) = l /\ Cn2 c = 1 /\ psi = scale c (vec m).
Proof.
  intros s l psi R Sh. destruct (reached_refines ewo s l ew0 ews R) as [m [Rf <-]].
  destruct (shows_vec ewo s m psi ew0 Rf Sh) as [c [Hc E]]. eauto 6.
Qed.

(** A valid call from a reached state. *)
Lemma call_shows : forall s l psi c, reached s l -> shows s l psi ->
  (forall b, live b = l -> valid b c) -> unit_call c ->
  exists r s', run1 s c = Ok (r, s') /\
    reply_ok l psi (fst (draw (rng s))) c r /\
    shows s' (live (bstep (mkBook l true) c)) (vstep l psi (fst (draw (rng s))) (effective s c)) /\
    norm2 (width (live (bstep (mkBook l true) c))) (vstep l psi (fst (draw (rng s))) (effective s c)) = 1.
Proof.
  intros s l psi c Re Sh V U. destruct (reached_case s l psi Re Sh) as [m [k [R [El [Hk Ep]]]]].
  destruct (call_step ewo s m c ew0 ews R (V _ El) U) as [r [s' [E [P R']]]]. cbn [effective] in R'.
  exists r, s'. split; [exact E|]. rewrite (rf_rng _ _ R). subst l psi.
  assert (Lv : live (bstep (mkBook (live (bk m)) true) c) = live (bk (mstep1 draws m (effective s c)))).
  { rewrite mstep1_bk, effective_bstep. destruct c; simpl; auto. }
  rewrite Lv.
  assert (Vs : forall c, exists k', Cn2 k' = 1 /\
    vstep (live (bk m)) (scale k (vec m)) (fst (draw (mgen m))) c = scale k' (vec (mstep1 draws m c))).
  { clear c V U E P R' Lv. intros c. rewrite mstep1_vec. set (x := fst (draw (mgen m))). assert (Def : Cn2 k = 1) by auto.
    destruct c; simpl; try (exists k; split; [auto|]; now rewrite ?gate1_scale, ?cgate_scale, ?exp_op_scale, ?ctrl_exp_scale, ?ctrl_mat_scale).
    - destruct (remove_id q (live (bk m))).
      + exists C1. split; [apply Cn2_C1|]. now rewrite scale_1.
      + exists k. split; auto. rewrite outcome_scale, collapsed_scale, drop_scale by auto. auto.
    - exists k. split; auto. rewrite outcome_scale, collapsed_scale by auto. auto.
    - exists k. split; auto. rewrite outcome_scale, collapsed_scale by auto. auto.
    - exists k. split; auto. rewrite born_phase by auto.
      match goal with |- context[Req_EM_T ?a 0] => destruct (Req_EM_T a 0) end; auto.
      rewrite collapsed_scale by auto. auto. }
  destruct (Vs (effective s c)) as [k' [Hk' Ev]]. rewrite Ev. split; [|split].
  - clear Ev R' Lv. destruct c; simpl in *; rewrite ?born_phase, ?outcome_scale by auto; auto.
    + destruct P as [st [d [P1 [P2 P3]]]]. destruct (unit_inv k Hk) as [e [He Ee]].
      exists st, (d * e)%C. split; auto. split; [rewrite Cn2_mul, P2, He; ring|].
      rewrite scale_scale. replace (d * e * k)%C with (d * (e * k))%C by ring. rewrite Ee.
      replace (d * C1)%C with d by ring. auto.
    + destruct P as [st [d [P1 [P2 P3]]]]. destruct (unit_inv k Hk) as [e [He Ee]].
      exists st, (d * e)%C. split; auto. split; [rewrite Cn2_mul, P2, He; ring|].
      rewrite scale_scale. replace (d * e * k)%C with (d * (e * k))%C by ring. rewrite Ee.
      replace (d * C1)%C with d by ring. auto.
  - apply refines_shows; auto.
  - rewrite norm2_scale, Hk', (rf_norm _ _ R'). ring.
Qed.

(** C01 *)
Lemma history_thm : forall g h, proper h ->
  exists rs s h', exec (new_sim g) h = Ok (rs, s) /\ Forall2 up_to_ry_sign h h' /\ (no_odd_pi h -> h' = h) /\
    replies_ok draw (initial g) h' rs /\ shows s (live_after h) (vec (mrun draw (initial g) h')).
Proof.
  intros g h P. destruct (reach_effective ewo g h ew0 ews P) as [rs [s [h' [E [F [C [Rp R]]]]]]].
  exists rs, s, h'. split; auto. split; auto. split; auto. split; auto.
  assert (L : live_after h = live (bk (mrun draws (initial g) h'))).
  { rewrite fold_bstep. unfold live_after. f_equal. apply sign_bstep; auto. }
  rewrite L, <- (scale_1 (vec _)). apply refines_shows; auto using Cn2_C1.
Qed.

(** The machine of a history, for a state that shows [psi]. *)
Lemma exec_case : forall g h rs s psi, proper h -> exec (new_sim g) h = Ok (rs, s) -> shows s (live_after h) psi ->
  exists m k, refines s m /\ bk m = fold_left bstep h (mkBook [] true) /\ Cn2 k = 1 /\ psi = scale k (vec m).
Proof.
  intros g h rs s psi P E Sh. destruct (reach_effective ewo g h ew0 ews P) as [rs1 [s1 [h' [E1 [F [_ [_ R]]]]]]].
  rewrite E in E1. inversion E1; subst rs1 s1. clear E1. exists (mrun draws (initial g) h').
  assert (B : bk (mrun draws (initial g) h') = fold_left bstep h (mkBook [] true)).
  { rewrite fold_bstep. symmetry. apply sign_bstep; auto. }
  unfold live_after in Sh. rewrite <- B in Sh.
  destruct (shows_vec ewo s _ psi ew0 R Sh) as [k [Hk Ek]]. eauto 6.
Qed.

Lemma gates_clash : forall g h gs rs s psi phi, proper (h ++ gs) -> clash_free s gs ->
  exec (new_sim g) h = Ok (rs, s) -> shows s (live_after h) psi -> gates_action gs psi = Some phi ->
  exists rs' s', exec s gs = Ok (rs', s') /\ shows s' (live_after h) phi.
Proof.
  intros g h gs rs s psi phi P A E Sh Ga.
  destruct (exec_case g h rs s psi (proper_app _ _ P) E Sh) as [m [k [R [B [Hk Ek]]]]].
  unfold live_after. rewrite <- B in *.
  destruct (gates_mrun draws gs m k psi phi Hk Ga Ek) as [Eb Ep].
  destruct P as [V U]. apply valid_run_app in V. apply Forall_app in U. rewrite <- B in V.
  destruct (exec_refines ewo ew0 ews gs s m R) as [rs2 [s2 [E2 [_ R2]]]]; try tauto.
  exists rs2, s2. split; auto. rewrite <- Eb, Ep. apply refines_shows; auto.
Qed.
Lemma gates_thm : forall g h gs rs s psi phi, proper (h ++ gs) ->
  Forall (fun c => ~ is_ry c) gs \/ no_odd_pi (h ++ gs) ->
  exec (new_sim g) h = Ok (rs, s) -> shows s (live_after h) psi -> gates_action gs psi = Some phi ->
  exists rs' s', exec s gs = Ok (rs', s') /\ shows s' (live_after h) phi.
Proof.
  intros g h gs rs s psi phi P A E Sh Ga. eapply gates_clash; eauto. destruct A as [A|A].
  - apply no_ry_clash_free; auto.
  - eapply clash_free_app; [|exact E]. apply proper_clash_free; auto.
Qed.
(** [ry] turns by its angle, or by the opposite angle over a pending [rx] of an odd multiple of pi. *)
Lemma ry_thm : forall s l psi th t, reached s l -> shows s l psi -> In t l ->
  exists s', gate_ry s th t = Ok s' /\
    ((forall a, im_get (rx_queue s) t = Some a -> cos (a / 2) <> 0) -> shows s' l (gate1 (mRy th) t psi)) /\
    (forall a, im_get (rx_queue s) t = Some a -> cos (a / 2) = 0 -> shows s' l (gate1 (mRy (- th)) t psi)).
Proof.
  intros s l psi th t Re Sh It.
  destruct (call_shows s l psi (CGate (GRy th) t) Re Sh) as [r [s' [E [_ [S' _]]]]]; simpl; auto.
  { intros b <-. auto. }
  cbn [run1 gate_call] in E. unfold quietly in E. destruct (gate_ry s th t) as [s1|]; simpl in E; inversion E; subst. clear E.
  exists s'. split; auto. split.
  - intros N. rewrite effective_no_clash in S'; auto.
  - intros a Ha Hc. simpl in S'. unfold ry_angle in S'. rewrite Ha in S'. assert (Cz : cz a = true).
    { unfold cz. ared. simpl. rewrite Hc. apply andb_true_intro. split; apply rnz0; auto. }
    rewrite Cz in S'. exact S'.
Qed.

(** C02 *)
Lemma flush_thm : forall s l psi qs lv, reached s l -> shows s l psi -> incl qs l ->
  exists s', flush_queue s qs lv = Ok s' /\ rng s' = rng s /\ shows s' l psi.
Proof.
  intros s l psi qs lv Re Sh I. destruct (reached_case s l psi Re Sh) as [m [k [R [El [Hk Ep]]]]]. subst l psi.
  destruct (flush_queue_ok ewo lv qs s (tr_wf _ _ (rf_tr _ _ R))) as [s' [E [G _]]].
  { eapply tracks_Forall; [apply R|]. exact I. }
  exists s'. split; auto. split; [apply G|]. apply refines_shows; auto. destruct G. destruct R. constructor; auto.
  - eapply tracks_same; eauto.
  - congruence.
  - rewrite gs_abs by auto. auto.
Qed.

Lemma vstep_observer : forall o l psi x, observer o -> vstep l psi x o = psi.
Proof. intros. destruct o; simpl in *; tauto. Qed.
Lemma bstep_observer : forall o b, observer o -> live (bstep b o) = live b.
Proof. intros. destruct o; simpl in *; tauto. Qed.
Lemma draws_observer : forall o l, observer o -> draws_sample l o = false.
Proof. intros. destruct o; simpl in *; tauto. Qed.

Definition msame (m m' : machine) : Prop := live (bk m) = live (bk m') /\ vec m = vec m' /\ mgen m = mgen m'.
Lemma msame_step : forall m m' c, msame m m' -> msame (mstep1 draws m c) (mstep1 draws m' c).
Proof.
  intros m m' c [L [V G]]. unfold mstep1. rewrite G. destruct (draws (mgen m')) as [x g].
  unfold msame; simpl. rewrite L, V. split; auto. destruct c; simpl; auto; rewrite L; auto.
Qed.
Lemma amp_at_listing : forall st l psi x, listing st l psi ->
  amp_at st x = if N.ltb x (2 ^ N.of_nat (length l)) then psi (spread l x) else C0.
Proof.
  intros st l psi x L. unfold amp_at. destruct (find (fun kv => N.eqb (fst kv) x) st) as [[y v]|] eqn:F.
  - apply find_some in F. destruct F as [F1 F2]. simpl in *. apply N.eqb_eq in F2. subst y.
    pose proof (ls_range _ _ _ L x v F1). apply N.ltb_lt in H. rewrite H. symmetry. apply (ls_amp _ _ _ L); auto.
  - destruct (N.ltb_spec x (2 ^ N.of_nat (length l))); auto. symmetry. apply (ls_rest _ _ _ L); auto.
    intros I. apply in_map_iff in I. destruct I as [[y v] [E I]]. simpl in E. subst y.
    apply find_none with (x := (x, v)) in F; auto. simpl in F. rewrite N.eqb_refl in F. discriminate.
Qed.
Lemma same_listing_intro : forall st st' l c c' psi, Cn2 c = 1 -> Cn2 c' = 1 ->
  listing st l (scale c psi) -> listing st' l (scale c' psi) -> same_listing st st'.
Proof.
  intros st st' l c c' psi H H' L L'. destruct (unit_inv c H) as [d [Hd Ed]]. exists (c' * d)%C.
  split; [rewrite Cn2_mul, H', Hd; ring|]. intros x.
  rewrite (amp_at_listing _ _ _ x L), (amp_at_listing _ _ _ x L'). destruct (N.ltb x _); [|ring].
  unfold scale. replace (c' * d * (c * psi (spread l x)))%C with (c' * ((d * c) * psi (spread l x)))%C by ring.
  rewrite Ed. ring.
Qed.
Lemma reply_same : forall l psi x c r r', reply_ok l psi x c r -> reply_ok l psi x c r' -> same_reply r r'.
Proof.
  intros l psi x c r r' H H'.
  destruct c; simpl in H, H'; try (subst; reflexivity).
  - destruct H as [b [-> H]]. destruct H' as [b' [-> H']]. simpl. f_equal. apply eq_true_iff_eq. tauto.
  - destruct H as [st [d [-> [H1 H2]]]]. destruct H' as [st' [d' [-> [H1' H2']]]]. simpl. split; auto.
    exact (same_listing_intro _ _ _ _ _ _ H1 H1' H2 H2').
  - destruct H as [st [d [-> [H1 H2]]]]. destruct H' as [st' [d' [-> [H1' H2']]]]. simpl.
    exact (same_listing_intro _ _ _ _ _ _ H1 H1' H2 H2').
Qed.
Lemma replies_same : forall h m m' rs rs', msame m m' -> replies_ok draws m h rs -> replies_ok draws m' h rs' ->
  Forall2 same_reply rs rs' /\ msame (mrun draws m h) (mrun draws m' h).
Proof.
  induction h as [|c h IH]; intros m m' rs rs' M H H'; destruct rs as [|r rs]; destruct rs' as [|r' rs']; simpl in *; try tauto.
  - split; auto.
  - destruct H as [H1 H2]. destruct H' as [H1' H2'].
    assert (M' := msame_step m m' c M). destruct (IH _ _ rs rs' M' H2 H2') as [I1 I2]. split; auto. constructor; auto.
    destruct M as [L [V G]]. rewrite L, V, G in H1. eapply reply_same; eauto.
Qed.
Lemma msame_shows : forall s s' m m' psi, refines s m -> refines s' m' -> msame m m' ->
  shows s (live (bk m)) psi -> shows s' (live (bk m)) psi.
Proof.
  intros s s' m m' psi R R' [L [V _]] Sh. destruct (shows_vec ewo s m psi ew0 R Sh) as [c [Hc ->]].
  rewrite L, V. apply refines_shows; auto.
Qed.

(** Two continuations of the same machine state. *)
Lemma continue_same : forall h2 s1 s2 m1 m2, refines s1 m1 -> refines s2 m2 -> msame m1 m2 ->
  valid_run (bk m1) h2 -> valid_run (bk m2) h2 -> Forall unit_call h2 -> clash_free s1 h2 -> clash_free s2 h2 ->
  exists rs1 rs2 t1 t2, exec s1 h2 = Ok (rs1, t1) /\ exec s2 h2 = Ok (rs2, t2) /\ Forall2 same_reply rs1 rs2 /\
    (forall psi, shows t1 (live (fold_left bstep h2 (bk m1))) psi <-> shows t2 (live (fold_left bstep h2 (bk m1))) psi).
Proof.
  intros h2 s1 s2 m1 m2 R1 R2 M V1 V2 U C1 C2.
  destruct (exec_refines ewo ew0 ews h2 s1 m1 R1 V1 U C1) as [rs1 [t1 [E1 [P1 Q1]]]].
  destruct (exec_refines ewo ew0 ews h2 s2 m2 R2 V2 U C2) as [rs2 [t2 [E2 [P2 Q2]]]].
  destruct (replies_same h2 m1 m2 rs1 rs2 M P1 P2) as [F M'].
  exists rs1, rs2, t1, t2. split; auto. split; auto. split; auto.
  rewrite <- (fold_bstep draws). intros psi. split; intros Sh.
  - eapply msame_shows; eauto.
  - destruct M' as [L [V G]]. rewrite L in *. eapply msame_shows; eauto. split; auto.
Qed.

Lemma no_odd_remove : forall h1 o h2, no_odd_pi (h1 ++ o :: h2) -> no_odd_pi (h1 ++ h2).
Proof.
  intros h1 o h2 [F|[G [S [Gc F]]]]; apply Forall_app in F; destruct F as [F1 F2]; inversion F2; subst;
    [left|right; exists G; split; auto; split; auto]; apply Forall_app; auto.
Qed.

Lemma observer_thm : forall g h1 o h2, observer o -> proper (h1 ++ o :: h2) -> proper (h1 ++ h2) ->
  no_odd_pi (h1 ++ o :: h2) ->
  exists rs1 s1 r s1' rs2 rs2' t t',
    exec (new_sim g) h1 = Ok (rs1, s1) /\ run1 s1 o = Ok (r, s1') /\
    exec s1 h2 = Ok (rs2, t) /\ exec s1' h2 = Ok (rs2', t') /\ Forall2 same_reply rs2 rs2' /\
    (forall psi, shows t (live_after (h1 ++ h2)) psi <-> shows t' (live_after (h1 ++ h2)) psi).
Proof.
  intros g h1 o h2 Ob P P' A.
  destruct (reach_refines ewo g h1 ew0 ews (proper_app _ _ P) (no_odd_app _ _ A)) as [rs1 [s1 [E1 [_ R]]]].
  set (m := mrun draws (initial g) h1) in *.
  assert (Bm : bk m = fold_left bstep h1 (mkBook [] true)) by (unfold m; rewrite fold_bstep; reflexivity).
  assert (V := proj1 P). apply valid_run_app in V. rewrite <- Bm in V. destruct V as [_ [Vo V2]].
  assert (V' := proj1 P'). apply valid_run_app in V'. rewrite <- Bm in V'. destruct V' as [_ V2'].
  assert (U := proj2 P'). apply Forall_app in U. destruct U as [_ U].
  assert (Uo : unit_call o) by (destruct o; simpl in *; tauto).
  destruct (call_step ewo s1 m o ew0 ews R Vo Uo) as [r [s1' [Eo [_ R']]]]. cbn [effective] in R'.
  replace (effective s1 o) with o in R' by (destruct o; simpl in *; tauto).
  assert (M : msame m (mstep1 draws m o)).
  { unfold mstep1. destruct (draws (mgen m)). unfold msame; simpl.
    rewrite vstep_observer, bstep_observer, draws_observer by auto. auto. }
  destruct (continue_same h2 s1 s1' m (mstep1 draws m o) R R' M V2') as [rs2 [rs2' [t [t' [F1 [F2 [F3 F4]]]]]]]; auto.
  - rewrite mstep1_bk. auto.
  - eapply (clash_free_app h1); [apply proper_clash_free|exact E1]; eauto using no_odd_remove.
  - assert (C : clash_free (new_sim g) ((h1 ++ [o]) ++ h2)).
    { rewrite <- app_assoc. apply proper_clash_free; auto. }
    apply (clash_free_app (h1 ++ [o]) h2 _ (rs1 ++ [r]) s1' C). rewrite exec_app, E1. cbn [bind exec]. rewrite Eo. reflexivity.
  - exists rs1, s1, r, s1', rs2, rs2', t, t'. repeat (split; [assumption|]).
    unfold live_after. rewrite fold_left_app, <- Bm. exact F4.
Qed.

(** C04, C05, C06 *)
Lemma jm_inv : forall s qs r s', run1 s (CJointMeasure qs) = Ok (RBit r, s') -> joint_measure s qs = Ok (r, s').
Proof. intros s qs r s' E. simpl in E. destruct (joint_measure s qs) as [[b s1]|]; simpl in E; inversion E; auto. Qed.

Lemma outcome_pos : forall l qs psi x, 0 <= x < 1 ->
  (let p := born (width l) qs psi in (if outcome l qs psi x then p else 1 - p) <> 0).
Proof.
  intros l qs psi x Hx p. unfold outcome. fold p. destruct (Rlt_dec x p); lra.
Qed.
Lemma outcome_iff : forall l qs psi x, outcome l qs psi x = true <-> x < born (width l) qs psi.
Proof. intros. unfold outcome. destruct (Rlt_dec _ _); split; auto; discriminate. Qed.

Lemma measure_thm : forall s l psi qs, reached s l -> shows s l psi -> NoDup qs -> incl qs l ->
  0 <= born (width l) qs psi <= 1 /\
  exists r s', joint_measure s qs = Ok (r, s') /\
    (r = true <-> fst (draw (rng s)) < born (width l) qs psi) /\
    shows s' l (collapsed l qs r psi) /\ norm2 (width l) (collapsed l qs r psi) = 1 /\
    exists s'', joint_measure s' qs = Ok (r, s'') /\ shows s'' l (collapsed l qs r psi).
Proof.
  intros s l psi qs Re Sh D Ic. destruct (reached_case s l psi Re Sh) as [m [k [R [El [Hk Ep]]]]].
  split. { rewrite Ep, born_phase by auto. subst l. eapply refines_born_range; eauto. }
  assert (Vl : valid (bk m) (CJointMeasure qs)) by (split; auto; now rewrite El).
  destruct (call_step ewo s m (CJointMeasure qs) ew0 ews R Vl I) as [r1 [s' [E [P R']]]]. cbn [effective] in R'.
  simpl in P. rewrite P in E. apply jm_inv in E. rewrite El in *.
  set (r := outcome l qs (vec m) (fst (draw (mgen m)))) in *.
  set (m' := mstep1 draws m (CJointMeasure qs)) in *.
  assert (Bm : bk m' = bk m) by (unfold m'; rewrite mstep1_bk; auto).
  assert (Vm : vec m' = collapsed l qs r (vec m)) by (unfold m'; rewrite mstep1_vec, El; auto).
  assert (Pz := outcome_pos l qs (vec m) (fst (draw (mgen m))) (ews _)). cbv zeta in Pz. fold r in Pz.
  assert (Nm : norm2 (width l) (vec m) = 1) by (rewrite <- El; apply R).
  exists r, s'. split; auto. split; [|split; [|split]].
  - rewrite Ep, born_phase, (rf_rng _ _ R) by auto. apply outcome_iff.
  - rewrite Ep, collapsed_scale, <- Vm by auto. assert (El' : l = live (bk m')) by congruence. rewrite El'. apply refines_shows; auto.
  - rewrite Ep, collapsed_scale, norm2_scale, Hk, <- Vm by auto.
    assert (El' : l = live (bk m')) by congruence. rewrite El', (rf_norm _ _ R'). ring.
  - assert (Vl' : valid (bk m') (CJointMeasure qs)) by now rewrite Bm.
    destruct (call_step ewo s' m' (CJointMeasure qs) ew0 ews R' Vl' I) as [r2 [s2 [E2 [P2 R2]]]]. cbn [effective] in R2.
    simpl in P2. rewrite P2 in E2. apply jm_inv in E2. rewrite Bm, El, Vm in E2.
    assert (Er : outcome l qs (collapsed l qs r (vec m)) (fst (draw (mgen m'))) = r).
    { unfold outcome. rewrite born_collapsed by auto. assert (Q := ews (mgen m')).
      destruct r; destruct (Rlt_dec _ _); auto; exfalso; lra. }
    rewrite Er in E2. exists s2. split; auto.
    assert (V2 : vec (mstep1 draws m' (CJointMeasure qs)) = collapsed l qs r (vec m)).
    { rewrite mstep1_vec, Bm, El, Vm. cbn [vstep]. rewrite Er. apply collapsed_twice; auto. }
    rewrite Ep, collapsed_scale, <- V2 by auto.
    assert (L2 : l = live (bk (mstep1 draws m' (CJointMeasure qs)))) by (rewrite mstep1_bk; simpl; congruence).
    rewrite L2. apply refines_shows; auto.
Qed.

Lemma measure1_thm : forall s l psi q, reached s l -> shows s l psi -> In q l ->
  0 <= born (width l) [q] psi <= 1 /\
  exists r s', measure s q = Ok (r, s') /\
    (r = true <-> fst (draw (rng s)) < born (width l) [q] psi) /\
    shows s' l (collapsed l [q] r psi) /\ norm2 (width l) (collapsed l [q] r psi) = 1 /\
    exists s'', measure s' q = Ok (r, s'') /\ shows s'' l (collapsed l [q] r psi).
Proof.
  intros s l psi q Re Sh Iq. rewrite measure_joint.
  destruct (measure_thm s l psi [q] Re Sh) as [B [r [s' [H1 [H2 [H3 [H4 [s'' H5]]]]]]]].
  - constructor; auto. constructor.
  - intros x [->|[]]; auto.
  - split; auto. exists r, s'. split; auto. split; auto. split; auto. split; auto. exists s''. rewrite measure_joint. auto.
Qed.
End Props.
