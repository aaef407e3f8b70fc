(** * Proofs of the simulator properties (statements in P_Sim.v) *)
From Coq Require Import Reals NArith List Bool Lia Lra Permutation Sorted FunctionalExtensionality.
From Verif Require Import Cx Bits Arith ArithR IndexMap IndexMapLemmas Sim SimExp SimApply Spec SpecExp SpecApply
  SpecRun SimRun BitsLemmas QLib QSum StateLemmas Abs Gates Gates2 Meas Reg ExpLemmas SpecLemmas RunLemmas RunProps RunThms.
Import ListNotations.
Local Open Scope R_scope.

(** ** Inverses *)
Lemma CisCis : forall a, (Cis a * Cis (- a))%C = C1.
Proof.
  intros. apply C_eq; unfold Cis, Cmul, C1; simpl; rewrite cos_neg, sin_neg; [|ring].
  pose proof (sin2_cos2 a). unfold Rsqr in H. lra.
Qed.
Lemma phase_inv : forall p q, (p * q)%C = C1 -> mmul (mPhase p) (mPhase q) = mI.
Proof. intros p q H. apply mat_ext; unfold mmul, mPhase, mI, mk2; try ring. transitivity (p * q)%C; [ring|auto]. Qed.
Lemma gmat_inverse : forall g, mmul (gmat (inverse_gate g)) (gmat g) = mI.
Proof.
  destruct g; simpl.
  - apply mat_ext; unfold mmul, mX, mI, mk2; ring.
  - apply mat_ext; unfold mmul, mY, mI, mk2; apply C_eq; simpl; ring.
  - apply mat_ext; unfold mmul, mZ, mI, mk2; ring.
  - apply HH.
  - apply phase_inv. apply C_eq; simpl; ring.
  - apply phase_inv. apply C_eq; simpl; ring.
  - apply phase_inv. rewrite <- (CisCis (PI/4)). ring.
  - apply phase_inv. rewrite <- (CisCis (PI/4)). ring.
  - rewrite RxRx. replace (- th + th) with 0 by ring. apply Rx0.
  - rewrite RyRy. replace (- th + th) with 0 by ring. apply Ry0.
  - assert (E := CisCis (th / 2)).
    apply mat_ext; unfold mmul, mRz, mI, mk2; replace (- th / 2) with (- (th / 2)) by lra;
      rewrite ?Ropp_involutive; try ring;
      (transitivity (Cis (th / 2) * Cis (- (th / 2)))%C; [ring|auto]).
Qed.
Lemma pmat_sq : forall p, mmul (pmat p) (pmat p) = mI.
Proof.
  destruct p; simpl; apply mat_ext; unfold mmul, mX, mY, mZ, mI, mk2; apply C_eq; simpl; ring.
Qed.
Lemma pauli_sq : forall l psi, NoDup (map snd l) -> pauli_product l (pauli_product l psi) = psi.
Proof.
  induction l as [|[p t] l IH]; simpl; intros psi D; auto. inversion D; subst.
  rewrite pauli_product_gate1, gate1_comp, pmat_sq, gate1_I by auto. auto.
Qed.
Lemma pauli_lin : forall l a b psi phi,
  pauli_product l (fun x => a * psi x + b * phi x)%C =
  fun x => (a * pauli_product l psi x + b * pauli_product l phi x)%C.
Proof.
  induction l as [|[p t] l IH]; simpl; intros; auto. rewrite IH.
  apply functional_extensionality. intros x. unfold gate1. ring.
Qed.
Lemma exp_inv : forall th l psi, NoDup (map snd l) -> exp_op (- th) l (exp_op th l psi) = psi.
Proof.
  intros th l psi D. apply functional_extensionality. intros b. unfold exp_op at 1.
  unfold exp_op. rewrite pauli_lin, pauli_sq by auto. rewrite cos_neg, sin_neg.
  assert (E : (RtoC (cos th) * RtoC (cos th) + RtoC (sin th) * RtoC (sin th))%C = C1).
  { apply C_eq; simpl; [|ring]. pose proof (sin2_cos2 th). unfold Rsqr in H. lra. }
  set (c := RtoC (cos th)) in *. set (s := RtoC (sin th)) in *.
  replace (RtoC (- sin th)) with (- s)%C by (apply C_eq; simpl; ring).
  assert (I2 : (Ci * Ci)%C = (- C1)%C) by (apply C_eq; simpl; ring).
  transitivity ((c * c + - (Ci * Ci) * (s * s)) * psi b)%C; [ring|]. rewrite I2.
  transitivity ((c * c + s * s) * psi b)%C; [ring|]. rewrite E. ring.
Qed.
Lemma pauli_ctl : forall l cs psi phi b, (forall q, In q cs -> ~ In q (map snd l)) -> forallb (bit b) cs = true ->
  (forall x, forallb (bit x) cs = true -> psi x = phi x) -> pauli_product l psi b = pauli_product l phi b.
Proof.
  induction l as [|[p t] l IH]; simpl; intros cs psi phi b D F E; auto.
  assert (S : forall v, forallb (bit (set_bit b t v)) cs = true).
  { intros v. rewrite forallb_bit_set; auto. intro X. apply (D t X). auto. }
  unfold gate1. rewrite (IH cs psi phi (set_bit b t false)), (IH cs psi phi (set_bit b t true)); auto; intros q X Y; apply (D q X); auto.
Qed.
Lemma ctrl_exp_inv : forall cs th l psi, NoDup (map snd l) -> (forall q, In q cs -> ~ In q (map snd l)) ->
  ctrl_op cs (exp_op (- th) l) (ctrl_op cs (exp_op th l) psi) = psi.
Proof.
  intros cs th l psi D Dj. apply functional_extensionality. intros b. unfold ctrl_op at 1.
  destruct (forallb (bit b) cs) eqn:F.
  - transitivity (exp_op (- th) l (exp_op th l psi) b); [|rewrite exp_inv; auto].
    assert (E : forall x, forallb (bit x) cs = true -> ctrl_op cs (exp_op th l) psi x = exp_op th l psi x).
    { intros x Fx. unfold ctrl_op. now rewrite Fx. }
    unfold exp_op at 1 3. rewrite (pauli_ctl l cs _ (exp_op th l psi) b), E; auto.
  - unfold ctrl_op. now rewrite F.
Qed.
Lemma inverse_action : forall c c' F F' b psi, inverse_call c = Some c' -> valid b c ->
  gate_action c = Some F -> gate_action c' = Some F' -> F' (F psi) = psi.
Proof.
  intros c c' F F' b psi Hi V A A'. destruct c; simpl in Hi; inversion Hi; subst c'; simpl in A, A';
    inversion A; inversion A'; subst F F'.
  - rewrite gate1_comp, gmat_inverse, gate1_I. auto.
  - destruct V as [D _]. inversion D; subst. rewrite cgate_comp, gmat_inverse, cgate_I; auto.
  - destruct V as [[D _] _]. apply exp_inv. apply nodup_combine; auto.
  - destruct V as [[D _] _]. apply NoDup_app_inv in D. destruct D as [D1 [D2 D3]]. apply ctrl_exp_inv.
    + apply nodup_combine; auto.
    + intros q X Y. apply combine_In in Y. apply (D3 q); auto.
Qed.

Section SP.
Context {T : Tol} {EN : Env}.

(** ** Any threshold *)
Lemma tracks_reached : order_ok -> forall g h rs s, valid_run (mkBook [] true) h -> exec (new_sim g) h = Ok (rs, s) ->
  tracks s (fold_left bstep h (mkBook [] true)).
Proof.
  intros Ho g h rs s V E.
  destruct (exec_tracks Ho h (new_sim g) _ (new_tracks g) V) as [[rs' [s' [E' Tr]]]|[E' _]]; [|congruence].
  rewrite E in E'. inversion E'; subst. auto.
Qed.

Lemma no_panic_thm : order_ok -> forall g h, valid_run (mkBook [] true) h -> ~ Exists is_apply h ->
  exists rs s, exec (new_sim g) h = Ok (rs, s).
Proof.
  intros Ho g h V N. destruct (exec_tracks Ho h (new_sim g) _ (new_tracks g) V) as [[rs' [s' [E' Tr]]]|[E' X]]; [eauto|tauto].
Qed.

Lemma listed_once_thm : order_ok -> forall g h rs s, valid_run (mkBook [] true) h -> exec (new_sim g) h = Ok (rs, s) ->
  (exists st s', get_state s = Ok (st, length (live_after h), s') /\ StronglySorted N.lt (map fst st) /\
     Forall (fun kv => fst kv < 2 ^ N.of_nat (length (live_after h)))%N st) /\
  (exists st s', dump s = Ok (st, s') /\ StronglySorted N.lt (map fst st) /\
     Forall (fun kv => fst kv < 2 ^ N.of_nat (length (live_after h)))%N st).
Proof.
  intros Ho g h rs s V E. assert (Tr := tracks_reached Ho g h rs s V E).
  destruct Tr as [W Ids _]. unfold live_after. rewrite <- Ids. split.
  - destruct (get_state_ok Ho s W) as [st [s' [G [_ [_ [_ [_ [_ [_ L]]]]]]]]]. exists st, s'. split; auto.
    split; [apply L|]. apply Forall_forall. intros [x v] X. apply (ls_range _ _ _ L x v X).
  - destruct (dump_ok Ho s W) as [st [s' [G [_ [_ [_ [_ [_ [_ L]]]]]]]]]. exists st, s'. split; auto.
    split; [apply L|]. apply Forall_forall. intros [x v] X. apply (ls_range _ _ _ L x v X).
Qed.

Lemma live_sorted : order_ok -> forall g h rs s, valid_run (mkBook [] true) h -> exec (new_sim g) h = Ok (rs, s) ->
  StronglySorted lt (live_after h).
Proof. intros Ho g h rs s V E. eapply tracks_sorted. eapply tracks_reached; eauto. Qed.

Lemma locations_thm : order_ok -> forall g h rs s q q' loc, valid_run (mkBook [] true) h ->
  exec (new_sim g) h = Ok (rs, s) ->
  im_get (id_map s) q = Some loc -> im_get (id_map s) q' = Some loc -> q = q'.
Proof.
  intros Ho g h rs s q q' loc V E H1 H2. assert (Tr := tracks_reached Ho g h rs s V E).
  exact (wf_inj _ (tr_wf _ _ Tr) _ _ _ H1 H2).
Qed.

Lemma release_unalloc_thm : order_ok -> forall g h rs s q, valid_run (mkBook [] true) h ->
  exec (new_sim g) h = Ok (rs, s) -> ~ In q (live_after h) -> length (live_after h) <> 1%nat ->
  exists e, release s q = Panic e.
Proof.
  intros Ho g h rs s q V E N L. assert (Tr := tracks_reached Ho g h rs s V E). destruct Tr as [W Ids _].
  unfold live_after in *. rewrite <- Ids in *. unfold release.
  assert (El : Nat.eqb (length (im_iter (id_map s))) 1 = false).
  { apply Nat.eqb_neq. unfold ids in L. unfold im_keys in L. rewrite map_length in L. auto. }
  rewrite El.
  assert (Na : im_get (id_map s) q = None).
  { destruct (im_get (id_map s) q) eqn:G; auto. exfalso. apply N. apply ids_In. exists n; auto. }
  assert (Fq : find_qubit s q = Panic (ENotFound q)) by (unfold find_qubit; now rewrite Na).
  unfold measure, maybe_flush_queue.
  assert (Hq : has_queued_hrxy s q = false).
  { destruct (has_queued_hrxy s q) eqn:Q; auto. exfalso. apply N. apply ids_In.
    unfold has_queued_hrxy in Q. apply orb_prop in Q. destruct Q as [Q|Q]; [apply orb_prop in Q; destruct Q as [Q|Q]|].
    - apply (wf_h _ W); auto.
    - unfold im_contains in Q. destruct (im_get (rx_queue s) q) eqn:G; [|discriminate]. eapply (wf_rx _ W); eauto.
    - unfold im_contains in Q. destruct (im_get (ry_queue s) q) eqn:G; [|discriminate]. eapply (wf_ry _ W); eauto. }
  simpl. rewrite Hq. simpl. rewrite Fq. simpl. eauto.
Qed.

Lemma release_last_thm : order_ok -> forall g h rs s q, valid_run (mkBook [] true) h ->
  exec (new_sim g) h = Ok (rs, s) -> live_after h = [q] ->
  exists m, release s q = Ok (with_id_map (new_sim (rng s)) m) /\ forall x, im_get m x = None.
Proof.
  intros Ho g h rs s q V E L. assert (Tr := tracks_reached Ho g h rs s V E). destruct Tr as [W Ids _].
  unfold live_after in *. rewrite <- Ids in L. unfold release.
  assert (El : Nat.eqb (length (im_iter (id_map s))) 1 = true).
  { apply Nat.eqb_eq. unfold ids, im_keys in L. rewrite <- (map_length fst), L. reflexivity. }
  rewrite El. simpl. exists (im_remove (id_map s) q). split; auto. intros x.
  rewrite im_get_remove. destruct (Nat.eqb_spec q x); auto.
  destruct (im_get (id_map s) x) eqn:G; auto. exfalso.
  assert (X : In x (ids s)) by (apply ids_In; eexists; eauto). rewrite L in X. destruct X as [X|[]]. congruence.
Qed.

Lemma queue_valid_thm : order_ok -> forall g h rs s, valid_run (mkBook [] true) h -> exec (new_sim g) h = Ok (rs, s) ->
  (N.of_nat (length (op_queue s)) <= 10000)%N.
Proof. intros Ho g h rs s V E. exact (wf_len _ (tr_wf _ _ (tracks_reached Ho g h rs s V E))). Qed.
End SP.

(** ** Exact arithmetic *)
Section EX.
Context {T : Tol} {EN : Env}.
Hypothesis EW : exact_world.
Let e0 := ew0 EW. Let eo := ewo EW. Let es := ews EW.
Hint Resolve e0 eo es : core.

Lemma reached_shows : forall s l, reached s l -> exists psi, shows s l psi.
Proof.
  intros s l Re. destruct (reached_refines eo s l e0 es Re) as [m [R <-]]. exists (vec m).
  rewrite <- (scale_1 (vec m)). apply refines_shows; auto using Cn2_C1.
Qed.

Lemma total_thm : forall s l, reached s l ->
  (exists st n s', get_state s = Ok (st, n, s') /\ Rsum (map (fun kv => Cn2 (snd kv)) st) = 1 /\ st <> []) /\
  (forall qs, NoDup qs -> incl qs l -> exists p s', joint_probability s qs = Ok (p, s') /\ 0 <= p <= 1).
Proof.
  intros s l Re. destruct (reached_refines eo s l e0 es Re) as [m [R El]]. split.
  - assert (Sh := refines_shows eo s m C1 e0 R Cn2_C1). destruct Sh as [Su [st [s' [c [G [Hc L]]]]]].
    assert (Sm : Rsum (map (fun kv => Cn2 (snd kv)) st) = 1).
    { rewrite (listing_sum st (live (bk m)) _ ltac:(eapply live_nodup; apply R) (supported_scale _ _ _ Su) L).
      rewrite !norm2_scale, (rf_norm _ _ R), Hc, Cn2_C1. ring. }
    exists st, (length (live (bk m))), s'. split; auto. split; auto. intros ->. simpl in Sm. lra.
  - intros qs D Ic. assert (Vl : valid (bk m) (CJointProb qs)) by (split; auto; now rewrite El).
    destruct (call_step eo s m (CJointProb qs) e0 es R Vl I) as [r [s' [E [P _]]]].
    simpl in E, P. destruct (joint_probability s qs) as [[p s1]|]; simpl in E; inversion E; subst.
    exists p, s'. split; auto. inversion H0. subst p. eapply refines_born_range; eauto.
Qed.

Lemma get_state_thm : forall g h rs s, proper h -> exec (new_sim g) h = Ok (rs, s) ->
  StronglySorted lt (live_after h) /\
  exists st s' c h', get_state s = Ok (st, length (live_after h), s') /\ Cn2 c = 1 /\
    Forall2 up_to_ry_sign h h' /\ (no_odd_pi h -> h' = h) /\
    listing st (live_after h) (scale c (vec (mrun draw (initial g) h'))) /\
    (forall psi, shows s (live_after h) psi -> shows s' (live_after h) psi) /\
    exists st' s'', get_state s' = Ok (st', length (live_after h), s'') /\
      forall x, amp_at st' x = amp_at st x.
Proof.
  intros g h rs s P E. split. { eapply live_sorted; eauto. apply P. }
  destruct (reach_effective eo g h e0 es P) as [rs1 [s1 [h' [E1 [F [C [_ R]]]]]]]. rewrite E in E1. inversion E1; subst rs1 s1. clear E1.
  set (m := mrun draws (initial g) h') in *.
  assert (L : live_after h = live (bk m)).
  { unfold m. rewrite fold_bstep. unfold live_after. f_equal. apply sign_bstep; auto. }
  rewrite L.
  assert (W := tr_wf _ _ (rf_tr _ _ R)). assert (Ids := tr_ids _ _ (rf_tr _ _ R)).
  destruct (get_state_ok eo s W) as [st [s' [G [Rg [Al [W' [Q [Ab [Pl Li]]]]]]]]].
  destruct (rf_vec _ _ R) as [c [Hc Ec]].
  exists st, s', c, h'. rewrite <- Ids in *. split; auto. split; auto. split; auto. split; auto.
  assert (Abs' : abs s' = abs s) by (apply Ab; auto).
  rewrite Abs', Ec in Li. split; auto. split.
  - intros psi Sh. split; [apply Sh|].
    assert (Vd : valid (bk m) CState) by exact I.
    destruct (call_step eo s m CState e0 es R Vd I) as [r [s2 [E2 [_ R2]]]]. cbn [effective] in R2.
    simpl in E2. rewrite G in E2. simpl in E2. inversion E2; subst.
    assert (Lm : live (bk (mstep1 draws m CState)) = ids s) by (rewrite mstep1_bk; simpl; auto).
    assert (Vm : vec (mstep1 draws m CState) = vec m) by (rewrite mstep1_vec; auto).
    rewrite Ids in Sh. destruct (shows_vec eo s m psi e0 R Sh) as [k [Hk ->]].
    rewrite <- Lm, <- Vm. apply refines_shows; auto.
  - destruct (get_state_ok eo s' W') as [st2 [s2 [G2 [_ [_ [_ [_ [Ab2 [_ Li2]]]]]]]]].
    assert (I2 : ids s' = ids s).
    { apply ids_eq; [apply im_keys_sorted|]. intros x. rewrite Al. symmetry. apply ids_In. }
    rewrite I2 in *. exists st2, s2. split; auto. intros x.
    rewrite (Ab2 e0), Abs', Ec in Li2.
    rewrite (amp_at_listing _ _ _ x Li), (amp_at_listing _ _ _ x Li2). reflexivity.
Qed.

Lemma allocate_thm : forall s l psi, reached s l -> shows s l psi ->
  let (s', q) := allocate s in
  ~ In q l /\ (forall x, (x < q)%nat -> In x l) /\ shows s' (insert_id q l) psi /\
  (forall b, bit b q = true -> psi b = C0) /\ born (width (insert_id q l)) [q] psi = 0.
Proof.
  intros s l psi Re Sh. destruct (reached_case EW s l psi Re Sh) as [m [k [R [El [Hk Ep]]]]].
  destruct (call_step eo s m CAlloc e0 es R I I) as [r [s' [E [P R']]]]. cbn [effective] in R'.
  simpl in P. cbn [run1] in E. destruct (allocate s) as [s1 q] eqn:Al. injection E as E1 E2. rewrite P in E1. injection E1 as E1. subst q s1.
  rewrite El in *. assert (F := fresh_id_ok l ltac:(rewrite <- El; eapply tracks_sorted; apply R)). destruct F as [F1 F2].
  assert (Z : forall b, bit b (fresh_id l) = true -> psi b = C0).
  { intros b Hb. destruct Sh as [Su _]. apply (Su b (fresh_id l)); auto. }
  split; auto. split; auto. split; [|split]; auto.
  - assert (Lm : live (bk (mstep1 draws m CAlloc)) = insert_id (fresh_id l) l) by (rewrite mstep1_bk; simpl; now rewrite El).
    assert (Vm : vec (mstep1 draws m CAlloc) = vec m) by (rewrite mstep1_vec; auto).
    rewrite <- Lm, Ep, <- Vm. apply refines_shows; auto.
  - unfold born, qsum. transitivity (Rsum (map (fun _ : N => 0) (basis (width (insert_id (fresh_id l) l))))).
    + f_equal. apply map_ext. intros b. unfold par. simpl. destruct (bit b (fresh_id l)) eqn:B; simpl; auto.
      rewrite Z by auto. apply Cn2_C0.
    + generalize (basis (width (insert_id (fresh_id l) l))). induction l0; simpl; lra.
Qed.

Lemma run1_quiet : forall m r s', quietly m = Ok (r, s') -> r = RUnit /\ m = Ok s'.
Proof. intros m r s' E. unfold quietly in E. destruct m; simpl in E; inversion E; auto. Qed.

Lemma release_thm : forall s l psi q, reached s l -> shows s l psi -> In q l -> l <> [q] ->
  exists r s' s1, measure s q = Ok (r, s1) /\ release s q = Ok s' /\
    (r = true <-> fst (draw (rng s)) < born (width l) [q] psi) /\
    (forall x, In x (remove_id q l) <-> In x l /\ x <> q) /\
    shows s' (remove_id q l) (drop_qubit q r (collapsed l [q] r psi)).
Proof.
  intros s l psi q Re Sh Iq Nl.
  destruct (measure1_thm EW s l psi q Re Sh Iq) as [_ [r [s1 [Em [Er _]]]]].
  destruct (call_shows EW s l psi (CRelease q) Re Sh) as [r' [s' [E [_ [S' _]]]]]; simpl; auto.
  { intros b <-. auto. }
  simpl in E. apply run1_quiet in E. destruct E as [_ E].
  assert (Ne : remove_id q l <> []).
  { intros Z. apply Nl.
    assert (Srt : StronglySorted lt l).
    { destruct (reached_refines eo s l e0 es Re) as [m [R <-]]. eapply tracks_sorted. apply R. }
    assert (All : forall x, In x l -> x = q).
    { intros x X. destruct (Nat.eq_dec x q); auto. exfalso.
      assert (Y : In x (remove_id q l)) by (apply remove_id_In; auto). rewrite Z in Y. destruct Y. }
    destruct l as [|a l]; [destruct Iq|]. assert (a = q) by (apply All; simpl; auto). subst a.
    destruct l as [|b l]; auto. assert (b = q) by (apply All; simpl; auto). subst b.
    inversion Srt; subst. inversion H2; subst. lia. }
  exists r, s', s1. split; auto. split; auto. split; auto. split. { intros. apply remove_id_In. }
  simpl in S'. destruct (remove_id q l) as [|a l'] eqn:Rl; [congruence|]. simpl in S'.
  assert (Eo : outcome l [q] psi (fst (draw (rng s))) = r).
  { apply eq_true_iff_eq. rewrite outcome_iff. tauto. }
  rewrite Eo in S'. auto.
Qed.

Lemma swap_thm : forall s l psi a b, reached s l -> shows s l psi -> In a l -> In b l ->
  exists s', swap_qubit_ids s a b = Ok s' /\ shows s' l (swap_qubits a b psi).
Proof.
  intros s l psi a b Re Sh Ia Ib.
  destruct (call_shows EW s l psi (CSwap a b) Re Sh) as [r' [s' [E [_ [S' _]]]]]; simpl; auto.
  { intros bb <-. auto. }
  simpl in E. apply run1_quiet in E. exists s'. split; [apply E|apply S'].
Qed.

Lemma force_thm : forall s l psi (v : bool) q, reached s l -> shows s l psi -> In q l ->
  let pv := if v then born (width l) [q] psi else 1 - born (width l) [q] psi in
  exists s', force_collapse s v q = Ok (pv, s') /\
    (pv <> 0 -> shows s' l (collapsed l [q] v psi)) /\ (pv = 0 -> shows s' l psi).
Proof.
  intros s l psi v q Re Sh Iq pv.
  destruct (call_shows EW s l psi (CForce v q) Re Sh) as [r' [s' [E [P [S' _]]]]]; simpl; auto.
  { intros bb <-. auto. }
  simpl in E, P, S'. destruct (force_collapse s v q) as [[p s1]|]; simpl in E; inversion E; subst. inversion H0. subst p. fold pv in S' |- *.
  exists s'. split; auto. destruct (Req_EM_T pv 0); split; intros; auto; try tauto.
Qed.

Lemma is_zero_thm : forall s l psi q, reached s l -> shows s l psi -> In q l ->
  exists b s', qubit_is_zero s q = Ok (b, s') /\ (b = true <-> born (width l) [q] psi = 0) /\ shows s' l psi.
Proof.
  intros s l psi q Re Sh Iq.
  destruct (call_shows EW s l psi (CIsZero q) Re Sh) as [r' [s' [E [P [S' _]]]]]; simpl; auto.
  { intros bb <-. auto. }
  simpl in E, P, S'. destruct (qubit_is_zero s q) as [[p s1]|]; simpl in E; inversion E; subst.
  destruct P as [b [Eb P]]. inversion Eb; subst. eauto.
Qed.

Lemma joint_prob_thm : forall s l psi qs, reached s l -> shows s l psi -> NoDup qs -> incl qs l ->
  exists s', joint_probability s qs = Ok (born (width l) qs psi, s') /\ shows s' l psi.
Proof.
  intros s l psi qs Re Sh D Ic.
  destruct (call_shows EW s l psi (CJointProb qs) Re Sh) as [r' [s' [E [P [S' _]]]]]; simpl; auto.
  { intros bb <-. split; auto. }
  simpl in E, P, S'. destruct (joint_probability s qs) as [[p s1]|]; simpl in E; inversion E; subst.
  inversion H0. subst. eauto.
Qed.

Lemma exp_thm : forall s l psi cs ps th ts, reached s l -> shows s l psi -> NoDup (cs ++ ts) -> incl (cs ++ ts) l ->
  (length ps <= length ts)%nat ->
  exists s', mcexp s cs ps th ts = Ok s' /\ shows s' l (ctrl_op cs (exp_op th (combine ps ts)) psi).
Proof.
  intros s l psi cs ps th ts Re Sh D Ic Hl.
  destruct (call_shows EW s l psi (CMcExp cs ps th ts) Re Sh) as [r' [s' [E [P [S' _]]]]]; simpl; auto.
  { intros bb <-. split; auto. split; auto. }
  simpl in E. apply run1_quiet in E. exists s'. split; [apply E|apply S'].
Qed.

Lemma exp0_thm : forall s l psi ps th ts, reached s l -> shows s l psi -> NoDup ts -> incl ts l ->
  (length ps <= length ts)%nat ->
  exists s', exp_gate s ps th ts = Ok s' /\ shows s' l (exp_op th (combine ps ts) psi).
Proof.
  intros s l psi ps th ts Re Sh D Ic Hl.
  destruct (call_shows EW s l psi (CExp ps th ts) Re Sh) as [r' [s' [E [P [S' _]]]]]; simpl; auto.
  { intros bb <-. split; auto. split; auto. }
  simpl in E. apply run1_quiet in E. exists s'. split; [apply E|apply S'].
Qed.

(** One gate call at the end of a history. *)
Lemma gate_thm : forall g h c F rs s psi, proper (h ++ [c]) -> ~ is_ry c -> gate_action c = Some F ->
  exec (new_sim g) h = Ok (rs, s) -> shows s (live_after h) psi ->
  exists s', run1 s c = Ok (RUnit, s') /\ shows s' (live_after h) (F psi).
Proof.
  intros g h c F rs s psi P A Ga E Sh.
  destruct (gates_thm EW g h [c] rs s psi (F psi) P) as [rs' [s' [E' S']]]; auto. { simpl. now rewrite Ga. }
  exists s'. split; auto. simpl in E'. destruct (run1 s c) as [[r s1]|] eqn:Er; simpl in E'; inversion E'; subst.
  f_equal. f_equal. destruct c; simpl in Ga; try discriminate; simpl in Er; apply run1_quiet in Er; apply Er.
Qed.

Lemma apply_thm : forall g h rs s psi d u ts cs, proper (h ++ [CApply d d u ts cs]) ->
  exec (new_sim g) h = Ok (rs, s) -> shows s (live_after h) psi ->
  exists s', apply_matrix s (@mkMatrix RArith d d u) ts cs = Ok s' /\
    shows s' (live_after h) (ctrl_op (ctl_list cs) (mat_op u ts) psi).
Proof.
  intros g h rs s psi d u ts cs P E Sh.
  destruct (gate_thm g h (CApply d d u ts cs) (ctrl_op (ctl_list cs) (mat_op u ts)) rs s psi P) as [s' [E' S']]; auto.
  exists s'. split; auto. simpl in E'. apply run1_quiet in E'. apply E'.
Qed.

(** The inverse acts with the same sign. *)
Lemma effective_inverse : forall s c c' r s', inverse_call c = Some c' -> run1 s c = Ok (r, s') ->
  inverse_call (effective s c) = Some (effective s' c').
Proof.
  intros s c c' r s' Hi E. destruct c; simpl in Hi; inversion Hi; subst; try reflexivity.
  destruct g; simpl in *; try reflexivity. cbn [quietly gate_ry bind] in E. inversion E; subst. simpl.
  unfold ry_angle. simpl. destruct (im_get (rx_queue s) t) as [a|]; auto. destruct (cz a); auto.
Qed.
Lemma adjoint_thm : forall g h c c' rs s psi, inverse_call c = Some c' -> proper (h ++ [c]) ->
  exec (new_sim g) h = Ok (rs, s) -> shows s (live_after h) psi ->
  exists rs' s', exec s [c; c'] = Ok (rs', s') /\ shows s' (live_after h) psi.
Proof.
  intros g h c c' rs s psi Hi P E Sh.
  destruct (exec_case EW g h rs s psi (proper_app _ _ P) E Sh) as [m [k [R [B [Hk Ek]]]]].
  assert (V := proj1 P). apply valid_run_app in V. rewrite <- B in V. destruct V as [V [Vc _]].
  assert (Uc : unit_call c) by (destruct P as [_ U]; apply Forall_app in U; destruct U as [_ U]; inversion U; auto).
  destruct (call_step eo s m c e0 es R Vc Uc) as [r1 [s1 [E1 [_ R1]]]].
  assert (Hi2 := effective_inverse s c c' r1 s1 Hi E1).
  assert (Bc : bstep (bk m) c = bk m) by (destruct c; simpl in Hi; inversion Hi; reflexivity).
  assert (Bc' : bstep (bk m) c' = bk m) by (destruct c; simpl in Hi; inversion Hi; reflexivity).
  assert (Vc' : valid (bk m) c') by (destruct c; simpl in Hi; inversion Hi; exact Vc).
  assert (Uc' : unit_call c') by (destruct c; simpl in Hi; inversion Hi; exact I).
  set (m1 := mstep1 draws m (effective s c)) in *.
  assert (B1 : bk m1 = bk m) by (unfold m1; rewrite mstep1_bk, effective_bstep; exact Bc).
  destruct (call_step eo s1 m1 c' e0 es R1) as [r2 [s2 [E2 [_ R2]]]]; auto. { rewrite B1. auto. }
  exists [r1; r2], s2. split. { simpl. rewrite E1. simpl. rewrite E2. reflexivity. }
  set (m2 := mstep1 draws m1 (effective s1 c')) in *.
  assert (B2 : bk m2 = bk m) by (unfold m2; rewrite mstep1_bk, effective_bstep, B1; exact Bc').
  assert (Fc : exists F, gate_action (effective s c) = Some F).
  { destruct c; simpl in *; try discriminate; eauto. destruct g0; simpl; eauto. }
  assert (Fc' : exists F, gate_action (effective s1 c') = Some F).
  { clear - Hi. destruct c; simpl in *; inversion Hi; simpl; eauto. destruct g; simpl; eauto. }
  destruct Fc as [F Ac]. destruct Fc' as [F' Ac'].
  assert (V2 : vec m2 = vec m).
  { unfold m2. rewrite mstep1_vec, (action_vstep _ _ _ _ _ Ac'). unfold m1. rewrite mstep1_vec, (action_vstep _ _ _ _ _ Ac).
    eapply (inverse_action _ _ F F' (bk m)); eauto.
    destruct c; simpl in Vc |- *; auto. destruct g0; auto. }
  unfold live_after. rewrite <- B, <- B2, Ek, <- V2. apply refines_shows; auto.
Qed.

Lemma fresh_start_thm : forall g h rs s q h2, proper h -> exec (new_sim g) h = Ok (rs, s) ->
  live_after h = [q] -> proper h2 -> no_odd_pi h2 ->
  exists s' rs1 t1 rs2 t2, release s q = Ok s' /\
    exec s' h2 = Ok (rs1, t1) /\ exec (new_sim (rng s)) h2 = Ok (rs2, t2) /\
    Forall2 same_reply rs1 rs2 /\ (forall psi, shows t1 (live_after h2) psi <-> shows t2 (live_after h2) psi).
Proof.
  intros g h rs s q h2 P E L P2 A2.
  destruct (release_last_thm eo g h rs s q (proj1 P) E L) as [mm [Er Gn]].
  destruct (reach_effective eo g h e0 es P) as [rs1 [s1 [h' [E1 [F [_ [_ R]]]]]]]. rewrite E in E1. inversion E1; subst rs1 s1. clear E1.
  set (m := mrun draws (initial g) h') in *.
  assert (Lm : live (bk m) = [q]).
  { rewrite <- L. unfold m. rewrite fold_bstep. unfold live_after. f_equal. symmetry. apply sign_bstep; auto. }
  assert (Vr : valid (bk m) (CRelease q)) by (simpl; rewrite Lm; simpl; auto).
  destruct (call_step eo s m (CRelease q) e0 es R Vr I) as [r [s' [E' [_ R']]]]. cbn [effective] in R'.
  simpl in E'. rewrite Er in E'. simpl in E'. inversion E'; subst r s'. clear E'.
  set (s' := with_id_map (new_sim (rng s)) mm) in *.
  assert (B' : bk (mstep1 draws m (CRelease q)) = mkBook [] true).
  { rewrite mstep1_bk. simpl. rewrite Lm. simpl. rewrite Nat.eqb_refl. reflexivity. }
  assert (M : msame (mstep1 draws m (CRelease q)) (initial (rng s))).
  { split; [rewrite B'; auto|split].
    - rewrite mstep1_vec, Lm. simpl. rewrite Nat.eqb_refl. reflexivity.
    - rewrite <- (rf_rng _ _ R'). reflexivity. }
  destruct (continue_same EW h2 s' (new_sim (rng s)) _ _ R' (new_refines (rng s)) M) as [rs1 [rs2 [t1 [t2 [X1 [X2 [X3 X4]]]]]]].
  - rewrite B'. apply P2.
  - apply P2.
  - apply P2.
  - destruct A2 as [A2|[G [S1 [S2 A2]]]].
    + apply no_ry_clash_free; auto.
    + eapply (angles_clash_free eo G S1 S2 h2 s' (mkBook [] true)); auto.
      * rewrite <- B'. apply R'.
      * apply P2.
      * intros x a Hx. unfold s' in Hx. simpl in Hx. rewrite im_get_empty in Hx. discriminate.
  - apply proper_clash_free; auto.
  - exists s', rs1, t1, rs2, t2. repeat (split; [assumption|]). rewrite B' in X4. exact X4.
Qed.

Lemma proper_no_panic : forall g h, proper h -> exists rs s, exec (new_sim g) h = Ok (rs, s).
Proof. intros g h P. destruct (reach_effective eo g h e0 es P) as [rs [s [h' [E _]]]]. eauto. Qed.
End EX.
