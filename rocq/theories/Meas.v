(** * Measurement and probability calls *)
From Coq Require Import Reals NArith List Bool Lia Lra Permutation Arith FunctionalExtensionality.
From Verif Require Import Cx Arith ArithR IndexMap IndexMapLemmas Bits BitsLemmas Spec QLib QSum Sim
  StateLemmas Loc Abs Gates Gates2.
Import ListNotations.
Local Open Scope R_scope.

Section M.
Context {T : Tol} {EN : Env}.
Hypothesis horder_perm : horder_ok.

Lemma urxo : forall o, unitary (rxo o).
Proof. destruct o; [apply uRx|apply uI]. Qed.
Lemma uryo : forall o, unitary (ryo o).
Proof. destruct o; [apply uRy|apply uI]. Qed.
Lemma uhmat : forall b, unitary (hmat b).
Proof. destruct b; [apply uH|apply uI]. Qed.
Lemma upm : forall s q, unitary (pm s q).
Proof. intros. unfold pm. auto using unitary_mmul, urxo, uryo, uhmat. Qed.

(** ** The state vector lives on the allocated qubits *)
Lemma supported_baseof : forall m phi, supported (im_keys m) (baseof m phi).
Proof.
  intros m phi b i Hb Hi. unfold baseof. destruct (inb m b) eqn:E; auto.
  unfold inb in E. apply N.eqb_eq in E. exfalso. apply Hi. apply im_keys_In.
  destruct (im_get m i) eqn:G; eauto. rewrite <- E in Hb. rewrite bit_from_loc_out in Hb; auto; discriminate.
Qed.
Lemma supported_opsem : forall l ops psi, (forall o, In o ops -> In (snd (fst o)) l) ->
  supported l psi -> supported l (opsem ops psi).
Proof.
  unfold opsem. induction ops; simpl; intros; auto. apply IHops; auto.
  apply supported_cgate; auto.
Qed.
Lemma supported_core : forall s, wf s -> supported (ids s) (core s).
Proof.
  intros s W. apply supported_opsem; [|apply supported_baseof].
  intros o Ho. apply ids_In. generalize (wf_ops s W). rewrite Forall_forall. intros F.
  destruct (F o Ho) as [_ A]. inversion A; auto.
Qed.
Lemma supported_abs : forall s, wf s -> supported (ids s) (abs s).
Proof. intros. apply supported_pendl; auto. apply supported_core; auto. Qed.

(** ** Sums over entries are sums over assignments *)
Definition bounds (n : nat) (s : sim) : Prop := forall q, alloc s q -> (q < n)%nat.

Lemma fold_cond : forall (P : N -> bool) (st : sstate) acc,
  fold_left (fun acc iv => if P (fst iv) then padd acc (psqr (snd iv)) else acc) st acc
  = acc + Rsum (map (fun iv : N * C => if P (fst iv) then Cn2 (snd iv) else 0) st).
Proof.
  induction st as [|[k v] st]; simpl; intros; [unfold Rsum; simpl; lra|].
  rewrite IHst. unfold Rsum. simpl. destruct (P k); simpl; ared; lra.
Qed.
Lemma Rsum_keys : forall (P : N -> bool) (st : sstate), NoDup (keys st) ->
  Rsum (map (fun iv : N * C => if P (fst iv) then Cn2 (snd iv) else 0) st)
  = Rsum (map (fun k => if P k then Cn2 (lamp st k) else 0) (keys st)).
Proof.
  intros P st D. unfold keys. rewrite map_map. apply Rsum_map_ext. intros [k v] H. simpl.
  unfold lamp. rewrite (In_hm_get _ _ _ D H). reflexivity.
Qed.
Lemma entries_sum : forall n m (st : sstate) (P Q : N -> bool), im_inj m -> st_ok m st ->
  (forall q l, im_get m q = Some l -> (q < n)%nat) ->
  (forall b, P (to_loc m b) = Q b) ->
  Rsum (map (fun iv : N * C => if P (fst iv) then Cn2 (snd iv) else 0) st)
  = qsum n (fun b => if Q b then Cn2 (baseof m (lamp st) b) else 0).
Proof.
  intros n m st P Q I [D L] B HP. rewrite Rsum_keys by auto.
  transitivity (Rsum (map (fun b => if Q b then Cn2 (baseof m (lamp st) b) else 0)
                          (map (from_loc m) (keys st)))).
  - rewrite map_map. apply Rsum_map_ext. intros k Hk. rewrite <- HP. unfold baseof.
    assert (Hi : inb m (from_loc m k) = true) by (apply inb_spec; auto; apply from_loc_ids).
    rewrite Hi, (to_from m I k) by (apply L; auto). reflexivity.
  - apply Rsum_supp.
    + apply NoDup_map_inj; auto. intros x y Hx Hy E.
      rewrite <- (to_from m I x), <- (to_from m I y), E; auto.
    + apply basis_nodup.
    + intros b Hb. assert (Hb' : baseof m (lamp st) b <> C0).
      { intro E. apply Hb. rewrite E. destruct (Q b); auto using Cn2_C0. }
      unfold baseof in Hb'. destruct (inb m b) eqn:Ei; [|tauto].
      assert (Ei' := Ei). unfold inb in Ei'. apply N.eqb_eq in Ei'.
      rewrite inb_spec in Ei by auto. split.
      * intros _. apply basis_bits. intros i Hi. destruct (Ei i Hi) as [l E]. eauto.
      * intros _. apply in_map_iff. exists (to_loc m b). split; auto.
        destruct (in_dec N.eq_dec (to_loc m b) (keys st)); auto.
        exfalso. apply Hb'. apply lamp_out; auto.
Qed.
Lemma par_to_loc : forall m qs locs b, im_inj m -> Forall2 (resolved m) qs locs ->
  par locs (to_loc m b) = par qs b.
Proof.
  intros m qs locs b I H. unfold par. induction H; simpl; auto.
  rewrite IHForall2, (bit_to_loc m I _ _ _ H). reflexivity.
Qed.

Lemma check_joint_ok : forall s qs locs, wf s -> NoDup qs -> Forall2 (resolved (id_map s)) qs locs ->
  exists p s', check_joint_probability s locs = Ok (p, s') /\ cstep s s' (fun x => x) /\
    op_queue s' = [] /\ core s' = core s /\
    forall n, bounds n s -> p = born n qs (core s).
Proof.
  intros s qs locs W D R. unfold check_joint_probability.
  destruct (take_ops_ok s W) as [ops' [E1 [S1 B1]]]. rewrite E1. cbn [bind].
  eexists _, _. split; [reflexivity|].
  set (st := map (apply_ops ops') (state s)) in *. simpl state.
  split; [apply (cstep_state s _ (fun x => x)); auto|].
  split; [reflexivity|].
  assert (C : core (with_state (with_ops s []) st) = core s).
  { unfold core at 1. simpl. exact B1. }
  split; [exact C|]. intros n Bn.
  change (map (apply_ops ops') (state s)) with st.
  rewrite fold_cond. ared. rewrite Rplus_0_l.
  rewrite (entries_sum n (id_map s) st _ (par qs)); auto; try apply W.
  - rewrite B1. reflexivity.
  - intros q l E. apply Bn. exists l; auto.
  - intros b. unfold masked_parity. rewrite mask_parity by (eapply resolved_nodup; eauto; apply W).
    apply par_to_loc; auto. apply W.
Qed.

Lemma lamp_collapse : forall (P : N -> bool) c (st : sstate) k,
  lamp (flat_map (fun iv : N * amp => if P (fst iv) then [(fst iv, amul (snd iv) c)] else []) st) k
  = if P k then (c * lamp st k)%C else C0.
Proof.
  intros. unfold lamp.
  rewrite (hm_get_flat_map_filter P (fun _ v => amul v c)).
  destruct (P k); auto. destruct (hm_get st k); simpl; aring.
Qed.

Lemma joint_collapse_ok : forall s qs locs v p, wf s -> op_queue s = [] -> NoDup qs ->
  Forall2 (resolved (id_map s)) qs locs ->
  let s' := joint_collapse s locs v p in
  frame s s' /\ wf s' /\ op_queue s' = [] /\
  (forall k, In k (keys (state s')) -> par locs k = v) /\
  core s' = scale (pscale (if v then p else pcompl p)) (proj qs v (core s)).
Proof.
  intros s qs locs v p W Q D R s'.
  split; [constructor; reflexivity|].
  set (c := pscale (if v then p else pcompl p)) in *.
  set (P := fun k => Bool.eqb (masked_parity (mask_of locs) k) v).
  assert (E : state s' = flat_map (fun iv : N * amp => if P (fst iv) then [(fst iv, amul (snd iv) c)] else []) (state s))
    by reflexivity.
  assert (K : keys (state s') = filter P (keys (state s))).
  { rewrite E. apply (keys_flat_map_filter P (fun _ v => amul v c)). }
  split; [|split; [exact Q|split]].
  2:{ rewrite K. intros k Hk. apply filter_In in Hk. destruct Hk as [_ Hk]. unfold P, masked_parity in Hk.
      rewrite mask_parity in Hk by (eapply resolved_nodup; eauto; apply W). apply eqb_prop; auto. }
  - destruct W; constructor; auto.
    + destruct wf_st as [S1 S2]. split.
      * rewrite K. apply NoDup_filter. auto.
      * rewrite K. intros k Hk. apply filter_In in Hk. apply S2. tauto.
  - unfold core. simpl op_queue. rewrite Q. simpl. apply functional_extensionality. intros b.
    unfold base, baseof, scale, proj. rewrite E, lamp_collapse. unfold P, masked_parity.
    simpl id_map.
    rewrite mask_parity by (eapply resolved_nodup; eauto; apply W).
    rewrite (par_to_loc _ _ _ _ (wf_inj s W) R).
    destruct (inb (id_map s) b); destruct (Bool.eqb (par qs b) v); auto; ring.
Qed.

(** ** Change of state by an operation that may draw a sample *)
Record mstep (s s' : sim) (F : qstate -> qstate) : Prop := {
  ms_id : id_map s' = id_map s;
  ms_wf : wf s';
  ms_norx : forall G, symm G -> rxin G s -> rxin G s';
  ms_abs : tol = 0 -> abs s' = F (abs s)
}.
Lemma gstep_mstep : forall s s' F, gstep s s' F -> mstep s s' F.
Proof. intros s s' F []; constructor; auto. Qed.
Lemma mstep_trans : forall a b c F G, mstep a b F -> mstep b c G -> mstep a c (fun x => G (F x)).
Proof.
  intros a b c F G [] []; constructor; auto; try congruence.
  intros. rewrite ms_abs1, ms_abs0; auto.
Qed.
Lemma mstep_id_l : forall a b c F, mstep a b (fun x => x) -> mstep b c F -> mstep a c F.
Proof. intros. exact (mstep_trans _ _ _ _ _ H H0). Qed.
Lemma mstep_ext : forall a b F G, mstep a b F -> (forall x, F x = G x) -> mstep a b G.
Proof. intros a b F G [] E; constructor; auto. intros. rewrite <- E; auto. Qed.

Lemma wf_with_rng : forall s g, wf s -> wf (with_rng s g).
Proof. intros s g []; constructor; auto. Qed.

Lemma bounds_id : forall n s s', id_map s' = id_map s -> bounds n s -> bounds n s'.
Proof. intros n s s' E B q. unfold alloc. rewrite E. apply B. Qed.

Lemma abs_born : forall n s qs, (forall q, In q qs -> no_pend s q) -> bounds n s ->
  born n qs (abs s) = born n qs (core s).
Proof.
  intros. unfold abs. apply born_pendl; auto using upm.
  - intros q Hq. apply H0. apply ids_In; auto.
  - intros. apply no_pend_pm; auto.
Qed.
Lemma abs_norm : forall n s, bounds n s -> norm2 n (abs s) = norm2 n (core s).
Proof.
  intros. unfold abs. apply norm2_pendl; auto using upm. intros q Hq. apply H. apply ids_In; auto.
Qed.

(** ** Probability of odd parity *)
Lemma joint_probability_ok : forall s qs, wf s -> NoDup qs -> Forall (alloc s) qs ->
  exists p s', joint_probability s qs = Ok (p, s') /\ gstep s s' (fun x => x) /\
    (forall q, In q qs -> no_pend s' q) /\ op_queue s' = [] /\
    (forall n, bounds n s -> p = born n qs (abs s')) /\
    (tol = 0 -> forall n, bounds n s -> p = born n qs (abs s)).
Proof.
  intros s qs W D A. unfold joint_probability.
  destruct (maybe_flush_ok horder_perm qs s W A) as [s1 [E1 [G1 [L1 [_ D1]]]]].
  rewrite E1. cbn [bind]. unfold check_for_duplicates. rewrite check_dup_ok by auto. cbn [bind].
  assert (A1 : Forall (alloc s1) qs) by (eapply gstep_Forall; eauto).
  destruct (mapM_find_ok s1 qs A1) as [locs [E2 R2]]. rewrite E2. cbn [bind].
  destruct (check_joint_ok s1 qs locs (gs_wf _ _ _ G1) D R2) as [p [s2 [E3 [C3 [Q3 [K3 B3]]]]]].
  exists p, s2. split; auto.
  assert (G2 : gstep s s2 (fun x => x)) by (eapply gstep_id_l; [exact G1|apply cstep_gstep_id; auto]).
  split; auto. split.
  { intros q Hq. destruct (D1 q Hq) as [? [? ?]]. destruct C3 as [[] _ _].
    repeat split; congruence. }
  split; auto.
  assert (H : forall n, bounds n s -> p = born n qs (abs s2)).
  { intros n Bn. rewrite (B3 n).
    - rewrite abs_born.
      + rewrite K3. reflexivity.
      + intros q Hq. destruct (D1 q Hq) as [? [? ?]]. destruct C3 as [[] _ _].
        repeat split; congruence.
      + apply (bounds_id n s); auto. apply G2.
    - apply (bounds_id n s); auto. apply G1. }
  split; auto. intros H0 n Bn. rewrite (H n Bn). f_equal. apply (gs_abs _ _ _ G2); auto.
Qed.

Lemma qubit_is_zero_ok : forall s q, wf s -> alloc s q ->
  exists r s', qubit_is_zero s q = Ok (r, s') /\ gstep s s' (fun x => x) /\
    (forall n, bounds n s -> r = rnz tol (born n [q] (abs s'))) /\
    (tol = 0 -> forall n, bounds n s -> r = rnz tol (born n [q] (abs s))).
Proof.
  intros s q W A. unfold qubit_is_zero.
  destruct (joint_probability_ok s [q] W (nodup1 q)) as [p [s' [E [G [_ [_ [B1 B2]]]]]]]; auto.
  rewrite E. cbn [bind]. exists (pnz p), s'. split; auto. split; auto. split.
  - intros. rewrite (B1 n) by auto. reflexivity.
  - intros. rewrite (B2 H n) by auto. reflexivity.
Qed.

(** ** Measurement *)
Definition outcome_factor (p : R) (r : bool) : C := RtoC (1 / sqrt (if r then p else 1 - p)).

Lemma joint_measure_ok : forall s qs, wf s -> NoDup qs -> Forall (alloc s) qs ->
  exists r s', joint_measure s qs = Ok (r, s') /\ rng s' = snd (draw (rng s)) /\
    op_queue s' = [] /\ (forall q, In q qs -> no_pend s' q) /\
    (exists locs, Forall2 (resolved (id_map s')) qs locs /\
       forall k, In k (keys (state s')) -> par locs k = r) /\
    id_map s' = id_map s /\ wf s' /\
    (forall G, symm G -> rxin G s -> rxin G s') /\
    (forall n, tol = 0 -> bounds n s ->
       r = Rltb (fst (draw (rng s))) (born n qs (abs s)) /\
       abs s' = scale (outcome_factor (born n qs (abs s)) r) (proj qs r (abs s))).
Proof.
  intros s qs W D A. unfold joint_measure.
  destruct (maybe_flush_ok horder_perm qs s W A) as [s1 [E1 [G1 [L1 [_ D1]]]]].
  rewrite E1. cbn [bind]. unfold check_for_duplicates. rewrite check_dup_ok by auto. cbn [bind].
  assert (A1 : Forall (alloc s1) qs) by (eapply gstep_Forall; eauto).
  destruct (mapM_find_ok s1 qs A1) as [locs [E2 R2]]. rewrite E2. cbn [bind].
  assert (Rg : rng s1 = rng s) by apply G1. rewrite Rg.
  destruct (draw (rng s)) as [x g] eqn:Ed.
  set (s2 := with_rng s1 g).
  assert (W2 : wf s2) by (apply wf_with_rng; apply G1).
  destruct (check_joint_ok s2 qs locs W2 D R2) as [p [s3 [E3 [C3 [Q3 [K3 B3]]]]]].
  rewrite E3. cbn [bind]. eexists _, _. split; [reflexivity|].
  set (r := plt x p).
  assert (R3 : Forall2 (resolved (id_map s3)) qs locs) by (destruct C3 as [[] _ _]; rewrite fr_id; auto).
  destruct (joint_collapse_ok s3 qs locs r p (cs_wf _ _ _ C3) Q3 D R3) as [F4 [W4 [Q4 [Z4 K4]]]].
  set (s4 := joint_collapse s3 locs r p) in *.
  assert (F24 : frame s2 s4) by (eapply frame_trans; [apply C3|exact F4]).
  assert (I4 : id_map s4 = id_map s) by (destruct F24; rewrite fr_id; apply G1).
  assert (N4 : forall q, In q qs -> no_pend s4 q).
  { intros q Hq. destruct (D1 q Hq) as [? [? ?]]. destruct F24. repeat split; simpl in *; congruence. }
  split; [destruct F24; rewrite fr_rng; reflexivity|].
  split; [exact Q4|]. split; [exact N4|].
  split; [exists locs; split; [destruct F4; rewrite fr_id; exact R3|exact Z4]|]. split; [exact I4|]. split; [exact W4|].
  split.
  - intros G SG N. destruct F24. eapply rxin_eq; [exact fr_rx|]. exact (gs_norx _ _ _ G1 G SG N).
  - intros n H0 Bn.
    assert (Ab : abs s1 = abs s) by (apply (gs_abs _ _ _ G1); auto).
    assert (Ep : p = born n qs (abs s)).
    { rewrite (B3 n) by (apply (bounds_id n s); auto; apply G1).
      change (core s2) with (core s1). rewrite <- Ab. symmetry. apply abs_born; auto.
      apply (bounds_id n s); auto; apply G1. }
    split.
    + unfold r. rewrite <- Ep. reflexivity.
    + rewrite <- Ep, <- Ab. unfold abs at 1. rewrite (frame_ids _ _ F24).
      rewrite K4, K3. change (core s2) with (core s1).
      rewrite (pendl_ext (pm s4) (pm s1)) by (intros; apply (frame_pm s2); auto).
      change (ids s2) with (ids s1).
      unfold abs. rewrite proj_pendl by (intros; apply no_pend_pm; auto).
      rewrite <- pendl_scale. reflexivity.
Qed.

Lemma measure_joint : forall s q, measure s q = joint_measure s [q].
Proof.
  intros. unfold measure, joint_measure, check_for_duplicates. simpl.
  destruct (maybe_flush_queue s [q] LHRxRy) as [s1|e]; simpl; auto.
  destruct (find_qubit s1 q); simpl; auto.
Qed.

(** ** Forced collapse *)
Lemma force_collapse_ok : forall s v q, wf s -> alloc s q ->
  exists p s', force_collapse s v q = Ok (p, s') /\ rng s' = rng s /\
    op_queue s' = [] /\ no_pend s' q /\
    id_map s' = id_map s /\ wf s' /\
    (forall G, symm G -> rxin G s -> rxin G s') /\
    (forall n, tol = 0 -> bounds n s ->
       let pr := if v then born n [q] (abs s) else 1 - born n [q] (abs s) in
       p = pr /\
       abs s' = if rnz tol pr then abs s else scale (RtoC (1 / sqrt pr)) (proj [q] v (abs s))).
Proof.
  intros s v q W A. unfold force_collapse.
  destruct (maybe_flush_ok horder_perm [q] s W) as [s1 [E1 [G1 [L1 [_ D1]]]]]; auto.
  rewrite E1. cbn [bind].
  assert (A1 : alloc s1 q) by (eapply gstep_alloc; eauto).
  destruct A1 as [loc El]. rewrite (find_ok _ _ _ El). cbn [bind].
  assert (R1 : Forall2 (resolved (id_map s1)) [q] [loc]) by (repeat constructor; auto).
  destruct (check_joint_ok s1 [q] [loc] (gs_wf _ _ _ G1) (nodup1 q) R1) as [p [s2 [E2 [C2 [Q2 [K2 B2]]]]]].
  rewrite E2. cbn [bind]. eexists _, _. split; [reflexivity|].
  assert (R2 : Forall2 (resolved (id_map s2)) [q] [loc]) by (destruct C2 as [[] _ _]; rewrite fr_id; auto).
  destruct (joint_collapse_ok s2 [q] [loc] v p (cs_wf _ _ _ C2) Q2 (nodup1 q) R2) as [F3 [W3 [Q3 [_ K3]]]].
  change (joint_collapse s2 [loc] v p) with (collapse s2 loc v p) in *.
  set (cnd := (v && negb (pnz p)) || (negb v && negb (pnz (pcompl p)))).
  set (s3 := collapse s2 loc v p) in *.
  set (s4 := if cnd then s3 else s2).
  assert (F14 : frame s1 s4).
  { unfold s4. destruct cnd; [|apply C2]. eapply frame_trans; [apply C2|exact F3]. }
  assert (W4 : wf s4) by (unfold s4; destruct cnd; auto; apply C2).
  split; [destruct F14; rewrite fr_rng; apply G1|].
  split; [unfold s4; destruct cnd; auto|].
  assert (N1 : no_pend s1 q) by (apply D1; simpl; auto).
  split; [destruct N1 as [? [? ?]]; destruct F14; repeat split; congruence|].
  split; [destruct F14; rewrite fr_id; apply G1|]. split; [exact W4|].
  split.
  - intros G SG N. destruct F14. eapply rxin_eq; [exact fr_rx|]. exact (gs_norx _ _ _ G1 G SG N).
  - intros n H0 Bn.
    assert (Ab : abs s1 = abs s) by (apply (gs_abs _ _ _ G1); auto).
    assert (Ep : p = born n [q] (abs s)).
    { rewrite (B2 n) by (apply (bounds_id n s); auto; apply G1).
      rewrite <- Ab. symmetry. apply abs_born.
      - intros x [<-|[]]; auto.
      - apply (bounds_id n s); auto; apply G1. }
    split.
    + rewrite <- Ep. destruct v; reflexivity.
    + rewrite <- Ep, <- Ab.
      assert (Ec : cnd = negb (rnz tol (if v then p else 1 - p))).
      { unfold cnd. destruct v; simpl; [apply orb_false_r|reflexivity]. }
      unfold abs at 1. rewrite (frame_ids _ _ F14).
      rewrite (pendl_ext (pm s4) (pm s1)) by (intros; apply frame_pm; auto).
      unfold s4. rewrite Ec. destruct (rnz tol (if v then p else 1 - p)); simpl negb; cbv iota.
      * rewrite K2. reflexivity.
      * rewrite K3, K2. unfold abs. rewrite proj_pendl.
        2:{ intros x _ [<-|[]]. apply no_pend_pm; auto. }
        rewrite <- pendl_scale. f_equal.
Qed.
End M.
