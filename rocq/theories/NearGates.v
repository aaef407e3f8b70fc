(** * Gates up to the amplitudes dropped below the threshold: queue and flushes

    The lemmas of Abs.v and Gates.v again, for every threshold.  [ncs k] and [nst k]
    say that the state moved by at most [k] times [unit_err w] from the exact one. *)
From Coq Require Import Reals NArith List Bool Lia Lra Permutation Arith FunctionalExtensionality.
From Verif Require Import Cx Arith ArithR IndexMap IndexMapLemmas Bits BitsLemmas Spec QLib QSum Sim
  StateLemmas Loc Abs Gates Gates2 Meas SpecNear Near.
Import ListNotations.
Local Open Scope R_scope.

Section NG.
Context {T : Tol} {EN : Env}.
Hypothesis horder_perm : horder_ok.
Hypothesis tol_lo : 0 <= tol.
Hypothesis tol_hi : tol <= 1 / 2.
Variable w : nat.

Notation nearw := (near w).

Record ncs (k : nat) (s s' : sim) (F : qstate -> qstate) : Prop := {
  nc_frame : frame s s';
  nc_wf : wf s';
  nc_near : bounds w s -> norm2 w (core s) <= 1 ->
    contraction w F /\ nearw k (core s') (F (core s)) /\ norm2 w (core s') <= norm2 w (core s)
}.
Record nst (k : nat) (s s' : sim) (F : qstate -> qstate) : Prop := {
  ns_id : id_map s' = id_map s;
  ns_rng : rng s' = rng s;
  ns_wf : wf s';
  ns_norx : forall G, symm G -> rxin G s -> rxin G s';
  ns_near : bounds w s -> norm2 w (abs s) <= 1 ->
    contraction w F /\ nearw k (abs s') (F (abs s)) /\ norm2 w (abs s') <= norm2 w (abs s)
}.

Lemma ct_pm : forall s s0, bounds w s -> contraction w (pendl (pm s0) (ids s)).
Proof. intros. apply ct_pendl; intros; [apply upm|]. apply H. apply ids_In; auto. Qed.
Lemma norm_abs : forall s, bounds w s -> norm2 w (abs s) = norm2 w (core s).
Proof. intros. unfold abs. apply norm2_pendl; intros; [apply upm|]. apply H. apply ids_In; auto. Qed.
Lemma bounds_id : forall s s', id_map s' = id_map s -> bounds w s -> bounds w s'.
Proof. intros s s' E B q. unfold alloc. rewrite E. apply B. Qed.

Lemma ncs_exact : forall s s' F, frame s s' -> wf s' -> core s' = F (core s) ->
  (bounds w s -> contraction w F) -> ncs 0 s s' F.
Proof.
  intros s s' F Fr W E Ct. constructor; auto. intros B N. split; [auto|]. rewrite E.
  split; [apply near_refl; auto|]. apply Ct; auto.
Qed.
Lemma ncs_mono : forall j k s s' F, (j <= k)%nat -> ncs j s s' F -> ncs k s s' F.
Proof.
  intros j k s s' F H [F1 W1 N1]. constructor; auto. intros B N. destruct (N1 B N) as [C [D E]].
  split; auto. split; auto. eapply near_mono; eauto.
Qed.
Lemma nst_mono : forall j k s s' F, (j <= k)%nat -> nst j s s' F -> nst k s s' F.
Proof.
  intros j k s s' F H [I1 R1 W1 X1 N1]. constructor; auto. intros B N. destruct (N1 B N) as [C [D E]].
  split; auto. split; auto. eapply near_mono; eauto.
Qed.
Lemma ncs_trans : forall j k a b c F G, ncs j a b F -> ncs k b c G -> ncs (j + k) a c (fun x => G (F x)).
Proof.
  intros j k a b c F G [F1 W1 N1] [F2 W2 N2]. constructor; auto.
  - eapply frame_trans; eauto.
  - intros B N. destruct (N1 B N) as [C1 [D1 E1]].
    destruct N2 as [C2 [D2 E2]]; [eapply bounds_id; [|eauto]; apply F1|lra|].
    split; [apply ct_comp; auto|]. split; [|lra].
    rewrite Nat.add_comm. eapply near_trans; [exact D2|]. apply near_ct; auto.
Qed.
Lemma ncs_ext : forall k s s' F G, ncs k s s' F -> (forall x, F x = G x) -> ncs k s s' G.
Proof.
  intros k s s' F G N E. replace G with F; auto. apply functional_extensionality. auto.
Qed.
Lemma nst_refl : forall s, wf s -> nst 0 s s (fun x => x).
Proof.
  intros; constructor; auto. intros. split; [apply ct_id|]. split; [apply near_refl; auto|lra].
Qed.
Lemma nst_trans : forall j k a b c F G, nst j a b F -> nst k b c G -> nst (j + k) a c (fun x => G (F x)).
Proof.
  intros j k a b c F G [I1 R1 W1 X1 N1] [I2 R2 W2 X2 N2]. constructor; auto; try congruence.
  intros B N. destruct (N1 B N) as [C1 [D1 E1]].
  destruct N2 as [C2 [D2 E2]]; [eapply bounds_id; eauto|lra|].
  split; [apply ct_comp; auto|]. split; [|lra].
  rewrite Nat.add_comm. eapply near_trans; [exact D2|]. apply near_ct; auto.
Qed.
Lemma nst_id_l : forall j k a b c F, nst j a b (fun x => x) -> nst k b c F -> nst (j + k) a c F.
Proof. intros j k a b c F H1 H2. apply (nst_trans _ _ _ _ _ _ _ H1 H2). Qed.
Lemma nst_ext : forall k a b F G, nst k a b F -> (forall x, F x = G x) -> nst k a b G.
Proof. intros k a b F G N E. replace G with F; auto. apply functional_extensionality. auto. Qed.
Lemma nst_alloc : forall k s s' F q, nst k s s' F -> (alloc s' q <-> alloc s q).
Proof. intros k s s' F q []. unfold alloc. rewrite ns_id0. tauto. Qed.
Lemma nst_Forall : forall k s s' F qs, nst k s s' F -> Forall (alloc s) qs -> Forall (alloc s') qs.
Proof. intros. eapply Forall_impl; [|exact H0]. intros. eapply nst_alloc; eauto. Qed.

(** Absorbing operations into [abs]. *)
Lemma near_local : forall k s s' U V t, id_map s' = id_map s -> alloc s t ->
  (forall q, q <> t -> pm s' q = pm s q) -> unitary U -> mmul (pm s' t) V = mmul U (pm s t) ->
  (bounds w s -> norm2 w (core s) <= 1 ->
     nearw k (core s') (gate1 V t (core s)) /\ norm2 w (core s') <= norm2 w (core s)) ->
  bounds w s -> norm2 w (abs s) <= 1 ->
  contraction w (gate1 U t) /\ nearw k (abs s') (gate1 U t (abs s)) /\ norm2 w (abs s') <= norm2 w (abs s).
Proof.
  intros k s s' U V t Hi Ha Hp HU Hm HN B N. assert (B' : bounds w s') by (eapply bounds_id; eauto).
  rewrite !norm_abs in * by auto. destruct (HN B N) as [Hc Hn].
  split; [apply ct_gate1; auto|]. split; [|exact Hn].
  assert (Ei : ids s' = ids s) by (unfold ids; now rewrite Hi).
  assert (E : pendl (pm s') (ids s') (gate1 V t (core s)) = gate1 U t (abs s)).
  { unfold abs. rewrite Ei. rewrite pendl_pre by (try apply ids_nodup; apply ids_In; auto).
    rewrite pendl_post by (try apply ids_nodup; apply ids_In; auto).
    apply pendl_ext. intros q _. unfold upd. destruct (Nat.eqb_spec q t); auto. }
  rewrite <- E. unfold abs. apply near_ct; auto. apply ct_pm; auto.
Qed.
Lemma near_same : forall k s s' t, id_map s' = id_map s -> alloc s t ->
  (forall q, q <> t -> pm s' q = pm s q) -> forall V, mmul (pm s' t) V = pm s t ->
  (bounds w s -> norm2 w (core s) <= 1 ->
     nearw k (core s') (gate1 V t (core s)) /\ norm2 w (core s') <= norm2 w (core s)) ->
  bounds w s -> norm2 w (abs s) <= 1 ->
  contraction w (fun x => x) /\ nearw k (abs s') (abs s) /\ norm2 w (abs s') <= norm2 w (abs s).
Proof.
  intros k s s' t Hi Ha Hp V Hm HN B N.
  destruct (near_local k s s' mI V t Hi Ha Hp uI) as [_ [H1 H2]]; auto; [now rewrite mmul_I_l|].
  rewrite gate1_I in H1. split; [apply ct_id|auto].
Qed.

(** ** Changes of the stored amplitudes *)
Lemma ncs_state : forall s st F, wf s -> st_ok (id_map s) st -> (bounds w s -> contraction w F) ->
  (forall b, baseof (id_map s) (lamp st) b = F (core s) b \/
     (baseof (id_map s) (lamp st) b = C0 /\ Cn2 (F (core s) b) <= 2 * (tol * tol))) ->
  ncs 1 s (with_state (with_ops s []) st) F.
Proof.
  intros s st F W S Ct H. constructor.
  - constructor; reflexivity.
  - destruct W; constructor; simpl; auto. apply N.le_0_l.
  - intros B N. split; auto.
    change (core (with_state (with_ops s []) st)) with (baseof (id_map s) (lamp st)).
    destruct (near_drop tol_lo w (baseof (id_map s) (lamp st)) (F (core s))) as [D1 D2]; [intros; apply H|].
    split; auto. eapply Rle_trans; [exact D2|]. apply Ct; auto.
Qed.
Lemma flush_ops_n : forall s, wf s ->
  exists s', flush_ops s = Ok s' /\ ncs 0 s s' (fun x => x) /\ op_queue s' = [].
Proof.
  intros s W. unfold flush_ops. destruct (op_queue s) eqn:E.
  - exists s. split; auto. split; auto. apply ncs_exact; auto using frame_refl, ct_id.
  - destruct (take_ops_ok s W) as [ops' [E1 [S1 B1]]]. rewrite E1. simpl.
    eexists. split; [reflexivity|]. split; [|reflexivity].
    apply ncs_exact; auto using ct_id.
    + constructor; reflexivity.
    + destruct W; constructor; simpl; auto. apply N.le_0_l.
Qed.
Lemma uop : forall op, unitary (opmat op).
Proof.
  destruct op; simpl; auto using uX, uY, uZ, uS, uSadj, uT, uTadj, uRz.
Qed.
Lemma enqueue_op_n : forall s t cs op, wf s -> NoDup (t :: cs) -> Forall (alloc s) (t :: cs) ->
  exists s', enqueue_op s t cs op = Ok s' /\ ncs 0 s s' (cgate cs (opmat op) t).
Proof.
  intros s t cs op W D A. unfold enqueue_op.
  assert (P : forall s1, frame s s1 -> wf s1 -> core s1 = core s ->
              (N.of_nat (length (op_queue s1)) < QUEUE_LIMIT)%N ->
              ncs 0 s (with_ops s1 (op_queue s1 ++ [(cs, t, op)])) (cgate cs (opmat op) t)).
  { intros s1 Fr W1 C1 L. apply ncs_exact.
    - destruct Fr; constructor; auto.
    - apply wf_with_ops; auto.
      + apply Forall_app. split; [apply W1|]. constructor; auto. split; auto. simpl.
        rewrite Forall_forall in *. intros x Hx. apply (frame_alloc s); auto.
      + rewrite app_length. simpl. lia.
    - unfold core, base. simpl. unfold opsem. rewrite fold_left_app. simpl. f_equal. exact C1.
    - intros B. inversion D; subst. inversion A; subst. apply ct_cgate; auto. apply uop. }
  destruct (N.eqb_spec (N.of_nat (length (op_queue s))) QUEUE_LIMIT).
  - unfold flush_ops. destruct (op_queue s) as [|o l] eqn:Eq.
    + simpl in e. discriminate.
    + rewrite <- Eq in *. destruct (take_ops_ok s W) as [ops' [E1 [S1 B1]]]. rewrite E1. simpl.
      eexists; split; [reflexivity|]. apply P.
      * constructor; reflexivity.
      * destruct W; constructor; simpl; auto. apply N.le_0_l.
      * unfold core at 1. simpl. exact B1.
      * simpl. reflexivity.
  - simpl. eexists; split; [reflexivity|]. apply P; auto using frame_refl.
    generalize (wf_len s W). lia.
Qed.

Lemma baseof_either : forall m phi psi, (forall k, phi k = psi k \/ (phi k = C0 /\ Cn2 (psi k) <= 2 * (tol * tol))) ->
  forall b, baseof m phi b = baseof m psi b \/ (baseof m phi b = C0 /\ Cn2 (baseof m psi b) <= 2 * (tol * tol)).
Proof. intros m phi psi H b. unfold baseof. destruct (inb m b); auto. Qed.

Lemma mch_either : forall cs t m, ~ In t cs -> NoDup (keys m) -> forall k,
  lamp (flat_map (mch_entry cs t m) m) k = cgate cs mH t (lamp m) k \/
  (lamp (flat_map (mch_entry cs t m) m) k = C0 /\ Cn2 (cgate cs mH t (lamp m) k) <= 2 * (tol * tol)).
Proof.
  intros cs t m H1 H2 k. destruct (mch_both cs t m H1 H2) as [N L].
  destruct (all_set cs k) eqn:A.
  - destruct (two_level_amp cs t m _ _ _ _ k L) as [E|[E Z]]; auto. right. split; auto.
    apply anz_small in Z; auto. unfold cgate, gate1. fold (all_set cs k). rewrite A.
    assert (R2 : Cn2 rsqrt2 = / 2).
    { unfold rsqrt2, Cn2, RtoC. simpl. generalize rs2_sq. lra. }
    set (a := lamp m (set_bit k t false)) in *. set (b := lamp m (set_bit k t true)) in *.
    destruct (bit k t); simpl in *.
    + replace (rsqrt2 * a + - rsqrt2 * b)%C with (rsqrt2 * (a - b))%C by ring.
      rewrite Cn2_mul, R2. assert (P := Cn2_nonneg (a - b)%C). lra.
    + replace (rsqrt2 * a + rsqrt2 * b)%C with (rsqrt2 * (a + b))%C by ring.
      rewrite Cn2_mul, R2. assert (P := Cn2_nonneg (a + b)%C). lra.
  - left. unfold lamp. rewrite L. unfold two_level, cgate. fold (all_set cs k). rewrite A. reflexivity.
Qed.
Lemma rot_either : forall m00 m01 m10 cs t m, ~ In t cs -> NoDup (keys m) -> forall k,
  lamp (flat_map (rot_entry m00 m01 m10 cs t m) m) k = cgate cs (rotmat m00 m01 m10) t (lamp m) k \/
  (lamp (flat_map (rot_entry m00 m01 m10 cs t m) m) k = C0 /\
   Cn2 (cgate cs (rotmat m00 m01 m10) t (lamp m) k) <= 2 * (tol * tol)).
Proof.
  intros m00 m01 m10 cs t m H1 H2 k. destruct (rot_both cs t m H1 H2 m00 m01 m10) as [N L].
  destruct (all_set cs k) eqn:A.
  - destruct (two_level_amp cs t m _ _ _ _ k L) as [E|[E Z]]; auto. right. split; auto.
    apply anz_small in Z; auto. unfold cgate, gate1. fold (all_set cs k). rewrite A.
    unfold rotmat. destruct (bit k t); simpl in *.
    + match goal with |- Cn2 ?x <= _ => match type of Z with Cn2 ?y <= _ => replace x with y by ring end end. exact Z.
    + match goal with |- Cn2 ?x <= _ => match type of Z with Cn2 ?y <= _ => replace x with y by ring end end. exact Z.
  - left. unfold lamp. rewrite L. unfold two_level, cgate. fold (all_set cs k). rewrite A. reflexivity.
Qed.

Lemma apply_mch_n : forall s cs t, wf s -> NoDup (t :: cs) -> Forall (alloc s) (t :: cs) ->
  exists s', apply_mch s cs t = Ok s' /\ ncs 1 s s' (cgate cs mH t).
Proof.
  intros s cs t W D A. unfold apply_mch.
  destruct (resolve_ok s t cs D A) as [t' [cs' [E [R1 R2]]]]. rewrite E. simpl.
  destruct (take_ops_ok s W) as [ops' [E1 [S1 B1]]]. rewrite E1. simpl.
  set (l := map (apply_ops ops') (state s)) in *.
  set (m := hm_collect l).
  assert (P : Permutation m l) by (apply hm_collect_perm; auto; apply S1).
  assert (Nm : NoDup (keys m)) by (eapply perm_nodup_keys; [apply Permutation_sym; eauto | apply S1]).
  assert (Nl : NoDup (t' :: cs')) by (eapply (resolved_nodup (id_map s) (t :: cs)); eauto; apply W).
  inversion Nl; subst.
  destruct (mch_both cs' t' m H1 Nm) as [N L].
  eexists; split; [reflexivity|]. apply ncs_state; auto.
  - split; auto. intros k Hk i Hi. destruct (Nat.eq_dec i t'); [subst; eauto|].
    destruct (two_level_keys cs' t' m _ _ _ _ k i L Hk Hi n) as [k' [Hk' Hi']].
    eapply S1; eauto. eapply Permutation_in; [apply perm_keys|]; eauto.
  - intros B. inversion D; subst. inversion A; subst. apply ct_cgate; auto using uH.
  - assert (Eq : cgate cs mH t (core s) = baseof (id_map s) (cgate cs' mH t' (lamp m))).
    { rewrite (baseof_cgate (id_map s) (wf_inj s W) cs cs' t t'); auto.
      rewrite <- B1. f_equal. f_equal. symmetry. apply lamp_perm; auto. }
    rewrite Eq. apply baseof_either. apply mch_either; auto.
Qed.

Lemma rot_general_n : forall s cs t m00 m01 m10, wf s -> NoDup (t :: cs) -> Forall (alloc s) (t :: cs) ->
  unitary (rotmat m00 m01 m10) ->
  exists t' cs' ops' s',
    resolve_and_check_qubits s t cs = Ok (t', cs') /\
    take_ops s = Ok (ops', with_ops s []) /\
    (let m := hm_collect (map (apply_ops ops') (state s)) in
     with_state (with_ops s []) (flat_map (rot_entry m00 m01 m10 cs' t' m) m)) = s' /\
    ncs 1 s s' (cgate cs (rotmat m00 m01 m10) t).
Proof.
  intros s cs t m00 m01 m10 W D A U.
  destruct (resolve_ok s t cs D A) as [t' [cs' [E [R1 R2]]]].
  destruct (take_ops_ok s W) as [ops' [E1 [S1 B1]]].
  exists t', cs', ops'. eexists. split; [exact E|]. split; [exact E1|]. split; [reflexivity|].
  set (l := map (apply_ops ops') (state s)) in *.
  set (m := hm_collect l).
  assert (P : Permutation m l) by (apply hm_collect_perm; auto; apply S1).
  assert (Nm : NoDup (keys m)) by (eapply perm_nodup_keys; [apply Permutation_sym; eauto | apply S1]).
  assert (Nl : NoDup (t' :: cs')) by (eapply (resolved_nodup (id_map s) (t :: cs)); eauto; apply W).
  inversion Nl; subst.
  destruct (rot_both cs' t' m H1 Nm m00 m01 m10) as [N L].
  apply ncs_state; auto.
  - split; auto. intros k Hk i Hi. destruct (Nat.eq_dec i t'); [subst; eauto|].
    destruct (two_level_keys cs' t' m _ _ _ _ k i L Hk Hi n) as [k' [Hk' Hi']].
    eapply S1; eauto. eapply Permutation_in; [apply perm_keys|]; eauto.
  - intros B. inversion D; subst. inversion A; subst. apply ct_cgate; auto.
  - assert (Eq : cgate cs (rotmat m00 m01 m10) t (core s) =
        baseof (id_map s) (cgate cs' (rotmat m00 m01 m10) t' (lamp m))).
    { rewrite (baseof_cgate (id_map s) (wf_inj s W) cs cs' t t'); auto.
      rewrite <- B1. f_equal. f_equal. symmetry. apply lamp_perm; auto. }
    rewrite Eq. apply baseof_either. apply rot_either; auto.
Qed.

Lemma ct_cfactor : forall cs f, Cn2 f <= 1 -> contraction w (cfactor cs f).
Proof.
  intros cs f H. constructor.
  - intros. apply functional_extensionality. intros b. unfold cfactor, qdiff. destruct (forallb (bit b) cs); auto. ring.
  - intros psi. apply norm2_le. intros b _. unfold cfactor. assert (P := Cn2_nonneg (psi b)).
    destruct (forallb (bit b) cs); [|lra]. rewrite Cn2_mul. nra.
Qed.
Lemma factor_n : forall s cs cs' ops' f, wf s -> Forall2 (resolved (id_map s)) cs cs' -> Cn2 f <= 1 ->
  take_ops s = Ok (ops', with_ops s []) ->
  ncs 0 s (with_state (with_ops s []) (map (ops_then_factor ops' cs' f) (state s))) (cfactor cs f).
Proof.
  intros s cs cs' ops' f W R Hf E. destruct (take_ops_ok s W) as [ops'' [E1 [S1 B1]]].
  rewrite E in E1. inversion E1; subst ops''. clear E1.
  set (l := map (apply_ops ops') (state s)) in *.
  assert (Eq : map (ops_then_factor ops' cs' f) (state s) =
               scale_entries (fun k => if all_set cs' k then f else C1) l).
  { unfold l, scale_entries. rewrite map_map. apply map_ext. intros kv. unfold ops_then_factor.
    destruct (apply_ops ops' kv); simpl. destruct (all_set cs' n); f_equal. aring. }
  rewrite Eq. apply ncs_exact.
  - constructor; reflexivity.
  - assert (So : st_ok (id_map s) (scale_entries (fun k => if all_set cs' k then f else C1) l))
      by (unfold st_ok; rewrite keys_scale_entries; exact S1).
    destruct W; constructor; simpl; auto. apply N.le_0_l.
  - unfold core at 1, base. simpl. unfold opsem. simpl. rewrite <- B1. apply functional_extensionality. intros b.
    unfold cfactor, baseof. rewrite lamp_scale_entries.
    unfold all_set. rewrite (forallb_to_loc (id_map s) (wf_inj s W) _ _ _ R).
    destruct (inb (id_map s) b); destruct (forallb (bit b) cs); ring.
  - intros _. apply ct_cfactor; auto.
Qed.

(** ** Rotations *)
Lemma rabs_sq : forall x, Rabs x <= tol -> x * x <= tol * tol.
Proof.
  intros x H. assert (E : x * x = Rabs x * Rabs x) by (rewrite <- Rabs_mult; symmetry; apply Rabs_right; nra).
  rewrite E. assert (P := Rabs_pos x). nra.
Qed.
Lemma anz_parts : forall a, @anz RArith a = true -> Rabs (fst a) <= tol /\ Rabs (snd a) <= tol.
Proof.
  intros [x y] H. simpl in H. apply andb_true_iff in H. unfold rnz, Rleb in H. simpl.
  destruct (Rle_dec (Rabs x) tol); destruct (Rle_dec (Rabs y) tol); destruct H; try discriminate; auto.
Qed.
Lemma cz_cos : forall theta, cz theta = true -> cos (theta / 2) * cos (theta / 2) <= tol * tol.
Proof. intros theta H. apply anz_parts in H. apply rabs_sq. apply H. Qed.
Lemma m01_sin : forall theta sf, @anz RArith (@rot_m01 RArith theta sf) = true ->
  sin (theta / 2) * sin (theta / 2) <= tol * tol.
Proof.
  intros theta sf H. apply anz_parts in H. destruct H as [H1 H2]. apply rabs_sq in H1. apply rabs_sq in H2.
  unfold rot_m01 in *. ared. destruct sf; cunfold; simpl in *; nra.
Qed.
Lemma sc1 : forall theta, sin (theta / 2) * sin (theta / 2) + cos (theta / 2) * cos (theta / 2) = 1.
Proof. intros. apply (sin2_cos2 (theta / 2)). Qed.
Lemma urmat : forall sf theta, unitary (rmat sf theta).
Proof. intros [] theta; [apply uRy|apply uRx]. Qed.

(** Distances of the rotation from the gates used in its place. *)
Lemma rot_scalar : forall sf theta e, bounded (mdiff (mscale (RtoC e) mI) (rmat sf theta))
  (e * e + 1 - 2 * e * cos (theta / 2)).
Proof.
  intros sf theta e [x y] [x' y']. apply Req_le. assert (H := sc1 theta).
  unfold rmat, mdiff, mscale, mI, mRx, mRy, mk2. set (c := cos (theta / 2)) in *. set (s := sin (theta / 2)) in *.
  replace (e * e + 1 - 2 * e * c) with ((e - c) * (e - c) + s * s) by lra.
  destruct sf; csimp; ring.
Qed.
Lemma rot_pauli : forall sf theta, bounded (mdiff (mscale (rfac sf theta) (if sf then mY else mX)) (rmat sf theta))
  (cos (theta / 2) * cos (theta / 2)).
Proof.
  intros sf theta [x y] [x' y']. apply Req_le. unfold rfac, rot_m01, rmat, mdiff, mscale, mX, mY, mRx, mRy, mk2.
  ared. destruct sf; csimp; ring.
Qed.
Lemma Cn2_rfac : forall sf theta, Cn2 (rfac sf theta) <= 1.
Proof.
  intros. assert (H := sc1 theta). assert (P : 0 <= cos (theta / 2) * cos (theta / 2)) by apply Rle_0_sqr.
  replace (Cn2 (rfac sf theta)) with (sin (theta / 2) * sin (theta / 2)); [lra|].
  unfold rfac, rot_m01. ared. destruct sf; csimp; ring.
Qed.

(** A scalar or a Pauli gate in place of a rotation. *)
Lemma near_instead : forall cs U V t psi c, c <= 2 * (tol * tol) -> 0 <= c -> bounded (mdiff U V) c -> (t < w)%nat ->
  ~ In t cs -> norm2 w psi <= 1 -> nearw 1 (cgate cs U t psi) (cgate cs V t psi).
Proof.
  intros cs U V t psi c Hc Hc0 HB Ht Hn HN. apply near_sq; auto.
  assert (D := cgate_mdiff w cs U V c t psi Hc0 HB Ht Hn). assert (P := norm2_nonneg w psi). nra.
Qed.

Lemma mcrotation_smooth_n : forall px py s cs theta t sf, wf s -> NoDup (t :: cs) ->
  Forall (alloc s) (t :: cs) -> cz theta = false ->
  exists s', mcrotation_with px py s cs theta t sf = Ok s' /\ ncs 1 s s' (cgate cs (rmat sf theta) t).
Proof.
  intros px py s cs theta t sf W D A Hc. unfold mcrotation_with.
  unfold cz in Hc. change (anz (@rot_m00 RArith theta)) with (@anz RArith (@chalf RArith theta)).
  rewrite Hc. inversion D; subst. inversion A; subst.
  assert (S1 := sc1 theta). set (c := cos (theta / 2)) in *. set (sn := sin (theta / 2)) in *.
  destruct (anz (@rot_m01 RArith theta sf)) eqn:Hz.
  - assert (Sn : sn * sn <= tol * tol) by (apply (m01_sin theta sf); exact Hz).
    assert (Ct : bounds w s -> contraction w (cgate cs (rmat sf theta) t)).
    { intros B. apply ct_cgate; auto. apply urmat. }
    destruct (anz (aadd (@rot_m00 RArith theta) amp1)) eqn:Hm.
    + assert (C1' : c <= - (1 / 2)).
      { apply anz_parts in Hm. destruct Hm as [Hm _]. unfold rot_m00 in Hm. ared. cunfold. simpl in Hm. fold c in Hm.
        assert (Rl := Rle_abs (c + 1)). lra. }
      destruct (take_ops_ok s W) as [ops' [E1 [S1' B1]]]. rewrite E1. simpl.
      destruct (resolve_ok (with_ops s []) t cs D A) as [t' [cs' [E [R1 R2]]]]. rewrite E. simpl.
      eexists; split; [reflexivity|].
      destruct (factor_n s cs cs' ops' (- C1)%C W R2) as [F1 F2 F3]; auto.
      { rewrite Cn2_opp, Cn2_C1. lra. }
      constructor; auto. intros B N. destruct (F3 B N) as [_ [G2 G3]]. split; auto. split; [|exact G3].
      change 1%nat with (0 + 1)%nat. eapply near_trans; [exact G2|]. rewrite (cfactor_cgate _ _ t).
      replace (- C1)%C with (RtoC (-1)) by ceq.
      eapply near_instead; [| |apply rot_scalar| | |]; fold c; auto; nra.
    + exists s. split; auto. constructor; auto using frame_refl. intros B N. split; auto. split; [|lra].
      assert (C1' : 0 <= c).
      { destruct (Rle_lt_dec 0 c) as [|Hn]; auto. exfalso.
        assert (K : 0 <= 1 + c <= tol).
        { split; [nra|]. assert ((1 + c) * (1 - c) = sn * sn) by lra. nra. }
        rewrite <- not_true_iff_false in Hm. apply Hm. unfold rot_m00. ared. cunfold. simpl. fold c.
        unfold rnz, Rleb. rewrite (Rabs_right (c + 1)) by lra.
        replace (0 + 0) with 0 by ring. rewrite Rabs_R0.
        destruct (Rle_dec (c + 1) tol); [|lra]. destruct (Rle_dec 0 tol); [reflexivity|lra]. }
      replace (core s) with (cgate cs (mscale (RtoC 1) mI) t (core s)) at 1.
      2:{ rewrite <- cfactor_cgate. apply cfactor_1. }
      eapply near_instead; [| |apply rot_scalar| | |]; fold c; auto; nra.
  - destruct (rot_general_n s cs t (@rot_m00 RArith theta) (@rot_m01 RArith theta sf)
      (amul (@rot_m01 RArith theta sf) (if sf then aopp amp1 else amp1)) W D A)
      as [t' [cs' [ops' [s' [E1 [E2 [E3 E4]]]]]]].
    { generalize (rotmat_rmat theta sf). ared. intros ->. apply urmat. }
    rewrite E1. simpl. rewrite E2. simpl. eexists; split; [reflexivity|].
    simpl in E3. rewrite E3. rewrite <- rotmat_rmat. exact E4.
Qed.

Lemma mcrotation_sharp_n : forall (px py : sim -> list nat -> nat -> res sim) s cs theta t (sf : bool) s1, NoDup (t :: cs) ->
  Forall (alloc s) (t :: cs) -> cz theta = true ->
  (if sf then py s cs t else px s cs t) = Ok s1 -> id_map s1 = id_map s -> wf s1 ->
  exists s', mcrotation_with px py s cs theta t sf = Ok s' /\ ncs 0 s1 s' (cfactor cs (rfac sf theta)).
Proof.
  intros px py s cs theta t sf s1 D A Hc Hp Hi W. unfold mcrotation_with.
  unfold cz in Hc. change (anz (@rot_m00 RArith theta)) with (@anz RArith (@chalf RArith theta)).
  rewrite Hc, Hp. simpl.
  assert (A1 : Forall (alloc s1) (t :: cs)).
  { eapply Forall_impl; [|exact A]. unfold alloc. intros. rewrite Hi. auto. }
  destruct (resolve_ok s1 t cs D A1) as [t' [cs' [E [R1 R2]]]]. rewrite E. simpl.
  change (@amul RArith (@rot_m01 RArith theta sf) (if sf then Ci else C1)) with (rfac sf theta).
  destruct (Reqb _ _ && Reqb _ _) eqn:H1.
  - exists s1. split; auto. apply ncs_exact; auto using frame_refl.
    + change (@ais1 RArith (rfac sf theta) = true) in H1. apply ais1_eq in H1. rewrite H1.
      symmetry. apply cfactor_1.
    + intros _. apply ct_cfactor, Cn2_rfac.
  - destruct (take_ops_ok s1 W) as [ops' [E1 [S1 B1]]]. rewrite E1. simpl.
    eexists; split; [reflexivity|]. apply (factor_n s1 cs cs' ops' _ W R2 (Cn2_rfac _ _) E1).
Qed.

(** ** x and y on the queued operations *)
Lemma gate_x_core_n : forall s t, wf s -> alloc s t ->
  exists s', gate_x s t = Ok s' /\
    ncs 0 (with_ry s (im_update (ry_queue s) t tneg)) s'
      (gate1 (if bit (h_flag s) t then mZ else mX) t).
Proof.
  intros s t W A. unfold gate_x. simpl.
  assert (W1 := wf_upd_ry s t tneg W).
  destruct (bit (h_flag s) t);
    [destruct (enqueue_op_n _ t [] OZ W1 (nodup1 t)) as [s' [E C]]
    |destruct (enqueue_op_n _ t [] OX W1 (nodup1 t)) as [s' [E C]]]; auto;
    exists s'; (split; [exact E|]); eapply ncs_ext; try exact C; intros; apply cgate_nil.
Qed.
Lemma gate_y_core_n : forall s t, wf s -> alloc s t ->
  exists s', gate_y s t = Ok s' /\
    ncs 0 (with_rx s (im_update (rx_queue s) t tneg)) s' (gate1 mY t).
Proof.
  intros s t W A. unfold gate_y. simpl.
  assert (W1 := wf_upd_rx s t tneg W).
  destruct (enqueue_op_n _ t [] OY W1 (nodup1 t)) as [s' [E C]]; auto;
    exists s'; (split; [exact E|]); eapply ncs_ext; try exact C; intros; apply cgate_nil.
Qed.

(** A step on the core seen from a state with the same core. *)
Lemma nc_use : forall k s0 s s' F, ncs k s0 s' F -> id_map s0 = id_map s -> core s0 = core s ->
  bounds w s -> norm2 w (core s) <= 1 ->
  nearw k (core s') (F (core s)) /\ norm2 w (core s') <= norm2 w (core s).
Proof.
  intros k s0 s s' F [_ _ N1] Hi Hc B N. rewrite <- Hc in *. apply N1; auto. eapply bounds_id; [|exact B]. auto.
Qed.

(** Pauli gate then factor, in place of the rotation. *)
Lemma sharp_core : forall s s0 s1 s2 cs theta sf t, id_map s0 = id_map s -> core s0 = core s -> alloc s t -> ~ In t cs ->
  cz theta = true -> ncs 0 s0 s1 (cgate cs (if sf : bool then mY else mX) t) -> ncs 0 s1 s2 (cfactor cs (rfac sf theta)) ->
  bounds w s -> norm2 w (core s) <= 1 ->
  nearw 1 (core s2) (cgate cs (rmat sf theta) t (core s)) /\ norm2 w (core s2) <= norm2 w (core s).
Proof.
  intros s s0 s1 s2 cs theta sf t Hi Hc A Hn Hcz C1 C2 B N.
  destruct (nc_use _ _ _ _ _ (ncs_trans _ _ _ _ _ _ _ C1 C2) Hi Hc B N) as [D1 D2]. split; auto.
  change 1%nat with (0 + 0 + 1)%nat. eapply near_trans; [exact D1|]. rewrite (cfactor_cgate _ _ t), cgate_comp by auto.
  rewrite mmul_mscale_l, mmul_I_l.
  assert (Q := cz_cos theta Hcz). assert (P : 0 <= cos (theta / 2) * cos (theta / 2)) by apply Rle_0_sqr.
  assert (P' : 0 <= tol * tol) by apply Rle_0_sqr.
  eapply near_instead; [| |apply rot_pauli| | |]; auto. lra.
Qed.

(** ** Flushing *)
Lemma flush_h_n : forall s t, wf s -> alloc s t -> bit (h_flag s) t = true ->
  exists s', (let* s' := apply_mch s [] t in Ok (with_h s' (set_bit (h_flag s') t false))) = Ok s' /\
    nst 1 s s' (fun x => x) /\ same_other t s s' /\ bit (h_flag s') t = false /\
    rx_queue s' = rx_queue s /\ ry_queue s' = ry_queue s.
Proof.
  intros s t W A H.
  destruct (apply_mch_n s [] t W (nodup1 t)) as [s1 [E C]]; auto.
  rewrite E. simpl. eexists; split; [reflexivity|].
  assert (C0 := C). destruct C as [[] W1 C1].
  assert (SO : same_other t s (with_h s1 (set_bit (h_flag s1) t false))).
  { constructor; simpl; intros; try congruence. rewrite bit_set_other; auto. congruence. }
  split; [|split; [exact SO|split; [apply bit_set_same|split; auto]]].
  constructor; simpl; auto.
  - destruct W1; constructor; simpl; auto. intros q Hq. apply wf_h.
    destruct (Nat.eq_dec t q); [subst; rewrite bit_set_same in Hq; discriminate|].
    rewrite bit_set_other in Hq; auto.
  - intros G _. apply rxin_eq. exact fr_rx.
  - apply (near_same 1 s _ t) with (V := mH); simpl; auto.
    + intros. apply (so_pm t); auto.
    + unfold pm. simpl. rewrite bit_set_same, fr_rx, fr_ry, H. simpl.
      rewrite mmul_I_r. rewrite !mmul_assoc. reflexivity.
    + intros B N. apply (nc_use _ s s s1 _ C0); auto.
Qed.

Lemma flush_rx_n : forall s t, wf s -> alloc s t -> bit (h_flag s) t = false ->
  exists s', flush_rx s t = Ok s' /\
    nst 1 s s' (fun x => x) /\ same_other t s s' /\ h_flag s' = h_flag s /\
    im_get (rx_queue s') t = None /\ ry_rel s s' t.
Proof.
  intros s t W A H. unfold flush_rx. destruct (im_get (rx_queue s) t) as [theta|] eqn:Hx.
  2:{ exists s. split; auto. split; [apply (nst_mono 0); [lia|]; apply nst_refl; auto|].
      split; [constructor; auto|]. unfold ry_rel. rewrite Hx. simpl. tauto. }
  destruct (cz theta) eqn:Hcz.
  - destruct (gate_x_core_n s t W A) as [s1 [E1 C1]]. rewrite H in C1.
    assert (C1c := C1). destruct C1 as [Fr1 W1 _].
    assert (Ei : id_map s1 = id_map s) by (destruct Fr1; auto).
    destruct (mcrotation_sharp_n (fun s _ t => gate_x s t) (fun s _ t => gate_y s t)
                s [] theta t false s1) as [s2 [E2 C2]]; auto using nodup1.
    assert (C2c := C2). destruct C2 as [Fr2 W2 _].
    rewrite E2. simpl. eexists; split; [reflexivity|].
    destruct Fr1 as [F1 F2 F3 F4 F5]; simpl in *.
    destruct Fr2 as [G1 G2 G3 G4 G5].
    assert (SO : same_other t s (with_rx s2 (im_remove (rx_queue s2) t))).
    { constructor; simpl; intros q Hq.
      - congruence.
      - rewrite im_get_remove. destruct (Nat.eqb_spec t q); congruence.
      - rewrite G5, F5, im_get_update. destruct (Nat.eqb_spec t q); congruence. }
    split; [|split; [exact SO|]].
    + constructor; simpl; try congruence.
      * apply wf_rem_rx; auto.
      * intros G _. apply rxin_sub. intros q. simpl. rewrite im_get_remove, G4, F4. destruct (Nat.eqb t q); auto.
      * apply (near_same 1 s _ t) with (V := mRx theta); simpl; try congruence; auto.
        { intros; apply (so_pm t); auto. }
        { unfold pm. simpl. rewrite im_get_remove, Nat.eqb_refl. simpl.
          rewrite G5, F5, im_get_update, Nat.eqb_refl, Hx, G3, F3, H. simpl. rewrite Hcz.
          rewrite !mmul_I_l, !mmul_I_r. reflexivity. }
        { intros B N. rewrite <- cgate_nil.
          eapply (sharp_core s _ s1 s2 [] theta false t); [| | | | |eapply ncs_ext; [exact C1c|intros; symmetry; apply cgate_nil]|exact C2c| |]; auto. }
    + simpl. rewrite G3, F3. split; auto. split.
      * rewrite im_get_remove, Nat.eqb_refl. reflexivity.
      * unfold ry_rel. simpl. rewrite G5, F5, im_get_update, Nat.eqb_refl.
        rewrite Hx. simpl. rewrite Hcz.
        destruct (im_get (ry_queue s) t) as [r|] eqn:Ey; simpl; split; try (split; congruence); auto.
  - destruct (mcrotation_smooth_n (fun s _ t => gate_x s t) (fun s _ t => gate_y s t)
                s [] theta t false) as [s2 [E2 C2]]; auto using nodup1.
    assert (C2c := C2). destruct C2 as [Fr2 W2 _].
    rewrite E2. simpl. eexists; split; [reflexivity|].
    destruct Fr2 as [G1 G2 G3 G4 G5].
    assert (SO : same_other t s (with_rx s2 (im_remove (rx_queue s2) t))).
    { constructor; simpl; intros q Hq; try congruence.
      rewrite im_get_remove. destruct (Nat.eqb_spec t q); congruence. }
    split; [|split; [exact SO|]].
    + constructor; simpl; try congruence.
      * apply wf_rem_rx; auto.
      * intros G _. apply rxin_sub. intros q. simpl. rewrite im_get_remove, G4. destruct (Nat.eqb t q); auto.
      * apply (near_same 1 s _ t) with (V := mRx theta); simpl; try congruence; auto.
        { intros; apply (so_pm t); auto. }
        { unfold pm. simpl. rewrite im_get_remove, Nat.eqb_refl. simpl.
          rewrite G5, Hx, G3, H. simpl. rewrite Hcz.
          rewrite mmul_I_l, !mmul_I_r. reflexivity. }
        { intros B N. rewrite <- cgate_nil. exact (nc_use _ s s s2 _ C2c eq_refl eq_refl B N). }
    + simpl. rewrite G3. split; auto. split.
      * rewrite im_get_remove, Nat.eqb_refl. reflexivity.
      * unfold ry_rel. simpl. rewrite G5, Hx. simpl. rewrite Hcz. tauto.
Qed.

Lemma flush_ry_n : forall s t, wf s -> alloc s t -> bit (h_flag s) t = false ->
  im_get (rx_queue s) t = None ->
  exists s', flush_ry s t = Ok s' /\
    nst 1 s s' (fun x => x) /\ same_other t s s' /\ no_pend s' t.
Proof.
  intros s t W A H Hrx. unfold flush_ry. destruct (im_get (ry_queue s) t) as [theta|] eqn:Hy.
  2:{ exists s. split; auto. split; [apply (nst_mono 0); [lia|]; apply nst_refl; auto|]. split; [constructor; auto|].
      repeat split; auto. }
  destruct (cz theta) eqn:Hcz.
  - destruct (gate_y_core_n s t W A) as [s1 [E1 C1]]. assert (C1c := C1). destruct C1 as [Fr1 W1 _].
    assert (Ei : id_map s1 = id_map s) by (destruct Fr1; auto).
    destruct (mcrotation_sharp_n (fun s _ t => gate_x s t) (fun s _ t => gate_y s t)
                s [] theta t true s1) as [s2 [E2 C2]]; auto using nodup1.
    assert (C2c := C2). destruct C2 as [Fr2 W2 _].
    rewrite E2. simpl. eexists; split; [reflexivity|].
    destruct Fr1 as [F1 F2 F3 F4 F5]; simpl in *.
    destruct Fr2 as [G1 G2 G3 G4 G5].
    assert (SO : same_other t s (with_ry s2 (im_remove (ry_queue s2) t))).
    { constructor; simpl; intros q Hq.
      - congruence.
      - rewrite G4, F4, im_get_update. destruct (Nat.eqb_spec t q); congruence.
      - rewrite im_get_remove. destruct (Nat.eqb_spec t q); congruence. }
    split; [|split; [exact SO|]].
    + constructor; simpl; try congruence.
      * apply wf_rem_ry; auto.
      * intros G SG N q a. simpl. rewrite G4, F4, im_get_update. destruct (Nat.eqb t q); [|apply N].
        destruct (im_get (rx_queue s) q) eqn:Eq; simpl; [|discriminate]. intros Ha. inversion Ha; subst. apply SG. eapply N; eauto.
      * apply (near_same 1 s _ t) with (V := mRy theta); simpl; try congruence; auto.
        { intros; apply (so_pm t); auto. }
        { unfold pm. simpl. rewrite im_get_remove, Nat.eqb_refl. simpl.
          rewrite G4, F4, im_get_update, Nat.eqb_refl, Hy, Hrx, G3, F3, H. simpl.
          rewrite !mmul_I_l, mmul_I_r. reflexivity. }
        { intros B N. rewrite <- cgate_nil.
          eapply (sharp_core s _ s1 s2 [] theta true t); [| | | | |eapply ncs_ext; [exact C1c|intros; symmetry; apply cgate_nil]|exact C2c| |]; auto. }
    + simpl. split; simpl; [congruence|]. split.
      * rewrite G4, F4, im_get_update, Nat.eqb_refl, Hrx. reflexivity.
      * rewrite im_get_remove, Nat.eqb_refl. reflexivity.
  - destruct (mcrotation_smooth_n (fun s _ t => gate_x s t) (fun s _ t => gate_y s t)
                s [] theta t true) as [s2 [E2 C2]]; auto using nodup1.
    assert (C2c := C2). destruct C2 as [Fr2 W2 _].
    rewrite E2. simpl. eexists; split; [reflexivity|].
    destruct Fr2 as [G1 G2 G3 G4 G5].
    assert (SO : same_other t s (with_ry s2 (im_remove (ry_queue s2) t))).
    { constructor; simpl; intros q Hq; try congruence.
      rewrite im_get_remove. destruct (Nat.eqb_spec t q); congruence. }
    split; [|split; [exact SO|]].
    + constructor; simpl; try congruence.
      * apply wf_rem_ry; auto.
      * intros G _. apply rxin_eq. exact G4.
      * apply (near_same 1 s _ t) with (V := mRy theta); simpl; try congruence; auto.
        { intros; apply (so_pm t); auto. }
        { unfold pm. simpl. rewrite im_get_remove, Nat.eqb_refl. simpl.
          rewrite G4, Hrx, Hy, G3, H. simpl.
          rewrite !mmul_I_l, !mmul_I_r. reflexivity. }
        { intros B N. rewrite <- cgate_nil. exact (nc_use _ s s s2 _ C2c eq_refl eq_refl B N). }
    + simpl. split; simpl; [congruence|]. split.
      * congruence.
      * rewrite im_get_remove, Nat.eqb_refl. reflexivity.
Qed.

Lemma flush_one_n : forall lv s t, wf s -> alloc s t ->
  exists s', flush_one lv s t = Ok s' /\ nst 3 s s' (fun x => x) /\ same_other t s s' /\
    level_done lv s s' t.
Proof.
  intros lv s t W A. unfold flush_one.
  assert (S1 : exists s1,
    (if bit (h_flag s) t then
       let* s' := apply_mch s [] t in Ok (with_h s' (set_bit (h_flag s') t false))
     else Ok s) = Ok s1 /\ nst 1 s s1 (fun x => x) /\ same_other t s s1 /\
    bit (h_flag s1) t = false /\ rx_queue s1 = rx_queue s /\ ry_queue s1 = ry_queue s).
  { destruct (bit (h_flag s) t) eqn:H.
    - apply flush_h_n; auto.
    - exists s. split; auto. split; [apply (nst_mono 0); [lia|]; apply nst_refl; auto|]. split; [apply so_refl|]. auto. }
  destruct S1 as [s1 [E1 [G1 [SO1 [H1 [X1 Y1]]]]]]. rewrite E1. unfold bind at 1.
  assert (W1 : wf s1) by apply G1. assert (A1 : alloc s1 t) by (eapply nst_alloc; eauto).
  destruct lv.
  - exists s1. split; auto. split; [apply (nst_mono 1); auto|]. split; auto. split; auto. rewrite X1, Y1. auto.
  - destruct (flush_rx_n s1 t W1 A1 H1) as [s2 [E2 [G2 [SO2 [H2 [X2 Y2]]]]]].
    exists s2. split; auto. split; [apply (nst_mono 2); auto; exact (nst_id_l 1 1 _ _ _ _ G1 G2)|].
    split; [eapply so_trans; eauto|]. split; [congruence|]. split; auto. unfold ry_rel in *. rewrite X1, Y1 in Y2. exact Y2.
  - destruct (flush_rx_n s1 t W1 A1 H1) as [s2 [E2 [G2 [SO2 [H2 [X2 Y2]]]]]].
    rewrite E2. unfold bind at 1.
    assert (W2 : wf s2) by apply G2. assert (A2 : alloc s2 t) by (eapply nst_alloc; eauto).
    destruct (flush_ry_n s2 t W2 A2) as [s3 [E3 [G3 [SO3 [N1 [N2 N3]]]]]]; [congruence|auto|].
    exists s3. split; auto.
    split; [exact (nst_id_l 1 2 _ _ _ _ G1 (nst_id_l 1 1 _ _ _ _ G2 G3))|].
    split; [eapply so_trans; [exact SO1|eapply so_trans; eauto]|]. split; auto.
Qed.

Lemma flush_fold_n : forall lv qs s, wf s -> Forall (alloc s) qs ->
  exists s', foldM (flush_one lv) qs s = Ok s' /\ nst (3 * length qs) s s' (fun x => x) /\
    less_pend s s' /\ same_outside qs s s' /\ (forall q, In q qs -> done_level lv s' q).
Proof.
  induction qs as [|t qs]; intros s W A.
  - exists s. split; auto. split; [apply nst_refl; auto|]. split; [apply less_refl|].
    split; [intros q _; auto|simpl; tauto].
  - inversion A; subst. cbn [foldM].
    destruct (flush_one_n lv s t W H1) as [s1 [E1 [G1 [SO1 L1]]]]. rewrite E1. cbn [bind].
    destruct (IHqs s1) as [s2 [E2 [G2 [L2 [O2 D2]]]]].
    + apply G1.
    + eapply nst_Forall; eauto.
    + destruct (flush_one_less _ _ _ _ SO1 L1) as [L1' O1].
      exists s2. split; auto. split.
      { replace (3 * length (t :: qs))%nat with (3 + 3 * length qs)%nat by (simpl; lia). exact (nst_id_l _ _ _ _ _ _ G1 G2). }
      split; [eapply less_trans; eauto|]. split.
      * intros q Hq. destruct (O2 q) as [? [? ?]]; [simpl in Hq; tauto|].
        destruct (O1 q) as [? [? ?]]; [simpl in *; tauto|]. repeat split; congruence.
      * intros q [->|Hq]; auto. eapply done_less; [|exact L2].
        destruct L1 as [L1a L1b]. split; auto. destruct lv; tauto.
Qed.

Lemma ncs_nst_id : forall k s s', ncs k s s' (fun x => x) -> nst k s s' (fun x => x).
Proof.
  intros k s s' C. destruct C as [Fr W Cc]. assert (Fr' := Fr). destruct Fr. constructor; auto.
  - intros G _. apply rxin_eq. exact fr_rx.
  - intros B N. assert (B' : bounds w s') by (eapply bounds_id; eauto). rewrite !norm_abs in * by auto.
    destruct (Cc B N) as [C1 [C2 C3]]. split; auto. split; auto.
    unfold abs. rewrite (frame_ids _ _ Fr'), (pendl_ext (pm s') (pm s)) by (intros; apply frame_pm; auto).
    apply near_ct; auto. apply ct_pm; auto.
Qed.

Lemma flush_queue_n : forall lv qs s, wf s -> Forall (alloc s) qs ->
  exists s', flush_queue s qs lv = Ok s' /\ nst (3 * length qs) s s' (fun x => x) /\
    less_pend s s' /\ same_outside qs s s' /\ (forall q, In q qs -> done_level lv s' q) /\
    op_queue s' = [].
Proof.
  intros lv qs s W A. unfold flush_queue.
  destruct (flush_fold_n lv qs s W A) as [s1 [E1 [G1 [L1 [O1 D1]]]]]. rewrite E1. cbn [bind].
  destruct (flush_ops_n s1) as [s2 [E2 [C2 Q2]]]; [apply G1|].
  exists s2. assert (G2 := ncs_nst_id _ _ _ C2). destruct C2 as [[] _ _].
  split; auto. split; [rewrite <- (Nat.add_0_r (3 * length qs)); exact (nst_id_l _ _ _ _ _ _ G1 G2)|].
  assert (L2 : less_pend s1 s2) by (intros q; rewrite fr_h, fr_rx, fr_ry; auto).
  split; [eapply less_trans; eauto|]. split; [|split; auto].
  - intros q Hq. rewrite fr_h, fr_rx, fr_ry. apply O1; auto.
  - intros q Hq. eapply done_less; eauto.
Qed.

Lemma maybe_flush_n : forall qs s, wf s -> Forall (alloc s) qs ->
  exists s', maybe_flush_queue s qs LHRxRy = Ok s' /\ nst (3 * length qs) s s' (fun x => x) /\
    less_pend s s' /\ same_outside qs s s' /\ (forall q, In q qs -> no_pend s' q).
Proof.
  intros qs s W A. unfold maybe_flush_queue.
  destruct (existsb (has_queued_hrxy s) qs) eqn:E.
  - destruct (flush_queue_n LHRxRy qs s W A) as [s' [E1 [G [L [O [D _]]]]]].
    exists s'. split; auto.
  - exists s. split; auto. split; [apply (nst_mono 0); [lia|]; apply nst_refl; auto|]. split; [apply less_refl|].
    split; [intros q _; auto|].
    intros q Hq. apply has_queued_false. destruct (has_queued_hrxy s q) eqn:Q; auto.
    rewrite <- not_true_iff_false in E. exfalso. apply E. apply existsb_exists. eauto.
Qed.
End NG.
