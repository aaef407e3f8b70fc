(** * Gates refine the textbook matrices *)
From Coq Require Import Reals NArith List Bool Lia Lra Permutation Arith FunctionalExtensionality.
From Verif Require Import Cx Arith ArithR IndexMap IndexMapLemmas Bits BitsLemmas Spec QLib Sim
  StateLemmas Loc Abs.
Import ListNotations.
Local Open Scope R_scope.

Section G.
Context {T : Tol} {EN : Env}.
Hypothesis horder_perm : horder_ok.

(** ** Absorbing operations into [abs] *)
Lemma abs_local : forall s s' U V t, id_map s' = id_map s -> alloc s t ->
  (forall q, q <> t -> pm s' q = pm s q) ->
  core s' = gate1 V t (core s) -> mmul (pm s' t) V = mmul U (pm s t) ->
  abs s' = gate1 U t (abs s).
Proof.
  intros s s' U V t Hi Ha Hp Hc Hm. unfold abs, ids. rewrite Hi, Hc.
  fold (ids s). rewrite pendl_pre by (try apply ids_nodup; apply ids_In; auto).
  rewrite pendl_post by (try apply ids_nodup; apply ids_In; auto).
  apply pendl_ext. intros q _. unfold upd. destruct (Nat.eqb_spec q t); auto.
Qed.

Lemma abs_same : forall s s' t, id_map s' = id_map s -> alloc s t ->
  (forall q, q <> t -> pm s' q = pm s q) ->
  forall V, core s' = gate1 V t (core s) -> mmul (pm s' t) V = pm s t ->
  abs s' = abs s.
Proof.
  intros. rewrite <- (gate1_I t (abs s)). eapply abs_local; eauto.
  rewrite mmul_I_l. auto.
Qed.

Lemma abs_ctrl : forall s s' U W cs t, id_map s' = id_map s -> alloc s t -> ~ In t cs ->
  (forall q, pm s' q = pm s q) -> (forall c, In c cs -> pm s c = mI) ->
  core s' = cgate cs W t (core s) -> mmul U (pm s t) = mmul (pm s t) W ->
  abs s' = cgate cs U t (abs s).
Proof.
  intros s s' U W cs t Hi Ha Hn Hp Hc Hcore Hm. unfold abs, ids. rewrite Hi, Hcore.
  fold (ids s). rewrite (pendl_ext (pm s') (pm s)) by auto.
  symmetry. apply pendl_cgate; auto; try apply ids_nodup.
  intros. exfalso. apply H. apply ids_In. auto.
Qed.

Lemma cfactor_cgate : forall cs f t psi, cfactor cs f psi = cgate cs (mscale f mI) t psi.
Proof.
  intros. apply functional_extensionality. intros b. unfold cfactor, cgate.
  rewrite gate1_mscale, gate1_I. reflexivity.
Qed.
Lemma cfactor_1 : forall cs psi, cfactor cs C1 psi = psi.
Proof.
  intros. apply functional_extensionality. intros b. unfold cfactor.
  destruct (forallb _ _); auto. ring.
Qed.

(** ** Rotations *)
Definition rmat (sf : bool) (theta : R) : mat := if sf then mRy theta else mRx theta.
Definition rfac (sf : bool) (theta : R) : C :=
  @amul RArith (@rot_m01 RArith theta sf) (if sf then Ci else C1).

Lemma rotmat_rmat : forall theta sf,
  rotmat (@rot_m00 RArith theta) (@rot_m01 RArith theta sf)
    (@amul RArith (@rot_m01 RArith theta sf) (if sf then (- C1)%C else C1)) = rmat sf theta.
Proof.
  intros. unfold rotmat, rmat, rot_m00, rot_m01. destruct sf; ared;
    apply mat_ext; unfold mRx, mRy, mk2; ceq.
Qed.

Lemma sin_of_cos0 : forall x, cos x = 0 -> sin x = 1 \/ sin x = -1.
Proof.
  intros. generalize (sin2_cos2 x). unfold Rsqr. rewrite H. intros.
  assert ((sin x - 1) * (sin x + 1) = 0) by lra.
  apply Rmult_integral in H1. destruct H1; [left|right]; lra.
Qed.
Lemma cos_of_sin0 : forall x, sin x = 0 -> cos x = 1 \/ cos x = -1.
Proof.
  intros. generalize (sin2_cos2 x). unfold Rsqr. rewrite H. intros.
  assert ((cos x - 1) * (cos x + 1) = 0) by lra.
  apply Rmult_integral in H1. destruct H1; [left|right]; lra.
Qed.

Lemma rmat_cz : forall theta sf, tol = 0 -> cz theta = true ->
  rmat sf theta = mscale (rfac sf theta) (if sf then mY else mX).
Proof.
  intros theta sf H0 H. unfold cz in H. apply anz_zero in H; auto. ared.
  injection H; intros Hc. unfold rmat, rfac, rot_m01. ared.
  destruct sf; apply mat_ext; unfold mRx, mRy, mscale, mX, mY, mk2; rewrite ?Hc; ceq.
Qed.

Lemma rmat_sz : forall theta sf, tol = 0 -> @anz RArith (@rot_m01 RArith theta sf) = true ->
  rmat sf theta = mscale (RtoC (cos (theta / 2))) mI /\
  (cos (theta / 2) = 1 \/ cos (theta / 2) = -1).
Proof.
  intros theta sf H0 H. apply anz_zero in H; auto. unfold rot_m01 in H. ared.
  assert (Hs : sin (theta / 2) = 0).
  { destruct sf; cunfold; simpl in H; injection H; intros; lra. }
  split; [|apply cos_of_sin0; auto].
  unfold rmat. destruct sf; apply mat_ext; unfold mRx, mRy, mscale, mI, mk2; rewrite ?Hs; ceq.
Qed.

Lemma ais1_eq : forall a, @ais1 RArith a = true -> a = C1.
Proof.
  intros [x y]. simpl. unfold Reqb. destruct (Req_EM_T x 1); [|discriminate].
  destruct (Req_EM_T y 0); [|discriminate]. intros _. subst. reflexivity.
Qed.

Lemma anz_not : forall a, @anz RArith a = false -> tol = 0 -> a <> C0.
Proof.
  intros a H H0 E. subst. simpl in H. unfold rnz, Rleb in H. rewrite H0, Rabs_R0 in H.
  destruct (Rle_dec 0 0); simpl in H; [discriminate|lra].
Qed.

Lemma mcrotation_smooth : forall px py s cs theta t sf, wf s -> NoDup (t :: cs) ->
  Forall (alloc s) (t :: cs) -> cz theta = false ->
  exists s', mcrotation_with px py s cs theta t sf = Ok s' /\ cstep s s' (cgate cs (rmat sf theta) t).
Proof.
  intros px py s cs theta t sf W D A Hc. unfold mcrotation_with.
  unfold cz in Hc. change (anz (@rot_m00 RArith theta)) with (@anz RArith (@chalf RArith theta)).
  rewrite Hc.
  destruct (anz (@rot_m01 RArith theta sf)) eqn:Hz.
  - destruct (anz (aadd (@rot_m00 RArith theta) amp1)) eqn:Hm.
    + destruct (take_ops_ok s W) as [ops' [E1 [S1 B1]]]. rewrite E1. simpl.
      destruct (resolve_ok (with_ops s []) t cs D A) as [t' [cs' [E [R1 R2]]]]. rewrite E. simpl.
      eexists; split; [reflexivity|].
      generalize (factor_ok s cs cs' ops' (- C1)%C W R2 E1). intros [F1 F2 F3].
      constructor; auto. intros H0. etransitivity; [apply F3; auto|]. rewrite (cfactor_cgate _ _ t).
      destruct (rmat_sz theta sf H0 Hz) as [E2 [E3|E3]].
      * exfalso. apply anz_zero in Hm; auto. unfold rot_m00 in Hm. ared. rewrite E3 in Hm.
        cunfold; simpl in Hm; injection Hm; intros; lra.
      * rewrite E2, E3. f_equal. apply mat_ext; unfold mscale, mI, mk2; ceq.
    + exists s. split; auto. constructor; auto using frame_refl. intros H0.
      destruct (rmat_sz theta sf H0 Hz) as [E2 [E3|E3]].
      * rewrite E2, E3. rewrite <- (cfactor_cgate cs (RtoC 1)). symmetry. apply cfactor_1.
      * exfalso. apply anz_not in Hm; auto. apply Hm. unfold rot_m00. ared. rewrite E3. ceq.
  - destruct (rot_general_ok horder_perm s cs t (@rot_m00 RArith theta) (@rot_m01 RArith theta sf)
      (amul (@rot_m01 RArith theta sf) (if sf then aopp amp1 else amp1)) W D A)
      as [t' [cs' [ops' [s' [E1 [E2 [E3 E4]]]]]]].
    rewrite E1. simpl. rewrite E2. simpl. eexists; split; [reflexivity|].
    simpl in E3. rewrite E3. rewrite <- rotmat_rmat. exact E4.
Qed.

Lemma mcrotation_sharp : forall (px py : sim -> list nat -> nat -> res sim) s cs theta t (sf : bool) s1, NoDup (t :: cs) ->
  Forall (alloc s) (t :: cs) -> cz theta = true ->
  (if sf then py s cs t else px s cs t) = Ok s1 -> id_map s1 = id_map s -> wf s1 ->
  exists s', mcrotation_with px py s cs theta t sf = Ok s' /\ cstep s1 s' (cfactor cs (rfac sf theta)).
Proof.
  intros px py s cs theta t sf s1 D A Hc Hp Hi W. unfold mcrotation_with.
  unfold cz in Hc. change (anz (@rot_m00 RArith theta)) with (@anz RArith (@chalf RArith theta)).
  rewrite Hc, Hp. simpl.
  assert (A1 : Forall (alloc s1) (t :: cs)).
  { eapply Forall_impl; [|exact A]. unfold alloc. intros. rewrite Hi. auto. }
  destruct (resolve_ok s1 t cs D A1) as [t' [cs' [E [R1 R2]]]]. rewrite E. simpl.
  change (@amul RArith (@rot_m01 RArith theta sf) (if sf then Ci else C1)) with (rfac sf theta).
  destruct (Reqb _ _ && Reqb _ _) eqn:H1.
  - exists s1. split; auto. constructor; auto using frame_refl. intros.
    change (@ais1 RArith (rfac sf theta) = true) in H1. apply ais1_eq in H1. rewrite H1.
    symmetry. apply cfactor_1.
  - destruct (take_ops_ok s1 W) as [ops' [E1 [S1 B1]]]. rewrite E1. simpl.
    eexists; split; [reflexivity|]. apply (factor_ok s1 cs cs' ops' _ W R2 E1).
Qed.

(** ** x and y on the queued operations *)
Lemma wf_upd_ry : forall s t f, wf s -> wf (with_ry s (im_update (ry_queue s) t f)).
Proof.
  intros s t f []; constructor; simpl; auto. intros q a H. rewrite im_get_update in H.
  destruct (Nat.eqb_spec t q); eauto. destruct (im_get (ry_queue s) q) eqn:E; simpl in H; [|discriminate].
  eapply wf_ry; eauto.
Qed.
Lemma wf_upd_rx : forall s t f, wf s -> wf (with_rx s (im_update (rx_queue s) t f)).
Proof.
  intros s t f []; constructor; simpl; auto. intros q a H. rewrite im_get_update in H.
  destruct (Nat.eqb_spec t q); eauto. destruct (im_get (rx_queue s) q) eqn:E; simpl in H; [|discriminate].
  eapply wf_rx; eauto.
Qed.

Lemma nodup1 : forall t : nat, NoDup [t].
Proof. intros. repeat constructor; simpl; tauto. Qed.

Lemma gate_x_core : forall s t, wf s -> alloc s t ->
  exists s', gate_x s t = Ok s' /\
    cstep (with_ry s (im_update (ry_queue s) t tneg)) s'
      (gate1 (if bit (h_flag s) t then mZ else mX) t).
Proof.
  intros s t W A. unfold gate_x. simpl.
  assert (W1 := wf_upd_ry s t tneg W).
  destruct (bit (h_flag s) t);
    [destruct (enqueue_op_ok _ t [] OZ W1 (nodup1 t)) as [s' [E C]]
    |destruct (enqueue_op_ok _ t [] OX W1 (nodup1 t)) as [s' [E C]]]; auto;
    exists s'; (split; [exact E|]); destruct C; constructor; auto; intros;
    rewrite cs_core by auto; apply cgate_nil.
Qed.

Lemma gate_y_core : forall s t, wf s -> alloc s t ->
  exists s', gate_y s t = Ok s' /\
    cstep (with_rx s (im_update (rx_queue s) t tneg)) s' (gate1 mY t).
Proof.
  intros s t W A. unfold gate_y. simpl.
  assert (W1 := wf_upd_rx s t tneg W).
  destruct (enqueue_op_ok _ t [] OY W1 (nodup1 t)) as [s' [E C]]; auto;
    exists s'; (split; [exact E|]); destruct C; constructor; auto; intros;
    rewrite cs_core by auto; apply cgate_nil.
Qed.

(** ** Flushing *)
Record same_other (t : nat) (s s' : sim) : Prop := {
  so_h : forall q, q <> t -> bit (h_flag s') q = bit (h_flag s) q;
  so_rx : forall q, q <> t -> im_get (rx_queue s') q = im_get (rx_queue s) q;
  so_ry : forall q, q <> t -> im_get (ry_queue s') q = im_get (ry_queue s) q
}.

(** Every pending [rx] angle is in [G]; [G] is closed under negation. *)
Definition rxin (G : R -> Prop) (s : sim) : Prop := forall q a, im_get (rx_queue s) q = Some a -> G a.
Definition symm (G : R -> Prop) : Prop := forall a, G a -> G (- a).
Lemma rxin_eq : forall G s s', rx_queue s' = rx_queue s -> rxin G s -> rxin G s'.
Proof. intros G s s' E H q a. rewrite E. apply H. Qed.
Lemma rxin_sub : forall G s s', (forall q, im_get (rx_queue s') q = None \/ im_get (rx_queue s') q = im_get (rx_queue s) q) ->
  rxin G s -> rxin G s'.
Proof. intros G s s' E H q a Ha. destruct (E q) as [E'|E']; [congruence|]. apply (H q). congruence. Qed.

(** Common conclusion of the gate lemmas. *)
Record gstep (s s' : sim) (F : qstate -> qstate) : Prop := {
  gs_id : id_map s' = id_map s;
  gs_rng : rng s' = rng s;
  gs_wf : wf s';
  gs_norx : forall G, symm G -> rxin G s -> rxin G s';
  gs_abs : tol = 0 -> abs s' = F (abs s)
}.

Lemma gstep_refl : forall s, wf s -> gstep s s (fun x => x).
Proof. intros; constructor; auto. Qed.
Lemma gstep_trans : forall a b c F G, gstep a b F -> gstep b c G -> gstep a c (fun x => G (F x)).
Proof.
  intros a b c F G [] []; constructor; auto; try congruence.
  intros. rewrite gs_abs1, gs_abs0; auto.
Qed.
Lemma gstep_id_l : forall a b c F, gstep a b (fun x => x) -> gstep b c F -> gstep a c F.
Proof. intros a b c F H1 H2. apply (gstep_trans _ _ _ _ _ H1 H2). Qed.
Lemma gstep_ext : forall a b F G, gstep a b F -> (forall x, F x = G x) -> gstep a b G.
Proof. intros a b F G [] H; constructor; auto. intros. rewrite gs_abs0; auto. Qed.

Lemma so_pm : forall t s s' q, same_other t s s' -> q <> t -> pm s' q = pm s q.
Proof. intros t s s' q [] H. unfold pm. rewrite so_h0, so_rx0, so_ry0; auto. Qed.

(** Flush of a pending H (lib.rs:592-595). *)
Lemma flush_h_ok : forall s t, wf s -> alloc s t -> bit (h_flag s) t = true ->
  exists s', (let* s' := apply_mch s [] t in Ok (with_h s' (set_bit (h_flag s') t false))) = Ok s' /\
    gstep s s' (fun x => x) /\ same_other t s s' /\ bit (h_flag s') t = false /\
    rx_queue s' = rx_queue s /\ ry_queue s' = ry_queue s.
Proof.
  intros s t W A H.
  destruct (apply_mch_ok horder_perm s [] t W (nodup1 t)) as [s1 [E C]]; auto.
  rewrite E. simpl. eexists; split; [reflexivity|].
  destruct C as [[] W1 C1].
  assert (SO : same_other t s (with_h s1 (set_bit (h_flag s1) t false))).
  { constructor; simpl; intros; try congruence. rewrite bit_set_other; auto. congruence. }
  split; [|split; [exact SO|split; [apply bit_set_same|split; auto]]].
  constructor; simpl; auto.
  - destruct W1; constructor; simpl; auto. intros q Hq. apply wf_h.
    destruct (Nat.eq_dec t q); [subst; rewrite bit_set_same in Hq; discriminate|].
    rewrite bit_set_other in Hq; auto.
  - intros G _. apply rxin_eq. exact fr_rx.
  - intros H0. apply (abs_same s _ t) with (V := mH); simpl; auto.
    + intros. apply (so_pm t); auto.
    + unfold pm. simpl. rewrite bit_set_same, fr_rx, fr_ry, H. simpl.
      rewrite mmul_I_r. rewrite !mmul_assoc. reflexivity.
Qed.

Definition no_pend (s : sim) (q : nat) : Prop :=
  bit (h_flag s) q = false /\ im_get (rx_queue s) q = None /\ im_get (ry_queue s) q = None.

Lemma no_pend_pm : forall s q, no_pend s q -> pm s q = mI.
Proof.
  intros s q [H1 [H2 H3]]. unfold pm. rewrite H1, H2, H3. simpl. now rewrite !mmul_I_l.
Qed.

Lemma wf_rem_rx : forall s t, wf s -> wf (with_rx s (im_remove (rx_queue s) t)).
Proof.
  intros s t []; constructor; simpl; auto. intros q a H. rewrite im_get_remove in H.
  destruct (Nat.eqb t q); [discriminate|]. eauto.
Qed.
Lemma wf_rem_ry : forall s t, wf s -> wf (with_ry s (im_remove (ry_queue s) t)).
Proof.
  intros s t []; constructor; simpl; auto. intros q a H. rewrite im_get_remove in H.
  destruct (Nat.eqb t q); [discriminate|]. eauto.
Qed.

(** Flush of a pending Rx once H is not pending. *)
Definition ry_rel (s s' : sim) (t : nat) : Prop :=
  (im_get (ry_queue s') t = None <-> im_get (ry_queue s) t = None) /\
  im_get (ry_queue s') t = effy (im_get (rx_queue s) t) (im_get (ry_queue s) t).

Lemma flush_rx_ok : forall s t, wf s -> alloc s t -> bit (h_flag s) t = false ->
  exists s', flush_rx s t = Ok s' /\
    gstep s s' (fun x => x) /\ same_other t s s' /\ h_flag s' = h_flag s /\
    im_get (rx_queue s') t = None /\ ry_rel s s' t.
Proof.
  intros s t W A H. unfold flush_rx. destruct (im_get (rx_queue s) t) as [theta|] eqn:Hx.
  2:{ exists s. split; auto. split; [apply gstep_refl; auto|]. split; [constructor; auto|]. unfold ry_rel. rewrite Hx. simpl. tauto. }
  destruct (cz theta) eqn:Hcz.
  - destruct (gate_x_core s t W A) as [s1 [E1 [Fr1 W1 C1]]]. rewrite H in C1.
    assert (Ei : id_map s1 = id_map s) by (destruct Fr1; auto).
    destruct (mcrotation_sharp (fun s _ t => gate_x s t) (fun s _ t => gate_y s t)
                s [] theta t false s1) as [s2 [E2 [Fr2 W2 C2]]]; auto using nodup1.
    rewrite E2. simpl. eexists; split; [reflexivity|].
    destruct Fr1 as [F1 F2 F3 F4 F5]; simpl in *.
    destruct Fr2 as [G1 G2 G3 G4 G5].
    assert (SO : same_other t s (with_rx s2 (im_remove (rx_queue s2) t))).
    { constructor; simpl; intros q Hq.
      - congruence.
      - rewrite im_get_remove. destruct (Nat.eqb_spec t q); congruence.
      - rewrite G5, F5, im_get_update. destruct (Nat.eqb_spec t q); congruence. }
    split; [|split; [exact SO|]].
    + constructor; simpl; try congruence.
      * apply wf_rem_rx; auto.
      * intros G _. apply rxin_sub. intros q. simpl. rewrite im_get_remove, G4, F4. destruct (Nat.eqb t q); auto.
      * intros H0.
        apply (abs_same s _ t) with (V := mRx theta); simpl; try congruence; auto.
        { intros; apply (so_pm t); auto. }
        { change (core s2 = gate1 (mRx theta) t (core s)).
          rewrite C2, C1 by auto. rewrite (cfactor_cgate _ _ t), cgate_nil.
          rewrite gate1_comp. change (mRx theta) with (rmat false theta).
          rewrite rmat_cz by auto.
          f_equal. apply mat_ext; unfold mmul, mscale, mI, mX, mk2; ring. }
        { unfold pm. simpl. rewrite im_get_remove, Nat.eqb_refl. simpl.
          rewrite G5, F5, im_get_update, Nat.eqb_refl, Hx, G3, F3, H. simpl. rewrite Hcz.
          rewrite !mmul_I_l, !mmul_I_r. reflexivity. }
    + simpl. rewrite G3, F3. split; auto. split.
      * rewrite im_get_remove, Nat.eqb_refl. reflexivity.
      * unfold ry_rel. simpl. rewrite G5, F5, im_get_update, Nat.eqb_refl.
        rewrite Hx. simpl. rewrite Hcz.
        destruct (im_get (ry_queue s) t) as [r|] eqn:Ey; simpl; split; try (split; congruence); auto.
  - destruct (mcrotation_smooth (fun s _ t => gate_x s t) (fun s _ t => gate_y s t)
                s [] theta t false) as [s2 [E2 [Fr2 W2 C2]]]; auto using nodup1.
    rewrite E2. simpl. eexists; split; [reflexivity|].
    destruct Fr2 as [G1 G2 G3 G4 G5].
    assert (SO : same_other t s (with_rx s2 (im_remove (rx_queue s2) t))).
    { constructor; simpl; intros q Hq; try congruence.
      rewrite im_get_remove. destruct (Nat.eqb_spec t q); congruence. }
    split; [|split; [exact SO|]].
    + constructor; simpl; try congruence.
      * apply wf_rem_rx; auto.
      * intros G _. apply rxin_sub. intros q. simpl. rewrite im_get_remove, G4. destruct (Nat.eqb t q); auto.
      * intros H0.
        apply (abs_same s _ t) with (V := mRx theta); simpl; try congruence; auto.
        { intros; apply (so_pm t); auto. }
        { unfold pm. simpl. rewrite im_get_remove, Nat.eqb_refl. simpl.
          rewrite G5, Hx, G3, H. simpl. rewrite Hcz.
          rewrite mmul_I_l, !mmul_I_r. reflexivity. }
    + simpl. rewrite G3. split; auto. split.
      * rewrite im_get_remove, Nat.eqb_refl. reflexivity.
      * unfold ry_rel. simpl. rewrite G5, Hx. simpl. rewrite Hcz. tauto.
Qed.

(** Flush of a pending Ry once neither H nor Rx is pending. *)
Lemma flush_ry_ok : forall s t, wf s -> alloc s t -> bit (h_flag s) t = false ->
  im_get (rx_queue s) t = None ->
  exists s', flush_ry s t = Ok s' /\
    gstep s s' (fun x => x) /\ same_other t s s' /\ no_pend s' t.
Proof.
  intros s t W A H Hrx. unfold flush_ry. destruct (im_get (ry_queue s) t) as [theta|] eqn:Hy.
  2:{ exists s. split; auto. split; [apply gstep_refl; auto|]. split; [constructor; auto|].
      repeat split; auto. }
  destruct (cz theta) eqn:Hcz.
  - destruct (gate_y_core s t W A) as [s1 [E1 [Fr1 W1 C1]]].
    assert (Ei : id_map s1 = id_map s) by (destruct Fr1; auto).
    destruct (mcrotation_sharp (fun s _ t => gate_x s t) (fun s _ t => gate_y s t)
                s [] theta t true s1) as [s2 [E2 [Fr2 W2 C2]]]; auto using nodup1.
    rewrite E2. simpl. eexists; split; [reflexivity|].
    destruct Fr1 as [F1 F2 F3 F4 F5]; simpl in *.
    destruct Fr2 as [G1 G2 G3 G4 G5].
    assert (SO : same_other t s (with_ry s2 (im_remove (ry_queue s2) t))).
    { constructor; simpl; intros q Hq.
      - congruence.
      - rewrite G4, F4, im_get_update. destruct (Nat.eqb_spec t q); congruence.
      - rewrite im_get_remove. destruct (Nat.eqb_spec t q); congruence. }
    split; [|split; [exact SO|]].
    + constructor; simpl; try congruence.
      * apply wf_rem_ry; auto.
      * intros G SG N q a. simpl. rewrite G4, F4, im_get_update. destruct (Nat.eqb t q); [|apply N].
        destruct (im_get (rx_queue s) q) eqn:Eq; simpl; [|discriminate]. intros Ha. inversion Ha; subst. apply SG. eapply N; eauto.
      * intros H0.
        apply (abs_same s _ t) with (V := mRy theta); simpl; try congruence; auto.
        { intros; apply (so_pm t); auto. }
        { change (core s2 = gate1 (mRy theta) t (core s)).
          rewrite C2, C1 by auto. rewrite (cfactor_cgate _ _ t), cgate_nil.
          rewrite gate1_comp. change (mRy theta) with (rmat true theta).
          rewrite rmat_cz by auto.
          f_equal. apply mat_ext; unfold mmul, mscale, mI, mY, mk2; ring. }
        { unfold pm. simpl. rewrite im_get_remove, Nat.eqb_refl. simpl.
          rewrite G4, F4, im_get_update, Nat.eqb_refl, Hy, Hrx, G3, F3, H. simpl.
          rewrite !mmul_I_l, mmul_I_r. reflexivity. }
    + simpl. split; simpl; [congruence|]. split.
      * rewrite G4, F4, im_get_update, Nat.eqb_refl, Hrx. reflexivity.
      * rewrite im_get_remove, Nat.eqb_refl. reflexivity.
  - destruct (mcrotation_smooth (fun s _ t => gate_x s t) (fun s _ t => gate_y s t)
                s [] theta t true) as [s2 [E2 [Fr2 W2 C2]]]; auto using nodup1.
    rewrite E2. simpl. eexists; split; [reflexivity|].
    destruct Fr2 as [G1 G2 G3 G4 G5].
    assert (SO : same_other t s (with_ry s2 (im_remove (ry_queue s2) t))).
    { constructor; simpl; intros q Hq; try congruence.
      rewrite im_get_remove. destruct (Nat.eqb_spec t q); congruence. }
    split; [|split; [exact SO|]].
    + constructor; simpl; try congruence.
      * apply wf_rem_ry; auto.
      * intros G _. apply rxin_eq. exact G4.
      * intros H0.
        apply (abs_same s _ t) with (V := mRy theta); simpl; try congruence; auto.
        { intros; apply (so_pm t); auto. }
        { unfold pm. simpl. rewrite im_get_remove, Nat.eqb_refl. simpl.
          rewrite G4, Hrx, Hy, G3, H. simpl.
          rewrite !mmul_I_l, !mmul_I_r. reflexivity. }
    + simpl. split; simpl; [congruence|]. split.
      * congruence.
      * rewrite im_get_remove, Nat.eqb_refl. reflexivity.
Qed.

Lemma so_refl : forall t s, same_other t s s.
Proof. intros; constructor; auto. Qed.
Lemma so_trans : forall t a b c, same_other t a b -> same_other t b c -> same_other t a c.
Proof.
  intros t a b c [] []; constructor; intros; [rewrite so_h1|rewrite so_rx1|rewrite so_ry1]; auto.
Qed.

Definition level_done (lv : level) (s s' : sim) (t : nat) : Prop :=
  bit (h_flag s') t = false /\
  match lv with
  | LH => im_get (rx_queue s') t = im_get (rx_queue s) t /\
          im_get (ry_queue s') t = im_get (ry_queue s) t
  | LHRx => im_get (rx_queue s') t = None /\ ry_rel s s' t
  | LHRxRy => im_get (rx_queue s') t = None /\ im_get (ry_queue s') t = None
  end.

Lemma gstep_alloc : forall s s' F q, gstep s s' F -> (alloc s' q <-> alloc s q).
Proof. intros s s' F q []. unfold alloc. rewrite gs_id0. tauto. Qed.

Lemma flush_one_ok : forall lv s t, wf s -> alloc s t ->
  exists s', flush_one lv s t = Ok s' /\ gstep s s' (fun x => x) /\ same_other t s s' /\
    level_done lv s s' t.
Proof.
  intros lv s t W A. unfold flush_one.
  assert (S1 : exists s1,
    (if bit (h_flag s) t then
       let* s' := apply_mch s [] t in Ok (with_h s' (set_bit (h_flag s') t false))
     else Ok s) = Ok s1 /\ gstep s s1 (fun x => x) /\ same_other t s s1 /\
    bit (h_flag s1) t = false /\ rx_queue s1 = rx_queue s /\ ry_queue s1 = ry_queue s).
  { destruct (bit (h_flag s) t) eqn:H.
    - apply flush_h_ok; auto.
    - exists s. split; auto. split; [apply gstep_refl; auto|]. split; [apply so_refl|]. auto. }
  destruct S1 as [s1 [E1 [G1 [SO1 [H1 [X1 Y1]]]]]]. rewrite E1. unfold bind at 1.
  assert (W1 : wf s1) by apply G1. assert (A1 : alloc s1 t) by (eapply gstep_alloc; eauto).
  destruct lv.
  - exists s1. split; auto. split; auto. split; auto. split; auto. rewrite X1, Y1. auto.
  - destruct (flush_rx_ok s1 t W1 A1 H1) as [s2 [E2 [G2 [SO2 [H2 [X2 Y2]]]]]].
    exists s2. split; auto. split; [eapply gstep_id_l; eauto|].
    split; [eapply so_trans; eauto|]. split; [congruence|]. split; auto. unfold ry_rel in *. rewrite X1, Y1 in Y2. exact Y2.
  - destruct (flush_rx_ok s1 t W1 A1 H1) as [s2 [E2 [G2 [SO2 [H2 [X2 Y2]]]]]].
    rewrite E2. unfold bind at 1.
    assert (W2 : wf s2) by apply G2. assert (A2 : alloc s2 t) by (eapply gstep_alloc; eauto).
    destruct (flush_ry_ok s2 t W2 A2) as [s3 [E3 [G3 [SO3 [N1 [N2 N3]]]]]]; [congruence|auto|].
    exists s3. split; auto.
    split; [eapply gstep_id_l; [exact G1|eapply gstep_id_l; eauto]|].
    split; [eapply so_trans; [exact SO1|eapply so_trans; eauto]|]. split; auto.
Qed.

(** What a flush leaves of the pending operations. *)
Definition less_pend (s s' : sim) : Prop := forall q,
  (bit (h_flag s) q = false -> bit (h_flag s') q = false) /\
  (im_get (rx_queue s) q = None -> im_get (rx_queue s') q = None) /\
  (im_get (ry_queue s) q = None -> im_get (ry_queue s') q = None).

Definition same_outside (qs : list nat) (s s' : sim) : Prop := forall q, ~ In q qs ->
  bit (h_flag s') q = bit (h_flag s) q /\
  im_get (rx_queue s') q = im_get (rx_queue s) q /\
  im_get (ry_queue s') q = im_get (ry_queue s) q.

Lemma flush_one_less : forall lv s s' t, same_other t s s' -> level_done lv s s' t ->
  less_pend s s' /\ same_outside [t] s s'.
Proof.
  intros lv s s' t [] L. split.
  - intros q. destruct (Nat.eq_dec q t).
    + subst. destruct L as [L1 L2].
      destruct lv; destruct L2 as [L2 L3]; repeat split; intros; auto; try congruence; try (apply L3; auto).
    + rewrite so_h0, so_rx0, so_ry0; auto.
  - intros q Hq. simpl in Hq. rewrite so_h0, so_rx0, so_ry0 by (intro; subst; tauto). auto.
Qed.

Lemma less_trans : forall a b c, less_pend a b -> less_pend b c -> less_pend a c.
Proof. intros a b c H1 H2 q. destruct (H1 q) as [? [? ?]]. destruct (H2 q) as [? [? ?]]. auto. Qed.
Lemma less_refl : forall s, less_pend s s.
Proof. intros s q; auto. Qed.

Lemma less_no_pend : forall s s' q, less_pend s s' -> no_pend s q -> no_pend s' q.
Proof. intros s s' q L [H1 [H2 H3]]. destruct (L q) as [? [? ?]]. repeat split; auto. Qed.

Definition done_level (lv : level) (s' : sim) (q : nat) : Prop :=
  bit (h_flag s') q = false /\
  match lv with
  | LH => True
  | LHRx => im_get (rx_queue s') q = None
  | LHRxRy => im_get (rx_queue s') q = None /\ im_get (ry_queue s') q = None
  end.

Lemma done_less : forall lv s s' q, done_level lv s q -> less_pend s s' -> done_level lv s' q.
Proof.
  intros lv s s' q [H1 H2] L. destruct (L q) as [L1 [L2 L3]]. split; auto.
  destruct lv; intuition.
Qed.

Lemma flush_fold_ok : forall lv qs s, wf s -> Forall (alloc s) qs ->
  exists s', foldM (flush_one lv) qs s = Ok s' /\ gstep s s' (fun x => x) /\
    less_pend s s' /\ same_outside qs s s' /\ (forall q, In q qs -> done_level lv s' q).
Proof.
  induction qs as [|t qs]; simpl; intros s W A.
  - exists s. split; auto. split; [apply gstep_refl; auto|]. split; [apply less_refl|].
    split; [intros q _; auto|tauto].
  - inversion A; subst.
    destruct (flush_one_ok lv s t W H1) as [s1 [E1 [G1 [SO1 L1]]]]. rewrite E1. simpl.
    destruct (IHqs s1) as [s2 [E2 [G2 [L2 [O2 D2]]]]].
    + apply G1.
    + eapply Forall_impl; [|exact H2]. intros. eapply gstep_alloc; eauto.
    + destruct (flush_one_less _ _ _ _ SO1 L1) as [L1' O1].
      exists s2. split; auto. split; [eapply gstep_id_l; eauto|].
      split; [eapply less_trans; eauto|]. split.
      * intros q Hq. destruct (O2 q) as [? [? ?]]; [simpl in Hq; tauto|].
        destruct (O1 q) as [? [? ?]]; [simpl in *; tauto|]. repeat split; congruence.
      * intros q [->|Hq]; auto. eapply done_less; [|exact L2].
        destruct L1 as [L1a L1b]. split; auto. destruct lv; tauto.
Qed.

Lemma cstep_gstep_id : forall s s', cstep s s' (fun x => x) -> gstep s s' (fun x => x).
Proof.
  intros s s' C. assert (C' := C). destruct C as [Fr W Cc]. destruct Fr. constructor; auto.
  - intros G _. apply rxin_eq. exact fr_rx.
  - intros H0. rewrite (cstep_abs _ _ _ C') by auto. reflexivity.
Qed.

Lemma flush_queue_ok : forall lv qs s, wf s -> Forall (alloc s) qs ->
  exists s', flush_queue s qs lv = Ok s' /\ gstep s s' (fun x => x) /\
    less_pend s s' /\ same_outside qs s s' /\ (forall q, In q qs -> done_level lv s' q) /\
    op_queue s' = [].
Proof.
  intros lv qs s W A. unfold flush_queue.
  destruct (flush_fold_ok lv qs s W A) as [s1 [E1 [G1 [L1 [O1 D1]]]]]. rewrite E1. simpl.
  destruct (flush_ops_ok s1) as [s2 [E2 [C2 Q2]]]; [apply G1|].
  exists s2. assert (G2 := cstep_gstep_id _ _ C2). destruct C2 as [[] _ _].
  split; auto. split; [eapply gstep_id_l; eauto|].
  assert (L2 : less_pend s1 s2) by (intros q; rewrite fr_h, fr_rx, fr_ry; auto).
  split; [eapply less_trans; eauto|]. split; [|split; auto].
  - intros q Hq. rewrite fr_h, fr_rx, fr_ry. apply O1; auto.
  - intros q Hq. eapply done_less; eauto.
Qed.

Lemma has_queued_false : forall s q, has_queued_hrxy s q = false -> no_pend s q.
Proof.
  intros s q H. unfold has_queued_hrxy in H. apply orb_false_iff in H. destruct H as [H H3].
  apply orb_false_iff in H. destruct H as [H1 H2].
  rewrite im_contains_false in H2, H3. repeat split; auto.
Qed.

Lemma maybe_flush_ok : forall qs s, wf s -> Forall (alloc s) qs ->
  exists s', maybe_flush_queue s qs LHRxRy = Ok s' /\ gstep s s' (fun x => x) /\
    less_pend s s' /\ same_outside qs s s' /\ (forall q, In q qs -> no_pend s' q).
Proof.
  intros qs s W A. unfold maybe_flush_queue.
  destruct (existsb (has_queued_hrxy s) qs) eqn:E.
  - destruct (flush_queue_ok LHRxRy qs s W A) as [s' [E1 [G [L [O [D _]]]]]].
    exists s'. split; auto.
  - exists s. split; auto. split; [apply gstep_refl; auto|]. split; [apply less_refl|].
    split; [intros q _; auto|].
    intros q Hq. apply has_queued_false. destruct (has_queued_hrxy s q) eqn:Q; auto.
    rewrite <- not_true_iff_false in E. exfalso. apply E. apply existsb_exists. eauto.
Qed.
End G.
