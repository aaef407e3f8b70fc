(** * Gates up to the amplitudes dropped below the threshold: every gate

    The lemmas of Gates2.v again, for every threshold, with the number of dropping steps. *)
From Coq Require Import Reals NArith List Bool Lia Lra Permutation Arith FunctionalExtensionality.
From Verif Require Import Cx Arith ArithR IndexMap IndexMapLemmas Bits BitsLemmas Spec QLib QSum Sim
  StateLemmas Loc Abs Gates Gates2 Meas SpecNear Near NearGates.
Import ListNotations.
Local Open Scope R_scope.

Section NG2.
Context {T : Tol} {EN : Env}.
Hypothesis horder_perm : horder_ok.
Hypothesis tol_lo : 0 <= tol.
Hypothesis tol_hi : tol <= 1 / 2.
Variable w : nat.

Notation nearw := (near w).
Notation ncs := (NearGates.ncs w).
Notation nst := (NearGates.nst w).
Notation flush_queue_n := (NearGates.flush_queue_n horder_perm tol_lo tol_hi w).
Notation maybe_flush_n := (NearGates.maybe_flush_n horder_perm tol_lo tol_hi w).
Notation flush_one_n := (NearGates.flush_one_n horder_perm tol_lo tol_hi w).
Notation enqueue_op_n := (NearGates.enqueue_op_n tol_lo w).
Notation apply_mch_n := (NearGates.apply_mch_n horder_perm tol_lo w).
Notation flush_ops_n := (NearGates.flush_ops_n tol_lo w).
Notation gate_x_core_n := (NearGates.gate_x_core_n tol_lo w).
Notation gate_y_core_n := (NearGates.gate_y_core_n tol_lo w).
Notation nst_mono := (NearGates.nst_mono tol_lo w).
Notation ncs_mono := (NearGates.ncs_mono tol_lo w).
Notation nst_refl := (NearGates.nst_refl tol_lo w).

Ltac eqb_destruct := match goal with |- context[Nat.eqb ?a ?b] => destruct (Nat.eqb_spec a b) end.

Lemma nst_none : forall k s, wf s -> nst k s s (fun x => x).
Proof. intros. apply (nst_mono 0); [lia|]. apply nst_refl; auto. Qed.
Lemma nst_seq : forall n j k a b c F, nst j a b (fun x => x) -> nst k b c F -> (j + k <= n)%nat -> nst n a c F.
Proof. intros n j k a b c F H1 H2 H3. apply (nst_mono (j + k)); auto. eapply nst_id_l; eauto. Qed.
Lemma ncs_less : forall k s s' F, ncs k s s' F -> less_pend s s'.
Proof. intros k s s' F [[]] q. rewrite fr_h, fr_rx, fr_ry. auto. Qed.

(** ** Pauli gates *)
Lemma gate_x_n : forall s t, wf s -> alloc s t ->
  exists s', gate_x s t = Ok s' /\ nst 0 s s' (gate1 mX t) /\ less_pend s s'.
Proof.
  intros s t W A. destruct (gate_x_core_n s t W A) as [s' [E C]]. assert (Cc := C). destruct C as [Fr W' C].
  exists s'. split; auto. destruct Fr as [F1 F2 F3 F4 F5]; simpl in *. split.
  - constructor; auto.
    + intros G _. apply rxin_eq. exact F4.
    + apply (near_local w 0 s s' mX (if bit (h_flag s) t then mZ else mX) t); auto using uX.
      * intros q Hq. unfold pm. rewrite F3, F4, F5, im_get_update. eqb_destruct; congruence.
      * unfold pm. rewrite F3, F4, F5, im_get_update, Nat.eqb_refl.
        rewrite X_ryo, X_rxo, X_h, <- effy_neg. rewrite !mmul_assoc. reflexivity.
      * intros B N. exact (nc_use w _ _ s s' _ Cc eq_refl eq_refl B N).
  - intros q. rewrite F3, F4, F5, im_get_update. repeat split; auto.
    intros Hq. rewrite Hq. destruct (Nat.eqb t q); auto.
Qed.

Lemma unitary_mscale : forall c U, Cn2 c = 1 -> unitary U -> unitary (mscale c U).
Proof.
  intros c U Hc HU.
  replace (mscale c U) with (mmul (mscale c mI) U) by (apply mat_ext; unfold mmul, mscale, mI, mk2; ring).
  apply unitary_mmul; auto. intros a b. unfold mscale, mI, mk2.
  replace (c * C1 * a + c * C0 * b)%C with (c * a)%C by ring.
  replace (c * C0 * a + c * C1 * b)%C with (c * b)%C by ring.
  rewrite !Cn2_mul, Hc. ring.
Qed.

Lemma gate_y_n : forall s t, wf s -> alloc s t ->
  exists s', gate_y s t = Ok s' /\
    nst 0 s s' (fun psi => scale (ysign (bit (h_flag s) t)) (gate1 mY t psi)) /\ less_pend s s'.
Proof.
  intros s t W A. destruct (gate_y_core_n s t W A) as [s' [E C]]. assert (Cc := C). destruct C as [Fr W' C].
  exists s'. split; auto. destruct Fr as [F1 F2 F3 F4 F5]; simpl in *. split.
  - apply (nst_ext w 0 s s' (gate1 (mscale (ysign (bit (h_flag s) t)) mY) t)); [|intros; apply gate1_mscale].
    constructor; auto.
    + intros G SG N. apply (rxin_eq G (with_rx s (im_update (rx_queue s) t tneg))); [exact F4|exact (rxin_upd G s t SG N)].
    + apply (near_local w 0 s s' _ mY t); auto using unitary_mscale, Cn2_ysign, uY.
      * intros q Hq. unfold pm. rewrite F3, F4, F5, im_get_update. eqb_destruct; congruence.
      * unfold pm. rewrite F3, F4, F5, im_get_update, Nat.eqb_refl.
        rewrite mmul_mscale_l, Y_ryo, Y_rxo, Y_h. rewrite !mmul_mscale_r, mscale_mscale, ysign_sq, mscale_1.
        rewrite <- (effy_negx (im_get (rx_queue s) t)).
        rewrite !mmul_assoc. reflexivity.
      * intros B N. exact (nc_use w _ _ s s' _ Cc eq_refl eq_refl B N).
  - intros q. rewrite F3, F4, F5, im_get_update. repeat split; auto.
    intros Hq. rewrite Hq. destruct (Nat.eqb t q); auto.
Qed.

Lemma gate_z_n : forall s t, wf s -> alloc s t ->
  exists s', gate_z s t = Ok s' /\ nst 0 s s' (gate1 mZ t).
Proof.
  intros s t W A. unfold gate_z. simpl.
  assert (W1 := wf_upd_rx _ t tneg (wf_upd_ry s t tneg W)). simpl in W1.
  set (s1 := with_rx _ _) in *.
  assert (P : exists s', (if bit (h_flag s) t then enqueue_op s1 t [] OX else enqueue_op s1 t [] OZ) = Ok s' /\
    ncs 0 s1 s' (gate1 (if bit (h_flag s) t then mX else mZ) t)).
  { destruct (bit (h_flag s) t);
    [destruct (enqueue_op_n s1 t [] OX W1 (nodup1 t)) as [s' [E C]]
    |destruct (enqueue_op_n s1 t [] OZ W1 (nodup1 t)) as [s' [E C]]]; auto;
    exists s'; (split; [exact E|]); eapply ncs_ext; try exact C; intros; apply cgate_nil. }
  destruct P as [s' [E C]]. exists s'. split; auto. assert (Cc := C). destruct C as [Fr W' C].
  destruct Fr as [F1 F2 F3 F4 F5]; simpl in *.
  constructor; auto.
  - intros G SG N. apply (rxin_eq G (with_rx s (im_update (rx_queue s) t tneg))); [exact F4|exact (rxin_upd G s t SG N)].
  - apply (near_local w 0 s s' mZ (if bit (h_flag s) t then mX else mZ) t); auto using uZ.
    + intros q Hq. unfold pm. rewrite F3, F4, F5, !im_get_update. eqb_destruct; congruence.
    + unfold pm. rewrite F3, F4, F5, !im_get_update, !Nat.eqb_refl.
      rewrite Z_ryo, Z_rxo, Z_h, <- effy_neg, <- (effy_negx (im_get (rx_queue s) t)). rewrite !mmul_assoc. reflexivity.
    + intros B N. exact (nc_use w _ _ s s' _ Cc eq_refl eq_refl B N).
Qed.

(** ** Controlled operations added to the queue *)
Lemma ncs_abs : forall k s s' F U, ncs k s s' F ->
  (forall psi, pendl (pm s) (ids s) (F psi) = U (pendl (pm s) (ids s) psi)) ->
  (bounds w s -> contraction w U) -> nst k s s' U.
Proof.
  intros k s s' F U C H Ct. assert (Cc := C). destruct C as [Fr W' C]. constructor; auto; try apply Fr.
  - destruct Fr. intros G _. apply rxin_eq. exact fr_rx.
  - intros B N. assert (B' : bounds w s') by (eapply bounds_id; [apply Fr|exact B]). rewrite !norm_abs in * by auto.
    destruct (C B N) as [C1 [C2 C3]]. split; auto. split; auto.
    unfold abs. rewrite <- H, (frame_ids _ _ Fr), (pendl_ext (pm s') (pm s)) by (intros; apply frame_pm; auto).
    apply near_ct; auto. apply ct_pm; auto.
Qed.

Lemma ncs_ctrl : forall k s s' U W cs t, ncs k s s' (cgate cs W t) -> alloc s t -> ~ In t cs ->
  (forall c, In c cs -> no_pend s c) -> unitary U -> mmul U (pm s t) = mmul (pm s t) W ->
  nst k s s' (cgate cs U t).
Proof.
  intros k s s' U W cs t C A Hn Hc HU Hm. apply (ncs_abs k s s' (cgate cs W t)); auto.
  - intros psi. symmetry. apply pendl_cgate; auto; try apply ids_nodup.
    + intros. apply no_pend_pm; auto.
    + intros Hi. exfalso. apply Hi. apply ids_In. auto.
  - intros B. apply ct_cgate; auto.
Qed.

Lemma cx_reversed_n : forall k s s' c t, ncs k s s' (cgate [t] mX c) -> alloc s t -> alloc s c -> t <> c ->
  bit (h_flag s) c = true -> im_get (rx_queue s) c = None -> im_get (ry_queue s) c = None ->
  bit (h_flag s) t = true -> im_get (ry_queue s) t = None ->
  nst k s s' (cgate [c] mX t).
Proof.
  intros k s s' c t C At Ac Hne Hhc Hxc Hyc Hht Hyt.
  apply (ncs_abs k s s' (cgate [t] mX c)); auto.
  2:{ intros B. apply ct_cgate; auto using uX. simpl; intros [?|[]]; congruence. }
  intros psi.
    assert (Pc : pm s c = mH) by (unfold pm; rewrite Hhc, Hxc, Hyc; simpl; now rewrite !mmul_I_l).
    assert (Pt : pm s t = mmul (rxo (im_get (rx_queue s) t)) mH)
      by (unfold pm; rewrite Hht, Hyt, effy_none; simpl; now rewrite !mmul_I_l).
    set (f := pm s) in *. set (f0 := upd (upd f c mI) t mI).
    assert (S : forall psi, pendl f (ids s) psi =
              gate1 (rxo (im_get (rx_queue s) t)) t (gate1 mH t (gate1 mH c (pendl f0 (ids s) psi)))).
    { intros. rewrite (gate1_comp _ mH t). rewrite <- Pt.
      rewrite (pendl_post f0 (ids s) mH c) by (try apply ids_nodup; apply ids_In; auto).
      rewrite pendl_post by (try apply ids_nodup; apply ids_In; auto).
      apply pendl_ext. intros q _. unfold f0, upd.
      destruct (Nat.eqb_spec q t).
      - subst q. rewrite !Nat.eqb_refl. destruct (Nat.eqb_spec t c); [congruence|]. now rewrite mmul_I_r.
      - destruct (Nat.eqb_spec q c); auto. subst q.
        destruct (Nat.eqb_spec c t); [congruence|]. rewrite !Nat.eqb_refl, mmul_I_r. auto. }
    rewrite !S.
    rewrite (cgate_conj [c] mX (rxo (im_get (rx_queue s) t)) mX t).
    2:{ simpl; intros [?|[]]; congruence. }
    2:{ generalize (X_rxo (im_get (rx_queue s) t) mI). now rewrite !mmul_I_r. }
    f_equal.
    rewrite (cgate_conj [c] mX mH mZ t).
    2:{ simpl; intros [?|[]]; congruence. }
    2:{ apply XH. }
    f_equal.
    rewrite mZ_phase. rewrite (cgate_phase_sym [c] t [t] c) by apply perm_swap. rewrite <- mZ_phase.
    rewrite (cgate_conj [t] mZ mH mX c).
    2:{ simpl; intros [?|[]]; congruence. }
    2:{ apply ZH. }
    f_equal. symmetry. apply pendl_cgate.
    + apply ids_nodup.
    + simpl; intros [?|[]]; congruence.
    + intros x [<-|[]] _. unfold f0, upd. now rewrite Nat.eqb_refl.
    + intros _. unfold f0, upd. destruct (Nat.eqb_spec c t); [congruence|].
      rewrite Nat.eqb_refl. now rewrite mmul_I_l, mmul_I_r.
    + intros Hi. exfalso. apply Hi. apply ids_In. auto.
Qed.

Lemma gate_mcx_n : forall s cs t, wf s -> NoDup (t :: cs) -> Forall (alloc s) (t :: cs) ->
  exists s', gate_mcx s cs t = Ok s' /\ nst (3 * length (t :: cs)) s s' (cgate cs mX t) /\ less_pend s s'.
Proof.
  intros s cs t W D A. destruct cs as [|c0 rest].
  { inversion A; subst. destruct (gate_x_n s t W H1) as [s' [E [G L]]].
    exists s'. split; auto. split; auto. apply (nst_mono 0); [lia|].
    eapply nst_ext; [exact G|]. intros; symmetry; apply cgate_nil. }
  unfold gate_mcx. inversion D; subst. inversion A; subst.
  set (cs := c0 :: rest) in *.
  (* flush of the target *)
  assert (S1 : exists s1, (if im_contains (ry_queue s) t then flush_queue s [t] LHRxRy else Ok s) = Ok s1 /\
     nst 3 s s1 (fun x => x) /\ less_pend s s1 /\ im_get (ry_queue s1) t = None).
  { destruct (im_contains (ry_queue s) t) eqn:Ey.
    - destruct (flush_queue_n LHRxRy [t] s W) as [s1 [E1 [G1 [L1 [_ [D1 _]]]]]]; auto.
      exists s1. split; auto. split; auto. split; auto. apply (D1 t); simpl; auto.
    - exists s. split; auto. split; [apply nst_none; auto|]. split; [apply less_refl|].
      apply im_contains_false; auto. }
  destruct S1 as [s1 [E1 [G1 [L1 Y1]]]]. rewrite E1. cbn [bind].
  assert (W1 : wf s1) by apply G1.
  assert (A1 : Forall (alloc s1) (t :: cs)) by (eapply nst_Forall; eauto).
  assert (Ac1 : Forall (alloc s1) cs) by (inversion A1; auto).
  (* flush of the controls *)
  assert (S2 : exists s2, (match rest with
         | _ :: _ => maybe_flush_queue s1 cs LHRxRy
         | [] =>
             if im_contains (ry_queue s1) c0 || im_contains (rx_queue s1) c0
                || (bit (h_flag s1) c0 && negb (bit (h_flag s1) t))
             then flush_queue s1 cs LHRxRy else Ok s1
         end) = Ok s2 /\ nst (3 * length cs) s1 s2 (fun x => x) /\ less_pend s1 s2 /\
         ((forall c, In c cs -> no_pend s2 c) \/
          (rest = [] /\ bit (h_flag s2) c0 = true /\ im_get (rx_queue s2) c0 = None /\
           im_get (ry_queue s2) c0 = None /\ bit (h_flag s2) t = true))).
  { destruct rest as [|c1 rest].
    - destruct (im_contains (ry_queue s1) c0 || im_contains (rx_queue s1) c0
                || (bit (h_flag s1) c0 && negb (bit (h_flag s1) t))) eqn:Ec.
      + destruct (flush_queue_n LHRxRy cs s1 W1 Ac1) as [s2 [E2 [G2 [L2 [_ [D2 _]]]]]].
        exists s2. refine (conj E2 (conj G2 (conj L2 _))). left. intros c Hc.
        destruct (D2 c Hc) as [? [? ?]]. repeat split; auto.
      + exists s1. split; auto. split; [apply nst_none; auto|]. split; [apply less_refl|].
        apply orb_false_iff in Ec. destruct Ec as [Ec Eh].
        apply orb_false_iff in Ec. destruct Ec as [Ey Ex].
        rewrite im_contains_false in Ey, Ex.
        destruct (bit (h_flag s1) c0) eqn:Hh.
        * right. repeat split; auto. destruct (bit (h_flag s1) t); auto.
        * left. intros c [<-|[]]. repeat split; auto.
    - destruct (maybe_flush_n cs s1 W1 Ac1) as [s2 [E2 [G2 [L2 [_ D2]]]]].
      exists s2. split; auto. }
  destruct S2 as [s2 [E2 [G2 [L2 P2]]]]. fold cs. rewrite E2. cbn [bind].
  assert (G12 : nst (3 * length (t :: cs)) s s2 (fun x => x)).
  { eapply nst_seq; [exact G1|exact G2|]. cbn [length]. lia. }
  assert (L12 : less_pend s s2) by (eapply less_trans; eauto).
  assert (W2 : wf s2) by apply G2.
  assert (A2 : Forall (alloc s2) (t :: cs)) by (eapply nst_Forall; eauto).
  assert (Y2 : im_get (ry_queue s2) t = None) by (apply L2; auto).
  assert (At2 : alloc s2 t) by (inversion A2; auto).
  assert (Fin : forall op W', opmat op = W' -> (forall c, In c cs -> no_pend s2 c) ->
     mmul mX (pm s2 t) = mmul (pm s2 t) W' ->
     exists s', enqueue_op s2 t cs op = Ok s' /\ nst (3 * length (t :: cs)) s s' (cgate cs mX t) /\ less_pend s s').
  { intros op W' Ho Hn Hm. destruct (enqueue_op_n s2 t cs op W2 D A2) as [s' [E C]].
    exists s'. split; auto. rewrite Ho in C. split.
    - eapply nst_seq; [exact G12|eapply ncs_ctrl; eauto using uX|lia].
    - eapply less_trans; [exact L12|]. eapply ncs_less; eauto. }
  assert (Mx : mmul mX (pm s2 t) = mmul (pm s2 t) (if bit (h_flag s2) t then mZ else mX)).
  { unfold pm. rewrite Y2, effy_none. simpl. rewrite mmul_I_l, X_rxo, X_h. rewrite !mmul_assoc. reflexivity. }
  destruct (bit (h_flag s2) t) eqn:Ht.
  - destruct P2 as [P2|[Hr [Hc [Hx [Hy _]]]]].
    + assert (Hc0 : bit (h_flag s2) c0 = false) by (apply P2; simpl; auto).
      assert (R := Fin OZ mZ eq_refl P2 Mx).
      destruct rest; [rewrite Hc0|]; exact R.
    + subst rest. rewrite Hc.
      assert (Hne : t <> c0) by (intro; subst; apply H1; simpl; auto).
      assert (Ac0 : alloc s2 c0) by (rewrite Forall_forall in A2; apply A2; simpl; auto).
      destruct (enqueue_op_n s2 c0 [t] OX W2) as [s' [E C]].
      { constructor; [simpl; intuition|apply nodup1]. }
      { constructor; auto. }
      exists s'. split; auto. split.
      * eapply nst_seq; [exact G12|eapply cx_reversed_n; eauto|lia].
      * eapply less_trans; [exact L12|]. eapply ncs_less; eauto.
  - destruct P2 as [P2|[Hr [Hc [Hx [Hy Ht']]]]]; [|congruence].
    apply (Fin OX mX eq_refl P2 Mx).
Qed.

Lemma gate_mcy_n : forall s cs t, wf s -> NoDup (t :: cs) -> Forall (alloc s) (t :: cs) ->
  exists s', gate_mcy s cs t = Ok s' /\
    (cs <> [] \/ bit (h_flag s) t = false -> nst (3 * length (t :: cs)) s s' (cgate cs mY t)) /\
    (cs = [] -> nst 0 s s' (fun psi => scale (ysign (bit (h_flag s) t)) (gate1 mY t psi))) /\
    less_pend s s'.
Proof.
  intros s cs t W D A. destruct cs as [|c0 rest].
  { inversion A; subst. destruct (gate_y_n s t W H1) as [s' [E [G L]]].
    exists s'. split; auto. split; [|split; auto].
    intros [Hf|Hf]; [congruence|]. rewrite Hf in G. simpl in G. apply (nst_mono 0); [lia|].
    eapply nst_ext; [exact G|]. intros. rewrite cgate_nil. apply scale_1. }
  unfold gate_mcy. inversion D; subst. inversion A; subst.
  set (cs := c0 :: rest) in *.
  assert (Ac : Forall (alloc s) cs) by auto.
  destruct (maybe_flush_n cs s W Ac) as [s1 [E1 [G1 [L1 [_ D1]]]]].
  rewrite E1. cbn [bind].
  assert (W1 : wf s1) by apply G1.
  assert (A1 : Forall (alloc s1) (t :: cs)) by (eapply nst_Forall; eauto).
  assert (S2 : exists s2, (if im_contains (rx_queue s1) t then flush_queue s1 [t] LHRx else Ok s1) = Ok s2 /\
     nst 3 s1 s2 (fun x => x) /\ less_pend s1 s2 /\ im_get (rx_queue s2) t = None).
  { destruct (im_contains (rx_queue s1) t) eqn:Ex.
    - destruct (flush_queue_n LHRx [t] s1 W1) as [s2 [E2 [G2 [L2 [_ [D2 _]]]]]].
      + inversion A1; auto.
      + exists s2. split; auto. split; auto. split; auto. apply (D2 t); simpl; auto.
    - exists s1. split; auto. split; [apply nst_none; auto|]. split; [apply less_refl|].
      apply im_contains_false; auto. }
  destruct S2 as [s2 [E2 [G2 [L2 X2]]]]. rewrite E2. cbn [bind].
  assert (G12 : nst (3 * length (t :: cs)) s s2 (fun x => x)).
  { eapply nst_seq; [exact G1|exact G2|]. cbn [length]. lia. }
  assert (L12 : less_pend s s2) by (eapply less_trans; eauto).
  assert (W2 : wf s2) by apply G2.
  assert (A2 : Forall (alloc s2) (t :: cs)) by (eapply nst_Forall; eauto).
  assert (At2 : alloc s2 t) by (inversion A2; auto).
  assert (P2 : forall c, In c cs -> no_pend s2 c).
  { intros. apply (less_no_pend s1); auto. }
  assert (S3 : exists s3, (if bit (h_flag s2) t then enqueue_op s2 c0 rest OZ else Ok s2) = Ok s3 /\
     ncs 0 s2 s3 (cgate cs (mscale (ysign (bit (h_flag s2) t)) mI) t)).
  { destruct (bit (h_flag s2) t).
    - destruct (enqueue_op_n s2 c0 rest OZ W2) as [s3 [E3 C3]]; auto.
      { inversion A2; auto. }
      exists s3. split; auto. eapply ncs_ext; [exact C3|]. intros psi.
      apply functional_extensionality. intros b. simpl opmat. rewrite mZ_phase, cgate_phase.
      fold cs. unfold cgate. rewrite gate1_mscale, gate1_I. reflexivity.
    - exists s2. split; auto. apply ncs_exact; auto using frame_refl.
      + simpl. rewrite mscale_1. symmetry. apply cgate_I.
      + intros B. apply ct_cgate; auto. apply unitary_mscale; [apply Cn2_ysign|apply uI]. }
  destruct S3 as [s3 [E3 C3]]. rewrite E3. cbn [bind].
  assert (W3 : wf s3) by apply C3.
  assert (A3 : Forall (alloc s3) (t :: cs)).
  { eapply Forall_impl; [|exact A2]. intros. apply (frame_alloc s2); auto. apply C3. }
  destruct (enqueue_op_n s3 t cs OY W3 D A3) as [s4 [E4 C4]].
  exists s4. split; auto.
  assert (C34 : ncs 0 s2 s4 (cgate cs (mscale (ysign (bit (h_flag s2) t)) mY) t)).
  { eapply ncs_ext; [exact (ncs_trans _ _ _ _ _ _ _ _ C3 C4)|].
    intros psi. simpl opmat. cbv beta. rewrite cgate_comp by auto.
    rewrite mmul_mscale_r, mmul_I_r. reflexivity. }
  assert (G : nst (3 * length (t :: cs)) s s4 (cgate cs mY t)).
  { eapply nst_seq; [exact G12|eapply ncs_ctrl; eauto using uY|lia].
    unfold pm. rewrite X2. simpl. rewrite mmul_I_l, Y_ryo, Y_h, !mmul_mscale_r.
    rewrite !mmul_assoc. reflexivity. }
  split; auto. split; [discriminate|].
  eapply less_trans; [exact L12|]. eapply less_trans; [eapply ncs_less; exact C3|eapply ncs_less; exact C4].
Qed.

(** ** Controlled rotations *)
(** The factor acts through the queued rotations of the target. *)
Lemma rfac_n : forall s s' cs f, ncs 0 s s' (cfactor cs f) -> Cn2 f <= 1 ->
  (forall c, In c cs -> no_pend s c) -> forall t, alloc s t -> ~ In t cs ->
  nst 0 s s' (cgate cs (mscale f mI) t).
Proof.
  intros s s' cs f C Hf Hc t A Hn. apply (ncs_abs 0 s s' (cfactor cs f)); auto.
  - intros psi. rewrite (cfactor_cgate cs f t). symmetry. apply pendl_cgate; auto; try apply ids_nodup.
    + intros. apply no_pend_pm; auto.
    + intros. apply mscale_I_comm.
  - intros B. replace (cgate cs (mscale f mI) t) with (cfactor cs f).
    + apply ct_cfactor; auto.
    + apply functional_extensionality. intros. apply cfactor_cgate.
Qed.

Definition rotcost (n : nat) : nat := (3 * n + 1)%nat.
Lemma mcrotation_n : forall s cs theta t sf, wf s -> NoDup (t :: cs) -> Forall (alloc s) (t :: cs) ->
  (forall c, In c cs -> no_pend s c) -> bit (h_flag s) t = false ->
  (if sf : bool then im_get (rx_queue s) t = None else im_get (ry_queue s) t = None) ->
  exists s', mcrotation s cs theta t sf = Ok s' /\ nst (rotcost (length (t :: cs))) s s' (cgate cs (rmat sf theta) t).
Proof.
  intros s cs theta t sf W D A Hc Hh Hq. unfold mcrotation.
  assert (At : alloc s t) by (inversion A; auto). inversion D; subst.
  destruct (cz theta) eqn:Hcz.
  - assert (S1 : exists s1, (if sf then gate_mcy s cs t else gate_mcx s cs t) = Ok s1 /\
       nst (3 * length (t :: cs)) s s1 (cgate cs (if sf then mY else mX) t) /\ less_pend s s1).
    { destruct sf.
      - destruct (gate_mcy_n s cs t W D A) as [s1 [E [G [_ L]]]]. exists s1. auto.
      - destruct (gate_mcx_n s cs t W D A) as [s1 [E [G L]]]. exists s1. auto. }
    destruct S1 as [s1 [E1 [G1 L1]]].
    destruct (mcrotation_sharp_n tol_lo w gate_mcx gate_mcy s cs theta t sf s1 D A Hcz E1)
      as [s' [E C]]; try apply G1.
    exists s'. split; auto.
    assert (G2 : nst 0 s1 s' (cgate cs (mscale (rfac sf theta) mI) t)).
    { apply rfac_n; auto.
      - apply Cn2_rfac.
      - intros. eapply less_no_pend; eauto.
      - eapply nst_alloc; eauto. }
    destruct (nst_trans _ _ _ _ _ _ _ _ G1 G2) as [I3 R3 W3 X3 N3]. constructor; auto.
    intros B N. destruct (N3 B N) as [C3 [D3 E3]]. split; [apply ct_cgate; auto; apply urmat|]. split; auto.
    unfold rotcost. rewrite Nat.add_0_r in D3. eapply near_trans; [exact D3|].
    rewrite cgate_comp by auto. rewrite mmul_mscale_l, mmul_I_l.
    assert (Q := cz_cos theta Hcz). assert (P : 0 <= cos (theta / 2) * cos (theta / 2)) by apply Rle_0_sqr.
    assert (P' : 0 <= tol * tol) by apply Rle_0_sqr.
    eapply near_instead; [| | |apply rot_pauli| | |]; auto. lra.
  - destruct (mcrotation_smooth_n horder_perm tol_lo tol_hi w gate_mcx gate_mcy s cs theta t sf W D A Hcz)
      as [s' [E C]].
    exists s'. split; auto. apply (nst_mono 1); [unfold rotcost; lia|]. eapply ncs_ctrl; eauto; [apply urmat|].
    unfold pm. rewrite Hh. simpl. rewrite mmul_I_r. unfold rmat. destruct sf; rewrite Hq, ?effy_none; simpl;
      rewrite ?mmul_I_l, ?mmul_I_r.
    + destruct (im_get (ry_queue s) t); simpl; [rewrite !RyRy; f_equal; ring|now rewrite mmul_I_l, mmul_I_r].
    + destruct (im_get (rx_queue s) t); simpl; [rewrite !RxRx; f_equal; ring|now rewrite mmul_I_l, mmul_I_r].
Qed.

Lemma flush_ctls_n : forall s cs t, wf s -> Forall (alloc s) (t :: cs) ->
  exists s1, flush_queue s cs LHRxRy = Ok s1 /\ nst (3 * length cs) s s1 (fun x => x) /\ wf s1 /\
    Forall (alloc s1) (t :: cs) /\ less_pend s s1 /\ (forall c, In c cs -> no_pend s1 c).
Proof.
  intros s cs t W A. inversion A; subst.
  destruct (flush_queue_n LHRxRy cs s W H2) as [s1 [E1 [G1 [L1 [_ [D1 _]]]]]].
  exists s1. split; auto. split; auto. split; [apply G1|].
  split; [eapply nst_Forall; eauto|]. split; auto.
Qed.

(** Number of dropping steps of a gate on [n] qubits. *)
Definition gcost (n : nat) : nat := (7 * n)%nat.
Lemma gate_mcrx_n : forall s cs theta t, wf s -> NoDup (t :: cs) -> Forall (alloc s) (t :: cs) ->
  exists s', gate_mcrx s cs theta t = Ok s' /\ nst (gcost (length (t :: cs))) s s' (cgate cs (mRx theta) t).
Proof.
  intros s cs theta t W D A. unfold gate_mcrx.
  destruct (flush_ctls_n s cs t W A) as [s1 [E1 [G1 [W1 [A1 [L1 N1]]]]]]. rewrite E1. cbn [bind].
  assert (At1 : Forall (alloc s1) [t]) by (inversion A1; auto).
  assert (S2 : exists s2, (if im_contains (ry_queue s1) t then flush_queue s1 [t] LHRxRy
              else if bit (h_flag s1) t then flush_queue s1 [t] LH else Ok s1) = Ok s2 /\
     nst 3 s1 s2 (fun x => x) /\ less_pend s1 s2 /\ bit (h_flag s2) t = false /\
     im_get (ry_queue s2) t = None).
  { destruct (im_contains (ry_queue s1) t) eqn:Ey.
    - destruct (flush_queue_n LHRxRy [t] s1 W1 At1) as [s2 [E2 [G2 [L2 [_ [D2 _]]]]]].
      exists s2. split; auto. split; auto. split; auto.
      destruct (D2 t) as [? [? ?]]; simpl; auto.
    - apply im_contains_false in Ey. destruct (bit (h_flag s1) t) eqn:Eh.
      + destruct (flush_queue_n LH [t] s1 W1 At1) as [s2 [E2 [G2 [L2 [_ [D2 _]]]]]].
        exists s2. split; auto. split; auto. split; auto. split; [apply (D2 t); simpl; auto|].
        apply L2; auto.
      + exists s1. split; auto. split; [apply nst_none; auto|]. split; [apply less_refl|]. auto. }
  destruct S2 as [s2 [E2 [G2 [L2 [H2 Y2]]]]]. rewrite E2. cbn [bind].
  destruct (mcrotation_n s2 cs theta t false) as [s3 [E3 G3]]; auto.
  - apply G2.
  - eapply nst_Forall; eauto.
  - intros. eapply less_no_pend; eauto.
  - exists s3. split; auto. eapply nst_seq; [exact G1|eapply nst_seq; [exact G2|exact G3|apply le_n]|].
    unfold gcost, rotcost. cbn [length]. lia.
Qed.

Lemma gate_mcry_n : forall s cs theta t, wf s -> NoDup (t :: cs) -> Forall (alloc s) (t :: cs) ->
  exists s', gate_mcry s cs theta t = Ok s' /\ nst (gcost (length (t :: cs))) s s' (cgate cs (mRy theta) t).
Proof.
  intros s cs theta t W D A. unfold gate_mcry.
  destruct (flush_ctls_n s cs t W A) as [s1 [E1 [G1 [W1 [A1 [L1 N1]]]]]]. rewrite E1. cbn [bind].
  assert (At1 : Forall (alloc s1) [t]) by (inversion A1; auto).
  assert (S2 : exists s2, (if im_contains (rx_queue s1) t then flush_queue s1 [t] LHRx
              else if bit (h_flag s1) t then flush_queue s1 [t] LH else Ok s1) = Ok s2 /\
     nst 3 s1 s2 (fun x => x) /\ less_pend s1 s2 /\ bit (h_flag s2) t = false /\
     im_get (rx_queue s2) t = None).
  { destruct (im_contains (rx_queue s1) t) eqn:Ey.
    - destruct (flush_queue_n LHRx [t] s1 W1 At1) as [s2 [E2 [G2 [L2 [_ [D2 _]]]]]].
      exists s2. split; auto. split; auto. split; auto.
      destruct (D2 t) as [? ?]; simpl; auto.
    - apply im_contains_false in Ey. destruct (bit (h_flag s1) t) eqn:Eh.
      + destruct (flush_queue_n LH [t] s1 W1 At1) as [s2 [E2 [G2 [L2 [_ [D2 _]]]]]].
        exists s2. split; auto. split; auto. split; auto. split; [apply (D2 t); simpl; auto|].
        apply L2; auto.
      + exists s1. split; auto. split; [apply nst_none; auto|]. split; [apply less_refl|]. auto. }
  destruct S2 as [s2 [E2 [G2 [L2 [H2 Y2]]]]]. rewrite E2. cbn [bind].
  destruct (mcrotation_n s2 cs theta t true) as [s3 [E3 G3]]; auto.
  - apply G2.
  - eapply nst_Forall; eauto.
  - intros. eapply less_no_pend; eauto.
  - exists s3. split; auto. eapply nst_seq; [exact G1|eapply nst_seq; [exact G2|exact G3|apply le_n]|].
    unfold gcost, rotcost. cbn [length]. lia.
Qed.

(** ** Controlled H *)
Lemma gate_mch_n : forall s cs t, wf s -> NoDup (t :: cs) -> Forall (alloc s) (t :: cs) ->
  exists s', gate_mch s cs t = Ok s' /\ nst (gcost (length (t :: cs))) s s' (cgate cs mH t).
Proof.
  intros s cs t W D A. unfold gate_mch.
  destruct (flush_ctls_n s cs t W A) as [s1 [E1 [G1 [W1 [A1 [L1 N1]]]]]]. rewrite E1. cbn [bind].
  assert (At1 : Forall (alloc s1) [t]) by (inversion A1; auto).
  assert (S2 : exists s2, (if im_contains (ry_queue s1) t || im_contains (rx_queue s1) t
              then flush_queue s1 [t] LHRxRy else Ok s1) = Ok s2 /\
     nst 3 s1 s2 (fun x => x) /\ less_pend s1 s2 /\ im_get (rx_queue s2) t = None /\
     im_get (ry_queue s2) t = None).
  { destruct (im_contains (ry_queue s1) t || im_contains (rx_queue s1) t) eqn:Ey.
    - destruct (flush_queue_n LHRxRy [t] s1 W1 At1) as [s2 [E2 [G2 [L2 [_ [D2 _]]]]]].
      exists s2. split; auto. split; auto. split; auto.
      destruct (D2 t) as [? [? ?]]; simpl; auto.
    - apply orb_false_iff in Ey. rewrite !im_contains_false in Ey.
      exists s1. split; auto. split; [apply nst_none; auto|]. split; [apply less_refl|]. tauto. }
  destruct S2 as [s2 [E2 [G2 [L2 [X2 Y2]]]]]. rewrite E2. cbn [bind].
  assert (A2 : Forall (alloc s2) (t :: cs)) by (eapply nst_Forall; eauto).
  destruct (apply_mch_n s2 cs t (ns_wf _ _ _ _ _ G2) D A2) as [s3 [E3 C3]].
  exists s3. split; auto.
  assert (G3 : nst 1 s2 s3 (cgate cs mH t)).
  { inversion D; subst. inversion A2; subst. eapply ncs_ctrl; eauto using uH.
    - intros. eapply less_no_pend; eauto.
    - unfold pm. rewrite X2, Y2. simpl. rewrite !mmul_I_l.
      destruct (bit (h_flag s2) t); simpl; [reflexivity|now rewrite mmul_I_l, mmul_I_r]. }
  eapply nst_seq; [exact G1|eapply nst_seq; [exact G2|exact G3|apply le_n]|].
  unfold gcost. cbn [length]. lia.
Qed.

(** ** Phase-like gates *)
Lemma gate_diag_n : forall op s t, wf s -> alloc s t ->
  exists s', gate_diag op s t = Ok s' /\ nst 3 s s' (gate1 (opmat op) t).
Proof.
  intros op s t W A. unfold gate_diag.
  destruct (maybe_flush_n [t] s W) as [s1 [E1 [G1 [L1 [_ D1]]]]]; auto.
  rewrite E1. cbn [bind].
  assert (A1 : alloc s1 t) by (eapply nst_alloc; eauto).
  destruct (enqueue_op_n s1 t [] op (ns_wf _ _ _ _ _ G1) (nodup1 t)) as [s2 [E2 C2]]; auto.
  exists s2. split; auto. eapply nst_seq; [exact G1| |simpl; apply le_n].
  eapply nst_ext with (F := cgate [] (opmat op) t); [|intros; apply cgate_nil].
  eapply ncs_ctrl; eauto using uop; simpl; try tauto.
  rewrite (no_pend_pm s1 t) by (apply D1; simpl; auto). now rewrite mmul_I_l, mmul_I_r.
Qed.

Lemma gate_mcdiag_n : forall op s cs t, wf s -> NoDup (t :: cs) -> Forall (alloc s) (t :: cs) ->
  exists s', gate_mcdiag op s cs t = Ok s' /\ nst (gcost (length (t :: cs))) s s' (cgate cs (opmat op) t).
Proof.
  intros op s cs t W D A. unfold gate_mcdiag. inversion A; subst.
  destruct (maybe_flush_n cs s W) as [s1 [E1 [G1 [L1 [_ D1]]]]]; auto.
  rewrite E1. cbn [bind].
  assert (A1 : Forall (alloc s1) (t :: cs)) by (eapply nst_Forall; eauto).
  destruct (maybe_flush_n [t] s1 (ns_wf _ _ _ _ _ G1)) as [s2 [E2 [G2 [L2 [_ D2]]]]].
  { inversion A1; auto. }
  rewrite E2. cbn [bind].
  assert (A2 : Forall (alloc s2) (t :: cs)) by (eapply nst_Forall; eauto).
  destruct (enqueue_op_n s2 t cs op (ns_wf _ _ _ _ _ G2) D A2) as [s3 [E3 C3]].
  exists s3. split; auto.
  assert (G3 : nst 0 s2 s3 (cgate cs (opmat op) t)).
  { inversion D; subst. inversion A2; subst. eapply ncs_ctrl; eauto using uop.
    - intros. eapply less_no_pend; eauto.
    - rewrite (no_pend_pm s2 t) by (apply D2; simpl; auto). now rewrite mmul_I_l, mmul_I_r. }
  eapply nst_seq; [exact G1|eapply nst_seq; [exact G2|exact G3|apply le_n]|].
  unfold gcost. cbn [length]. lia.
Qed.

(** State change with an empty queue, exact. *)
Lemma ncs_state0 : forall s st F, wf s -> op_queue s = [] -> st_ok (id_map s) st ->
  baseof (id_map s) (lamp st) = F (base s) -> (bounds w s -> contraction w F) ->
  ncs 0 s (with_state s st) F.
Proof.
  intros s st F W Q S H Ct. apply ncs_exact; auto.
  - constructor; reflexivity.
  - destruct W; constructor; simpl; auto.
  - unfold core, base in *. simpl. rewrite Q. simpl. auto.
Qed.

Lemma flush_two_n : forall s cs ts, wf s -> Forall (alloc s) cs -> Forall (alloc s) ts ->
  exists s1 s2, flush_queue s cs LHRxRy = Ok s1 /\ flush_queue s1 ts LHRxRy = Ok s2 /\
    nst (3 * (length cs + length ts)) s s2 (fun x => x) /\ op_queue s2 = [] /\
    (forall q, In q cs \/ In q ts -> no_pend s2 q) /\ less_pend s s2.
Proof.
  intros s cs ts W Ac At.
  destruct (flush_queue_n LHRxRy cs s W Ac) as [s1 [E1 [G1 [L1 [_ [D1 _]]]]]].
  assert (At1 : Forall (alloc s1) ts) by (eapply nst_Forall; eauto).
  destruct (flush_queue_n LHRxRy ts s1 (ns_wf _ _ _ _ _ G1) At1)
    as [s2 [E2 [G2 [L2 [_ [D2 Q2]]]]]].
  exists s1, s2. split; auto. split; auto. split; [eapply nst_seq; [exact G1|exact G2|lia]|]. split; auto. split.
  - intros q [Hq|Hq].
    + eapply less_no_pend; [exact L2|]. destruct (D1 q Hq) as [? [? ?]]. repeat split; auto.
    + destruct (D2 q Hq) as [? [? ?]]. repeat split; auto.
  - eapply less_trans; eauto.
Qed.

Lemma gate_mcphase_n : forall s cs p t, wf s -> NoDup (t :: cs) -> Forall (alloc s) (t :: cs) -> Cn2 p = 1 ->
  exists s', gate_mcphase s cs p t = Ok s' /\ nst (gcost (length (t :: cs))) s s' (cgate cs (mPhase p) t).
Proof.
  intros s cs p t W D A Hp. unfold gate_mcphase. inversion A; subst.
  destruct (flush_two_n s cs [t] W) as [s1 [s2 [E1 [E2 [G2 [Q2 [N2 L2]]]]]]]; auto.
  rewrite E1. cbn [bind]. rewrite E2. cbn [bind].
  assert (A2 : Forall (alloc s2) (t :: cs)) by (eapply nst_Forall; eauto).
  assert (W2 : wf s2) by apply G2.
  destruct (resolve_ok s2 t cs D A2) as [t' [cs' [E [R1 R2]]]]. rewrite E. cbn [bind].
  eexists; split; [reflexivity|].
  eapply (nst_seq _ _ 0); [exact G2| |unfold gcost; cbn [length]; lia].
  inversion D; subst. inversion A2; subst.
  apply (ncs_ctrl 0 s2 _ _ (mPhase p)); auto.
  - assert (Eq : map (fun iv => if all_set cs' (fst iv) then phase_transform p t' iv else iv) (state s2)
           = scale_entries (fun k => if forallb (bit k) (t' :: cs') then p else C1) (state s2)).
    { apply map_ext. intros [k v]. unfold phase_transform, all_set. simpl.
      destruct (bit k t'); destruct (forallb (bit k) cs'); simpl; f_equal; aring. }
    rewrite Eq. apply ncs_state0; auto.
    + unfold st_ok. rewrite keys_scale_entries. apply W2.
    + apply functional_extensionality. intros b. rewrite cgate_phase.
      unfold base, baseof. rewrite lamp_scale_entries.
      rewrite (forallb_to_loc (id_map s2) (wf_inj s2 W2) (t :: cs)) by (constructor; auto).
      destruct (inb (id_map s2) b); destruct (forallb (bit b) (t :: cs)); ring.
    + intros B. apply ct_cgate; auto. apply uPhase; auto.
  - apply uPhase; auto.
  - rewrite (no_pend_pm s2 t) by (apply N2; simpl; auto). now rewrite mmul_I_l, mmul_I_r.
Qed.

(** ** Controlled Z *)
Lemma gate_mcz_n : forall s cs t, wf s -> NoDup (t :: cs) -> Forall (alloc s) (t :: cs) ->
  exists s', gate_mcz s cs t = Ok s' /\ nst (gcost (length (t :: cs))) s s' (cgate cs mZ t).
Proof.
  intros s cs t W D A. destruct cs as [|c0 rest].
  { inversion A; subst. destruct (gate_z_n s t W H1) as [s' [E G]].
    exists s'. split; auto. apply (nst_mono 0); [lia|]. eapply nst_ext; [exact G|]. intros. symmetry. apply cgate_nil. }
  unfold gate_mcz. set (cs := c0 :: rest) in *. rewrite fold_weight. rewrite Nat.add_0_l.
  inversion D; subst.
  destruct (Nat.eqb_spec (list_sum (map (pend_weight s) cs) + pend_weight s t) 1).
  - destruct (find (fun c => bit (h_flag s) c) cs) as [h|] eqn:F.
    + apply find_some in F. destruct F as [Fi Fb].
      assert (Wh := weight_h s h Fb). assert (Ws := sum_le_In (pend_weight s) cs h Fi).
      destruct (sum_one_other (pend_weight s) cs h) as [O1 O2]; auto; [lia|].
      assert (Pm := replace_perm cs h t H2 Fi).
      set (cs' := map (fun c => if Nat.eqb c h then t else c) cs) in *.
      assert (D' : NoDup (h :: cs')) by (eapply Permutation_NoDup; eauto).
      assert (A' : Forall (alloc s) (h :: cs')).
      { rewrite Forall_forall in *. intros x Hx. apply A.
        eapply Permutation_in; [apply Permutation_sym|]; eauto. }
      destruct (enqueue_op_n s h cs' OX W D' A') as [s' [E C]].
      exists s'. split; auto. apply (nst_mono 0); [lia|].
      eapply nst_ext with (F := cgate cs' mZ h).
      * inversion D'; subst. inversion A'; subst. eapply ncs_ctrl; eauto using uZ.
        { intros c Hc. apply weight0.
          assert (In c (t :: cs)) by (eapply Permutation_in; [apply Permutation_sym; exact Pm|simpl; auto]).
          destruct H as [<-|Hi]; [lia|]. apply O2; auto. intro; subst; tauto. }
        { destruct (weight1 s h O1) as [_ Ph]. rewrite Ph. apply ZH. }
      * intros psi. rewrite mZ_phase. symmetry. apply cgate_phase_sym; auto.
    + assert (Hall : forall c, In c cs -> pend_weight s c = 0%nat).
      { intros c Hc. assert (Hh := find_none _ _ F c Hc). simpl in Hh.
        assert (Ws := sum_le_In (pend_weight s) cs c Hc).
        assert (Wc : (pend_weight s c <= 1)%nat) by lia. clear - Hh Wc.
        unfold pend_weight in *. rewrite Hh in *.
        destruct (im_contains (rx_queue s) c || im_contains (ry_queue s) c); lia. }
      assert (Ht : pend_weight s t = 1%nat).
      { assert (list_sum (map (pend_weight s) cs) = 0%nat); [|lia].
        clear -Hall. induction cs as [|a l IHl]; simpl; auto. rewrite (Hall a) by (simpl; auto).
        rewrite IHl; auto. intros; apply Hall; simpl; auto. }
      destruct (enqueue_op_n s t cs OX W D A) as [s' [E C]].
      exists s'. split; auto. apply (nst_mono 0); [lia|]. inversion A; subst. eapply ncs_ctrl; eauto using uZ.
      * intros. apply weight0; auto.
      * destruct (weight1 s t Ht) as [_ Ph]. rewrite Ph. apply ZH.
  - inversion A; subst.
    destruct (flush_two_n s cs [t] W) as [s1 [s2 [E1 [E2 [G2 [Q2 [N2 L2]]]]]]]; auto.
    rewrite E1. cbn [bind]. rewrite E2. cbn [bind].
    assert (A2 : Forall (alloc s2) (t :: cs)) by (eapply nst_Forall; eauto).
    destruct (enqueue_op_n s2 t cs OZ (ns_wf _ _ _ _ _ G2) D A2) as [s3 [E3 C3]].
    exists s3. split; auto.
    eapply (nst_seq _ _ 0); [exact G2| |unfold gcost; cbn [length]; lia].
    inversion A2; subst. eapply ncs_ctrl; eauto using uZ.
    rewrite (no_pend_pm s2 t) by (apply N2; simpl; auto). simpl.
    now rewrite mmul_I_l, mmul_I_r.
Qed.

(** ** H *)
Lemma flush_one_rx_n : forall s t, wf s -> alloc s t ->
  exists s', flush_queue s [t] LHRx = Ok s' /\ nst 3 s s' (fun x => x) /\ same_other t s s' /\
    bit (h_flag s') t = false /\ im_get (rx_queue s') t = None /\ ry_rel s s' t.
Proof.
  intros s t W A. unfold flush_queue. simpl.
  destruct (flush_one_n LHRx s t W A) as [s1 [E1 [G1 [SO1 [L1 [L2 L3]]]]]].
  rewrite E1. simpl. destruct (flush_ops_n s1) as [s2 [E2 [C2 Q2]]]; [apply G1|].
  exists s2. assert (G2 := ncs_nst_id _ _ _ _ C2). destruct C2 as [[] _ _].
  split; auto. split; [eapply nst_seq; [exact G1|exact G2|lia]|]. split.
  - destruct SO1. constructor; rewrite ?fr_h, ?fr_rx, ?fr_ry; auto.
  - unfold ry_rel in *. rewrite fr_h, fr_rx, fr_ry. auto.
Qed.

Lemma gate_h_n : forall s t, wf s -> alloc s t ->
  exists s', gate_h s t = Ok s' /\ nst 3 s s' (gate1 mH t).
Proof.
  intros s t W A. unfold gate_h. simpl.
  assert (W1 := wf_upd_ry s t tneg W).
  set (s1 := with_ry _ _) in *.
  assert (A1 : alloc s1 t) by exact A.
  assert (S2 : exists s2, (if im_contains (rx_queue s) t then flush_queue s1 [t] LHRx else Ok s1) = Ok s2 /\
    nst 3 s1 s2 (fun x => x) /\ im_get (rx_queue s2) t = None /\
    ry_rel s1 s2 t /\ (forall q, im_get (rx_queue s) q = None -> im_get (rx_queue s2) q = None)).
  { destruct (im_contains (rx_queue s) t) eqn:Ex.
    - destruct (flush_one_rx_n s1 t W1 A1) as [s2 [E2 [G2 [SO2 [H2 [X2 Y2]]]]]].
      exists s2. split; auto. split; auto. split; auto. split; auto.
      intros q Hq. destruct (Nat.eq_dec q t); [subst; auto|].
      destruct SO2. rewrite so_rx; auto.
    - exists s1. split; auto. split; [apply nst_none; auto|].
      apply im_contains_false in Ex. split; auto. split; auto. unfold ry_rel.
      change (rx_queue s1) with (rx_queue s). rewrite Ex. simpl. tauto. }
  destruct S2 as [s2 [E2 [G2 [X2 [Y2 P2]]]]]. rewrite E2. cbn [bind].
  eexists; split; [reflexivity|].
  set (s3 := with_h _ _).
  assert (W2 : wf s2) by apply G2.
  constructor; simpl; try apply G2.
  - unfold s3. apply wf_set_h; auto. destruct G2 as [I2 _ _ _ _]. unfold alloc. rewrite I2. exact A.
  - intros B N.
    set (b := effy (im_get (rx_queue s) t) (im_get (ry_queue s) t)).
    assert (Eb : im_get (ry_queue s2) t = oneg b).
    { destruct Y2 as [_ Y2]. rewrite Y2. unfold s1. simpl.
      rewrite im_get_update, Nat.eqb_refl. apply effy_neg. }
    assert (S : abs s = gate1 (mmul (ryo b) (ryo b)) t (abs s1)).
    { apply (abs_local s1 s _ mI t); auto.
      - intros q Hq. unfold pm, s1. simpl. rewrite im_get_update.
        destruct (Nat.eqb_spec t q); congruence.
      - rewrite gate1_I. reflexivity.
      - rewrite mmul_I_r. unfold pm, s1. simpl. rewrite im_get_update, Nat.eqb_refl.
        change (option_map tneg (im_get (ry_queue s) t)) with (oneg (im_get (ry_queue s) t)).
        rewrite effy_neg. fold b.
        rewrite <- mmul_assoc, ryo_neg_l. reflexivity. }
    assert (S3 : abs s3 = gate1 (mmul (ryo (oneg b)) (mmul mH (ryo b))) t (abs s2)).
    { apply (abs_local s2 s3 _ mI t); auto.
      - destruct G2 as [I2 _ _ _ _]. unfold alloc. rewrite I2. exact A.
      - intros q Hq. unfold pm, s3. simpl. rewrite bit_set_other by auto. reflexivity.
      - rewrite gate1_I. reflexivity.
      - rewrite mmul_I_r. unfold pm, s3. simpl. rewrite bit_set_same, X2, Eb. simpl.
        rewrite !mmul_I_l. rewrite <- !mmul_assoc. rewrite ryo_neg_l, H_hmat. reflexivity. }
    assert (Bt : (t < w)%nat) by (apply B; auto).
    assert (B1 : bounds w s1) by exact B.
    assert (U2 : unitary (mmul (ryo (oneg b)) (mmul mH (ryo b)))) by (auto using unitary_mmul, uryo, uH).
    assert (U1 : unitary (mmul (ryo b) (ryo b))) by (auto using unitary_mmul, uryo).
    assert (Ns : norm2 w (abs s) = norm2 w (abs s1)) by (rewrite S; apply norm2_gate1; auto).
    assert (N3 : norm2 w (abs s3) = norm2 w (abs s2)) by (rewrite S3; apply norm2_gate1; auto).
    destruct (ns_near _ _ _ _ _ G2 B1) as [C2 [D2 F2]]; [lra|].
    split; [apply ct_gate1; auto using uH|]. split; [|lra].
    assert (E : gate1 mH t (abs s) = gate1 (mmul (ryo (oneg b)) (mmul mH (ryo b))) t (abs s1)).
    { rewrite S, gate1_comp. f_equal. rewrite H_ryo. reflexivity. }
    rewrite E, S3. apply near_ct; auto. apply ct_gate1; auto.
Qed.

(** ** Uncontrolled rotations *)
Lemma tnz_abs : forall x, @tnz RArith x = true -> Rabs x <= tol.
Proof. intros x. simpl. unfold rnz, Rleb. destruct (Rle_dec (Rabs x) tol); [auto|discriminate]. Qed.
Lemma cos_lower : forall x, 1 - x * x / 2 <= cos x.
Proof.
  intros x. replace x with (2 * (x / 2)) at 3 by field. rewrite cos_2a_sin.
  assert (H : sin (x / 2) * sin (x / 2) <= x / 2 * (x / 2)).
  { assert (K : forall y, 0 <= y -> sin y * sin y <= y * y).
    { intros y Hy. destruct (Rle_lt_dec y 1).
      - destruct (Req_dec y 0); [subst; rewrite sin_0; lra|].
        assert (sin y < y) by (apply sin_lt_x; lra).
        assert (0 <= sin y) by (apply sin_ge_0; [lra|generalize PI_RGT_0 PI2_1; lra]). nra.
      - generalize (SIN_bound y). nra. }
    destruct (Rle_lt_dec 0 (x / 2)); [apply K; auto|].
    generalize (K (- (x / 2))). rewrite sin_neg. lra. }
  lra.
Qed.

(** A rotation by a dropped angle is close to the identity. *)
Lemma near_rot : forall sf a t psi, Rabs a <= tol -> (t < w)%nat -> norm2 w psi <= 1 ->
  nearw 1 psi (gate1 (rmat sf a) t psi).
Proof.
  intros sf a t psi Ha Ht HN.
  replace psi with (cgate [] (mscale (RtoC 1) mI) t psi) at 1
    by (rewrite cgate_nil; change (RtoC 1) with C1; rewrite mscale_1; apply gate1_I).
  rewrite <- (cgate_nil (rmat sf a)). apply rabs_sq in Ha.
  assert (P := cos_lower (a / 2)). assert (P' : 0 <= tol * tol) by apply Rle_0_sqr.
  assert (P1 := COS_bound (a / 2)).
  eapply near_instead; [| | |apply rot_scalar| | |]; auto; nra.
Qed.

(** Adding an angle to a queue of rotations about one axis. *)
Lemma queue_angle_n : forall sf (q : imap (@ang RArith)) t theta, exists a, Rabs a <= tol /\
  mmul (if sf : bool then mRy theta else mRx theta) (if sf then ryo (im_get q t) else rxo (im_get q t))
    = mmul (rmat sf a) (if sf then ryo (im_get (queue_angle q t theta) t) else rxo (im_get (queue_angle q t theta) t)).
Proof.
  intros sf q t theta. unfold queue_angle. destruct (im_get q t) as [old|] eqn:E.
  - destruct (@tnz RArith (@tadd RArith old theta)) eqn:Ez.
    + exists (old + theta)%R. split; [apply tnz_abs; auto|].
      rewrite im_get_remove, Nat.eqb_refl. destruct sf; simpl; rewrite mmul_I_r, ?RyRy, ?RxRx; f_equal; simpl; lra.
    + exists 0. split; [rewrite Rabs_R0; auto|].
      rewrite im_get_update, Nat.eqb_refl, E. destruct sf; simpl; rewrite ?RyRy, ?RxRx; f_equal; simpl; lra.
  - exists 0. split; [rewrite Rabs_R0; auto|]. rewrite im_get_insert, Nat.eqb_refl.
    destruct sf; simpl; rewrite ?Rx0, ?Ry0, mmul_I_l, mmul_I_r; reflexivity.
Qed.

Lemma gate_rx_n : forall s theta t, wf s -> alloc s t ->
  exists s', gate_rx s theta t = Ok s' /\ id_map s' = id_map s /\ rng s' = rng s /\ wf s' /\
    (forall G, symm G -> (forall a b, G a -> G b -> G (a + b)) -> G theta -> rxin G s -> rxin G s') /\
    (bounds w s -> norm2 w (abs s) <= 1 ->
       contraction w (gate1 (mRx theta) t) /\ nearw 4 (abs s') (gate1 (mRx theta) t (abs s)) /\
       norm2 w (abs s') <= norm2 w (abs s)).
Proof.
  intros s theta t W A. unfold gate_rx.
  assert (S1 : exists s1, (if bit (h_flag s) t || im_contains (ry_queue s) t
      then flush_queue s [t] LHRxRy else Ok s) = Ok s1 /\ nst 3 s s1 (fun x => x) /\
      bit (h_flag s1) t = false /\ im_get (ry_queue s1) t = None).
  { destruct (bit (h_flag s) t || im_contains (ry_queue s) t) eqn:E.
    - destruct (flush_queue_n LHRxRy [t] s W) as [s1 [E1 [G1 [L1 [_ [D1 _]]]]]]; auto.
      exists s1. split; auto. split; auto. destruct (D1 t) as [? [? ?]]; simpl; auto.
    - apply orb_false_iff in E. rewrite im_contains_false in E.
      exists s. split; auto. split; [apply nst_none; auto|]. tauto. }
  destruct S1 as [s1 [E1 [G1 [H1 Y1]]]]. rewrite E1. cbn [bind].
  eexists; split; [reflexivity|]. set (s2 := with_rx _ _).
  destruct G1 as [I1 R1 W1 X1 A1].
  assert (At : alloc s1 t) by (unfold alloc; rewrite I1; exact A).
  split; [exact I1|]. split; [exact R1|]. split; [apply wf_ins_rx; auto|]. split; [|].
  - intros G SG PG Gt N. apply (X1 G SG) in N. intros q a. unfold s2. simpl. destruct (Nat.eq_dec q t).
    + subst q. unfold queue_angle. destruct (im_get (rx_queue s1) t) as [old|] eqn:Eo.
      * match goal with |- context[if ?c then _ else _] => destruct c end.
        -- rewrite im_get_remove, Nat.eqb_refl. discriminate.
        -- rewrite im_get_update, Nat.eqb_refl, Eo. simpl. intros Ha. inversion Ha; subst. apply PG; auto. apply (N t old Eo).
      * rewrite im_get_insert, Nat.eqb_refl. intros Ha. inversion Ha; subst. auto.
    + rewrite queue_angle_other by auto. apply N.
  - intros B N. destruct (A1 B N) as [_ [D1 F1]]. assert (Bt : (t < w)%nat) by (apply B; auto).
    destruct (queue_angle_n false (rx_queue s1) t theta) as [a [Ha Hq]].
    assert (S : gate1 (mRx a) t (abs s2) = gate1 (mRx theta) t (abs s1)).
    { unfold abs. replace (ids s2) with (ids s1) by reflexivity. replace (core s2) with (core s1) by reflexivity.
      rewrite !pendl_post by (try apply ids_nodup; apply ids_In; auto).
      apply pendl_ext. intros q _. unfold upd. destruct (Nat.eqb_spec q t).
      - subst q. unfold pm, s2. simpl. rewrite H1, Y1, !effy_none. simpl. rewrite !mmul_I_l, !mmul_I_r. symmetry. exact Hq.
      - unfold pm, s2. simpl. rewrite queue_angle_other by auto. reflexivity. }
    assert (N2 : norm2 w (abs s2) = norm2 w (abs s1)).
    { rewrite <- (norm2_gate1 w (mRx a) t (abs s2)) by (auto using uRx). rewrite S. apply norm2_gate1; auto using uRx. }
    split; [apply ct_gate1; auto using uRx|]. split; [|lra].
    change 4%nat with (1 + 3)%nat. eapply near_trans; [apply (near_rot false a t); auto; lra|].
    change (rmat false a) with (mRx a). rewrite S. apply near_ct; auto. apply ct_gate1; auto using uRx.
Qed.

Lemma gate_ry_n : forall s theta t, wf s -> alloc s t ->
  exists s', gate_ry s theta t = Ok s' /\ id_map s' = id_map s /\ rng s' = rng s /\ wf s' /\
    rx_queue s' = rx_queue s /\
    (bounds w s -> norm2 w (abs s) <= 1 ->
       nearw 1 (abs s') (gate1 (mRy (ry_angle s theta t)) t (abs s)) /\ norm2 w (abs s') <= norm2 w (abs s)).
Proof.
  intros s theta t W A. unfold gate_ry. eexists; split; [reflexivity|]. set (s2 := with_ry _ _).
  split; [reflexivity|]. split; [reflexivity|]. split; [apply wf_ins_ry; auto|].
  split; [reflexivity|].
  intros B N. assert (Bt : (t < w)%nat) by (apply B; auto).
  destruct (queue_angle_n true (ry_queue s) t theta) as [a [Ha Hq]].
  assert (Q : exists a', Rabs a' <= tol /\
    mmul (mRy (ry_angle s theta t)) (ryo (effy (im_get (rx_queue s) t) (im_get (ry_queue s) t))) =
    mmul (mRy a') (ryo (effy (im_get (rx_queue s) t) (im_get (queue_angle (ry_queue s) t theta) t)))).
  { revert Hq. generalize (im_get (queue_angle (ry_queue s) t theta) t). intros o Ho. unfold ry_angle, effy.
    destruct (im_get (rx_queue s) t) as [r|]; [|exists a; auto].
    destruct (cz r); [|exists a; auto].
    exists (- a). rewrite Rabs_Ropp. split; auto.
    rewrite !ryo_oneg. rewrite !(mmul_assoc (mRy _)).
    rewrite <- (ZRy theta), <- (ZRy a).
    rewrite <- !mmul_assoc. f_equal. rewrite !mmul_assoc. f_equal. exact Ho. }
  destruct Q as [a' [Ha' Q]].
  assert (S : gate1 (mRy a') t (abs s2) = gate1 (mRy (ry_angle s theta t)) t (abs s)).
  { unfold abs. replace (ids s2) with (ids s) by reflexivity. replace (core s2) with (core s) by reflexivity.
    rewrite !pendl_post by (try apply ids_nodup; apply ids_In; auto).
    apply pendl_ext. intros q _. unfold upd. destruct (Nat.eqb_spec q t).
    - subst q. unfold pm, s2. simpl. rewrite (mmul_assoc (mRy a')), <- Q, !mmul_assoc. reflexivity.
    - unfold pm, s2. simpl. rewrite queue_angle_other by auto. reflexivity. }
  assert (N2 : norm2 w (abs s2) = norm2 w (abs s)).
  { rewrite <- (norm2_gate1 w (mRy a') t (abs s2)) by (auto using uRy). rewrite S. apply norm2_gate1; auto using uRy. }
  split; [|lra].
  rewrite <- S. change (mRy a') with (rmat true a'). apply near_rot; auto. lra.
Qed.
End NG2.
