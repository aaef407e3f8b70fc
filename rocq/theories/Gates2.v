(** * Every gate of the simulator refines its textbook matrix *)
From Coq Require Import Reals NArith List Bool Lia Lra Permutation Arith FunctionalExtensionality.
From Verif Require Import Cx Arith ArithR IndexMap IndexMapLemmas Bits BitsLemmas Spec QLib Sim
  StateLemmas Loc Abs Gates.
Import ListNotations.
Local Open Scope R_scope.


Lemma X_ryo : forall o M, mmul mX (mmul (ryo o) M) = mmul (ryo (oneg o)) (mmul mX M).
Proof. intros. rewrite !mmul_assoc. f_equal. destruct o; simpl; [apply XRy|now rewrite mmul_I_l, mmul_I_r]. Qed.
Lemma X_rxo : forall o M, mmul mX (mmul (rxo o) M) = mmul (rxo o) (mmul mX M).
Proof. intros. rewrite !mmul_assoc. f_equal. destruct o; simpl; [apply XRx|now rewrite mmul_I_l, mmul_I_r]. Qed.
Lemma X_h : forall b, mmul mX (hmat b) = mmul (hmat b) (if b then mZ else mX).
Proof. destruct b; simpl; [apply XH|now rewrite mmul_I_l, mmul_I_r]. Qed.
Lemma Z_ryo : forall o M, mmul mZ (mmul (ryo o) M) = mmul (ryo (oneg o)) (mmul mZ M).
Proof. intros. rewrite !mmul_assoc. f_equal. destruct o; simpl; [apply ZRy|now rewrite mmul_I_l, mmul_I_r]. Qed.
Lemma Z_rxo : forall o M, mmul mZ (mmul (rxo o) M) = mmul (rxo (oneg o)) (mmul mZ M).
Proof. intros. rewrite !mmul_assoc. f_equal. destruct o; simpl; [apply ZRx|now rewrite mmul_I_l, mmul_I_r]. Qed.
Lemma Z_h : forall b, mmul mZ (hmat b) = mmul (hmat b) (if b then mX else mZ).
Proof. destruct b; simpl; [apply ZH|now rewrite mmul_I_l, mmul_I_r]. Qed.
Lemma Y_ryo : forall o M, mmul mY (mmul (ryo o) M) = mmul (ryo o) (mmul mY M).
Proof. intros. rewrite !mmul_assoc. f_equal. destruct o; simpl; [apply YRy|now rewrite mmul_I_l, mmul_I_r]. Qed.
Lemma Y_rxo : forall o M, mmul mY (mmul (rxo o) M) = mmul (rxo (oneg o)) (mmul mY M).
Proof. intros. rewrite !mmul_assoc. f_equal. destruct o; simpl; [apply YRx|now rewrite mmul_I_l, mmul_I_r]. Qed.
Definition ysign (b : bool) : C := if b then (- C1)%C else C1.
Lemma mscale_1 : forall U, mscale C1 U = U.
Proof. intros. apply mat_ext; unfold mscale; ring. Qed.
Lemma Y_h : forall b, mmul mY (hmat b) = mscale (ysign b) (mmul (hmat b) mY).
Proof. destruct b; simpl; [apply YH|now rewrite mmul_I_l, mmul_I_r, mscale_1]. Qed.
Lemma mmul_mscale_r : forall c U V, mmul U (mscale c V) = mscale c (mmul U V).
Proof. intros. apply mat_ext; unfold mmul, mscale; ring. Qed.
Lemma mmul_mscale_l : forall c U V, mmul (mscale c U) V = mscale c (mmul U V).
Proof. intros. apply mat_ext; unfold mmul, mscale; ring. Qed.
Lemma mscale_mscale : forall c d U, mscale c (mscale d U) = mscale (c * d)%C U.
Proof. intros. apply mat_ext; unfold mscale; ring. Qed.
Lemma mscale_I_comm : forall f M, mmul (mscale f mI) M = mmul M (mscale f mI).
Proof. intros. apply mat_ext; unfold mmul, mscale, mI, mk2; ring. Qed.
Lemma ysign_sq : forall b, (ysign b * ysign b)%C = C1.
Proof. destruct b; unfold ysign; ring. Qed.
Lemma Cn2_ysign : forall b, Cn2 (ysign b) = 1.
Proof. destruct b; unfold ysign; rewrite ?Cn2_opp; apply Cn2_C1. Qed.

Lemma H_ryo : forall o M, mmul mH (mmul (ryo o) M) = mmul (ryo (oneg o)) (mmul mH M).
Proof. intros. rewrite !mmul_assoc. f_equal. destruct o; simpl; [apply HRy|now rewrite mmul_I_l, mmul_I_r]. Qed.
Lemma ryo_neg_l : forall o M, mmul (ryo o) (mmul (ryo (oneg o)) M) = M.
Proof.
  intros. rewrite mmul_assoc. destruct o; simpl; [|now rewrite !mmul_I_l].
  rewrite RyRy. replace (r + - r) with 0 by ring. rewrite Ry0. apply mmul_I_l.
Qed.
Lemma ryo_neg_r : forall o M, mmul (ryo (oneg o)) (mmul (ryo o) M) = M.
Proof.
  intros. rewrite mmul_assoc. destruct o; simpl; [|now rewrite !mmul_I_l].
  rewrite RyRy. replace (- r + r) with 0 by ring. rewrite Ry0. apply mmul_I_l.
Qed.
Lemma ryo_oneg : forall o, ryo (oneg o) = mmul mZ (mmul (ryo o) mZ).
Proof.
  intros. rewrite Z_ryo. replace (mmul mZ mZ) with mI; [now rewrite mmul_I_r|].
  apply mat_ext; unfold mmul, mZ, mI, mk2; ring.
Qed.
Lemma H_hmat : forall b, mmul mH (hmat b) = hmat (negb b).
Proof. destruct b; simpl; [apply HH|apply mmul_I_r]. Qed.

Section G2.
Context {T : Tol} {EN : Env}.
Hypothesis horder_perm : horder_ok.

Ltac eqb_destruct := match goal with |- context[Nat.eqb ?a ?b] => destruct (Nat.eqb_spec a b) end.

Lemma rxin_upd : forall G s t, symm G -> rxin G s -> rxin G (with_rx s (im_update (rx_queue s) t tneg)).
Proof.
  intros G s t SG N q a. simpl. rewrite im_get_update. destruct (Nat.eqb t q); [|apply N].
  destruct (im_get (rx_queue s) q) eqn:E; simpl; [|discriminate]. intros Ha. inversion Ha; subst. apply SG. eapply N; eauto.
Qed.

(** ** Pauli gates *)
Lemma gate_x_ok : forall s t, wf s -> alloc s t ->
  exists s', gate_x s t = Ok s' /\ gstep s s' (gate1 mX t) /\ less_pend s s'.
Proof.
  intros s t W A. destruct (gate_x_core s t W A) as [s' [E [Fr W' C]]].
  exists s'. split; auto. destruct Fr as [F1 F2 F3 F4 F5]; simpl in *. split.
  - constructor; auto.
    + intros G _. apply rxin_eq. exact F4.
    + intros H0. apply (abs_local s s' mX (if bit (h_flag s) t then mZ else mX) t); auto.
      * intros q Hq. unfold pm. rewrite F3, F4, F5, im_get_update. eqb_destruct; congruence.
      * unfold pm. rewrite F3, F4, F5, im_get_update, Nat.eqb_refl.
        rewrite X_ryo, X_rxo, X_h, <- effy_neg. rewrite !mmul_assoc. reflexivity.
  - intros q. rewrite F3, F4, F5, im_get_update. repeat split; auto.
    intros Hq. rewrite Hq. destruct (Nat.eqb t q); auto.
Qed.

Lemma gate_y_ok : forall s t, wf s -> alloc s t ->
  exists s', gate_y s t = Ok s' /\
    gstep s s' (fun psi => scale (ysign (bit (h_flag s) t)) (gate1 mY t psi)) /\ less_pend s s'.
Proof.
  intros s t W A. destruct (gate_y_core s t W A) as [s' [E [Fr W' C]]].
  exists s'. split; auto. destruct Fr as [F1 F2 F3 F4 F5]; simpl in *. split.
  - constructor; auto.
    + intros G SG N. apply (rxin_eq G (with_rx s (im_update (rx_queue s) t tneg))); [exact F4|exact (rxin_upd G s t SG N)].
    + intros H0. rewrite <- gate1_mscale.
      apply (abs_local s s' _ mY t); auto.
      * intros q Hq. unfold pm. rewrite F3, F4, F5, im_get_update. eqb_destruct; congruence.
      * unfold pm. rewrite F3, F4, F5, im_get_update, Nat.eqb_refl.
        rewrite mmul_mscale_l, Y_ryo, Y_rxo, Y_h. rewrite !mmul_mscale_r, mscale_mscale, ysign_sq, mscale_1.
        rewrite <- (effy_negx (im_get (rx_queue s) t)).
        rewrite !mmul_assoc. reflexivity.
  - intros q. rewrite F3, F4, F5, im_get_update. repeat split; auto.
    intros Hq. rewrite Hq. destruct (Nat.eqb t q); auto.
Qed.

Lemma gate_z_ok : forall s t, wf s -> alloc s t ->
  exists s', gate_z s t = Ok s' /\ gstep s s' (gate1 mZ t).
Proof.
  intros s t W A. unfold gate_z. simpl.
  assert (W1 := wf_upd_rx _ t tneg (wf_upd_ry s t tneg W)). simpl in W1.
  set (s1 := with_rx _ _) in *.
  assert (P : exists s', (if bit (h_flag s) t then enqueue_op s1 t [] OX else enqueue_op s1 t [] OZ) = Ok s' /\
    cstep s1 s' (gate1 (if bit (h_flag s) t then mX else mZ) t)).
  { destruct (bit (h_flag s) t);
    [destruct (enqueue_op_ok _ t [] OX W1 (nodup1 t)) as [s' [E C]]
    |destruct (enqueue_op_ok _ t [] OZ W1 (nodup1 t)) as [s' [E C]]]; auto;
    exists s'; (split; [exact E|]); destruct C; constructor; auto; intros;
    rewrite cs_core by auto; apply cgate_nil. }
  destruct P as [s' [E [Fr W' C]]]. exists s'. split; auto.
  destruct Fr as [F1 F2 F3 F4 F5]; simpl in *.
  constructor; auto.
  - intros G SG N. apply (rxin_eq G (with_rx s (im_update (rx_queue s) t tneg))); [exact F4|exact (rxin_upd G s t SG N)].
  - intros H0. apply (abs_local s s' mZ (if bit (h_flag s) t then mX else mZ) t); auto.
    + intros q Hq. unfold pm. rewrite F3, F4, F5, !im_get_update. eqb_destruct; congruence.
    + unfold pm. rewrite F3, F4, F5, !im_get_update, !Nat.eqb_refl.
      rewrite Z_ryo, Z_rxo, Z_h, <- effy_neg, <- (effy_negx (im_get (rx_queue s) t)). rewrite !mmul_assoc. reflexivity.
Qed.

(** ** Controlled operations added to the queue *)
Lemma cstep_less : forall s s' F, cstep s s' F -> less_pend s s'.
Proof. intros s s' F [[]] q. rewrite fr_h, fr_rx, fr_ry. auto. Qed.

Lemma cstep_ctrl : forall s s' U W cs t, cstep s s' (cgate cs W t) -> alloc s t -> ~ In t cs ->
  (forall c, In c cs -> no_pend s c) -> (tol = 0 -> mmul U (pm s t) = mmul (pm s t) W) ->
  gstep s s' (cgate cs U t).
Proof.
  intros s s' U W cs t C A Hn Hc Hm.
  destruct C as [Fr W' C]. constructor; auto; try apply Fr.
  - destruct Fr. intros G _. apply rxin_eq. exact fr_rx.
  - intros H0. eapply (abs_ctrl s s' U W); eauto.
    + apply Fr.
    + intros. apply frame_pm; auto.
    + intros. apply no_pend_pm; auto.
Qed.

(** The case of two pending H: controlled X with control and target exchanged. *)
Lemma cx_reversed : forall s s' c t, cstep s s' (cgate [t] mX c) -> alloc s t -> alloc s c -> t <> c ->
  bit (h_flag s) c = true -> im_get (rx_queue s) c = None -> im_get (ry_queue s) c = None ->
  bit (h_flag s) t = true -> im_get (ry_queue s) t = None ->
  gstep s s' (cgate [c] mX t).
Proof.
  intros s s' c t C At Ac Hne Hhc Hxc Hyc Hht Hyt.
  assert (CA := cstep_abs _ _ _ C).
  destruct C as [Fr W' C]. constructor; auto; try apply Fr.
  - destruct Fr. intros G _. apply rxin_eq. exact fr_rx.
  - intros H0. rewrite CA by auto. unfold abs.
    assert (Pc : pm s c = mH) by (unfold pm; rewrite Hhc, Hxc, Hyc; simpl; now rewrite !mmul_I_l).
    assert (Pt : pm s t = mmul (rxo (im_get (rx_queue s) t)) mH)
      by (unfold pm; rewrite Hht, Hyt, effy_none; simpl; now rewrite !mmul_I_l).
    set (f := pm s) in *. set (f0 := upd (upd f c mI) t mI).
    assert (S : forall psi, pendl f (ids s) psi =
              gate1 (rxo (im_get (rx_queue s) t)) t (gate1 mH t (gate1 mH c (pendl f0 (ids s) psi)))).
    { intros. rewrite (gate1_comp _ mH t). rewrite <- Pt.
      rewrite (pendl_post f0 (ids s) mH c) by (try apply ids_nodup; apply ids_In; auto).
      rewrite pendl_post by (try apply ids_nodup; apply ids_In; auto).
      apply pendl_ext. intros q _. unfold f0, upd.
      destruct (Nat.eqb_spec q t).
      - subst q. rewrite !Nat.eqb_refl. destruct (Nat.eqb_spec t c); [congruence|]. now rewrite mmul_I_r.
      - destruct (Nat.eqb_spec q c); auto. subst q.
        destruct (Nat.eqb_spec c t); [congruence|]. rewrite !Nat.eqb_refl, mmul_I_r. auto. }
    rewrite !S.
    rewrite (cgate_conj [c] mX (rxo (im_get (rx_queue s) t)) mX t).
    2:{ simpl; intros [?|[]]; congruence. }
    2:{ generalize (X_rxo (im_get (rx_queue s) t) mI). now rewrite !mmul_I_r. }
    f_equal.
    rewrite (cgate_conj [c] mX mH mZ t).
    2:{ simpl; intros [?|[]]; congruence. }
    2:{ apply XH. }
    f_equal.
    rewrite mZ_phase. rewrite (cgate_phase_sym [c] t [t] c) by apply perm_swap. rewrite <- mZ_phase.
    rewrite (cgate_conj [t] mZ mH mX c).
    2:{ simpl; intros [?|[]]; congruence. }
    2:{ apply ZH. }
    f_equal. symmetry. apply pendl_cgate.
    + apply ids_nodup.
    + simpl; intros [?|[]]; congruence.
    + intros x [<-|[]] _. unfold f0, upd. now rewrite Nat.eqb_refl.
    + intros _. unfold f0, upd. destruct (Nat.eqb_spec c t); [congruence|].
      rewrite Nat.eqb_refl. now rewrite mmul_I_l, mmul_I_r.
    + intros Hi. exfalso. apply Hi. apply ids_In. auto.
Qed.

Lemma gstep_Forall : forall s s' F qs, gstep s s' F -> Forall (alloc s) qs -> Forall (alloc s') qs.
Proof. intros. eapply Forall_impl; [|exact H0]. intros. eapply gstep_alloc; eauto. Qed.

Lemma gate_mcx_ok : forall s cs t, wf s -> NoDup (t :: cs) -> Forall (alloc s) (t :: cs) ->
  exists s', gate_mcx s cs t = Ok s' /\ gstep s s' (cgate cs mX t) /\ less_pend s s'.
Proof.
  intros s cs t W D A. destruct cs as [|c0 rest].
  { inversion A; subst. destruct (gate_x_ok s t W H1) as [s' [E [G L]]].
    exists s'. split; auto. }
  unfold gate_mcx. inversion D; subst. inversion A; subst.
  set (cs := c0 :: rest) in *.
  (* flush of the target *)
  assert (S1 : exists s1, (if im_contains (ry_queue s) t then flush_queue s [t] LHRxRy else Ok s) = Ok s1 /\
     gstep s s1 (fun x => x) /\ less_pend s s1 /\ im_get (ry_queue s1) t = None).
  { destruct (im_contains (ry_queue s) t) eqn:Ey.
    - destruct (flush_queue_ok horder_perm LHRxRy [t] s W) as [s1 [E1 [G1 [L1 [_ [D1 _]]]]]]; auto.
      exists s1. split; auto. split; auto. split; auto. apply (D1 t); simpl; auto.
    - exists s. split; auto. split; [apply gstep_refl; auto|]. split; [apply less_refl|].
      apply im_contains_false; auto. }
  destruct S1 as [s1 [E1 [G1 [L1 Y1]]]]. rewrite E1. cbn [bind].
  assert (W1 : wf s1) by apply G1.
  assert (A1 : Forall (alloc s1) (t :: cs)) by (eapply gstep_Forall; eauto).
  assert (Ac1 : Forall (alloc s1) cs) by (inversion A1; auto).
  (* flush of the controls *)
  assert (S2 : exists s2, (match rest with
         | _ :: _ => maybe_flush_queue s1 cs LHRxRy
         | [] =>
             if im_contains (ry_queue s1) c0 || im_contains (rx_queue s1) c0
                || (bit (h_flag s1) c0 && negb (bit (h_flag s1) t))
             then flush_queue s1 cs LHRxRy else Ok s1
         end) = Ok s2 /\ gstep s1 s2 (fun x => x) /\ less_pend s1 s2 /\
         ((forall c, In c cs -> no_pend s2 c) \/
          (rest = [] /\ bit (h_flag s2) c0 = true /\ im_get (rx_queue s2) c0 = None /\
           im_get (ry_queue s2) c0 = None /\ bit (h_flag s2) t = true))).
  { destruct rest as [|c1 rest].
    - destruct (im_contains (ry_queue s1) c0 || im_contains (rx_queue s1) c0
                || (bit (h_flag s1) c0 && negb (bit (h_flag s1) t))) eqn:Ec.
      + destruct (flush_queue_ok horder_perm LHRxRy cs s1 W1 Ac1) as [s2 [E2 [G2 [L2 [_ [D2 _]]]]]].
        exists s2. refine (conj E2 (conj G2 (conj L2 _))). left. intros c Hc.
        destruct (D2 c Hc) as [? [? ?]]. repeat split; auto.
      + exists s1. split; auto. split; [apply gstep_refl; auto|]. split; [apply less_refl|].
        apply orb_false_iff in Ec. destruct Ec as [Ec Eh].
        apply orb_false_iff in Ec. destruct Ec as [Ey Ex].
        rewrite im_contains_false in Ey, Ex.
        destruct (bit (h_flag s1) c0) eqn:Hh.
        * right. repeat split; auto. destruct (bit (h_flag s1) t); auto.
        * left. intros c [<-|[]]. repeat split; auto.
    - destruct (maybe_flush_ok horder_perm cs s1 W1 Ac1) as [s2 [E2 [G2 [L2 [_ D2]]]]].
      exists s2. split; auto. }
  destruct S2 as [s2 [E2 [G2 [L2 P2]]]]. fold cs. rewrite E2. cbn [bind].
  assert (G12 : gstep s s2 (fun x => x)) by (eapply gstep_id_l; eauto).
  assert (L12 : less_pend s s2) by (eapply less_trans; eauto).
  assert (W2 : wf s2) by apply G2.
  assert (A2 : Forall (alloc s2) (t :: cs)) by (eapply gstep_Forall; eauto).
  assert (Y2 : im_get (ry_queue s2) t = None) by (apply L2; auto).
  assert (At2 : alloc s2 t) by (inversion A2; auto).
  assert (Fin : forall op W', opmat op = W' -> (forall c, In c cs -> no_pend s2 c) ->
     (tol = 0 -> mmul mX (pm s2 t) = mmul (pm s2 t) W') ->
     exists s', enqueue_op s2 t cs op = Ok s' /\ gstep s s' (cgate cs mX t) /\ less_pend s s').
  { intros op W' Ho Hn Hm. destruct (enqueue_op_ok s2 t cs op W2 D A2) as [s' [E C]].
    exists s'. split; auto. rewrite Ho in C. split.
    - eapply gstep_id_l; [exact G12|]. eapply cstep_ctrl; eauto.
    - eapply less_trans; [exact L12|]. eapply cstep_less; eauto. }
  assert (Mx : mmul mX (pm s2 t) = mmul (pm s2 t) (if bit (h_flag s2) t then mZ else mX)).
  { unfold pm. rewrite Y2, effy_none. simpl. rewrite mmul_I_l, X_rxo, X_h. rewrite !mmul_assoc. reflexivity. }
  destruct (bit (h_flag s2) t) eqn:Ht.
  - destruct P2 as [P2|[Hr [Hc [Hx [Hy _]]]]].
    + assert (Hc0 : bit (h_flag s2) c0 = false) by (apply P2; simpl; auto).
      assert (R := Fin OZ mZ eq_refl P2 (fun _ => Mx)).
      destruct rest; [rewrite Hc0|]; exact R.
    + subst rest. rewrite Hc.
      assert (Hne : t <> c0) by (intro; subst; apply H1; simpl; auto).
      assert (Ac0 : alloc s2 c0) by (rewrite Forall_forall in A2; apply A2; simpl; auto).
      destruct (enqueue_op_ok s2 c0 [t] OX W2) as [s' [E C]].
      { constructor; [simpl; intuition|apply nodup1]. }
      { constructor; auto. }
      exists s'. split; auto. split.
      * eapply gstep_id_l; [exact G12|]. eapply cx_reversed; eauto.
      * eapply less_trans; [exact L12|]. eapply cstep_less; eauto.
  - destruct P2 as [P2|[Hr [Hc [Hx [Hy Ht']]]]]; [|congruence].
    apply (Fin OX mX eq_refl P2 (fun _ => Mx)).
Qed.

(** Sign of a pending H moved to the controls in [mcy]. *)
Lemma gate_mcy_ok : forall s cs t, wf s -> NoDup (t :: cs) -> Forall (alloc s) (t :: cs) ->
  exists s', gate_mcy s cs t = Ok s' /\
    (cs <> [] \/ bit (h_flag s) t = false -> gstep s s' (cgate cs mY t)) /\
    (cs = [] -> gstep s s' (fun psi => scale (ysign (bit (h_flag s) t)) (gate1 mY t psi))) /\
    less_pend s s'.
Proof.
  intros s cs t W D A. destruct cs as [|c0 rest].
  { inversion A; subst. destruct (gate_y_ok s t W H1) as [s' [E [G L]]].
    exists s'. split; auto. split; [|split; auto].
    intros [Hf|Hf]; [congruence|]. rewrite Hf in G. simpl in G.
    eapply gstep_ext; [exact G|]. intros. apply scale_1. }
  unfold gate_mcy. inversion D; subst. inversion A; subst.
  set (cs := c0 :: rest) in *.
  assert (Ac : Forall (alloc s) cs) by auto.
  destruct (maybe_flush_ok horder_perm cs s W Ac) as [s1 [E1 [G1 [L1 [_ D1]]]]].
  rewrite E1. cbn [bind].
  assert (W1 : wf s1) by apply G1.
  assert (A1 : Forall (alloc s1) (t :: cs)) by (eapply gstep_Forall; eauto).
  assert (S2 : exists s2, (if im_contains (rx_queue s1) t then flush_queue s1 [t] LHRx else Ok s1) = Ok s2 /\
     gstep s1 s2 (fun x => x) /\ less_pend s1 s2 /\ im_get (rx_queue s2) t = None).
  { destruct (im_contains (rx_queue s1) t) eqn:Ex.
    - destruct (flush_queue_ok horder_perm LHRx [t] s1 W1) as [s2 [E2 [G2 [L2 [_ [D2 _]]]]]].
      + inversion A1; auto.
      + exists s2. split; auto. split; auto. split; auto. apply (D2 t); simpl; auto.
    - exists s1. split; auto. split; [apply gstep_refl; auto|]. split; [apply less_refl|].
      apply im_contains_false; auto. }
  destruct S2 as [s2 [E2 [G2 [L2 X2]]]]. rewrite E2. cbn [bind].
  assert (G12 : gstep s s2 (fun x => x)) by (eapply gstep_id_l; eauto).
  assert (L12 : less_pend s s2) by (eapply less_trans; eauto).
  assert (W2 : wf s2) by apply G2.
  assert (A2 : Forall (alloc s2) (t :: cs)) by (eapply gstep_Forall; eauto).
  assert (At2 : alloc s2 t) by (inversion A2; auto).
  assert (P2 : forall c, In c cs -> no_pend s2 c).
  { intros. apply (less_no_pend s1); auto. }
  assert (S3 : exists s3, (if bit (h_flag s2) t then enqueue_op s2 c0 rest OZ else Ok s2) = Ok s3 /\
     cstep s2 s3 (cgate cs (mscale (ysign (bit (h_flag s2) t)) mI) t)).
  { destruct (bit (h_flag s2) t).
    - destruct (enqueue_op_ok s2 c0 rest OZ W2) as [s3 [E3 [F3 W3 C3]]]; auto.
      { inversion A2; auto. }
      exists s3. split; auto. constructor; auto. intros H0. rewrite C3 by auto.
      apply functional_extensionality. intros b. simpl opmat. rewrite mZ_phase, cgate_phase.
      fold cs. unfold cgate. rewrite gate1_mscale, gate1_I. reflexivity.
    - exists s2. split; auto. constructor; auto using frame_refl. intros H0.
      simpl. rewrite mscale_1. symmetry. apply cgate_I. }
  destruct S3 as [s3 [E3 C3]]. rewrite E3. cbn [bind].
  assert (W3 : wf s3) by apply C3.
  assert (A3 : Forall (alloc s3) (t :: cs)).
  { eapply Forall_impl; [|exact A2]. intros. apply (frame_alloc s2); auto. apply C3. }
  destruct (enqueue_op_ok s3 t cs OY W3 D A3) as [s4 [E4 C4]].
  exists s4. split; auto.
  assert (C34 : cstep s2 s4 (cgate cs (mscale (ysign (bit (h_flag s2) t)) mY) t)).
  { destruct (cstep_trans _ _ _ _ _ C3 C4) as [F5 W5 C5]. constructor; auto.
    intros H0. rewrite C5 by auto. simpl opmat. rewrite cgate_comp by auto.
    rewrite mmul_mscale_r, mmul_I_r. reflexivity. }
  assert (G : gstep s s4 (cgate cs mY t)).
  { eapply gstep_id_l; [exact G12|]. eapply cstep_ctrl; eauto. intros H0.
    unfold pm. rewrite X2. simpl. rewrite mmul_I_l, Y_ryo, Y_h, !mmul_mscale_r.
    rewrite !mmul_assoc. reflexivity. }
  split; auto. split; [discriminate|].
  eapply less_trans; [exact L12|]. eapply cstep_less; eauto.
Qed.

(** ** Controlled rotations *)
Lemma rfac_gstep : forall s s' cs f, cstep s s' (cfactor cs f) ->
  (forall c, In c cs -> no_pend s c) -> forall t, alloc s t -> ~ In t cs ->
  gstep s s' (cgate cs (mscale f mI) t).
Proof.
  intros s s' cs f C Hc t A Hn. apply (cstep_ctrl s s' _ (mscale f mI)); auto.
  - destruct C; constructor; auto. intros. rewrite cs_core by auto. apply cfactor_cgate.
  - intros. apply mscale_I_comm.
Qed.

Lemma mcrotation_ok : forall s cs theta t sf, wf s -> NoDup (t :: cs) -> Forall (alloc s) (t :: cs) ->
  (forall c, In c cs -> no_pend s c) -> bit (h_flag s) t = false ->
  (if sf : bool then im_get (rx_queue s) t = None else im_get (ry_queue s) t = None) ->
  exists s', mcrotation s cs theta t sf = Ok s' /\ gstep s s' (cgate cs (rmat sf theta) t).
Proof.
  intros s cs theta t sf W D A Hc Hh Hq. unfold mcrotation.
  assert (At : alloc s t) by (inversion A; auto). inversion D; subst.
  destruct (cz theta) eqn:Hcz.
  - assert (S1 : exists s1, (if sf then gate_mcy s cs t else gate_mcx s cs t) = Ok s1 /\
       gstep s s1 (cgate cs (if sf then mY else mX) t) /\ less_pend s s1).
    { destruct sf.
      - destruct (gate_mcy_ok s cs t W D A) as [s1 [E [G [_ L]]]]. exists s1. auto.
      - destruct (gate_mcx_ok s cs t W D A) as [s1 [E [G L]]]. exists s1. auto. }
    destruct S1 as [s1 [E1 [G1 L1]]].
    destruct (mcrotation_sharp gate_mcx gate_mcy s cs theta t sf s1 D A Hcz E1)
      as [s' [E C]]; try apply G1.
    exists s'. split; auto.
    assert (G2 : gstep s1 s' (cgate cs (mscale (rfac sf theta) mI) t)).
    { apply rfac_gstep; auto.
      - intros. eapply less_no_pend; eauto.
      - eapply gstep_alloc; eauto. }
    destruct (gstep_trans _ _ _ _ _ G1 G2). constructor; auto.
    intros H0. rewrite gs_abs by auto. rewrite cgate_comp by auto.
    rewrite rmat_cz by auto. f_equal. rewrite mmul_mscale_l, mmul_I_l. reflexivity.
  - destruct (mcrotation_smooth horder_perm gate_mcx gate_mcy s cs theta t sf W D A Hcz)
      as [s' [E C]].
    exists s'. split; auto. eapply cstep_ctrl; eauto. intros H0.
    unfold pm. rewrite Hh. simpl. rewrite mmul_I_r. unfold rmat. destruct sf; rewrite Hq, ?effy_none; simpl;
      rewrite ?mmul_I_l, ?mmul_I_r.
    + destruct (im_get (ry_queue s) t); simpl; [rewrite !RyRy; f_equal; ring|now rewrite mmul_I_l, mmul_I_r].
    + destruct (im_get (rx_queue s) t); simpl; [rewrite !RxRx; f_equal; ring|now rewrite mmul_I_l, mmul_I_r].
Qed.

Lemma flush_ctls : forall s cs t, wf s -> Forall (alloc s) (t :: cs) ->
  exists s1, flush_queue s cs LHRxRy = Ok s1 /\ gstep s s1 (fun x => x) /\ wf s1 /\
    Forall (alloc s1) (t :: cs) /\ less_pend s s1 /\ (forall c, In c cs -> no_pend s1 c).
Proof.
  intros s cs t W A. inversion A; subst.
  destruct (flush_queue_ok horder_perm LHRxRy cs s W H2) as [s1 [E1 [G1 [L1 [_ [D1 _]]]]]].
  exists s1. split; auto. split; auto. split; [apply G1|].
  split; [eapply gstep_Forall; eauto|]. split; auto.
Qed.

Lemma gate_mcrx_ok : forall s cs theta t, wf s -> NoDup (t :: cs) -> Forall (alloc s) (t :: cs) ->
  exists s', gate_mcrx s cs theta t = Ok s' /\ gstep s s' (cgate cs (mRx theta) t).
Proof.
  intros s cs theta t W D A. unfold gate_mcrx.
  destruct (flush_ctls s cs t W A) as [s1 [E1 [G1 [W1 [A1 [L1 N1]]]]]]. rewrite E1. cbn [bind].
  assert (At1 : Forall (alloc s1) [t]) by (inversion A1; auto).
  assert (S2 : exists s2, (if im_contains (ry_queue s1) t then flush_queue s1 [t] LHRxRy
              else if bit (h_flag s1) t then flush_queue s1 [t] LH else Ok s1) = Ok s2 /\
     gstep s1 s2 (fun x => x) /\ less_pend s1 s2 /\ bit (h_flag s2) t = false /\
     im_get (ry_queue s2) t = None).
  { destruct (im_contains (ry_queue s1) t) eqn:Ey.
    - destruct (flush_queue_ok horder_perm LHRxRy [t] s1 W1 At1) as [s2 [E2 [G2 [L2 [_ [D2 _]]]]]].
      exists s2. split; auto. split; auto. split; auto.
      destruct (D2 t) as [? [? ?]]; simpl; auto.
    - apply im_contains_false in Ey. destruct (bit (h_flag s1) t) eqn:Eh.
      + destruct (flush_queue_ok horder_perm LH [t] s1 W1 At1) as [s2 [E2 [G2 [L2 [_ [D2 _]]]]]].
        exists s2. split; auto. split; auto. split; auto. split; [apply (D2 t); simpl; auto|].
        apply L2; auto.
      + exists s1. split; auto. split; [apply gstep_refl; auto|]. split; [apply less_refl|]. auto. }
  destruct S2 as [s2 [E2 [G2 [L2 [H2 Y2]]]]]. rewrite E2. cbn [bind].
  destruct (mcrotation_ok s2 cs theta t false) as [s3 [E3 G3]]; auto.
  - apply G2.
  - eapply gstep_Forall; eauto.
  - intros. eapply less_no_pend; eauto.
  - exists s3. split; auto. eapply gstep_id_l; [exact G1|]. eapply gstep_id_l; eauto.
Qed.

Lemma gate_mcry_ok : forall s cs theta t, wf s -> NoDup (t :: cs) -> Forall (alloc s) (t :: cs) ->
  exists s', gate_mcry s cs theta t = Ok s' /\ gstep s s' (cgate cs (mRy theta) t).
Proof.
  intros s cs theta t W D A. unfold gate_mcry.
  destruct (flush_ctls s cs t W A) as [s1 [E1 [G1 [W1 [A1 [L1 N1]]]]]]. rewrite E1. cbn [bind].
  assert (At1 : Forall (alloc s1) [t]) by (inversion A1; auto).
  assert (S2 : exists s2, (if im_contains (rx_queue s1) t then flush_queue s1 [t] LHRx
              else if bit (h_flag s1) t then flush_queue s1 [t] LH else Ok s1) = Ok s2 /\
     gstep s1 s2 (fun x => x) /\ less_pend s1 s2 /\ bit (h_flag s2) t = false /\
     im_get (rx_queue s2) t = None).
  { destruct (im_contains (rx_queue s1) t) eqn:Ey.
    - destruct (flush_queue_ok horder_perm LHRx [t] s1 W1 At1) as [s2 [E2 [G2 [L2 [_ [D2 _]]]]]].
      exists s2. split; auto. split; auto. split; auto.
      destruct (D2 t) as [? ?]; simpl; auto.
    - apply im_contains_false in Ey. destruct (bit (h_flag s1) t) eqn:Eh.
      + destruct (flush_queue_ok horder_perm LH [t] s1 W1 At1) as [s2 [E2 [G2 [L2 [_ [D2 _]]]]]].
        exists s2. split; auto. split; auto. split; auto. split; [apply (D2 t); simpl; auto|].
        apply L2; auto.
      + exists s1. split; auto. split; [apply gstep_refl; auto|]. split; [apply less_refl|]. auto. }
  destruct S2 as [s2 [E2 [G2 [L2 [H2 Y2]]]]]. rewrite E2. cbn [bind].
  destruct (mcrotation_ok s2 cs theta t true) as [s3 [E3 G3]]; auto.
  - apply G2.
  - eapply gstep_Forall; eauto.
  - intros. eapply less_no_pend; eauto.
  - exists s3. split; auto. eapply gstep_id_l; [exact G1|]. eapply gstep_id_l; eauto.
Qed.

(** ** Controlled H *)
Lemma gate_mch_ok : forall s cs t, wf s -> NoDup (t :: cs) -> Forall (alloc s) (t :: cs) ->
  exists s', gate_mch s cs t = Ok s' /\ gstep s s' (cgate cs mH t).
Proof.
  intros s cs t W D A. unfold gate_mch.
  destruct (flush_ctls s cs t W A) as [s1 [E1 [G1 [W1 [A1 [L1 N1]]]]]]. rewrite E1. cbn [bind].
  assert (At1 : Forall (alloc s1) [t]) by (inversion A1; auto).
  assert (S2 : exists s2, (if im_contains (ry_queue s1) t || im_contains (rx_queue s1) t
              then flush_queue s1 [t] LHRxRy else Ok s1) = Ok s2 /\
     gstep s1 s2 (fun x => x) /\ less_pend s1 s2 /\ im_get (rx_queue s2) t = None /\
     im_get (ry_queue s2) t = None).
  { destruct (im_contains (ry_queue s1) t || im_contains (rx_queue s1) t) eqn:Ey.
    - destruct (flush_queue_ok horder_perm LHRxRy [t] s1 W1 At1) as [s2 [E2 [G2 [L2 [_ [D2 _]]]]]].
      exists s2. split; auto. split; auto. split; auto.
      destruct (D2 t) as [? [? ?]]; simpl; auto.
    - apply orb_false_iff in Ey. rewrite !im_contains_false in Ey.
      exists s1. split; auto. split; [apply gstep_refl; auto|]. split; [apply less_refl|]. tauto. }
  destruct S2 as [s2 [E2 [G2 [L2 [X2 Y2]]]]]. rewrite E2. cbn [bind].
  assert (A2 : Forall (alloc s2) (t :: cs)) by (eapply gstep_Forall; eauto).
  destruct (apply_mch_ok horder_perm s2 cs t (gs_wf _ _ _ G2) D A2) as [s3 [E3 C3]].
  exists s3. split; auto. eapply gstep_id_l; [exact G1|]. eapply gstep_id_l; [exact G2|].
  inversion D; subst. inversion A2; subst. eapply cstep_ctrl; eauto.
  - intros. eapply less_no_pend; eauto.
  - intros. unfold pm. rewrite X2, Y2. simpl. rewrite !mmul_I_l.
    destruct (bit (h_flag s2) t); simpl; [reflexivity|now rewrite mmul_I_l, mmul_I_r].
Qed.

(** ** Phase-like gates *)
Lemma gate_diag_ok : forall op s t, wf s -> alloc s t ->
  exists s', gate_diag op s t = Ok s' /\ gstep s s' (gate1 (opmat op) t).
Proof.
  intros op s t W A. unfold gate_diag.
  destruct (maybe_flush_ok horder_perm [t] s W) as [s1 [E1 [G1 [L1 [_ D1]]]]]; auto.
  rewrite E1. cbn [bind].
  assert (A1 : alloc s1 t) by (eapply gstep_alloc; eauto).
  destruct (enqueue_op_ok s1 t [] op (gs_wf _ _ _ G1) (nodup1 t)) as [s2 [E2 C2]]; auto.
  exists s2. split; auto. eapply gstep_id_l; [exact G1|].
  eapply gstep_ext with (F := cgate [] (opmat op) t); [|intros; apply cgate_nil].
  eapply cstep_ctrl; eauto; simpl; try tauto.
  intros. rewrite (no_pend_pm s1 t) by (apply D1; simpl; auto). now rewrite mmul_I_l, mmul_I_r.
Qed.

Lemma gate_mcdiag_ok : forall op s cs t, wf s -> NoDup (t :: cs) -> Forall (alloc s) (t :: cs) ->
  exists s', gate_mcdiag op s cs t = Ok s' /\ gstep s s' (cgate cs (opmat op) t).
Proof.
  intros op s cs t W D A. unfold gate_mcdiag. inversion A; subst.
  destruct (maybe_flush_ok horder_perm cs s W) as [s1 [E1 [G1 [L1 [_ D1]]]]]; auto.
  rewrite E1. cbn [bind].
  assert (A1 : Forall (alloc s1) (t :: cs)) by (eapply gstep_Forall; eauto).
  destruct (maybe_flush_ok horder_perm [t] s1 (gs_wf _ _ _ G1)) as [s2 [E2 [G2 [L2 [_ D2]]]]].
  { inversion A1; auto. }
  rewrite E2. cbn [bind].
  assert (A2 : Forall (alloc s2) (t :: cs)) by (eapply gstep_Forall; eauto).
  destruct (enqueue_op_ok s2 t cs op (gs_wf _ _ _ G2) D A2) as [s3 [E3 C3]].
  exists s3. split; auto. eapply gstep_id_l; [exact G1|]. eapply gstep_id_l; [exact G2|].
  inversion D; subst. inversion A2; subst. eapply cstep_ctrl; eauto.
  - intros. eapply less_no_pend; eauto.
  - intros. rewrite (no_pend_pm s2 t) by (apply D2; simpl; auto). now rewrite mmul_I_l, mmul_I_r.
Qed.

(** State change with an empty queue. *)
Lemma cstep_state0 : forall s st F, wf s -> op_queue s = [] -> st_ok (id_map s) st ->
  (tol = 0 -> baseof (id_map s) (lamp st) = F (base s)) ->
  cstep s (with_state s st) F.
Proof.
  intros s st F W Q S H. constructor.
  - constructor; reflexivity.
  - destruct W; constructor; simpl; auto.
  - intros. unfold core, base in *. simpl. rewrite Q. simpl. auto.
Qed.

Lemma flush_two : forall s cs ts, wf s -> Forall (alloc s) cs -> Forall (alloc s) ts ->
  exists s1 s2, flush_queue s cs LHRxRy = Ok s1 /\ flush_queue s1 ts LHRxRy = Ok s2 /\
    gstep s s2 (fun x => x) /\ op_queue s2 = [] /\
    (forall q, In q cs \/ In q ts -> no_pend s2 q) /\ less_pend s s2.
Proof.
  intros s cs ts W Ac At.
  destruct (flush_queue_ok horder_perm LHRxRy cs s W Ac) as [s1 [E1 [G1 [L1 [_ [D1 _]]]]]].
  assert (At1 : Forall (alloc s1) ts) by (eapply gstep_Forall; eauto).
  destruct (flush_queue_ok horder_perm LHRxRy ts s1 (gs_wf _ _ _ G1) At1)
    as [s2 [E2 [G2 [L2 [_ [D2 Q2]]]]]].
  exists s1, s2. split; auto. split; auto. split; [eapply gstep_id_l; eauto|]. split; auto. split.
  - intros q [Hq|Hq].
    + eapply less_no_pend; [exact L2|]. destruct (D1 q Hq) as [? [? ?]]. repeat split; auto.
    + destruct (D2 q Hq) as [? [? ?]]. repeat split; auto.
  - eapply less_trans; eauto.
Qed.

Lemma gate_mcphase_ok : forall s cs p t, wf s -> NoDup (t :: cs) -> Forall (alloc s) (t :: cs) ->
  exists s', gate_mcphase s cs p t = Ok s' /\ gstep s s' (cgate cs (mPhase p) t).
Proof.
  intros s cs p t W D A. unfold gate_mcphase. inversion A; subst.
  destruct (flush_two s cs [t] W) as [s1 [s2 [E1 [E2 [G2 [Q2 [N2 L2]]]]]]]; auto.
  rewrite E1. cbn [bind]. rewrite E2. cbn [bind].
  assert (A2 : Forall (alloc s2) (t :: cs)) by (eapply gstep_Forall; eauto).
  assert (W2 : wf s2) by apply G2.
  destruct (resolve_ok s2 t cs D A2) as [t' [cs' [E [R1 R2]]]]. rewrite E. cbn [bind].
  eexists; split; [reflexivity|]. eapply gstep_id_l; [exact G2|].
  inversion D; subst. inversion A2; subst.
  apply (cstep_ctrl s2 _ _ (mPhase p)); auto.
  - assert (Eq : map (fun iv => if all_set cs' (fst iv) then phase_transform p t' iv else iv) (state s2)
           = scale_entries (fun k => if forallb (bit k) (t' :: cs') then p else C1) (state s2)).
    { apply map_ext. intros [k v]. unfold phase_transform, all_set. simpl.
      destruct (bit k t'); destruct (forallb (bit k) cs'); simpl; f_equal; aring. }
    rewrite Eq. apply cstep_state0; auto.
    + unfold st_ok. rewrite keys_scale_entries. apply W2.
    + intros _. apply functional_extensionality. intros b. rewrite cgate_phase.
      unfold base, baseof. rewrite lamp_scale_entries.
      rewrite (forallb_to_loc (id_map s2) (wf_inj s2 W2) (t :: cs)) by (constructor; auto).
      destruct (inb (id_map s2) b); destruct (forallb (bit b) (t :: cs)); ring.
  - intros. rewrite (no_pend_pm s2 t) by (apply N2; simpl; auto). now rewrite mmul_I_l, mmul_I_r.
Qed.

(** ** Controlled Z *)
Lemma fold_weight : forall s qs n, fold_left (fun acc c => (acc + pend_weight s c)%nat) qs n
  = (n + list_sum (map (pend_weight s) qs))%nat.
Proof.
  induction qs; simpl; intros; [lia|]. rewrite IHqs. lia.
Qed.
Lemma weight0 : forall s q, pend_weight s q = 0%nat -> no_pend s q.
Proof.
  intros s q. unfold pend_weight. destruct (bit (h_flag s) q) eqn:E; [discriminate|].
  destruct (im_contains (rx_queue s) q || im_contains (ry_queue s) q) eqn:F; [discriminate|].
  apply orb_false_iff in F. rewrite !im_contains_false in F. intros _. repeat split; tauto.
Qed.
Lemma weight1 : forall s q, pend_weight s q = 1%nat -> bit (h_flag s) q = true /\ pm s q = mH.
Proof.
  intros s q. unfold pend_weight. destruct (bit (h_flag s) q) eqn:E;
  destruct (im_contains (rx_queue s) q || im_contains (ry_queue s) q) eqn:F; try discriminate.
  apply orb_false_iff in F. rewrite !im_contains_false in F. destruct F as [F1 F2].
  intros _. split; auto. unfold pm. rewrite E, F1, F2. simpl. now rewrite !mmul_I_l.
Qed.
Lemma weight_h : forall s q, bit (h_flag s) q = true -> (1 <= pend_weight s q)%nat.
Proof. intros s q H. unfold pend_weight. rewrite H. lia. Qed.
Lemma sum_le_In : forall (f : nat -> nat) l x, In x l -> (f x <= list_sum (map f l))%nat.
Proof. induction l; simpl; intros; [tauto|]. destruct H; [subst; lia|]. apply IHl in H. lia. Qed.
Lemma sum_one_other : forall (f : nat -> nat) l x, NoDup l -> In x l -> (1 <= f x)%nat ->
  (list_sum (map f l) <= 1)%nat -> f x = 1%nat /\ forall y, In y l -> y <> x -> f y = 0%nat.
Proof.
  induction l; simpl; intros; [tauto|]. inversion H; subst. destruct H0.
  - subst. split; [lia|]. intros y [->|Hy] Hne; [tauto|].
    generalize (sum_le_In f l y Hy). lia.
  - generalize (sum_le_In f l x H0). intros. destruct (IHl x) as [I1 I2]; auto; [lia|].
    split; auto. intros y [->|Hy] Hne; [lia|]. auto.
Qed.

Lemma replace_perm : forall l h t, NoDup l -> In h l ->
  Permutation (t :: l) (h :: map (fun c => if Nat.eqb c h then t else c) l).
Proof.
  induction l; simpl; intros; [tauto|]. inversion H; subst. destruct H0.
  - subst. rewrite Nat.eqb_refl.
    rewrite (map_ext_in _ (fun c => c)); [rewrite map_id; apply perm_swap|].
    intros. destruct (Nat.eqb_spec a h); auto. subst; tauto.
  - destruct (Nat.eqb_spec a h); [subst; tauto|].
    eapply Permutation_trans; [apply perm_swap|].
    eapply Permutation_trans; [apply perm_skip, (IHl h t); auto|]. apply perm_swap.
Qed.

Lemma gate_mcz_ok : forall s cs t, wf s -> NoDup (t :: cs) -> Forall (alloc s) (t :: cs) ->
  exists s', gate_mcz s cs t = Ok s' /\ gstep s s' (cgate cs mZ t).
Proof.
  intros s cs t W D A. destruct cs as [|c0 rest].
  { inversion A; subst. destruct (gate_z_ok s t W H1) as [s' [E G]].
    exists s'. split; auto. }
  unfold gate_mcz. set (cs := c0 :: rest) in *. rewrite fold_weight. rewrite Nat.add_0_l.
  inversion D; subst.
  destruct (Nat.eqb_spec (list_sum (map (pend_weight s) cs) + pend_weight s t) 1).
  - destruct (find (fun c => bit (h_flag s) c) cs) as [h|] eqn:F.
    + apply find_some in F. destruct F as [Fi Fb].
      assert (Wh := weight_h s h Fb). assert (Ws := sum_le_In (pend_weight s) cs h Fi).
      destruct (sum_one_other (pend_weight s) cs h) as [O1 O2]; auto; [lia|].
      assert (Pm := replace_perm cs h t H2 Fi).
      set (cs' := map (fun c => if Nat.eqb c h then t else c) cs) in *.
      assert (D' : NoDup (h :: cs')) by (eapply Permutation_NoDup; eauto).
      assert (A' : Forall (alloc s) (h :: cs')).
      { rewrite Forall_forall in *. intros x Hx. apply A.
        eapply Permutation_in; [apply Permutation_sym|]; eauto. }
      destruct (enqueue_op_ok s h cs' OX W D' A') as [s' [E C]].
      exists s'. split; auto.
      eapply gstep_ext with (F := cgate cs' mZ h).
      * inversion D'; subst. inversion A'; subst. eapply cstep_ctrl; eauto.
        { intros c Hc. apply weight0.
          assert (In c (t :: cs)) by (eapply Permutation_in; [apply Permutation_sym; exact Pm|simpl; auto]).
          destruct H as [<-|Hi]; [lia|]. apply O2; auto. intro; subst; tauto. }
        { intros. destruct (weight1 s h O1) as [_ Ph]. rewrite Ph. apply ZH. }
      * intros psi. rewrite mZ_phase. symmetry. apply cgate_phase_sym; auto.
    + assert (Hall : forall c, In c cs -> pend_weight s c = 0%nat).
      { intros c Hc. assert (Hh := find_none _ _ F c Hc). simpl in Hh.
        assert (Ws := sum_le_In (pend_weight s) cs c Hc).
        assert (Wc : (pend_weight s c <= 1)%nat) by lia. clear - Hh Wc.
        unfold pend_weight in *. rewrite Hh in *.
        destruct (im_contains (rx_queue s) c || im_contains (ry_queue s) c); lia. }
      assert (Ht : pend_weight s t = 1%nat).
      { assert (list_sum (map (pend_weight s) cs) = 0%nat); [|lia].
        clear -Hall. induction cs as [|a l IHl]; simpl; auto. rewrite (Hall a) by (simpl; auto).
        rewrite IHl; auto. intros; apply Hall; simpl; auto. }
      destruct (enqueue_op_ok s t cs OX W D A) as [s' [E C]].
      exists s'. split; auto. inversion A; subst. eapply cstep_ctrl; eauto.
      * intros. apply weight0; auto.
      * intros. destruct (weight1 s t Ht) as [_ Ph]. rewrite Ph. apply ZH.
  - inversion A; subst.
    destruct (flush_two s cs [t] W) as [s1 [s2 [E1 [E2 [G2 [Q2 [N2 L2]]]]]]]; auto.
    rewrite E1. cbn [bind]. rewrite E2. cbn [bind].
    assert (A2 : Forall (alloc s2) (t :: cs)) by (eapply gstep_Forall; eauto).
    destruct (enqueue_op_ok s2 t cs OZ (gs_wf _ _ _ G2) D A2) as [s3 [E3 C3]].
    exists s3. split; auto. eapply gstep_id_l; [exact G2|].
    inversion A2; subst. eapply cstep_ctrl; eauto.
    intros. rewrite (no_pend_pm s2 t) by (apply N2; simpl; auto). simpl.
    now rewrite mmul_I_l, mmul_I_r.
Qed.

(** ** H *)
Lemma flush_one_rx : forall s t, wf s -> alloc s t ->
  exists s', flush_queue s [t] LHRx = Ok s' /\ gstep s s' (fun x => x) /\ same_other t s s' /\
    bit (h_flag s') t = false /\ im_get (rx_queue s') t = None /\ ry_rel s s' t.
Proof.
  intros s t W A. unfold flush_queue. simpl.
  destruct (flush_one_ok horder_perm LHRx s t W A) as [s1 [E1 [G1 [SO1 [L1 [L2 L3]]]]]].
  rewrite E1. simpl. destruct (flush_ops_ok s1) as [s2 [E2 [C2 Q2]]]; [apply G1|].
  exists s2. assert (G2 := cstep_gstep_id _ _ C2). destruct C2 as [[] _ _].
  split; auto. split; [eapply gstep_id_l; eauto|]. split.
  - destruct SO1. constructor; rewrite ?fr_h, ?fr_rx, ?fr_ry; auto.
  - unfold ry_rel in *. rewrite fr_h, fr_rx, fr_ry. auto.
Qed.

Lemma wf_set_h : forall s t v, wf s -> alloc s t -> wf (with_h s (set_bit (h_flag s) t v)).
Proof.
  intros s t v [] A; constructor; simpl; auto. intros q H.
  destruct (Nat.eq_dec q t); [subst; exact A|]. rewrite bit_set_other in H by auto. apply wf_h; auto.
Qed.

Lemma gate_h_ok : forall s t, wf s -> alloc s t ->
  exists s', gate_h s t = Ok s' /\ gstep s s' (gate1 mH t).
Proof.
  intros s t W A. unfold gate_h. simpl.
  assert (W1 := wf_upd_ry s t tneg W).
  set (s1 := with_ry _ _) in *.
  assert (A1 : alloc s1 t) by exact A.
  assert (S2 : exists s2, (if im_contains (rx_queue s) t then flush_queue s1 [t] LHRx else Ok s1) = Ok s2 /\
    gstep s1 s2 (fun x => x) /\ im_get (rx_queue s2) t = None /\
    ry_rel s1 s2 t /\ (forall q, im_get (rx_queue s) q = None -> im_get (rx_queue s2) q = None)).
  { destruct (im_contains (rx_queue s) t) eqn:Ex.
    - destruct (flush_one_rx s1 t W1 A1) as [s2 [E2 [G2 [SO2 [H2 [X2 Y2]]]]]].
      exists s2. split; auto. split; auto. split; auto. split; auto.
      intros q Hq. destruct (Nat.eq_dec q t); [subst; auto|].
      destruct SO2. rewrite so_rx; auto.
    - exists s1. split; auto. split; [apply gstep_refl; auto|].
      apply im_contains_false in Ex. split; auto. split; auto. unfold ry_rel.
      change (rx_queue s1) with (rx_queue s). rewrite Ex. simpl. tauto. }
  destruct S2 as [s2 [E2 [G2 [X2 [Y2 P2]]]]]. rewrite E2. cbn [bind].
  eexists; split; [reflexivity|].
  set (s3 := with_h _ _).
  assert (W2 : wf s2) by apply G2.
  constructor; simpl; try apply G2.
  - unfold s3. apply wf_set_h; auto. destruct G2 as [I2 _ _ _ _ _]. unfold alloc. rewrite I2. exact A.
  - intros H0.
    set (b := effy (im_get (rx_queue s) t) (im_get (ry_queue s) t)).
    assert (Eb : im_get (ry_queue s2) t = oneg b).
    { destruct Y2 as [_ Y2]. rewrite Y2. unfold s1. simpl.
      rewrite im_get_update, Nat.eqb_refl. apply effy_neg. }
    assert (S : abs s = gate1 (mmul (ryo b) (ryo b)) t (abs s1)).
    { apply (abs_local s1 s _ mI t); auto.
      - intros q Hq. unfold pm, s1. simpl. rewrite im_get_update.
        destruct (Nat.eqb_spec t q); congruence.
      - rewrite gate1_I. reflexivity.
      - rewrite mmul_I_r. unfold pm, s1. simpl. rewrite im_get_update, Nat.eqb_refl.
        change (option_map tneg (im_get (ry_queue s) t)) with (oneg (im_get (ry_queue s) t)).
        rewrite effy_neg. fold b.
        rewrite <- mmul_assoc, ryo_neg_l. reflexivity. }
    assert (S3 : abs s3 = gate1 (mmul (ryo (oneg b)) (mmul mH (ryo b))) t (abs s2)).
    { apply (abs_local s2 s3 _ mI t); auto.
      - destruct G2 as [I2 _ _ _ _]. unfold alloc. rewrite I2. exact A.
      - intros q Hq. unfold pm, s3. simpl. rewrite bit_set_other by auto. reflexivity.
      - rewrite gate1_I. reflexivity.
      - rewrite mmul_I_r. unfold pm, s3. simpl. rewrite bit_set_same, X2, Eb. simpl.
        rewrite !mmul_I_l. rewrite <- !mmul_assoc. rewrite ryo_neg_l, H_hmat. reflexivity. }
    rewrite S3, S, gate1_comp. rewrite (gs_abs _ _ _ G2) by auto. f_equal.
    rewrite H_ryo. reflexivity.
Qed.

(** ** Uncontrolled rotations *)
Lemma queue_angle_other : forall q t theta x, x <> t ->
  im_get (queue_angle q t theta) x = im_get q x.
Proof.
  intros. unfold queue_angle. destruct (im_get q t); [destruct (tnz _)|].
  - rewrite im_get_remove, im_get_update. destruct (Nat.eqb_spec t x); congruence.
  - rewrite im_get_update. destruct (Nat.eqb_spec t x); congruence.
  - rewrite im_get_insert. destruct (Nat.eqb_spec t x); congruence.
Qed.
Lemma tnz0 : forall x, tol = 0 -> @tnz RArith x = true -> x = 0.
Proof.
  intros x H. simpl. unfold rnz, Rleb. rewrite H. intros E.
  destruct (Rle_dec (Rabs x) 0); [|discriminate].
  destruct (Req_dec x 0); auto. apply Rabs_pos_lt in H0. lra.
Qed.
Lemma wf_ins_rx : forall s t theta, wf s -> alloc s t ->
  wf (with_rx s (queue_angle (rx_queue s) t theta)).
Proof.
  intros s t v [] A; constructor; simpl; auto. intros q a H.
  destruct (Nat.eq_dec q t); [subst; exact A|]. rewrite queue_angle_other in H by auto. eapply wf_rx; eauto.
Qed.
Lemma wf_ins_ry : forall s t theta, wf s -> alloc s t ->
  wf (with_ry s (queue_angle (ry_queue s) t theta)).
Proof.
  intros s t v [] A; constructor; simpl; auto. intros q a H.
  destruct (Nat.eq_dec q t); [subst; exact A|]. rewrite queue_angle_other in H by auto. eapply wf_ry; eauto.
Qed.
Lemma queue_angle_rx : forall q t theta, tol = 0 ->
  rxo (im_get (queue_angle q t theta) t) = mmul (mRx theta) (rxo (im_get q t)).
Proof.
  intros q t theta H0. unfold queue_angle. destruct (im_get q t) as [old|] eqn:E.
  - destruct (tnz (tadd old theta)) eqn:Ez.
    + rewrite im_get_remove, Nat.eqb_refl. apply tnz0 in Ez; auto.
      simpl. rewrite RxRx. change (tadd old theta) with (old + theta) in Ez.
      replace (theta + old) with 0 by lra. now rewrite Rx0.
    + rewrite im_get_update, Nat.eqb_refl, E. simpl. rewrite RxRx. f_equal. apply Rplus_comm.
  - rewrite im_get_insert, Nat.eqb_refl. simpl. now rewrite mmul_I_r.
Qed.
Lemma queue_angle_ry : forall q t theta, tol = 0 ->
  ryo (im_get (queue_angle q t theta) t) = mmul (mRy theta) (ryo (im_get q t)).
Proof.
  intros q t theta H0. unfold queue_angle. destruct (im_get q t) as [old|] eqn:E.
  - destruct (tnz (tadd old theta)) eqn:Ez.
    + rewrite im_get_remove, Nat.eqb_refl. apply tnz0 in Ez; auto.
      simpl. rewrite RyRy. change (tadd old theta) with (old + theta) in Ez.
      replace (theta + old) with 0 by lra. now rewrite Ry0.
    + rewrite im_get_update, Nat.eqb_refl, E. simpl. rewrite RyRy. f_equal. apply Rplus_comm.
  - rewrite im_get_insert, Nat.eqb_refl. simpl. now rewrite mmul_I_r.
Qed.

Lemma gate_rx_ok : forall s theta t, wf s -> alloc s t ->
  exists s', gate_rx s theta t = Ok s' /\ id_map s' = id_map s /\ rng s' = rng s /\ wf s' /\
    (forall G, symm G -> (forall a b, G a -> G b -> G (a + b)) -> G theta -> rxin G s -> rxin G s') /\
    (tol = 0 -> abs s' = gate1 (mRx theta) t (abs s)).
Proof.
  intros s theta t W A. unfold gate_rx.
  assert (S1 : exists s1, (if bit (h_flag s) t || im_contains (ry_queue s) t
      then flush_queue s [t] LHRxRy else Ok s) = Ok s1 /\ gstep s s1 (fun x => x) /\
      bit (h_flag s1) t = false /\ im_get (ry_queue s1) t = None).
  { destruct (bit (h_flag s) t || im_contains (ry_queue s) t) eqn:E.
    - destruct (flush_queue_ok horder_perm LHRxRy [t] s W) as [s1 [E1 [G1 [L1 [_ [D1 _]]]]]]; auto.
      exists s1. split; auto. split; auto. destruct (D1 t) as [? [? ?]]; simpl; auto.
    - apply orb_false_iff in E. rewrite im_contains_false in E.
      exists s. split; auto. split; [apply gstep_refl; auto|]. tauto. }
  destruct S1 as [s1 [E1 [G1 [H1 Y1]]]]. rewrite E1. cbn [bind].
  eexists; split; [reflexivity|]. set (s2 := with_rx _ _).
  destruct G1 as [I1 R1 W1 X1 A1].
  assert (At : alloc s1 t) by (unfold alloc; rewrite I1; exact A).
  split; [exact I1|]. split; [exact R1|]. split; [apply wf_ins_rx; auto|]. split; [|].
  - intros G SG PG Gt N. apply (X1 G SG) in N. intros q a. unfold s2. simpl. destruct (Nat.eq_dec q t).
    + subst q. unfold queue_angle. destruct (im_get (rx_queue s1) t) as [old|] eqn:Eo.
      * match goal with |- context[if ?c then _ else _] => destruct c end.
        -- rewrite im_get_remove, Nat.eqb_refl. discriminate.
        -- rewrite im_get_update, Nat.eqb_refl, Eo. simpl. intros Ha. inversion Ha; subst. apply PG; auto. apply (N t old Eo).
      * rewrite im_get_insert, Nat.eqb_refl. intros Ha. inversion Ha; subst. auto.
    + rewrite queue_angle_other by auto. apply N.
  - intros H0. rewrite <- A1 by auto. apply (abs_local s1 s2 _ mI t); auto.
    + intros q Hq. unfold pm, s2. simpl. rewrite queue_angle_other by auto. reflexivity.
    + rewrite gate1_I. reflexivity.
    + rewrite mmul_I_r. unfold pm, s2. simpl. rewrite queue_angle_rx by auto.
      rewrite H1, Y1, !effy_none. simpl. rewrite !mmul_I_l, !mmul_I_r. reflexivity.
Qed.

(** The rotation about Y is only recorded.  Its sign is wrong when a rotation
    about X by an odd multiple of pi is waiting on the same qubit. *)
Definition ry_angle (s : sim) (theta : R) (t : nat) : R :=
  match im_get (rx_queue s) t with Some a => if cz a then - theta else theta | None => theta end.
Lemma gate_ry_ok : forall s theta t, wf s -> alloc s t ->
  exists s', gate_ry s theta t = Ok s' /\ id_map s' = id_map s /\ rng s' = rng s /\ wf s' /\
    rx_queue s' = rx_queue s /\
    (tol = 0 -> abs s' = gate1 (mRy (ry_angle s theta t)) t (abs s)).
Proof.
  intros s theta t W A. unfold gate_ry. eexists; split; [reflexivity|]. set (s2 := with_ry _ _).
  split; [reflexivity|]. split; [reflexivity|]. split; [apply wf_ins_ry; auto|].
  split; [reflexivity|].
  intros H0. apply (abs_local s s2 _ mI t); auto.
  - intros q Hq. unfold pm, s2. simpl. rewrite queue_angle_other by auto. reflexivity.
  - rewrite gate1_I. reflexivity.
  - rewrite mmul_I_r. unfold pm, s2. simpl.
    assert (Q : ryo (effy (im_get (rx_queue s) t) (im_get (queue_angle (ry_queue s) t theta) t)) =
      mmul (mRy (ry_angle s theta t)) (ryo (effy (im_get (rx_queue s) t) (im_get (ry_queue s) t)))).
    { generalize (queue_angle_ry (ry_queue s) t theta H0).
      generalize (im_get (queue_angle (ry_queue s) t theta) t). intros o Ho. unfold ry_angle, effy.
      destruct (im_get (rx_queue s) t) as [a|]; [|exact Ho].
      destruct (cz a); [|exact Ho].
      rewrite !ryo_oneg, Ho. rewrite <- mmul_assoc, (mmul_assoc mZ), ZRy, <- !mmul_assoc. reflexivity. }
    rewrite Q. rewrite !mmul_assoc. reflexivity.
Qed.
End G2.
