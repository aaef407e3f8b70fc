(** * Algebra of gates on state vectors *)
From Coq Require Import Reals NArith List Bool Lia Lra Permutation FunctionalExtensionality Arith.
From Verif Require Import Cx Bits BitsLemmas Spec.
Import ListNotations.
Local Open Scope R_scope.

Definition mmul (U V : mat) : mat := fun r c =>
  (U r false * V false c + U r true * V true c)%C.

Lemma mat_ext : forall U V : mat,
  U false false = V false false -> U false true = V false true ->
  U true false = V true false -> U true true = V true true -> U = V.
Proof.
  intros. apply functional_extensionality; intros [|];
    apply functional_extensionality; intros [|]; auto.
Qed.

Lemma mmul_assoc : forall U V W, mmul U (mmul V W) = mmul (mmul U V) W.
Proof. intros. apply mat_ext; unfold mmul; ring. Qed.
Lemma mmul_I_l : forall U, mmul mI U = U.
Proof. intros. apply mat_ext; unfold mmul, mI, mk2; ring. Qed.
Lemma mmul_I_r : forall U, mmul U mI = U.
Proof. intros. apply mat_ext; unfold mmul, mI, mk2; ring. Qed.

Lemma gate1_I : forall t psi, gate1 mI t psi = psi.
Proof.
  intros. apply functional_extensionality; intros b. unfold gate1, mI, mk2.
  destruct (bit b t) eqn:E.
  - rewrite (set_bit_id' b t true) by auto. ring.
  - rewrite (set_bit_id' b t false) by auto. ring.
Qed.

Lemma gate1_comp : forall U V t psi, gate1 U t (gate1 V t psi) = gate1 (mmul U V) t psi.
Proof.
  intros. apply functional_extensionality; intros b. unfold gate1, mmul.
  rewrite !bit_set_same, !set_set_same. ring.
Qed.

Lemma gate1_comm : forall U V t q psi, t <> q ->
  gate1 U t (gate1 V q psi) = gate1 V q (gate1 U t psi).
Proof.
  intros. apply functional_extensionality; intros b. unfold gate1.
  rewrite !(bit_set_other b q t), !(bit_set_other b t q) by auto.
  rewrite !(set_set_comm b q t) by auto. ring.
Qed.

Lemma cgate_nil : forall U t psi, cgate [] U t psi = gate1 U t psi.
Proof. intros. apply functional_extensionality; intros b. reflexivity. Qed.

Lemma cgate_gate1_comm : forall cs U V t q psi, t <> q -> ~ In q cs ->
  cgate cs U t (gate1 V q psi) = gate1 V q (cgate cs U t psi).
Proof.
  intros. apply functional_extensionality; intros b. unfold cgate at 1.
  destruct (forallb (bit b) cs) eqn:E.
  - rewrite gate1_comm by auto. unfold gate1 at 1 3.
    unfold cgate. rewrite !forallb_bit_set by auto. rewrite E. reflexivity.
  - unfold gate1 at 1 2. unfold cgate.
    rewrite !forallb_bit_set by auto. rewrite E. reflexivity.
Qed.

(** Moving a controlled gate through a gate on its own target. *)
Lemma cgate_conj : forall cs U V W t psi, ~ In t cs -> mmul U V = mmul V W ->
  cgate cs U t (gate1 V t psi) = gate1 V t (cgate cs W t psi).
Proof.
  intros. apply functional_extensionality; intros b. unfold cgate at 1.
  destruct (forallb (bit b) cs) eqn:E.
  - rewrite gate1_comp, H0, <- gate1_comp. unfold gate1 at 1 3.
    unfold cgate. rewrite !forallb_bit_set by auto. rewrite E. reflexivity.
  - unfold gate1 at 1 2. unfold cgate.
    rewrite !forallb_bit_set by auto. rewrite E. reflexivity.
Qed.

Lemma cgate_comp : forall cs U V t psi, ~ In t cs ->
  cgate cs U t (cgate cs V t psi) = cgate cs (mmul U V) t psi.
Proof.
  intros. apply functional_extensionality; intros b. unfold cgate at 1 3.
  destruct (forallb (bit b) cs) eqn:E.
  - rewrite <- gate1_comp. unfold gate1 at 1 2. unfold cgate.
    rewrite !forallb_bit_set by auto. rewrite E. reflexivity.
  - unfold cgate. rewrite E. reflexivity.
Qed.

Lemma cgate_I : forall cs t psi, cgate cs mI t psi = psi.
Proof.
  intros. apply functional_extensionality; intros b. unfold cgate.
  rewrite gate1_I. destruct (forallb _ _); reflexivity.
Qed.

Lemma cgate_phase : forall cs p t psi b,
  cgate cs (mPhase p) t psi b = if forallb (bit b) (t :: cs) then (p * psi b)%C else psi b.
Proof.
  intros. unfold cgate, gate1, mPhase, mk2. simpl.
  destruct (bit b t) eqn:E; simpl.
  - rewrite (set_bit_id' b t true) by auto. destruct (forallb _ _); [ring|reflexivity].
  - rewrite (set_bit_id' b t false) by auto. destruct (forallb _ _); [ring|reflexivity].
Qed.

Lemma forallb_perm : forall (f : nat -> bool) l l', Permutation l l' -> forallb f l = forallb f l'.
Proof.
  induction 1; simpl; auto.
  - now rewrite IHPermutation.
  - destruct (f x), (f y); reflexivity.
  - congruence.
Qed.

Lemma cgate_ctls_perm : forall cs cs' U t psi, Permutation cs cs' ->
  cgate cs U t psi = cgate cs' U t psi.
Proof.
  intros. apply functional_extensionality; intros b. unfold cgate.
  rewrite (forallb_perm _ _ _ H). reflexivity.
Qed.

(** A controlled phase treats target and controls alike. *)
Lemma cgate_phase_sym : forall cs t cs' t' p psi, Permutation (t :: cs) (t' :: cs') ->
  cgate cs (mPhase p) t psi = cgate cs' (mPhase p) t' psi.
Proof.
  intros. apply functional_extensionality; intros b. rewrite !cgate_phase.
  rewrite (forallb_perm _ _ _ H). reflexivity.
Qed.

Lemma mZ_phase : mZ = mPhase (- C1)%C.
Proof. reflexivity. Qed.

(** ** Scalars *)
Lemma scale_1 : forall psi, scale C1 psi = psi.
Proof. intros. apply functional_extensionality; intros b. unfold scale. ring. Qed.
Lemma scale_scale : forall c d psi, scale c (scale d psi) = scale (c * d)%C psi.
Proof. intros. apply functional_extensionality; intros b. unfold scale. ring. Qed.
Lemma gate1_scale : forall U t c psi, gate1 U t (scale c psi) = scale c (gate1 U t psi).
Proof. intros. apply functional_extensionality; intros b. unfold gate1, scale. ring. Qed.
Lemma cgate_scale : forall cs U t c psi, cgate cs U t (scale c psi) = scale c (cgate cs U t psi).
Proof.
  intros. apply functional_extensionality; intros b. unfold cgate. rewrite gate1_scale.
  unfold scale. destruct (forallb _ _); reflexivity.
Qed.
Definition mscale (c : C) (U : mat) : mat := fun r k => (c * U r k)%C.
Lemma gate1_mscale : forall U t c psi, gate1 (mscale c U) t psi = scale c (gate1 U t psi).
Proof. intros. apply functional_extensionality; intros b. unfold gate1, scale, mscale. ring. Qed.

(** ** One pending matrix per qubit *)
Definition upd (f : nat -> mat) (q : nat) (U : mat) : nat -> mat :=
  fun x => if Nat.eqb x q then U else f x.

Lemma upd_same : forall f q U, upd f q U q = U.
Proof. intros. unfold upd. now rewrite Nat.eqb_refl. Qed.
Lemma upd_other : forall f q U x, x <> q -> upd f q U x = f x.
Proof. intros. unfold upd. destruct (Nat.eqb_spec x q); congruence. Qed.

Fixpoint pendl (f : nat -> mat) (ids : list nat) (psi : qstate) : qstate :=
  match ids with
  | [] => psi
  | q :: ids' => gate1 (f q) q (pendl f ids' psi)
  end.

Lemma pendl_ext : forall f g ids psi, (forall q, In q ids -> f q = g q) ->
  pendl f ids psi = pendl g ids psi.
Proof.
  induction ids; simpl; intros; auto.
  rewrite (H a) by auto. rewrite IHids; auto.
Qed.

Lemma pendl_gate1_out : forall f ids U q psi, ~ In q ids ->
  pendl f ids (gate1 U q psi) = gate1 U q (pendl f ids psi).
Proof.
  induction ids; simpl; intros; auto.
  rewrite IHids by tauto. apply gate1_comm. intro; subst; tauto.
Qed.

(** Absorbing a gate after the pending ones. *)
Lemma pendl_post : forall f ids U q psi, NoDup ids -> In q ids ->
  gate1 U q (pendl f ids psi) = pendl (upd f q (mmul U (f q))) ids psi.
Proof.
  induction ids; simpl; intros; [tauto|].
  inversion H; subst. destruct H0.
  - subst a. rewrite gate1_comp. rewrite upd_same. f_equal.
    apply pendl_ext. intros. rewrite upd_other; auto. intro; subst; tauto.
  - rewrite gate1_comm by (intro; subst; tauto). rewrite IHids by auto.
    rewrite upd_other by (intro; subst; tauto). reflexivity.
Qed.

(** Absorbing a gate before the pending ones. *)
Lemma pendl_pre : forall f ids U q psi, NoDup ids -> In q ids ->
  pendl f ids (gate1 U q psi) = pendl (upd f q (mmul (f q) U)) ids psi.
Proof.
  induction ids; simpl; intros; [tauto|].
  inversion H; subst. destruct H0.
  - subst a. rewrite pendl_gate1_out by auto. rewrite gate1_comp, upd_same. f_equal.
    apply pendl_ext. intros. rewrite upd_other; auto. intro; subst; tauto.
  - rewrite IHids by auto.
    rewrite upd_other by (intro; subst; tauto). reflexivity.
Qed.

(** A controlled gate moves through the pending gates when nothing is pending
    on the controls. *)
Lemma pendl_cgate : forall f ids cs U W t psi, NoDup ids -> ~ In t cs ->
  (forall c, In c cs -> In c ids -> f c = mI) -> (In t ids -> mmul U (f t) = mmul (f t) W) ->
  (~ In t ids -> U = W) ->
  cgate cs U t (pendl f ids psi) = pendl f ids (cgate cs W t psi).
Proof.
  intros f ids cs U W t psi. revert U. induction ids; simpl; intros.
  - rewrite H3; auto.
  - inversion H; subst. destruct (Nat.eq_dec a t).
    + subst a. rewrite (cgate_conj cs U (f t) W) by auto.
      rewrite IHids with (U := W); auto. tauto.
    + destruct (in_dec Nat.eq_dec a cs).
      * rewrite (H1 a) by auto. rewrite !gate1_I. apply IHids; auto; intuition.
      * rewrite cgate_gate1_comm by auto. rewrite IHids; auto; intuition.
Qed.

Lemma pendl_scale : forall f ids c psi, pendl f ids (scale c psi) = scale c (pendl f ids psi).
Proof.
  induction ids; simpl; intros; auto. rewrite IHids, gate1_scale. reflexivity.
Qed.

Lemma pendl_perm : forall f ids ids' psi, Permutation ids ids' -> NoDup ids ->
  pendl f ids psi = pendl f ids' psi.
Proof.
  intros f ids ids' psi H. revert psi. induction H; simpl; intros; auto.
  - inversion H0; subst. rewrite IHPermutation; auto.
  - inversion H; subst. apply gate1_comm. intro; subst. simpl in *; tauto.
  - rewrite IHPermutation1 by auto. apply IHPermutation2.
    eapply Permutation_NoDup; eauto.
Qed.

Lemma pendl_I : forall f ids psi, (forall q, In q ids -> f q = mI) -> pendl f ids psi = psi.
Proof.
  induction ids; simpl; intros; auto. rewrite (H a) by auto. rewrite gate1_I. auto.
Qed.

(** ** 2x2 identities *)
Lemma rsqrt2_sq : (rsqrt2 * rsqrt2)%C = RtoC (/ 2).
Proof.
  unfold rsqrt2, RtoC, Cmul; apply C_eq; simpl; try ring.
  rewrite <- (sqrt_sqrt 2) at 3 by lra.
  field. apply Rgt_not_eq. apply sqrt_lt_R0. lra.
Qed.

Lemma rs2_sq : / sqrt 2 * / sqrt 2 = / 2.
Proof. generalize rsqrt2_sq. unfold rsqrt2, RtoC, Cmul. intros H. injection H; intros. lra. Qed.

Lemma neg_half : forall x, - x / 2 = - (x / 2).
Proof. intros. field. Qed.

(** Solve matrix identities by components. *)
Ltac mat_ring :=
  apply mat_ext; unfold mmul, mI, mX, mY, mZ, mH, mS, mSadj, mPhase, mRx, mRy, mRz, mk2, mscale, rsqrt2;
  cunfold; simpl; rewrite ?neg_half, ?cos_neg, ?sin_neg; apply C_eq; simpl;
  try ring; generalize rs2_sq; try (intros; nra).

Lemma HH : mmul mH mH = mI.
Proof. mat_ring. Qed.
Lemma XH : mmul mX mH = mmul mH mZ.
Proof. mat_ring. Qed.
Lemma ZH : mmul mZ mH = mmul mH mX.
Proof. mat_ring. Qed.
Lemma YH : mmul mY mH = mscale (- C1)%C (mmul mH mY).
Proof. mat_ring. Qed.
Lemma XRx : forall a, mmul mX (mRx a) = mmul (mRx a) mX.
Proof. intros. mat_ring. Qed.
Lemma XRy : forall a, mmul mX (mRy a) = mmul (mRy (- a)) mX.
Proof. intros. mat_ring. Qed.
Lemma YRx : forall a, mmul mY (mRx a) = mmul (mRx (- a)) mY.
Proof. intros. mat_ring. Qed.
Lemma YRy : forall a, mmul mY (mRy a) = mmul (mRy a) mY.
Proof. intros. mat_ring. Qed.
Lemma ZRx : forall a, mmul mZ (mRx a) = mmul (mRx (- a)) mZ.
Proof. intros. mat_ring. Qed.
Lemma ZRy : forall a, mmul mZ (mRy a) = mmul (mRy (- a)) mZ.
Proof. intros. mat_ring. Qed.
Lemma HRy : forall a, mmul mH (mRy a) = mmul (mRy (- a)) mH.
Proof. intros. mat_ring. Qed.
Lemma RxRx : forall a b, mmul (mRx a) (mRx b) = mRx (a + b).
Proof.
  intros. apply mat_ext; unfold mmul, mRx, mk2; cunfold; simpl;
    replace ((a + b) / 2) with (a / 2 + b / 2) by field;
    rewrite ?cos_plus, ?sin_plus; apply C_eq; simpl; ring.
Qed.
Lemma RyRy : forall a b, mmul (mRy a) (mRy b) = mRy (a + b).
Proof.
  intros. apply mat_ext; unfold mmul, mRy, mk2; cunfold; simpl;
    replace ((a + b) / 2) with (a / 2 + b / 2) by field;
    rewrite ?cos_plus, ?sin_plus; apply C_eq; simpl; ring.
Qed.
Lemma Rx0 : mRx 0 = mI.
Proof.
  apply mat_ext; unfold mRx, mI, mk2; replace (0 / 2) with 0 by field;
    rewrite ?cos_0, ?sin_0; ceq.
Qed.
Lemma Ry0 : mRy 0 = mI.
Proof.
  apply mat_ext; unfold mRy, mI, mk2; replace (0 / 2) with 0 by field;
    rewrite ?cos_0, ?sin_0; ceq.
Qed.
