(** * Matrix identities behind the composite gates and Pauli measurements *)
From Coq Require Import Reals NArith List Bool Lia Lra Arith FunctionalExtensionality.
From Verif Require Import Cx Bits BitsLemmas Arith ArithR Sim SimExp Spec SpecExp SpecRun QLib QSum ExpLemmas SpecLemmas SimProps
  Text Backend SpecBackend.
Import ListNotations.
Local Open Scope R_scope.

Ltac mat_ring2 :=
  apply mat_ext; unfold mmul, mSX, pmat, mI, mX, mY, mZ, mH, mS, mSadj, mPhase, mRx, mRy, mRz, mk2, mscale, rsqrt2;
  cunfold; simpl; rewrite ?neg_half, ?cos_neg, ?sin_neg; apply C_eq; simpl;
  try ring; generalize rs2_sq; try (intros; nra).

Lemma sx_mat : mmul mH (mmul mS mH) = mSX.
Proof. mat_ring2. Qed.

Lemma rx_exp : forall th q psi, exp_op (- (th / 2)) [(PX_, q)] psi = gate1 (mRx th) q psi.
Proof.
  intros. apply functional_extensionality. intros b. unfold exp_op. simpl. unfold gate1, mX, mRx, mk2.
  rewrite cos_neg, sin_neg. destruct (bit b q) eqn:E.
  - replace (psi b) with (psi (set_bit b q true)) by (f_equal; rewrite <- E; apply set_bit_id).
    destruct (psi (set_bit b q true)), (psi (set_bit b q false)). ceq.
  - replace (psi b) with (psi (set_bit b q false)) by (f_equal; rewrite <- E; apply set_bit_id).
    destruct (psi (set_bit b q true)), (psi (set_bit b q false)). ceq.
Qed.
Lemma ry_exp : forall th q psi, exp_op (- (th / 2)) [(PY_, q)] psi = gate1 (mRy th) q psi.
Proof.
  intros. apply functional_extensionality. intros b. unfold exp_op. simpl. unfold gate1, mY, mRy, mk2.
  rewrite cos_neg, sin_neg. destruct (bit b q) eqn:E.
  - replace (psi b) with (psi (set_bit b q true)) by (f_equal; rewrite <- E; apply set_bit_id).
    destruct (psi (set_bit b q true)), (psi (set_bit b q false)). ceq.
  - replace (psi b) with (psi (set_bit b q false)) by (f_equal; rewrite <- E; apply set_bit_id).
    destruct (psi (set_bit b q true)), (psi (set_bit b q false)). ceq.
Qed.
Lemma rz_exp : forall th q psi, exp_op (- (th / 2)) [(PZ_, q)] psi = gate1 (mRz th) q psi.
Proof.
  intros. apply functional_extensionality. intros b. unfold exp_op. simpl. unfold gate1, mZ, mRz, mk2, Cis.
  rewrite cos_neg, sin_neg. destruct (bit b q) eqn:E.
  - replace (psi b) with (psi (set_bit b q true)) by (f_equal; rewrite <- E; apply set_bit_id).
    destruct (psi (set_bit b q true)), (psi (set_bit b q false)). ceq.
  - replace (psi b) with (psi (set_bit b q false)) by (f_equal; rewrite <- E; apply set_bit_id).
    destruct (psi (set_bit b q true)), (psi (set_bit b q false)). ceq.
Qed.
Lemma ri_exp : forall th q psi, exp_op (- (th / 2)) [(PI_, q)] psi = scale (Cis (- (th / 2))) psi.
Proof.
  intros. apply functional_extensionality. intros b. unfold exp_op, scale. simpl. rewrite gate1_I. unfold Cis.
  destruct (psi b). ceq.
Qed.
Lemma ctrl_ext : forall cs F G psi, F psi = G psi -> ctrl_op cs F psi = ctrl_op cs G psi.
Proof. intros. unfold ctrl_op. rewrite H. reflexivity. Qed.
Lemma cgate_ctrl : forall cs U t psi, cgate cs U t psi = ctrl_op cs (gate1 U t) psi.
Proof. reflexivity. Qed.
Lemma ri_ctrl : forall h rest th q psi, ~ In h rest ->
  ctrl_op (h :: rest) (exp_op (- (th / 2)) [(PI_, q)]) psi = cgate rest (mPhase (Cis (- th / 2))) h psi.
Proof.
  intros h rest th q psi Hn. rewrite (ctrl_ext _ _ (scale (Cis (- (th / 2))))) by apply ri_exp.
  apply functional_extensionality. intros b. unfold ctrl_op, scale. rewrite cgate_phase. simpl.
  rewrite neg_half. destruct (bit b h), (forallb (bit b) rest); simpl; auto.
Qed.

(** ZZ rotation. *)
Lemma rzz_exp : forall th x y psi, x <> y ->
  cgate [y] mX x (gate1 (mRz th) x (cgate [y] mX x psi)) = exp_op (- (th / 2)) [(PZ_, x); (PZ_, y)] psi.
Proof.
  intros th x y psi N.
  assert (A : cgate [y] mX x (gate1 (mRz th) x (cgate [y] mX x psi)) =
              fun b => ((if xorb (bit b x) (bit b y) then Cis (th / 2) else Cis (- (th / 2))) * psi b)%C).
  { apply functional_extensionality. intros b. unfold cgate, gate1, mX, mRz, mk2. cbn [forallb].
    rewrite ?bit_set_same, ?(bit_set_other) by auto. rewrite ?andb_true_r.
    rewrite ?set_set_same, ?bit_set_same.
    destruct (bit b y) eqn:Ey, (bit b x) eqn:Ex; cbn [xorb].
    - replace (psi b) with (psi (set_bit b x true)) by (f_equal; rewrite <- Ex; apply set_bit_id). ring.
    - replace (psi b) with (psi (set_bit b x false)) by (f_equal; rewrite <- Ex; apply set_bit_id). ring.
    - replace (psi b) with (psi (set_bit b x true)) by (f_equal; rewrite <- Ex; apply set_bit_id). ring.
    - replace (psi b) with (psi (set_bit b x false)) by (f_equal; rewrite <- Ex; apply set_bit_id). ring. }
  rewrite A. apply functional_extensionality. intros b. unfold exp_op. simpl. unfold gate1, mZ, mk2, Cis.
  rewrite !bit_set_other by auto. rewrite cos_neg, sin_neg.
  assert (P : forall v w, bit b x = v -> bit b y = w -> psi (set_bit (set_bit b x v) y w) = psi b).
  { intros v w <- <-. rewrite set_bit_id. f_equal. apply set_bit_id. }
  destruct (bit b x) eqn:Ex, (bit b y) eqn:Ey; cbn [xorb]; rewrite <- (P _ _ eq_refl eq_refl); ceq.
Qed.

(** Change of basis of a Pauli product. *)
Lemma gate1_lin : forall V x a c f g, gate1 V x (fun b => a * f b + c * g b)%C =
  fun b => (a * gate1 V x f b + c * gate1 V x g b)%C.
Proof. intros. apply functional_extensionality. intros b. unfold gate1. ring. Qed.
Lemma exp_conj : forall U V p p' x t l psi, mmul V U = mI -> mmul V (mmul (pmat p) U) = pmat p' -> ~ In x (map snd l) ->
  gate1 V x (exp_op t ((p, x) :: l) (gate1 U x psi)) = exp_op t ((p', x) :: l) psi.
Proof.
  intros U V p p' x t l psi H1 H2 Hn. unfold exp_op. rewrite gate1_lin. simpl.
  rewrite pauli_product_gate1 by auto. rewrite mmul_assoc in H2. rewrite !gate1_comp, H1, H2, gate1_I. reflexivity.
Qed.
Lemma exp_swap : forall t pa pb psi, snd pa <> snd pb -> exp_op t [pa; pb] psi = exp_op t [pb; pa] psi.
Proof.
  intros t [p a] [q b] psi N. unfold exp_op. simpl. rewrite gate1_comm by auto. reflexivity.
Qed.

(** Rotations to the Z basis. *)
Definition zmat (p : pauli) : mat := match p with PX_ => mH | PY_ => mmul mH (mmul mS mH) | _ => mI end.
Definition zinv (p : pauli) : mat := match p with PX_ => mH | PY_ => mmul mH (mmul mSadj mH) | _ => mI end.
Lemma SS : mmul mSadj mS = mI.
Proof. mat_ring2. Qed.
Lemma zinv_zmat : forall p, mmul (zinv p) (zmat p) = mI.
Proof.
  destruct p; simpl; rewrite ?HH; auto; try apply mmul_I_l.
  transitivity (mmul mH (mmul mSadj (mmul (mmul mH mH) (mmul mS mH)))); [now rewrite !mmul_assoc|].
  rewrite HH, mmul_I_l. transitivity (mmul mH (mmul (mmul mSadj mS) mH)); [now rewrite !mmul_assoc|].
  rewrite SS, mmul_I_l. apply HH.
Qed.
Lemma zconj : forall p, p <> PI_ -> mmul (pmat PZ_) (zmat p) = mmul (zmat p) (pmat p).
Proof.
  destruct p; intros N; try contradiction; simpl.
  - apply ZH.
  - now rewrite mmul_I_l, mmul_I_r.
  - rewrite sx_mat. mat_ring2.
Qed.
Lemma zconj_inv : forall p, p <> PI_ -> mmul (zinv p) (mmul (pmat PZ_) (zmat p)) = pmat p.
Proof. intros p N. rewrite zconj by auto. rewrite mmul_assoc, zinv_zmat. apply mmul_I_l. Qed.
Lemma uzmat : forall p, unitary (zmat p).
Proof. destruct p; simpl; auto using uI, uH. apply unitary_mmul; [apply uH|]. apply unitary_mmul; [apply uS|apply uH]. Qed.
Lemma uzinv : forall p, unitary (zinv p).
Proof. destruct p; simpl; auto using uI, uH. apply unitary_mmul; [apply uH|]. apply unitary_mmul; [apply uSadj|apply uH]. Qed.

Definition turn (f : pauli -> mat) (cl : list (pauli * nat)) (psi : qstate) : qstate :=
  fold_left (fun psi pq => gate1 (f (fst pq)) (snd pq) psi) cl psi.
Lemma turn_gate1 : forall f cl U q psi, ~ In q (map snd cl) -> turn f cl (gate1 U q psi) = gate1 U q (turn f cl psi).
Proof.
  induction cl as [|[p x] cl IH]; simpl; intros U q psi H; auto. rewrite gate1_comm by (intros ->; tauto). apply IH. tauto.
Qed.
Lemma turn_back : forall cl psi, NoDup (map snd cl) -> turn zinv cl (turn zmat cl psi) = psi.
Proof.
  induction cl as [|[p x] cl IH]; simpl; intros psi N; auto. inversion N; subst.
  rewrite <- turn_gate1, gate1_comp, zinv_zmat, gate1_I by auto. apply IH; auto.
Qed.
Lemma turn_lin : forall f cl a c u v, turn f cl (fun b => a * u b + c * v b)%C =
  fun b => (a * turn f cl u b + c * turn f cl v b)%C.
Proof.
  induction cl as [|[p x] cl IH]; simpl; intros; auto. rewrite gate1_lin. apply IH.
Qed.
Lemma turn_scale : forall f cl c psi, turn f cl (scale c psi) = scale c (turn f cl psi).
Proof. induction cl as [|[p x] cl IH]; simpl; intros; auto. rewrite gate1_scale. apply IH. Qed.
Definition zs (qs : list nat) : list (pauli * nat) := map (fun q => (PZ_, q)) qs.
Lemma zs_snd : forall qs, map snd (zs qs) = qs.
Proof. intros. unfold zs. rewrite map_map. simpl. apply map_id. Qed.
Lemma turn_conj : forall cl psi, NoDup (map snd cl) -> (forall p q, In (p, q) cl -> p <> PI_) ->
  pauli_product (zs (map snd cl)) (turn zmat cl psi) = turn zmat cl (pauli_product cl psi).
Proof.
  induction cl as [|[p x] cl IH]; simpl; intros psi N H; auto. inversion N; subst.
  rewrite IH by eauto. rewrite pauli_product_gate1 by auto.
  rewrite <- turn_gate1 by auto. rewrite !gate1_comp. rewrite <- zconj by eauto. reflexivity.
Qed.
Lemma zs_par : forall qs psi b, NoDup qs -> pauli_product (zs qs) psi b = ((if par qs b then - C1 else C1) * psi b)%C.
Proof.
  induction qs as [|q qs IH]; intros psi b N; cbn [zs map pauli_product fold_right fst snd].
  - unfold par. simpl. ring.
  - inversion N; subst. fold (zs qs). fold (pauli_product (zs qs) psi). unfold gate1. rewrite !IH by auto. rewrite !par_set by auto.
    change (par (q :: qs) b) with (xorb (bit b q) (par qs b)).
    unfold pmat, mZ, mk2. destruct (bit b q) eqn:E; cbn [xorb].
    + rewrite (set_bit_id' b q true E). destruct (par qs b); simpl; ring.
    + rewrite (set_bit_id' b q false E). destruct (par qs b); simpl; ring.
Qed.
Lemma half_half : forall z : C, (RtoC (/ 2) * (z + z))%C = z.
Proof. intros [x y]. apply C_eq; simpl; field. Qed.
Lemma proj_eigen : forall qs r psi, NoDup qs -> proj qs r psi = eigen_proj (zs qs) r psi.
Proof.
  intros qs r psi N. apply functional_extensionality. intros b. unfold proj, eigen_proj. rewrite zs_par by auto.
  destruct r, (par qs b); simpl.
  - transitivity (RtoC (/ 2) * (psi b + psi b))%C; [symmetry; apply half_half|ring].
  - ring.
  - ring.
  - transitivity (RtoC (/ 2) * (psi b + psi b))%C; [symmetry; apply half_half|ring].
Qed.
Lemma eigen_form : forall l r psi, eigen_proj l r psi =
  fun b => (RtoC (/ 2) * psi b + (if r then - RtoC (/ 2) else RtoC (/ 2)) * pauli_product l psi b)%C.
Proof. intros. apply functional_extensionality. intros b. unfold eigen_proj. destruct r; ring. Qed.
Lemma turn_eigen : forall cl r psi, NoDup (map snd cl) -> (forall p q, In (p, q) cl -> p <> PI_) ->
  proj (map snd cl) r (turn zmat cl psi) = turn zmat cl (eigen_proj cl r psi).
Proof.
  intros cl r psi N H. rewrite proj_eigen by auto. rewrite !eigen_form. rewrite turn_lin.
  apply functional_extensionality. intros b. rewrite turn_conj by auto. reflexivity.
Qed.
Lemma norm2_turn : forall f n cl psi, (forall p, unitary (f p)) -> (forall q, In q (map snd cl) -> (q < n)%nat) ->
  norm2 n (turn f cl psi) = norm2 n psi.
Proof.
  induction cl as [|[p x] cl IH]; simpl; intros psi U H; auto. rewrite IH by auto. apply norm2_gate1; auto.
Qed.
Lemma born_turn : forall n cl psi, NoDup (map snd cl) -> (forall p q, In (p, q) cl -> p <> PI_) ->
  (forall q, In q (map snd cl) -> (q < n)%nat) -> born n (map snd cl) (turn zmat cl psi) = one_prob n cl psi.
Proof.
  intros n cl psi N H B. assert (X := norm2_proj n (map snd cl) true (turn zmat cl psi)). simpl in X. rewrite <- X.
  rewrite turn_eigen by auto. unfold one_prob. apply norm2_turn; auto. apply uzmat.
Qed.
Lemma collapsed_turn : forall l cl r psi, NoDup (map snd cl) -> (forall p q, In (p, q) cl -> p <> PI_) ->
  incl (map snd cl) l ->
  turn zinv cl (collapsed l (map snd cl) r (turn zmat cl psi)) = after_result (width l) cl r psi.
Proof.
  intros l cl r psi N H I. unfold collapsed, after_result, result_prob.
  rewrite born_turn; auto; [|intros; apply width_lt; auto]. rewrite turn_eigen by auto.
  rewrite turn_scale, turn_back by auto. reflexivity.
Qed.
Lemma paired_no_id : forall ps qs p q, In (p, q) (paired ps qs) -> p <> PI_.
Proof. intros ps qs p q H. apply filter_In in H. destruct H as [_ H]. destruct p; discriminate. Qed.

(** Flipping a measured One. *)
Lemma flip_drop : forall q r psi, (forall b, bit b q <> r -> psi b = C0) ->
  (if r then gate1 mX q psi else psi) = drop_qubit q r psi.
Proof.
  intros q r psi H. apply functional_extensionality. intros b. unfold drop_qubit. destruct r.
  - unfold gate1, mX, mk2. destruct (bit b q) eqn:E.
    + rewrite (H (set_bit b q false)) by (rewrite bit_set_same; discriminate). ring.
    + ring.
  - destruct (bit b q) eqn:E.
    + apply H. rewrite E. discriminate.
    + rewrite (set_bit_id' b q false E). reflexivity.
Qed.
