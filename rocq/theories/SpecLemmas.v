(** * The operations of the ideal machine preserve length and support *)
From Coq Require Import Reals NArith List Bool Lia Lra Permutation Arith Sorted FunctionalExtensionality.
From Verif Require Import Cx Arith ArithR IndexMap IndexMapLemmas Bits BitsLemmas Spec QLib QSum Sim SimExp SpecExp
  SpecApply StateLemmas Loc Abs Gates Gates2 Meas Reg ExpLemmas ApplyLemmas SpecRun.
Import ListNotations.
Local Open Scope R_scope.

Notation wsum n P psi := (qsum n (fun b => if P b then Cn2 (psi b) else 0)).

(** ** Controls *)
Lemma norm2_ctrl : forall n cs F psi,
  wsum n (fun b => forallb (bit b) cs) (F psi) = wsum n (fun b => forallb (bit b) cs) psi ->
  norm2 n (ctrl_op cs F psi) = norm2 n psi.
Proof.
  intros n cs F psi H. unfold norm2.
  transitivity (wsum n (fun b => forallb (bit b) cs) (F psi) +
    qsum n (fun b => if forallb (bit b) cs then 0 else Cn2 (psi b))).
  - rewrite <- qsum_add. apply qsum_ext. intros b _. unfold ctrl_op. destruct (forallb (bit b) cs); lra.
  - rewrite H, <- qsum_add. apply qsum_ext. intros b _. destruct (forallb (bit b) cs); lra.
Qed.
Lemma ctrl_invariant : forall cs b b', (forall i, In i cs -> bit b i = bit b' i) ->
  forallb (bit b) cs = forallb (bit b') cs.
Proof. induction cs; simpl; intros; auto. rewrite (H a), (IHcs b b') by auto. reflexivity. Qed.

(** ** Pauli exponentials *)
Lemma exp_pair : forall c s y (a b : C) v, c * c + s * s = 1 ->
  Cn2 (RtoC c * a + Ci * RtoC s * (cpow (- Ci) y * sgn v * b))%C +
  Cn2 (RtoC c * b + Ci * RtoC s * (cpow (- Ci) y * sgn (xorb v (Nat.odd y)) * a))%C = Cn2 a + Cn2 b.
Proof.
  intros c s y [x1 y1] [x2 y2] v H. rewrite cpow_neg, cpow_mod4.
  assert (B := Nat.mod_upper_bound y 4 ltac:(lia)).
  assert (O : Nat.odd y = Nat.odd (y mod 4)).
  { rewrite (Nat.div_mod y 4) at 1 by lia. rewrite Nat.odd_add, Nat.odd_mul.
    change (Nat.odd 4) with false. rewrite andb_false_l, xorb_false_l. reflexivity. }
  rewrite O. destruct (y mod 4) as [|[|[|[|k]]]]; try lia; simpl Nat.odd; destruct v; simpl; unfold sgn; csimp;
  match goal with |- _ = ?r => transitivity ((c * c + s * s) * r); [ring|rewrite H; ring] end.
Qed.

Lemma basis_lxor : forall n b m, In b (basis n) -> (forall i, bit m i = true -> (i < n)%nat) ->
  In (N.lxor b m) (basis n).
Proof.
  intros n b m Hb Hm. rewrite basis_bits in *. intros i. unfold bit. rewrite N.lxor_spec.
  fold (bit b i). fold (bit m i). destruct (bit b i) eqn:E; [auto|]. destruct (bit m i) eqn:E'; [auto|discriminate].
Qed.

Lemma exp_weight : forall n (P : N -> bool) th l psi, NoDup (map snd l) ->
  (forall q, In q (map snd l) -> (q < n)%nat) ->
  (forall b b', (forall i, ~ In i (map snd l) -> bit b i = bit b' i) -> P b = P b') ->
  wsum n P (exp_op th l psi) = wsum n P psi.
Proof.
  intros n P th l psi D L HP. set (m := pmask is_xy l).
  assert (Hm : forall i, bit m i = true -> (i < n)%nat) by (intros; apply L; eapply bit_pmask; eauto).
  assert (X : forall f, qsum n f = qsum n (fun b => f (N.lxor b m))).
  { intros f. apply (qsum_bij n f _ (fun b => N.lxor b m)); intros; auto using basis_lxor;
    now rewrite N.lxor_assoc, N.lxor_nilpotent, N.lxor_0_r. }
  assert (E : wsum n P (exp_op th l psi) + wsum n P (exp_op th l psi) = wsum n P psi + wsum n P psi); [|lra].
  rewrite (X (fun b => if P b then Cn2 (exp_op th l psi b) else 0)) at 2.
  rewrite (X (fun b => if P b then Cn2 (psi b) else 0)) at 2.
  rewrite <- !qsum_add. apply qsum_ext. intros b _.
  assert (Pb : P (N.lxor b m) = P b).
  { apply HP. intros i Hi. unfold bit. rewrite N.lxor_spec. fold (bit b i). fold (bit m i).
    unfold m. rewrite pmask_out by auto. apply xorb_false_r. }
  rewrite Pb. destruct (P b); [|lra].
  unfold exp_op. rewrite !pauli_product_masks by auto. fold m.
  rewrite N.lxor_assoc, N.lxor_nilpotent, N.lxor_0_r, masked_lxor. unfold m at 3. rewrite xy_yz_parity by auto.
  apply exp_pair. generalize (sin2_cos2 th). unfold Rsqr. lra.
Qed.

Lemma nodup_combine : forall (ps : list pauli) (ts : list nat), NoDup ts -> NoDup (map snd (combine ps ts)).
Proof.
  induction ps; intros [|t ts] D; simpl; try constructor; inversion D; subst; auto.
  intro H. apply in_map_iff in H. destruct H as [[p q] [E H]]. simpl in E. subst. apply in_combine_r in H. tauto.
Qed.
Lemma combine_In : forall (ps : list pauli) (ts : list nat) q, In q (map snd (combine ps ts)) -> In q ts.
Proof.
  intros ps ts q H. apply in_map_iff in H. destruct H as [[p q'] [E H]]. simpl in E. subst. eapply in_combine_r; eauto.
Qed.

Lemma norm2_exp : forall n cs ps th ts psi, NoDup (cs ++ ts) -> (forall q, In q ts -> (q < n)%nat) ->
  norm2 n (ctrl_op cs (exp_op th (combine ps ts)) psi) = norm2 n psi.
Proof.
  intros n cs ps th ts psi D L. destruct (NoDup_app_inv _ _ _ D) as [Dc [Dt Dx]].
  apply norm2_ctrl. apply exp_weight.
  - apply nodup_combine; auto.
  - intros q Hq. apply L. eapply combine_In; eauto.
  - intros b b' H. apply ctrl_invariant. intros i Hi. apply H. intro Hn. apply (Dx i Hi). eapply combine_In; eauto.
Qed.
Lemma supported_pauli : forall l' l psi, (forall q, In q (map snd l) -> In q l') ->
  supported l' psi -> supported l' (pauli_product l psi).
Proof.
  induction l as [|[p t] l IH]; intros psi H Hs; simpl; auto.
  apply supported_gate1; [apply H; left; auto|]. apply IH; auto. intros; apply H; right; auto.
Qed.
Lemma supported_ctrl : forall l cs F psi, supported l psi -> supported l (F psi) -> supported l (ctrl_op cs F psi).
Proof. intros l cs F psi H1 H2 b i Hb Hi. unfold ctrl_op. destruct (forallb (bit b) cs); eauto. Qed.
Lemma supported_exp : forall l cs ps th ts psi, (forall q, In q ts -> In q l) -> supported l psi ->
  supported l (ctrl_op cs (exp_op th (combine ps ts)) psi).
Proof.
  intros l cs ps th ts psi H Hs. apply supported_ctrl; auto. intros b i Hb Hi. unfold exp_op.
  rewrite (Hs b i), (supported_pauli l (combine ps ts) psi) with (i := i); auto; [ring|].
  intros. apply H. eapply combine_In; eauto.
Qed.

(** ** Matrices *)
Lemma qsum_set : forall n q f, (q < n)%nat ->
  2 * qsum n f = qsum n (fun b => f (set_bit b q false) + f (set_bit b q true)).
Proof.
  intros n q f Hq. replace (2 * qsum n f) with (qsum n f + qsum n f) by ring.
  rewrite (qsum_flip n q f Hq) at 2. rewrite <- qsum_add. apply qsum_ext. intros b _.
  destruct (bit b q) eqn:E.
  - rewrite (set_bit_id' b q true E). unfold flip_bit. rewrite E. simpl. lra.
  - rewrite (set_bit_id' b q false E). unfold flip_bit. rewrite E. simpl. lra.
Qed.
Lemma assign_high : forall qs x b, assign qs (Nat.pow 2 (length qs) + x) b = assign qs x b.
Proof.
  assert (G : forall qs n x b, (length qs <= n)%nat -> assign qs (Nat.pow 2 n + x) b = assign qs x b).
  { induction qs as [|q qs IH]; intros n x b H; simpl in *; auto. rewrite IH by lia. f_equal.
    unfold bit. rewrite <- (N.mod_pow2_bits_low (N.of_nat (Nat.pow 2 n + x)) (N.of_nat n)) by lia.
    rewrite Nat2N.inj_add, pow2_N. replace (2 ^ N.of_nat n + N.of_nat x)%N with (N.of_nat x + 1 * 2 ^ N.of_nat n)%N by lia.
    rewrite N.mod_add by (pose proof (pow2_pos n); lia). apply N.mod_pow2_bits_low. lia. }
  intros. apply G. lia.
Qed.
Lemma Rsum_split : forall (f : nat -> R) a b,
  Rsum (map f (seq 0 (a + b))) = Rsum (map f (seq 0 a)) + Rsum (map (fun x => f (a + x)%nat) (seq 0 b)).
Proof.
  intros. rewrite seq_app, map_app, Rsum_app. f_equal. simpl.
  replace (seq a b) with (map (fun l => (a + l)%nat) (seq 0 b)); [now rewrite map_map|].
  rewrite map_add_seq. f_equal. lia.
Qed.
Lemma qsum_assign : forall n qs f, NoDup qs -> (forall q, In q qs -> (q < n)%nat) ->
  INR (Nat.pow 2 (length qs)) * qsum n f =
  qsum n (fun b => Rsum (map (fun r => f (assign qs r b)) (seq 0 (Nat.pow 2 (length qs))))).
Proof.
  induction qs as [|q qs IH]; intros f D L.
  - simpl. rewrite Rmult_1_l. apply qsum_ext. intros. lra.
  - inversion D; subst. cbn [length].
    assert (E2 : Nat.pow 2 (S (length qs)) = (Nat.pow 2 (length qs) + Nat.pow 2 (length qs))%nat) by (simpl; lia).
    rewrite E2, plus_INR.
    transitivity (INR (Nat.pow 2 (length qs)) * (2 * qsum n f)); [ring|].
    rewrite (qsum_set n q) by (apply L; left; auto).
    rewrite IH by (auto; intros; apply L; right; auto).
    apply qsum_ext. intros b _. rewrite Rsum_split, <- Rsum_map_add. apply Rsum_map_ext.
    intros r Hr. apply in_seq in Hr. cbn [assign].
    assert (B0 : bit (N.of_nat r) (length qs) = false) by (apply (bit_of_small _ (length qs)); [apply Hr|lia]).
    assert (B1 : bit (N.of_nat (Nat.pow 2 (length qs) + r)) (length qs) = true).
    { rewrite Nat2N.inj_add, pow2_N. replace (2 ^ N.of_nat (length qs) + N.of_nat r)%N
        with (1 * 2 ^ N.of_nat (length qs) + N.of_nat r)%N by lia.
      rewrite join_bit by (apply of_nat_lt_pow; apply Hr). rewrite Nat.ltb_irrefl, Nat.sub_diag. reflexivity. }
    rewrite B0, B1, assign_high. reflexivity.
Qed.

Lemma mat_weight : forall n (P : N -> bool) U qs psi, NoDup qs -> (forall q, In q qs -> (q < n)%nat) ->
  isometry (Nat.pow 2 (length qs)) U ->
  (forall b b', (forall i, ~ In i qs -> bit b i = bit b' i) -> P b = P b') ->
  wsum n P (mat_op U qs psi) = wsum n P psi.
Proof.
  intros n P U qs psi D L HU HP.
  assert (Pos : INR (Nat.pow 2 (length qs)) <> 0) by (apply not_0_INR, Nat.pow_nonzero; lia).
  apply (Rmult_eq_reg_l (INR (Nat.pow 2 (length qs)))); auto.
  rewrite !(qsum_assign n qs) by auto. apply qsum_ext. intros b _.
  assert (Pb : forall r, P (assign qs r b) = P b).
  { intros r. apply HP. intros. apply assign_out; auto. }
  destruct (P b) eqn:E.
  - transitivity (Rsum (map (fun l => Cn2 (psi (assign qs l b))) (seq 0 (Nat.pow 2 (length qs))))).
    2:{ apply Rsum_map_ext. intros. now rewrite Pb. }
    rewrite <- (HU (fun l => psi (assign qs l b))).
    apply Rsum_map_ext. intros r Hr. apply in_seq in Hr. rewrite Pb. unfold mat_op.
    rewrite msb_assign by (auto; apply Hr). f_equal. apply Csum_ext. intros l _.
    now rewrite assign_assign.
  - rewrite !Rsum_zero; auto; intros; rewrite Pb; auto.
Qed.
Lemma norm2_mat : forall n cs U ts psi, NoDup (cs ++ ts) -> (forall q, In q ts -> (q < n)%nat) ->
  isometry (Nat.pow 2 (length ts)) U -> norm2 n (ctrl_op cs (mat_op U ts) psi) = norm2 n psi.
Proof.
  intros n cs U ts psi D L HU. destruct (NoDup_app_inv _ _ _ D) as [Dc [Dt Dx]].
  apply norm2_ctrl. apply mat_weight; auto.
  intros b b' H. apply ctrl_invariant. intros i Hi. apply H. intro. eapply Dx; eauto.
Qed.
Lemma supported_mat : forall l cs U ts psi, (forall q, In q ts -> In q l) -> supported l psi ->
  supported l (ctrl_op cs (mat_op U ts) psi).
Proof.
  intros l cs U ts psi H Hs. apply supported_ctrl; auto. intros b i Hb Hi. unfold mat_op.
  apply Csum_zero. intros x _. rewrite (Hs (assign ts x b) i); auto; [ring|].
  rewrite assign_out; auto.
Qed.

(** ** Exchange, projection, release *)
Lemma norm2_swap : forall n a b psi, (a < n)%nat -> (b < n)%nat -> norm2 n (swap_qubits a b psi) = norm2 n psi.
Proof.
  intros n a b psi Ha Hb. unfold norm2, swap_qubits. symmetry.
  apply (qsum_bij n (fun k => Cn2 (psi k)) (swap_assign a b) (swap_assign a b));
    intros; unfold swap_assign; auto using basis_set; apply swap_assign_invol.
Qed.
Lemma supported_swap : forall l a b psi, In a l -> In b l -> supported l psi -> supported l (swap_qubits a b psi).
Proof.
  intros l a b psi Ha Hb H k i Hk Hi. unfold swap_qubits. apply (H _ i); auto.
  unfold swap_assign. rewrite !bit_set. destruct (Nat.eqb_spec b i); [subst; tauto|].
  destruct (Nat.eqb_spec a i); [subst; tauto|]. auto.
Qed.

Lemma width_lt : forall l q, In q l -> (q < width l)%nat.
Proof.
  intros l q H. unfold width. assert (F := proj1 (list_max_le l (list_max l)) (le_n _)).
  rewrite Forall_forall in F. apply F in H. lia.
Qed.
Lemma qsum_width : forall l n psi (P : N -> bool), supported l psi -> (forall q, In q l -> (q < n)%nat) ->
  wsum n P psi = wsum (width l) P psi.
Proof.
  intros l n psi P H L. apply qsum_supp. intros b Hb i Hi. destruct (P b); [|lra].
  destruct (in_dec Nat.eq_dec i l); [split; [auto|apply width_lt; auto]|].
  exfalso. apply Hb. rewrite (H b i) by auto. apply Cn2_C0.
Qed.
Lemma norm2_width : forall l n psi, supported l psi -> (forall q, In q l -> (q < n)%nat) ->
  norm2 n psi = norm2 (width l) psi.
Proof. intros. apply (qsum_width l n psi (fun _ => true)); auto. Qed.
Lemma born_width : forall l n qs psi, supported l psi -> (forall q, In q l -> (q < n)%nat) ->
  born n qs psi = born (width l) qs psi.
Proof. intros. apply (qsum_width l n psi (par qs)); auto. Qed.

Lemma norm2_collapsed : forall l qs (r : bool) psi, norm2 (width l) psi = 1 ->
  (if r then born (width l) qs psi else 1 - born (width l) qs psi) <> 0 ->
  norm2 (width l) (collapsed l qs r psi) = 1.
Proof.
  intros l qs r psi H Hp. unfold collapsed. rewrite norm2_scale, norm2_proj, H, Cn2_RtoC.
  pose proof (born_nonneg (width l) qs psi). pose proof (born_le_norm (width l) qs psi). rewrite H in H1.
  set (p := if r then born (width l) qs psi else 1 - born (width l) qs psi) in *. assert (0 < p) by (unfold p in *; destruct r; lra).
  assert (sqrt p <> 0) by (apply Rgt_not_eq, sqrt_lt_R0; auto).
  transitivity (p / (sqrt p * sqrt p)); [field; auto|]. rewrite sqrt_sqrt by lra. field. lra.
Qed.
Lemma supported_collapsed : forall l l' qs r psi, supported l psi -> supported l (collapsed l' qs r psi).
Proof. intros. unfold collapsed. apply supported_scale, supported_proj; auto. Qed.

Lemma norm2_drop : forall n q r psi, (q < n)%nat -> (forall b, bit b q <> r -> psi b = C0) ->
  norm2 n (drop_qubit q r psi) = norm2 n psi.
Proof.
  intros n q r psi Hq H. unfold norm2. apply (qsum_pair n q); auto. intros b. unfold drop_qubit.
  assert (E : forall b, bit b q = r -> set_bit b q r = b) by (intros; apply set_bit_id'; auto).
  destruct (bit b q) eqn:B; rewrite bit_flip_same, B; simpl; rewrite Cn2_C0.
  - assert (F : flip_bit b q = set_bit b q false) by (unfold flip_bit; now rewrite B). rewrite F, set_set_same.
    destruct r.
    + rewrite (set_bit_id' b q true B). rewrite (H (set_bit b q false)) by (rewrite bit_set_same; discriminate).
      rewrite Cn2_C0. lra.
    + rewrite (H b) by congruence. rewrite Cn2_C0. lra.
  - assert (F : flip_bit b q = set_bit b q true) by (unfold flip_bit; now rewrite B). rewrite F. destruct r.
    + rewrite (H b) by congruence. rewrite Cn2_C0. lra.
    + rewrite (set_bit_id' b q false B). rewrite (H (set_bit b q true)) by (rewrite bit_set_same; discriminate).
      rewrite Cn2_C0. lra.
Qed.
Lemma supported_drop : forall l q r psi, supported l psi -> supported (remove_id q l) (drop_qubit q r psi).
Proof.
  intros l q r psi H b i Hb Hi. unfold drop_qubit. destruct (bit b q) eqn:B; auto.
  apply (H _ i).
  - rewrite bit_set_other; auto. intro; subst; congruence.
  - intro Hl. apply Hi. unfold remove_id. apply filter_In. split; auto.
    destruct (Nat.eqb_spec i q); auto. subst. congruence.
Qed.
Lemma collapsed_value : forall l q r psi b, bit b q <> r -> collapsed l [q] r psi b = C0.
Proof.
  intros. unfold collapsed, scale, proj. rewrite par1. destruct (Bool.eqb (bit b q) r) eqn:E; [|ring].
  apply eqb_prop in E. congruence.
Qed.

Lemma ket0_norm : forall n, norm2 n ket0 = 1.
Proof.
  intros. unfold norm2. rewrite (qsum_supp n 0).
  - unfold qsum, basis, ket0. simpl. rewrite Cn2_C1. lra.
  - intros b Hb i Hi. unfold ket0 in Hb. destruct (N.eqb_spec b 0); [subst; rewrite bit_0 in Hi; discriminate|].
    exfalso. apply Hb. apply Cn2_C0.
Qed.
Lemma ket0_supported : forall l, supported l ket0.
Proof.
  intros l b i Hb _. unfold ket0. destruct (N.eqb_spec b 0); auto. subst. rewrite bit_0 in Hb. discriminate.
Qed.
