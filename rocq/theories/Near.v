(** * Distances: triangle inequality, operators that do not enlarge them, dropped amplitudes *)
From Coq Require Import Reals NArith List Bool Lia Lra Permutation Arith FunctionalExtensionality.
From Verif Require Import Cx Arith ArithR IndexMap IndexMapLemmas Bits BitsLemmas Spec QLib QSum SpecExp SpecNear.
Import ListNotations.
Local Open Scope R_scope.

(** ** Norms *)
Definition qnorm (n : nat) (psi : qstate) : R := sqrt (norm2 n psi).
Lemma norm2_nonneg : forall n psi, 0 <= norm2 n psi.
Proof. intros. apply qsum_nonneg. intros. apply Cn2_nonneg. Qed.
Lemma qnorm_nonneg : forall n psi, 0 <= qnorm n psi.
Proof. intros. apply sqrt_pos. Qed.
Lemma qnorm_sq : forall n psi, qnorm n psi * qnorm n psi = norm2 n psi.
Proof. intros. apply sqrt_sqrt, norm2_nonneg. Qed.

Lemma two_terms : forall p q r s, 0 <= p -> 0 <= q -> 0 <= r -> 0 <= s ->
  (p + q) * (p + q) + (r + s) * (r + s) <=
  (sqrt (p * p + r * r) + sqrt (q * q + s * s)) * (sqrt (p * p + r * r) + sqrt (q * q + s * s)).
Proof.
  intros p q r s Hp Hq Hr Hs. set (A := p * p + r * r). set (B := q * q + s * s).
  assert (HA : 0 <= A) by (unfold A; nra). assert (HB : 0 <= B) by (unfold B; nra).
  assert (EA := sqrt_sqrt A HA). assert (EB := sqrt_sqrt B HB).
  assert (K : p * q + r * s <= sqrt A * sqrt B).
  { rewrite <- sqrt_mult by auto. apply Rsqr_incr_0_var; [|apply sqrt_pos].
    unfold Rsqr. rewrite sqrt_sqrt by (apply Rmult_le_pos; auto). unfold A, B.
    assert (0 <= (p * s - q * r) * (p * s - q * r)) by apply Rle_0_sqr.
    replace ((p * q + r * s) * (p * q + r * s)) with
      ((p * p + r * r) * (q * q + s * s) - (p * s - q * r) * (p * s - q * r)) by ring. lra. }
  replace ((sqrt A + sqrt B) * (sqrt A + sqrt B)) with
    (sqrt A * sqrt A + sqrt B * sqrt B + 2 * (sqrt A * sqrt B)) by ring.
  rewrite EA, EB. replace ((p + q) * (p + q) + (r + s) * (r + s)) with (A + B + 2 * (p * q + r * s)) by (unfold A, B; ring). lra.
Qed.

Lemma Cn2_add_le : forall a b, Cn2 (a + b)%C <= (sqrt (Cn2 a) + sqrt (Cn2 b)) * (sqrt (Cn2 a) + sqrt (Cn2 b)).
Proof.
  intros a b. assert (Ha := Cn2_nonneg a). assert (Hb := Cn2_nonneg b).
  assert (EA := sqrt_sqrt _ Ha). assert (EB := sqrt_sqrt _ Hb).
  assert (K : fst a * fst b + snd a * snd b <= sqrt (Cn2 a) * sqrt (Cn2 b)).
  { rewrite <- sqrt_mult by auto. eapply Rle_trans; [apply Rle_abs|]. rewrite <- sqrt_Rsqr_abs.
    apply sqrt_le_1_alt. unfold Rsqr, Cn2.
    assert (0 <= (fst a * snd b - snd a * fst b) * (fst a * snd b - snd a * fst b)) by apply Rle_0_sqr.
    match goal with |- ?l <= ?r => replace l with
      (r - (fst a * snd b - snd a * fst b) * (fst a * snd b - snd a * fst b)) by ring end. lra. }
  assert (E : Cn2 (a + b)%C = Cn2 a + Cn2 b + 2 * (fst a * fst b + snd a * snd b)) by (unfold Cn2, Cadd; simpl; ring).
  rewrite E. nra.
Qed.

Lemma Rsum_mink : forall (f g : N -> C) l,
  Rsum (map (fun b => Cn2 (f b + g b)%C) l) <=
  (sqrt (Rsum (map (fun b => Cn2 (f b)) l)) + sqrt (Rsum (map (fun b => Cn2 (g b)) l))) *
  (sqrt (Rsum (map (fun b => Cn2 (f b)) l)) + sqrt (Rsum (map (fun b => Cn2 (g b)) l))).
Proof.
  intros f g. induction l as [|a l IH].
  - simpl. unfold Rsum; simpl. rewrite sqrt_0. lra.
  - unfold Rsum in *. simpl. set (F := fold_right Rplus 0 (map (fun b => Cn2 (f b)) l)) in *.
    set (G := fold_right Rplus 0 (map (fun b => Cn2 (g b)) l)) in *.
    assert (HF : 0 <= F) by (apply (Rsum_nonneg _ (fun b => Cn2 (f b))); intros; apply Cn2_nonneg).
    assert (HG : 0 <= G) by (apply (Rsum_nonneg _ (fun b => Cn2 (g b))); intros; apply Cn2_nonneg).
    assert (H1 := Cn2_add_le (f a) (g a)).
    assert (H2 := two_terms (sqrt (Cn2 (f a))) (sqrt (Cn2 (g a))) (sqrt F) (sqrt G)
      (sqrt_pos _) (sqrt_pos _) (sqrt_pos _) (sqrt_pos _)).
    rewrite !sqrt_sqrt in H2 by (auto; apply Cn2_nonneg). lra.
Qed.

Lemma qnorm_add : forall n phi psi, qnorm n (fun b => phi b + psi b)%C <= qnorm n phi + qnorm n psi.
Proof.
  intros. unfold qnorm. apply Rsqr_incr_0_var; [|apply Rplus_le_le_0_compat; apply sqrt_pos].
  unfold Rsqr. rewrite sqrt_sqrt by apply norm2_nonneg. apply Rsum_mink.
Qed.

Lemma dist_norm : forall n phi psi, dist n phi psi = qnorm n (qdiff phi psi).
Proof. reflexivity. Qed.
Lemma dist_nonneg : forall n phi psi, 0 <= dist n phi psi.
Proof. intros. apply sqrt_pos. Qed.
Lemma dist_refl : forall n psi, dist n psi psi = 0.
Proof.
  intros. unfold dist. replace (norm2 n (qdiff psi psi)) with 0; [apply sqrt_0|].
  symmetry. apply Rsum_zero. intros b _. unfold qdiff. replace (psi b - psi b)%C with C0 by ring. apply Cn2_C0.
Qed.
Lemma dist_comm : forall n phi psi, dist n phi psi = dist n psi phi.
Proof.
  intros. unfold dist, norm2. f_equal. apply qsum_ext. intros b _. unfold qdiff, Cn2. cunfold. simpl. ring.
Qed.
Lemma dist_tri : forall n a b c, dist n a c <= dist n a b + dist n b c.
Proof.
  intros. rewrite !dist_norm.
  replace (qdiff a c) with (fun x => (qdiff a b x + qdiff b c x)%C); [apply qnorm_add|].
  apply functional_extensionality. intros x. unfold qdiff. ring.
Qed.
Lemma dist_sq : forall n phi psi, dist n phi psi * dist n phi psi = norm2 n (qdiff phi psi).
Proof. intros. apply qnorm_sq. Qed.
Lemma dist_le : forall n phi psi e, 0 <= e -> norm2 n (qdiff phi psi) <= e * e -> dist n phi psi <= e.
Proof.
  intros. unfold dist. rewrite <- (sqrt_square e) by auto. apply sqrt_le_1_alt. auto.
Qed.

(** ** Linear operators that do not enlarge norms *)
Record contraction (n : nat) (F : qstate -> qstate) : Prop := {
  ct_diff : forall phi psi, F (qdiff phi psi) = qdiff (F phi) (F psi);
  ct_norm : forall psi, norm2 n (F psi) <= norm2 n psi
}.
Lemma ct_dist : forall n F phi psi, contraction n F -> dist n (F phi) (F psi) <= dist n phi psi.
Proof.
  intros n F phi psi [L N]. unfold dist. rewrite <- L. apply sqrt_le_1_alt, N.
Qed.
Lemma ct_id : forall n, contraction n (fun x => x).
Proof. intros; constructor; auto. intros; lra. Qed.
Lemma ct_comp : forall n F G, contraction n F -> contraction n G -> contraction n (fun x => G (F x)).
Proof.
  intros n F G [L1 N1] [L2 N2]; constructor; intros.
  - rewrite L1, L2. auto.
  - eapply Rle_trans; [apply N2|apply N1].
Qed.
Lemma qdiff_gate1 : forall U t phi psi, gate1 U t (qdiff phi psi) = qdiff (gate1 U t phi) (gate1 U t psi).
Proof. intros. apply functional_extensionality. intros b. unfold gate1, qdiff. ring. Qed.
Lemma qdiff_cgate : forall cs U t phi psi, cgate cs U t (qdiff phi psi) = qdiff (cgate cs U t phi) (cgate cs U t psi).
Proof.
  intros. apply functional_extensionality. intros b. unfold cgate. rewrite qdiff_gate1.
  unfold qdiff. destruct (forallb (bit b) cs); auto.
Qed.
Lemma qdiff_scale : forall c phi psi, scale c (qdiff phi psi) = qdiff (scale c phi) (scale c psi).
Proof. intros. apply functional_extensionality. intros b. unfold scale, qdiff. ring. Qed.
Lemma qdiff_pendl : forall f l phi psi, pendl f l (qdiff phi psi) = qdiff (pendl f l phi) (pendl f l psi).
Proof. induction l; simpl; intros; auto. rewrite IHl, qdiff_gate1. auto. Qed.

Lemma ct_gate1 : forall n U t, unitary U -> (t < n)%nat -> contraction n (gate1 U t).
Proof.
  intros; constructor; [intros; apply qdiff_gate1|]. intros. rewrite norm2_gate1 by auto. lra.
Qed.
Lemma ct_cgate : forall n cs U t, unitary U -> (t < n)%nat -> ~ In t cs -> contraction n (cgate cs U t).
Proof.
  intros; constructor; [intros; apply qdiff_cgate|]. intros. rewrite norm2_cgate by auto. lra.
Qed.
Lemma ct_scale : forall n c, Cn2 c <= 1 -> contraction n (scale c).
Proof.
  intros; constructor; [intros; apply qdiff_scale|]. intros. rewrite norm2_scale.
  assert (H1 := norm2_nonneg n psi). nra.
Qed.
Lemma ct_pendl : forall n f l, (forall q, In q l -> unitary (f q)) -> (forall q, In q l -> (q < n)%nat) ->
  contraction n (pendl f l).
Proof.
  intros; constructor; [intros; apply qdiff_pendl|]. intros. rewrite norm2_pendl by auto. lra.
Qed.

(** ** Small errors of single operations *)

(** Controlled operators whose difference is [f] times the identity at the controls. *)
Lemma norm2_le : forall n phi psi, (forall b, In b (basis n) -> Cn2 (phi b) <= Cn2 (psi b)) -> norm2 n phi <= norm2 n psi.
Proof. intros. apply Rsum_le. auto. Qed.
Lemma norm2_le_scal : forall n phi psi c, (forall b, In b (basis n) -> Cn2 (phi b) <= c * Cn2 (psi b)) ->
  norm2 n phi <= c * norm2 n psi.
Proof.
  intros. unfold norm2. rewrite <- qsum_scal. apply Rsum_le. auto.
Qed.

(** Matrices that scale lengths by at most [sqrt c]. *)
Definition bounded (M : mat) (c : R) : Prop := forall a b : C,
  Cn2 (M false false * a + M false true * b)%C + Cn2 (M true false * a + M true true * b)%C
  <= c * (Cn2 a + Cn2 b).
Definition mdiff (U V : mat) : mat := fun i j => (U i j - V i j)%C.
Lemma gate1_bounded : forall n (P : N -> bool) M c t psi, 0 <= c -> bounded M c -> (t < n)%nat ->
  (forall b, P (flip_bit b t) = P b) ->
  qsum n (fun b => if P b then Cn2 (gate1 M t psi b) else 0) <= c * norm2 n psi.
Proof.
  intros n P M c t psi Hc HM Ht HP.
  assert (D : forall f, 2 * qsum n f = qsum n (fun b => f b + f (flip_bit b t))).
  { intros f. rewrite qsum_add, <- (qsum_flip n t f Ht). ring. }
  apply Rmult_le_reg_l with 2; [lra|]. rewrite D.
  replace (2 * (c * norm2 n psi)) with (c * (2 * norm2 n psi)) by ring. unfold norm2. rewrite D, <- qsum_scal.
  apply Rsum_le. intros b _. rewrite HP.
  assert (P1 := Cn2_nonneg (psi b)). assert (P2 := Cn2_nonneg (psi (flip_bit b t))).
  destruct (P b); [|nra]. unfold gate1. rewrite !set_flip, bit_flip_same.
  assert (HM' := HM (psi (set_bit b t false)) (psi (set_bit b t true))).
  destruct (bit b t) eqn:E; simpl.
  - rewrite (flip_as_set b t true E) in *. simpl in *. rewrite (set_bit_id' b t true E) in *. lra.
  - rewrite (flip_as_set b t false E) in *. simpl in *. rewrite (set_bit_id' b t false E) in *. lra.
Qed.
Lemma cgate_mdiff : forall n cs U V c t psi, 0 <= c -> bounded (mdiff U V) c -> (t < n)%nat -> ~ In t cs ->
  norm2 n (qdiff (cgate cs U t psi) (cgate cs V t psi)) <= c * norm2 n psi.
Proof.
  intros n cs U V c t psi Hc HM Ht Hn.
  eapply Rle_trans; [|apply (gate1_bounded n (fun b => forallb (bit b) cs) (mdiff U V) c t psi); auto].
  - apply Req_le. apply qsum_ext. intros b _. unfold qdiff, cgate. destruct (forallb (bit b) cs).
    + f_equal. unfold gate1, mdiff. ring.
    + replace (psi b - psi b)%C with C0 by ring. apply Cn2_C0.
  - intros. apply forallb_bit_flip; auto.
Qed.

(** Amplitudes that are equal or dropped below a bound. *)
Lemma length_basis : forall n, INR (length (basis n)) = 2 ^ n.
Proof.
  intros. unfold basis. rewrite map_length, seq_length. rewrite pow_INR. reflexivity.
Qed.
Lemma Rsum_const_le : forall (A : Type) (f : A -> R) c l, (forall x, In x l -> f x <= c) ->
  Rsum (map f l) <= INR (length l) * c.
Proof.
  unfold Rsum. induction l as [|a l IH]; intros H.
  - simpl. lra.
  - cbn [map fold_right length]. rewrite S_INR. assert (f a <= c) by (apply H; simpl; auto).
    assert (fold_right Rplus 0 (map f l) <= INR (length l) * c) by (apply IH; intros; apply H; simpl; auto). lra.
Qed.

Section Tolerance.
Context {T : Tol}.
Hypothesis tol_pos : 0 <= tol.

Lemma pow2_ge1 : forall n, 1 <= 2 ^ n.
Proof. intros. apply pow_R1_Rle. lra. Qed.
Lemma unit_nonneg : forall n, 0 <= unit_err n.
Proof. intros. apply Rmult_le_pos; auto. apply sqrt_pos. Qed.
Lemma unit_sq : forall n, unit_err n * unit_err n = tol * tol * (2 * 2 ^ n).
Proof.
  intros. unfold unit_err. assert (E := sqrt_sqrt (2 * 2 ^ n)). assert (H := pow2_ge1 n).
  replace (tol * sqrt (2 * 2 ^ n) * (tol * sqrt (2 * 2 ^ n))) with (tol * tol * (sqrt (2 * 2 ^ n) * sqrt (2 * 2 ^ n))) by ring.
  rewrite E by lra. ring.
Qed.
Lemma unit_ge : forall n, 2 * (tol * tol) <= unit_err n * unit_err n.
Proof. intros. rewrite unit_sq. assert (H := pow2_ge1 n). assert (0 <= tol * tol) by nra. nra. Qed.

Definition near (n k : nat) (phi psi : qstate) : Prop := dist n phi psi <= INR k * unit_err n.

Lemma near_refl : forall n k psi, near n k psi psi.
Proof.
  intros. unfold near. rewrite dist_refl. apply Rmult_le_pos; [apply pos_INR|apply unit_nonneg].
Qed.
Lemma near_trans : forall n j k a b c, near n j a b -> near n k b c -> near n (j + k) a c.
Proof.
  unfold near. intros. rewrite plus_INR. assert (Tr := dist_tri n a b c). lra.
Qed.
Lemma near_mono : forall n j k a b, (j <= k)%nat -> near n j a b -> near n k a b.
Proof.
  unfold near. intros. apply le_INR in H. assert (U := unit_nonneg n). nra.
Qed.
Lemma near_ct : forall n k F a b, contraction n F -> near n k a b -> near n k (F a) (F b).
Proof. unfold near. intros. assert (D := ct_dist n F a b H). lra. Qed.
Lemma near_sq : forall n phi psi, norm2 n (qdiff phi psi) <= 2 * (tol * tol) -> near n 1 phi psi.
Proof.
  intros n phi psi H. unfold near. simpl. rewrite Rmult_1_l. apply dist_le; [apply unit_nonneg|].
  assert (U := unit_ge n). lra.
Qed.

(** Dropping nearly zero amplitudes. *)
Lemma anz_small : forall a, @anz RArith a = true -> Cn2 a <= 2 * (tol * tol).
Proof.
  intros [x y] H. simpl in H. apply andb_true_iff in H. unfold rnz, Rleb in H. destruct H as [H1 H2].
  destruct (Rle_dec (Rabs x) tol) as [Hx|]; [|discriminate]. destruct (Rle_dec (Rabs y) tol) as [Hy|]; [|discriminate].
  unfold Cn2. simpl. assert (Px := Rabs_pos x). assert (Py := Rabs_pos y).
  assert (Ex : x * x = Rabs x * Rabs x) by (rewrite <- Rabs_mult; symmetry; apply Rabs_right; nra).
  assert (Ey : y * y = Rabs y * Rabs y) by (rewrite <- Rabs_mult; symmetry; apply Rabs_right; nra).
  rewrite Ex, Ey. nra.
Qed.
Lemma near_drop : forall n phi psi,
  (forall b, In b (basis n) -> phi b = psi b \/ (phi b = C0 /\ Cn2 (psi b) <= 2 * (tol * tol))) ->
  near n 1 phi psi /\ norm2 n phi <= norm2 n psi.
Proof.
  intros n phi psi H. split.
  - unfold near. simpl. rewrite Rmult_1_l. apply dist_le; [apply unit_nonneg|]. rewrite unit_sq.
    eapply Rle_trans; [apply (Rsum_const_le _ (fun b => Cn2 (qdiff phi psi b)) (2 * (tol * tol)) (basis n))|].
    + intros b Hb. unfold qdiff. destruct (H b Hb) as [->|[-> E]].
      * replace (psi b - psi b)%C with C0 by ring. rewrite Cn2_C0. nra.
      * replace (C0 - psi b)%C with (- psi b)%C by ring. rewrite Cn2_opp. auto.
    + rewrite length_basis. lra.
  - apply norm2_le. intros b Hb. destruct (H b Hb) as [->|[-> _]]; [lra|]. rewrite Cn2_C0. apply Cn2_nonneg.
Qed.
End Tolerance.
