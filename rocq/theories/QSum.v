(** * Sums over basis assignments, parity, norms and projections *)
From Coq Require Import Reals NArith List Bool Lia Lra Permutation Arith FunctionalExtensionality.
From Verif Require Import Cx Bits BitsLemmas Spec QLib.
Import ListNotations.
Local Open Scope R_scope.
Local Arguments N.shiftl : simpl never.

(** ** Sums over lists *)
Lemma Rsum_app : forall l l', Rsum (l ++ l') = Rsum l + Rsum l'.
Proof. unfold Rsum. induction l; simpl; intros; [lra|]. rewrite IHl. lra. Qed.
Lemma Rsum_perm : forall l l', Permutation l l' -> Rsum l = Rsum l'.
Proof. unfold Rsum. induction 1; simpl; lra. Qed.
Lemma Rsum_map_ext : forall (A : Type) (f g : A -> R) l, (forall x, In x l -> f x = g x) ->
  Rsum (map f l) = Rsum (map g l).
Proof. intros. f_equal. apply map_ext_in. auto. Qed.
Lemma Rsum_map_add : forall (A : Type) (f g : A -> R) l,
  Rsum (map (fun x => f x + g x) l) = Rsum (map f l) + Rsum (map g l).
Proof. unfold Rsum. induction l; simpl; lra. Qed.
Lemma Rsum_map_scal : forall (A : Type) (f : A -> R) c l,
  Rsum (map (fun x => c * f x) l) = c * Rsum (map f l).
Proof. unfold Rsum. induction l; simpl; lra. Qed.
Lemma Rsum_nonneg : forall (A : Type) (f : A -> R) l, (forall x, In x l -> 0 <= f x) ->
  0 <= Rsum (map f l).
Proof.
  unfold Rsum. induction l; simpl; intros; [lra|].
  assert (0 <= f a) by auto. assert (0 <= fold_right Rplus 0 (map f l)) by auto. lra.
Qed.
Lemma Rsum_le : forall (A : Type) (f g : A -> R) l, (forall x, In x l -> f x <= g x) ->
  Rsum (map f l) <= Rsum (map g l).
Proof.
  unfold Rsum. induction l; simpl; intros; [lra|].
  assert (f a <= g a) by auto.
  assert (fold_right Rplus 0 (map f l) <= fold_right Rplus 0 (map g l)) by auto. lra.
Qed.
Lemma Rsum_zero : forall (A : Type) (f : A -> R) l, (forall x, In x l -> f x = 0) ->
  Rsum (map f l) = 0.
Proof.
  unfold Rsum. induction l; simpl; intros; [lra|]. rewrite H, IHl; auto; lra.
Qed.
Lemma Rsum_zero_inv : forall (A : Type) (f : A -> R) l, (forall x, In x l -> 0 <= f x) ->
  Rsum (map f l) = 0 -> forall x, In x l -> f x = 0.
Proof.
  induction l as [|a l IH]; simpl; intros; [tauto|].
  assert (0 <= f a) by auto. assert (0 <= Rsum (map f l)) by (apply Rsum_nonneg; auto).
  destruct H1; [subst; lra|]. apply IH; auto. lra.
Qed.

Definition nzb (x : R) : bool := if Req_EM_T x 0 then false else true.
Lemma Rsum_filter : forall (A : Type) (f : A -> R) l,
  Rsum (map f l) = Rsum (map f (filter (fun x => nzb (f x)) l)).
Proof.
  unfold Rsum. induction l; simpl; auto. unfold nzb at 1. destruct (Req_EM_T (f a) 0); simpl; lra.
Qed.
(** Two duplicate-free lists containing the support of [f] give the same sum. *)
Lemma Rsum_supp : forall (A : Type) (f : A -> R) l l', NoDup l -> NoDup l' ->
  (forall x, f x <> 0 -> (In x l <-> In x l')) -> Rsum (map f l) = Rsum (map f l').
Proof.
  intros A f l l' H1 H2 H. rewrite (Rsum_filter A f l), (Rsum_filter A f l').
  apply Rsum_perm, Permutation_map. apply NoDup_Permutation; try (apply NoDup_filter; auto).
  intros x. rewrite !filter_In. unfold nzb. destruct (Req_EM_T (f x) 0); [intuition discriminate|].
  rewrite H by auto. tauto.
Qed.

(** ** The basis *)
Lemma basis_In : forall n b, In b (basis n) <-> (b < 2 ^ N.of_nat n)%N.
Proof.
  intros. unfold basis. rewrite in_map_iff.
  assert (E : N.of_nat (Nat.pow 2 n) = (2 ^ N.of_nat n)%N).
  { induction n; auto. rewrite Nat2N.inj_succ, N.pow_succ_r', Nat.pow_succ_r', Nat2N.inj_mul, IHn. reflexivity. }
  assert (Hp : forall x, (x < Nat.pow 2 n)%nat <-> (N.of_nat x < 2 ^ N.of_nat n)%N) by (intros; rewrite <- E; lia).
  clear E.
  split.
  - intros [x [<- H]]. apply in_seq in H. apply Hp. apply H.
  - intros H. exists (N.to_nat b). split; [apply N2Nat.id|]. apply in_seq.
    split; [apply Nat.le_0_l|]. simpl. apply Hp. rewrite N2Nat.id. auto.
Qed.
Lemma basis_bits : forall n b, In b (basis n) <-> (forall i, bit b i = true -> (i < n)%nat).
Proof.
  intros. rewrite basis_In. unfold bit. split; intros H.
  - intros i Hi. destruct (Nat.lt_ge_cases i n); auto. exfalso.
    destruct (N.eq_dec b 0); [subst; rewrite N.bits_0 in Hi; discriminate|].
    rewrite N.bits_above_log2 in Hi; [discriminate|].
    apply N.log2_lt_pow2; [lia|]. eapply N.lt_le_trans; [exact H|].
    apply N.pow_le_mono_r; lia.
  - destruct (N.eq_dec b 0); [subst; generalize (N.pow_nonzero 2 (N.of_nat n)); lia|].
    apply N.log2_lt_pow2; [lia|].
    specialize (H (N.to_nat (N.log2 b))). rewrite N2Nat.id in H.
    rewrite N.bit_log2 in H by auto. specialize (H eq_refl). lia.
Qed.
Lemma basis_nodup : forall n, NoDup (basis n).
Proof.
  intros. unfold basis. apply FinFun.Injective_map_NoDup; [|apply seq_NoDup].
  intros x y. apply Nat2N.inj.
Qed.
Lemma basis_set : forall n b t v, (t < n)%nat -> In b (basis n) -> In (set_bit b t v) (basis n).
Proof.
  intros n b t v Ht. rewrite !basis_bits. intros H i. rewrite bit_set.
  destruct (Nat.eqb_spec t i); [subst; auto|auto].
Qed.
Lemma basis_flip : forall n b t, (t < n)%nat -> In b (basis n) -> In (flip_bit b t) (basis n).
Proof. intros. unfold flip_bit. apply basis_set; auto. Qed.

Lemma qsum_ext : forall n f g, (forall b, In b (basis n) -> f b = g b) -> qsum n f = qsum n g.
Proof. intros. apply Rsum_map_ext. auto. Qed.
Lemma qsum_add : forall n f g, qsum n (fun b => f b + g b) = qsum n f + qsum n g.
Proof. intros. apply Rsum_map_add. Qed.
Lemma qsum_scal : forall n f c, qsum n (fun b => c * f b) = c * qsum n f.
Proof. intros. apply Rsum_map_scal. Qed.
Lemma qsum_nonneg : forall n f, (forall b, 0 <= f b) -> 0 <= qsum n f.
Proof. intros. apply Rsum_nonneg. auto. Qed.
Lemma qsum_bij : forall n f (phi psi : N -> N),
  (forall b, In b (basis n) -> In (phi b) (basis n)) ->
  (forall b, In b (basis n) -> In (psi b) (basis n)) ->
  (forall b, In b (basis n) -> phi (psi b) = b) -> (forall b, In b (basis n) -> psi (phi b) = b) ->
  qsum n f = qsum n (fun b => f (phi b)).
Proof.
  intros n f phi psi H1 H2 H3 H4. unfold qsum. rewrite <- (map_map phi f).
  apply Rsum_perm, Permutation_map. apply NoDup_Permutation.
  - apply basis_nodup.
  - assert (forall l, NoDup l -> (forall x, In x l -> In x (basis n)) -> NoDup (map phi l)).
    { induction 1; intros Hl; simpl; constructor.
      - intro Hx. apply in_map_iff in Hx. destruct Hx as [y [E Hy]].
        assert (y = x); [|subst; tauto].
        rewrite <- (H4 y), <- (H4 x), E; simpl in *; auto.
      - apply IHNoDup. simpl in *; auto. }
    apply H; auto using basis_nodup.
  - intros x. rewrite in_map_iff. split.
    + intros Hx. exists (psi x). auto.
    + intros [y [<- Hy]]. auto.
Qed.
Lemma qsum_flip : forall n t f, (t < n)%nat -> qsum n f = qsum n (fun b => f (flip_bit b t)).
Proof.
  intros. apply (qsum_bij n f _ (fun b => flip_bit b t)); intros; auto using basis_flip, flip_flip.
Qed.
Lemma qsum_pair : forall n t f g, (t < n)%nat ->
  (forall b, f b + f (flip_bit b t) = g b + g (flip_bit b t)) -> qsum n f = qsum n g.
Proof.
  intros n t f g Ht H.
  assert (E : qsum n f + qsum n f = qsum n g + qsum n g); [|lra].
  rewrite (qsum_flip n t f Ht) at 2. rewrite (qsum_flip n t g Ht) at 2.
  rewrite <- !qsum_add. apply qsum_ext. auto.
Qed.
(** The sum does not depend on how many qubits are summed over. *)
Lemma qsum_supp : forall n n' f,
  (forall b, f b <> 0 -> forall i, bit b i = true -> (i < n)%nat /\ (i < n')%nat) ->
  qsum n f = qsum n' f.
Proof.
  intros. apply Rsum_supp; auto using basis_nodup. intros x Hx. rewrite !basis_bits.
  split; intros; eapply H; eauto.
Qed.

(** ** Parity *)
Lemma parity_double : forall k, parity (N.double k) = parity k.
Proof. destruct k; auto. Qed.
Lemma parity_succ_double : forall k, parity (N.succ_double k) = negb (parity k).
Proof. destruct k; auto. Qed.
Lemma parity_lxor : forall a b, parity (N.lxor a b) = xorb (parity a) (parity b).
Proof.
  destruct a as [|p]; destruct b as [|q]; auto.
  - simpl. now destruct (pos_parity q).
  - simpl. now destruct (pos_parity p).
  - change (parity (Pos.lxor p q) = xorb (pos_parity p) (pos_parity q)).
    revert q. induction p; destruct q; simpl;
      rewrite ?parity_double, ?parity_succ_double, ?IHp;
      repeat match goal with |- context[pos_parity ?x] => destruct (pos_parity x) end; auto.
Qed.
Lemma parity_pow2 : forall i, parity (N.shiftl 1 (N.of_nat i)) = true.
Proof.
  intros. rewrite N.shiftl_1_l. induction i; auto.
  rewrite Nat2N.inj_succ, N.pow_succ_r', <- N.double_spec, parity_double. auto.
Qed.
Lemma bit_shiftl1 : forall i j, bit (N.shiftl 1 (N.of_nat i)) j = Nat.eqb i j.
Proof.
  intros. unfold bit. rewrite N.shiftl_1_l, N.pow2_bits_eqb.
  destruct (Nat.eqb_spec i j); [subst; apply N.eqb_refl|]. apply N.eqb_neq. lia.
Qed.
Lemma bit_mask : forall locs acc i,
  bit (fold_left (fun acc loc => N.lor acc (N.shiftl 1 (N.of_nat loc))) locs acc) i
  = bit acc i || existsb (Nat.eqb i) locs.
Proof.
  induction locs; simpl; intros; [now rewrite orb_false_r|].
  rewrite IHlocs, bit_lor, bit_shiftl1. rewrite (Nat.eqb_sym a i). now rewrite orb_assoc.
Qed.
Lemma mask_parity_from : forall k locs acc, NoDup locs -> (forall l, In l locs -> bit acc l = false) ->
  parity (N.land k (fold_left (fun acc loc => N.lor acc (N.shiftl 1 (N.of_nat loc))) locs acc))
  = xorb (parity (N.land k acc)) (par locs k).
Proof.
  induction locs as [|l locs IH]; simpl; intros acc D H; [unfold par; simpl; now rewrite xorb_false_r|].
  inversion D; subst. rewrite IH; auto.
  2:{ intros x Hx. rewrite bit_lor, bit_shiftl1, H by auto. simpl.
      apply Nat.eqb_neq. intro; subst; tauto. }
  assert (E : N.land k (N.lor acc (N.shiftl 1 (N.of_nat l))) =
     N.lxor (N.land k acc) (if bit k l then N.shiftl 1 (N.of_nat l) else 0%N)).
  { apply bits_ext. intros i. rewrite bit_lxor, !bit_land, bit_lor, bit_shiftl1.
    destruct (Nat.eqb_spec l i).
    - subst. rewrite H by auto. destruct (bit k i); [rewrite bit_shiftl1, Nat.eqb_refl|]; auto.
    - destruct (bit k l); rewrite ?bit_shiftl1, ?bit_zero;
        [destruct (Nat.eqb_spec l i); [congruence|]|]; now rewrite orb_false_r, xorb_false_r. }
  rewrite E, parity_lxor. unfold par. simpl.
  assert (E2 : parity (if bit k l then N.shiftl 1 (N.of_nat l) else 0%N) = bit k l).
  { destruct (bit k l); auto. apply parity_pow2. }
  rewrite E2, xorb_assoc. reflexivity.
Qed.
Lemma mask_parity : forall k locs, NoDup locs -> parity (N.land k (mask_of locs)) = par locs k.
Proof.
  intros. unfold mask_of. rewrite mask_parity_from; auto using bit_zero.
  rewrite N.land_0_r. now destruct (par locs k).
Qed.

Lemma par_flip : forall ids b t, ~ In t ids -> par ids (flip_bit b t) = par ids b.
Proof.
  unfold par. induction ids; simpl; intros; auto. rewrite bit_flip_other by (intro; subst; tauto).
  rewrite IHids by tauto. reflexivity.
Qed.
Lemma par_set : forall ids b t v, ~ In t ids -> par ids (set_bit b t v) = par ids b.
Proof.
  unfold par. induction ids; simpl; intros; auto. rewrite bit_set_other by (intro; subst; tauto).
  rewrite IHids by tauto. reflexivity.
Qed.
Lemma par1 : forall q b, par [q] b = bit b q.
Proof. intros. unfold par. simpl. apply xorb_false_r. Qed.

(** ** Unitary matrices *)
Definition unitary (U : mat) : Prop := forall a b : C,
  Cn2 (U false false * a + U false true * b)%C + Cn2 (U true false * a + U true true * b)%C
  = Cn2 a + Cn2 b.

Lemma unitary_mmul : forall U V, unitary U -> unitary V -> unitary (mmul U V).
Proof.
  intros U V HU HV a b. rewrite <- (HV a b).
  rewrite <- (HU (V false false * a + V false true * b)%C (V true false * a + V true true * b)%C).
  unfold mmul. f_equal; f_equal; ring.
Qed.
Lemma uI : unitary mI.
Proof. intros a b. unfold mI, mk2. csimp. ring. Qed.
Lemma uX : unitary mX.
Proof. intros a b. unfold mX, mk2. csimp. ring. Qed.
Lemma uY : unitary mY.
Proof. intros a b. unfold mY, mk2. csimp. ring. Qed.
Lemma uPhase : forall p, Cn2 p = 1 -> unitary (mPhase p).
Proof.
  intros p Hp a b. unfold mPhase, mk2.
  replace (C1 * a + C0 * b)%C with a by ring. replace (C0 * a + p * b)%C with (p * b)%C by ring.
  rewrite Cn2_mul, Hp. lra.
Qed.
Lemma uZ : unitary mZ.
Proof. rewrite mZ_phase. apply uPhase. rewrite Cn2_opp. apply Cn2_C1. Qed.
Lemma uS : unitary mS.
Proof. apply uPhase, Cn2_Ci. Qed.
Lemma uSadj : unitary mSadj.
Proof. apply uPhase. rewrite Cn2_opp. apply Cn2_Ci. Qed.
Lemma uT : unitary mT.
Proof. apply uPhase, Cn2_Cis. Qed.
Lemma uTadj : unitary mTadj.
Proof. apply uPhase, Cn2_Cis. Qed.
Lemma uH : unitary mH.
Proof.
  intros [x y] [x' y']. unfold mH, mk2, rsqrt2. csimp.
  generalize rs2_sq. set (r := / sqrt 2). intros Hr.
  transitivity (2 * (r * r) * (x * x + y * y + x' * x' + y' * y')); [ring|]. rewrite Hr. field.
Qed.
Lemma uRx : forall th, unitary (mRx th).
Proof.
  intros th [x y] [x' y']. unfold mRx, mk2. csimp. generalize (sin2_cos2 (th / 2)). unfold Rsqr.
  set (c := cos (th / 2)). set (s := sin (th / 2)). intros Hr.
  transitivity ((s * s + c * c) * (x * x + y * y + x' * x' + y' * y')); [ring|]. rewrite Hr. ring.
Qed.
Lemma uRy : forall th, unitary (mRy th).
Proof.
  intros th [x y] [x' y']. unfold mRy, mk2. csimp. generalize (sin2_cos2 (th / 2)). unfold Rsqr.
  set (c := cos (th / 2)). set (s := sin (th / 2)). intros Hr.
  transitivity ((s * s + c * c) * (x * x + y * y + x' * x' + y' * y')); [ring|]. rewrite Hr. ring.
Qed.
Lemma uRz : forall th, unitary (mRz th).
Proof.
  intros th a b. unfold mRz, mk2.
  replace (Cis (- (th / 2)) * a + C0 * b)%C with (Cis (- (th / 2)) * a)%C by ring.
  replace (C0 * a + Cis (th / 2) * b)%C with (Cis (th / 2) * b)%C by ring.
  rewrite !Cn2_mul, !Cn2_Cis. lra.
Qed.

(** A unitary on [t] keeps the weight of every event that does not look at [t]. *)
Lemma gate1_weight : forall n (P : N -> bool) U t psi, unitary U -> (t < n)%nat ->
  (forall b, P (flip_bit b t) = P b) ->
  qsum n (fun b => if P b then Cn2 (gate1 U t psi b) else 0) =
  qsum n (fun b => if P b then Cn2 (psi b) else 0).
Proof.
  intros n P U t psi HU Ht HP. apply (qsum_pair n t); auto. intros b. rewrite HP.
  destruct (P b); auto. unfold gate1. rewrite !set_flip, bit_flip_same.
  assert (HU' := HU (psi (set_bit b t false)) (psi (set_bit b t true))).
  destruct (bit b t) eqn:E; simpl.
  - rewrite (flip_as_set b t true E). simpl. rewrite (set_bit_id' b t true E) in *. lra.
  - rewrite (flip_as_set b t false E). simpl. rewrite (set_bit_id' b t false E) in *. lra.
Qed.
Lemma cgate_weight : forall n (P : N -> bool) cs U t psi, unitary U -> (t < n)%nat -> ~ In t cs ->
  (forall b, P (flip_bit b t) = P b) ->
  qsum n (fun b => if P b then Cn2 (cgate cs U t psi b) else 0) =
  qsum n (fun b => if P b then Cn2 (psi b) else 0).
Proof.
  intros n P cs U t psi HU Ht Hc HP.
  assert (S : forall phi, qsum n (fun b => if P b then Cn2 (phi b) else 0) =
     qsum n (fun b => if P b && forallb (bit b) cs then Cn2 (phi b) else 0) +
     qsum n (fun b => if P b && negb (forallb (bit b) cs) then Cn2 (phi b) else 0)).
  { intros. rewrite <- qsum_add. apply qsum_ext. intros. destruct (P b); destruct (forallb (bit b) cs); simpl; lra. }
  rewrite !S. f_equal.
  - rewrite <- (gate1_weight n (fun b => P b && forallb (bit b) cs) U t psi); auto.
    + apply qsum_ext. intros. unfold cgate. destruct (P b); auto. destruct (forallb (bit b) cs); auto.
    + intros. rewrite HP, forallb_bit_flip; auto.
  - apply qsum_ext. intros. unfold cgate. destruct (P b); auto. destruct (forallb (bit b) cs); auto.
Qed.
Lemma norm2_weight : forall n psi, norm2 n psi = qsum n (fun b => if true then Cn2 (psi b) else 0).
Proof. reflexivity. Qed.
Lemma norm2_gate1 : forall n U t psi, unitary U -> (t < n)%nat -> norm2 n (gate1 U t psi) = norm2 n psi.
Proof. intros. apply (gate1_weight n (fun _ => true)); auto. Qed.
Lemma norm2_cgate : forall n cs U t psi, unitary U -> (t < n)%nat -> ~ In t cs ->
  norm2 n (cgate cs U t psi) = norm2 n psi.
Proof. intros. apply (cgate_weight n (fun _ => true)); auto. Qed.
Lemma norm2_scale : forall n c psi, norm2 n (scale c psi) = Cn2 c * norm2 n psi.
Proof. intros. unfold norm2. rewrite <- qsum_scal. apply qsum_ext. intros. unfold scale. apply Cn2_mul. Qed.
Lemma born_scale : forall n qs c psi, born n qs (scale c psi) = Cn2 c * born n qs psi.
Proof.
  intros. unfold born. rewrite <- qsum_scal. apply qsum_ext. intros. unfold scale.
  destruct (par qs b); [apply Cn2_mul|ring].
Qed.
Lemma born_gate1 : forall n qs U t psi, unitary U -> (t < n)%nat -> ~ In t qs ->
  born n qs (gate1 U t psi) = born n qs psi.
Proof. intros. apply gate1_weight; auto. intros. apply par_flip; auto. Qed.
Lemma born_pendl : forall n qs f l psi, (forall q, In q l -> unitary (f q)) ->
  (forall q, In q l -> (q < n)%nat) -> (forall q, In q l -> In q qs -> f q = mI) ->
  born n qs (pendl f l psi) = born n qs psi.
Proof.
  induction l; simpl; intros; auto. destruct (in_dec Nat.eq_dec a qs).
  - rewrite (H1 a) by auto. rewrite gate1_I. apply IHl; auto.
  - rewrite born_gate1; auto.
Qed.
Lemma norm2_pendl : forall n f l psi, (forall q, In q l -> unitary (f q)) ->
  (forall q, In q l -> (q < n)%nat) -> norm2 n (pendl f l psi) = norm2 n psi.
Proof. induction l; simpl; intros; auto. rewrite norm2_gate1; auto. Qed.

Lemma born_nonneg : forall n qs psi, 0 <= born n qs psi.
Proof. intros. apply qsum_nonneg. intros. destruct (par qs b); [apply Cn2_nonneg|lra]. Qed.
Lemma norm2_split : forall n qs psi,
  norm2 n psi = born n qs psi + qsum n (fun b => if par qs b then 0 else Cn2 (psi b)).
Proof.
  intros. unfold norm2, born. rewrite <- qsum_add. apply qsum_ext. intros. destruct (par qs b); lra.
Qed.
Lemma born_le_norm : forall n qs psi, born n qs psi <= norm2 n psi.
Proof.
  intros. rewrite (norm2_split n qs).
  assert (0 <= qsum n (fun b => if par qs b then 0 else Cn2 (psi b))); [|lra].
  apply qsum_nonneg. intros. destruct (par qs b); [lra|apply Cn2_nonneg].
Qed.

(** ** Projections *)
Lemma proj_gate1 : forall qs v U t psi, ~ In t qs ->
  proj qs v (gate1 U t psi) = gate1 U t (proj qs v psi).
Proof.
  intros. apply functional_extensionality. intros b. unfold proj, gate1.
  rewrite !par_set by auto. destruct (Bool.eqb (par qs b) v); auto. ring.
Qed.
Lemma proj_pendl : forall qs v f l psi, (forall q, In q l -> In q qs -> f q = mI) ->
  proj qs v (pendl f l psi) = pendl f l (proj qs v psi).
Proof.
  induction l; simpl; intros; auto. destruct (in_dec Nat.eq_dec a qs).
  - rewrite (H a) by auto. rewrite !gate1_I. apply IHl; auto.
  - rewrite proj_gate1 by auto. rewrite IHl; auto.
Qed.
Lemma proj_scale : forall qs v c psi, proj qs v (scale c psi) = scale c (proj qs v psi).
Proof.
  intros. apply functional_extensionality. intros b. unfold proj, scale.
  destruct (Bool.eqb (par qs b) v); auto. ring.
Qed.
Lemma norm2_proj : forall n qs v psi,
  norm2 n (proj qs v psi) = if v then born n qs psi else norm2 n psi - born n qs psi.
Proof.
  intros. destruct v.
  - unfold norm2, born. apply qsum_ext. intros. unfold proj. destruct (par qs b); simpl; auto using Cn2_C0.
  - rewrite (norm2_split n qs psi). unfold norm2 at 1.
    replace (qsum n (fun b => Cn2 (proj qs false psi b)))
      with (qsum n (fun b => if par qs b then 0 else Cn2 (psi b))); [lra|].
    apply qsum_ext. intros. unfold proj. destruct (par qs b); simpl; auto using Cn2_C0.
Qed.
Lemma born_proj : forall n qs v psi,
  born n qs (proj qs v psi) = if v then born n qs psi else 0.
Proof.
  intros. unfold born. destruct v.
  - apply qsum_ext. intros. unfold proj. destruct (par qs b); simpl; auto.
  - rewrite (qsum_ext n _ (fun _ => 0)); [unfold qsum; apply Rsum_zero; auto|].
    intros. unfold proj. destruct (par qs b); simpl; auto using Cn2_C0.
Qed.
Lemma proj_proj : forall qs v psi, proj qs v (proj qs v psi) = proj qs v psi.
Proof.
  intros. apply functional_extensionality. intros b. unfold proj.
  destruct (Bool.eqb (par qs b) v); auto.
Qed.

(** ** Support *)
Lemma supported_gate1 : forall l U t psi, In t l -> supported l psi -> supported l (gate1 U t psi).
Proof.
  intros l U t psi Ht H b i Hb Hi. unfold gate1.
  assert (t <> i) by congruence.
  rewrite !(H _ i) by (auto; rewrite bit_set_other; auto). ring.
Qed.
Lemma supported_cgate : forall l cs U t psi, In t l -> supported l psi -> supported l (cgate cs U t psi).
Proof.
  intros l cs U t psi Ht H b i Hb Hi. unfold cgate.
  destruct (forallb (bit b) cs); [|eapply H; eauto]. eapply supported_gate1; eauto.
Qed.
Lemma supported_scale : forall l c psi, supported l psi -> supported l (scale c psi).
Proof. intros l c psi H b i Hb Hi. unfold scale. rewrite (H b i); auto. ring. Qed.
Lemma supported_proj : forall l qs v psi, supported l psi -> supported l (proj qs v psi).
Proof.
  intros l qs v psi H b i Hb Hi. unfold proj. destruct (Bool.eqb (par qs b) v); auto. eapply H; eauto.
Qed.
Lemma supported_pendl : forall l f l' psi, (forall q, In q l' -> In q l) ->
  supported l psi -> supported l (pendl f l' psi).
Proof. induction l'; simpl; intros; auto. apply supported_gate1; auto. Qed.
