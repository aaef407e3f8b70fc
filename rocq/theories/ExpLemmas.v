(** * Pauli exponentials *)
From Coq Require Import Reals NArith List Bool Lia Lra Permutation Arith Sorted FunctionalExtensionality.
From Verif Require Import Cx Arith ArithR IndexMap IndexMapLemmas Bits BitsLemmas Spec QLib QSum Sim SimExp SpecExp
  StateLemmas Loc Abs Gates Gates2 Meas Reg.
Import ListNotations.
Local Open Scope R_scope.

(** ** Masks *)
Definition is_xy (p : pauli) : bool := match p with PX_ | PY_ => true | _ => false end.
Definition is_yz (p : pauli) : bool := match p with PZ_ | PY_ => true | _ => false end.
Definition is_y (p : pauli) : bool := match p with PY_ => true | _ => false end.
Fixpoint pmask (f : pauli -> bool) (l : list (pauli * nat)) : N :=
  match l with
  | [] => 0%N
  | (p, t) :: l' => if f p then set_bit (pmask f l') t true else pmask f l'
  end.
Fixpoint ycount (l : list (pauli * nat)) : nat :=
  match l with [] => 0%nat | (p, _) :: l' => ((if is_y p then 1 else 0) + ycount l')%nat end.

Lemma bit_pmask : forall f l i, bit (pmask f l) i = true -> In i (map snd l).
Proof.
  induction l as [|[p t] l]; simpl; intros; [rewrite bit_0 in H; discriminate|].
  destruct (f p); [|right; apply IHl; auto]. rewrite bit_set in H.
  destruct (Nat.eqb_spec t i); auto.
Qed.
Lemma pmask_out : forall f l i, ~ In i (map snd l) -> bit (pmask f l) i = false.
Proof. intros. destruct (bit (pmask f l) i) eqn:E; auto. apply bit_pmask in E. tauto. Qed.

Lemma set_true_lor : forall k i, set_bit k i true = N.lor k (set_bit 0 i true).
Proof.
  intros. apply bits_ext. intros j. unfold bit at 2. rewrite N.lor_spec. fold (bit k j). fold (bit (set_bit 0 i true) j).
  rewrite !bit_set. destruct (Nat.eqb i j); rewrite ?orb_true_r; auto. rewrite bit_0, orb_false_r. auto.
Qed.

Lemma exp_masks_ok : forall ps pre ts xy yz y, (length ps <= length ts)%nat ->
  exp_masks ps (length pre) (pre ++ ts) xy yz y =
  Ok (N.lor xy (pmask is_xy (combine ps ts)), N.lor yz (pmask is_yz (combine ps ts)),
      (y + ycount (combine ps ts))%nat).
Proof.
  induction ps as [|p ps IH]; intros pre ts xy yz y L.
  - simpl. rewrite !N.lor_0_r, Nat.add_0_r. reflexivity.
  - destruct ts as [|t ts]; simpl in L; [lia|].
    assert (E : forall xy yz y, exp_masks ps (S (length pre)) (pre ++ t :: ts) xy yz y =
      Ok (N.lor xy (pmask is_xy (combine ps ts)), N.lor yz (pmask is_yz (combine ps ts)),
      (y + ycount (combine ps ts))%nat)).
    { intros. replace (S (length pre)) with (length (pre ++ [t])) by (rewrite app_length; simpl; lia).
      replace (pre ++ t :: ts) with ((pre ++ [t]) ++ ts) by (rewrite <- app_assoc; reflexivity).
      apply IH. lia. }
    assert (Nt : nth_error (pre ++ t :: ts) (length pre) = Some t).
    { rewrite nth_error_app2 by lia. now rewrite Nat.sub_diag. }
    assert (Lc : forall a b, N.lor (set_bit a t true) b = N.lor a (set_bit b t true)).
    { intros. rewrite (set_true_lor a), (set_true_lor b). rewrite <- !N.lor_assoc. f_equal. apply N.lor_comm. }
    destruct p; simpl; rewrite ?Nt, E, ?Lc; simpl; try reflexivity.
    repeat f_equal. lia.
Qed.

Lemma masked_set : forall m t k, bit m t = false ->
  masked_parity (set_bit m t true) k = xorb (bit k t) (masked_parity m k).
Proof.
  intros m t k H. unfold masked_parity.
  assert (E : N.land k (set_bit m t true) =
    N.lxor (if bit k t then N.shiftl 1 (N.of_nat t) else 0%N) (N.land k m)).
  { apply bits_ext. intros j. unfold bit at 1 2. rewrite N.lxor_spec, !N.land_spec.
    fold (bit k j). fold (bit m j). fold (bit (set_bit m t true) j).
    fold (bit (if bit k t then N.shiftl 1 (N.of_nat t) else 0%N) j). rewrite bit_set.
    assert (E2 : bit (if bit k t then N.shiftl 1 (N.of_nat t) else 0%N) j = Nat.eqb t j && bit k t).
    { destruct (bit k t); [|now rewrite bit_0, andb_false_r]. rewrite andb_true_r.
      unfold bit. rewrite N.shiftl_1_l. destruct (Nat.eqb_spec t j).
      - subst. apply N.pow2_bits_true.
      - apply N.pow2_bits_false. lia. }
    rewrite E2. destruct (Nat.eqb_spec t j); simpl; [subst; rewrite H|].
    - destruct (bit k j); auto.
    - destruct (bit k j && bit m j); auto. }
  rewrite E, parity_lxor. f_equal. destruct (bit k t); auto. apply parity_pow2.
Qed.
Lemma masked_flip : forall m t k, bit m t = false -> masked_parity m (flip_bit k t) = masked_parity m k.
Proof.
  intros m t k H. unfold masked_parity. f_equal. apply bits_ext. intros j. unfold bit.
  rewrite !N.land_spec. fold (bit (flip_bit k t) j). fold (bit m j). fold (bit k j).
  destruct (Nat.eq_dec t j); [subst; rewrite H, !andb_false_r; auto|].
  now rewrite bit_flip_other.
Qed.
Lemma flip_lxor_mask : forall k t m, bit m t = false ->
  N.lxor (flip_bit k t) m = N.lxor k (set_bit m t true).
Proof.
  intros. apply bits_ext. intros j. unfold bit. rewrite !N.lxor_spec.
  fold (bit (flip_bit k t) j). fold (bit m j). fold (bit k j). fold (bit (set_bit m t true) j).
  rewrite bit_set. destruct (Nat.eqb_spec t j).
  - subst. rewrite bit_flip_same, H. destruct (bit k j); auto.
  - now rewrite bit_flip_other.
Qed.

Fixpoint cpow (c : C) (n : nat) : C := match n with O => C1 | S n => (c * cpow c n)%C end.
Definition sgn (b : bool) : C := if b then (- C1)%C else C1.

Lemma pauli_product_masks : forall l phi k, NoDup (map snd l) ->
  pauli_product l phi k =
  (cpow (- Ci) (ycount l) * sgn (masked_parity (pmask is_yz l) k) * phi (N.lxor k (pmask is_xy l)))%C.
Proof.
  induction l as [|[p t] l IH]; intros phi k D; simpl.
  - rewrite N.lxor_0_r. unfold masked_parity. rewrite N.land_0_r. simpl. ring.
  - simpl in D. inversion D; subst.
    assert (M : forall f, bit (pmask f l) t = false) by (intros; apply pmask_out; auto).
    unfold gate1. fold (pauli_product l phi).
    destruct p; simpl.
    + rewrite !IH by auto. unfold mI, mk2.
      destruct (bit k t) eqn:B; [rewrite (set_bit_id' k t true B)|rewrite (set_bit_id' k t false B)]; ring.
    + rewrite !IH by auto. unfold mX, mk2. rewrite <- flip_lxor_mask by auto.
      rewrite <- (masked_flip _ t k) by auto.
      destruct (bit k t) eqn:B; rewrite (flip_as_set k t _ B); simpl; ring.
    + rewrite !IH by auto. unfold mZ, mk2. rewrite masked_set by auto.
      destruct (bit k t) eqn:B; [rewrite (set_bit_id' k t true B)|rewrite (set_bit_id' k t false B)];
        destruct (masked_parity (pmask is_yz l) k); simpl; unfold sgn; ring.
    + rewrite !IH by auto. unfold mY, mk2. rewrite masked_set by auto.
      rewrite <- flip_lxor_mask by auto. rewrite <- (masked_flip _ t k) by auto.
      destruct (bit k t) eqn:B; rewrite (flip_as_set k t _ B); simpl;
        repeat match goal with |- context[masked_parity ?m ?x] => destruct (masked_parity m x) end; simpl; unfold sgn; ring.
Qed.

Lemma xy_yz_parity : forall l, NoDup (map snd l) ->
  masked_parity (pmask is_yz l) (pmask is_xy l) = Nat.odd (ycount l).
Proof.
  induction l as [|[p t] l IH]; intros D; [reflexivity|]. simpl in D. inversion D; subst.
  assert (M : forall f, bit (pmask f l) t = false) by (intros; apply pmask_out; auto).
  assert (Sf : set_bit (pmask is_xy l) t true = flip_bit (pmask is_xy l) t).
  { unfold flip_bit. now rewrite M. }
  destruct p; simpl.
  - auto.
  - rewrite Sf, masked_flip by auto. auto.
  - rewrite masked_set, M by auto. simpl. rewrite IH by auto. destruct (Nat.odd (ycount l)); auto.
  - rewrite masked_set, bit_set_same, Sf, masked_flip by auto. rewrite IH by auto.
    rewrite Nat.odd_succ, <- Nat.negb_odd. destruct (Nat.odd (ycount l)); auto.
Qed.
Lemma masked_lxor : forall m a b, masked_parity m (N.lxor a b) = xorb (masked_parity m a) (masked_parity m b).
Proof.
  intros. unfold masked_parity. rewrite <- parity_lxor. f_equal. apply N.bits_inj. intros i.
  rewrite N.lxor_spec, !N.land_spec, N.lxor_spec. destruct (N.testbit a i), (N.testbit b i), (N.testbit m i); auto.
Qed.
Lemma cpow_mod4 : forall n, cpow Ci n =
  match Nat.modulo n 4 with 1%nat => Ci | 2%nat => (- C1)%C | 3%nat => (- Ci)%C | _ => C1 end.
Proof.
  induction n as [|n H]; [reflexivity|]. cbn [cpow]. rewrite H.
  assert (B := Nat.mod_upper_bound n 4 ltac:(lia)).
  assert (E : Nat.modulo (S n) 4 = Nat.modulo (S (Nat.modulo n 4)) 4).
  { rewrite <- (Nat.add_1_r n), <- (Nat.add_1_r (n mod 4)). rewrite Nat.add_mod_idemp_l by lia. reflexivity. }
  rewrite E. destruct (Nat.modulo n 4) as [|[|[|[|x]]]]; try lia; simpl; ceq.
Qed.
Lemma cpow_neg : forall n, cpow (- Ci) n = (sgn (Nat.odd n) * cpow Ci n)%C.
Proof.
  induction n.
  - simpl. ring.
  - cbn [cpow]. rewrite IHn, Nat.odd_succ, <- Nat.negb_odd. destruct (Nat.odd n); simpl; ring.
Qed.

(** ** Operators on other qubits commute *)
Lemma pendl_commute : forall F f l psi,
  (forall q U phi, In q l -> f q = mI \/ F (gate1 U q phi) = gate1 U q (F phi)) ->
  pendl f l (F psi) = F (pendl f l psi).
Proof.
  induction l; simpl; intros; auto. rewrite IHl by auto.
  destruct (H a (f a) (pendl f l psi) (or_introl eq_refl)) as [E|E].
  - rewrite E, !gate1_I. reflexivity.
  - auto.
Qed.
Lemma pauli_product_gate1 : forall l U q psi, ~ In q (map snd l) ->
  pauli_product l (gate1 U q psi) = gate1 U q (pauli_product l psi).
Proof.
  induction l as [|[p t] l IH]; simpl; intros; auto. rewrite IH by tauto.
  apply gate1_comm. intro; subst; tauto.
Qed.
Lemma ctrl_exp_gate1 : forall cs th l U q psi, ~ In q cs -> ~ In q (map snd l) ->
  ctrl_op cs (exp_op th l) (gate1 U q psi) = gate1 U q (ctrl_op cs (exp_op th l) psi).
Proof.
  intros. apply functional_extensionality. intros b. unfold ctrl_op, exp_op.
  rewrite pauli_product_gate1 by auto. unfold gate1.
  assert (E : forall v, forallb (bit (set_bit b q v)) cs = forallb (bit b) cs).
  { intros. clear - H. induction cs; simpl in *; auto. rewrite IHcs by tauto.
    rewrite bit_set_other by (intro; subst; tauto). reflexivity. }
  rewrite !E. destruct (forallb (bit b) cs); ring.
Qed.
Lemma exp_op_scale : forall th l c psi, exp_op th l (scale c psi) = scale c (exp_op th l psi).
Proof.
  intros. assert (P : pauli_product l (scale c psi) = scale c (pauli_product l psi)).
  { induction l as [|[p t] l IH]; simpl; auto. rewrite IH. apply gate1_scale. }
  apply functional_extensionality. intros b. unfold exp_op. rewrite P. unfold scale. ring.
Qed.
Lemma ctrl_exp_scale : forall cs th l c psi,
  ctrl_op cs (exp_op th l) (scale c psi) = scale c (ctrl_op cs (exp_op th l) psi).
Proof.
  intros. apply functional_extensionality. intros b. unfold ctrl_op. rewrite exp_op_scale.
  unfold scale. destruct (forallb (bit b) cs); auto.
Qed.

Lemma Forall2_len : forall (A B : Type) (P : A -> B -> Prop) l l', Forall2 P l l' -> length l = length l'.
Proof. induction 1; simpl; auto. Qed.

Section E.
Context {T : Tol} {EN : Env}.
Hypothesis horder_perm : horder_ok.

Lemma baseof_pauli : forall m l l' phi, im_inj m ->
  Forall2 (fun p p' => fst p = fst p' /\ resolved m (snd p) (snd p')) l l' ->
  baseof m (pauli_product l' phi) = pauli_product l (baseof m phi).
Proof.
  intros m l l' phi I H. induction H as [|[p t] [p' t'] l l' [E1 E2] F IH]; simpl in *; auto. subst.
  rewrite <- IH. pose proof (baseof_cgate m I [] [] t t' (pmat p') (pauli_product l' phi)) as B.
  apply B; auto.
Qed.
Lemma baseof_ctrl_exp : forall m cs cs' l l' th phi, im_inj m -> Forall2 (resolved m) cs cs' ->
  Forall2 (fun p p' => fst p = fst p' /\ resolved m (snd p) (snd p')) l l' ->
  baseof m (ctrl_op cs' (exp_op th l') phi) = ctrl_op cs (exp_op th l) (baseof m phi).
Proof.
  intros m cs cs' l l' th phi I C H. apply functional_extensionality. intros b.
  unfold ctrl_op, exp_op. rewrite <- (baseof_pauli m l l' phi I H).
  unfold baseof. rewrite (forallb_to_loc m I _ _ b C).
  destruct (inb m b); destruct (forallb (bit b) cs); auto. ring.
Qed.

Definition exp_coef (th : R) (l : list (pauli * nat)) (k : N) : C :=
  (Ci * RtoC (sin th) * (cpow (- Ci) (ycount l) * sgn (masked_parity (pmask is_yz l) k)))%C.

Lemma exp_entry_both : forall cs l th m,
  (forall c, In c cs -> ~ In c (map snd l)) -> NoDup (map snd l) -> pmask is_xy l <> 0%N -> NoDup (keys m) ->
  let pc2 := (Ci * RtoC (sin th) * cpow Ci (ycount l))%C in
  let pca := if Nat.even (ycount l) then pc2 else (- pc2)%C in
  let r := flat_map (@exp_entry RArith cs (pmask is_xy l) (pmask is_yz l) (RtoC (cos th)) pc2 pca m) m in
  NoDup (keys r) /\
  (forall k i, In k (keys r) -> bit k i = true -> In i (map snd l) \/ exists k', In k' (keys m) /\ bit k' i = true) /\
  forall k, lamp r k = ctrl_op cs (exp_op th l) (lamp m) k \/
    (lamp r k = C0 /\ @anz RArith (ctrl_op cs (exp_op th l) (lamp m) k) = true).
Proof.
  intros cs l th m Dcs D Hx Nm pc2 pca r.
  set (xy := pmask is_xy l) in *. set (yz := pmask is_yz l) in *.
  set (phi := fun k => N.lxor k xy).
  assert (Pi : forall k, phi (phi k) = k).
  { intros. unfold phi. rewrite N.lxor_assoc, N.lxor_nilpotent, N.lxor_0_r. auto. }
  assert (Pne : forall k, phi k <> k).
  { intros k E. apply Hx. unfold phi in E. apply (f_equal (N.lxor k)) in E.
    rewrite <- N.lxor_assoc, N.lxor_nilpotent in E. rewrite N.lxor_0_l in E. auto. }
  assert (Cp : forall k, all_set cs (phi k) = all_set cs k).
  { intros. unfold all_set. clear - Dcs. revert Dcs. unfold phi, xy. induction cs; simpl; intros; auto.
    rewrite IHcs by auto. f_equal. unfold bit. rewrite N.lxor_spec.
    fold (bit (pmask is_xy l) a). rewrite pmask_out by auto. apply xorb_false_r. }
  assert (Pp : forall k, masked_parity yz (phi k) = xorb (masked_parity yz k) (Nat.odd (ycount l))).
  { intros. unfold phi. rewrite masked_lxor. f_equal. apply xy_yz_parity. auto. }
  set (t0 := fun k v w => @anz RArith (v * RtoC (cos th) + w * (if masked_parity yz k then - pca else pca))%C).
  set (t1 := fun k v w => @anz RArith (w * RtoC (cos th) + v * (if masked_parity yz k then - pc2 else pc2))%C).
  assert (B : NoDup (keys r) /\ forall k, hm_get r k = pair_get phi (all_set cs) (fun k => negb (N.ltb k (phi k)))
     (fun k v => (v * RtoC (cos th))%C) (fun k v => (v * (if masked_parity yz k then - pc2 else pc2))%C) t0 t1
     (fun k v w => (v * RtoC (cos th) + w * (if masked_parity yz k then - pca else pca))%C)
     (fun k v w => (w * RtoC (cos th) + v * (if masked_parity yz k then - pc2 else pc2))%C) m k).
  { apply pair_both; auto.
    - intros k. rewrite Pi. destruct (N.ltb_spec (phi k) k); destruct (N.ltb_spec k (phi k)); auto; exfalso;
        [lia|specialize (Pne k); lia].
    - intros k v H. unfold exp_entry. rewrite H. auto.
    - intros k v H G. unfold exp_entry. rewrite H. fold (phi k). rewrite G. apply Permutation_refl.
    - intros k v w H G S. unfold exp_entry. rewrite H. fold (phi k). rewrite G.
      apply negb_true_iff in S. rewrite S. auto.
    - intros k v w H G S. unfold exp_entry. rewrite H. fold (phi k). rewrite G.
      apply negb_false_iff in S. rewrite S. unfold emit, t0, t1. reflexivity. }
  destruct B as [B1 B2]. split; [exact B1|]. split.
  - intros k i Hk Hb. apply hm_get_keys in Hk. destruct Hk as [v Hv]. rewrite B2 in Hv. unfold pair_get in Hv.
    assert (Q : (exists v, hm_get m k = Some v) \/ (exists v, hm_get m (phi k) = Some v)).
    { destruct (hm_get m k); [left; eauto|]. destruct (all_set cs k); [|discriminate].
      destruct (hm_get m (phi k)); [right; eauto|discriminate]. }
    destruct Q as [Q|Q]; apply hm_get_keys in Q.
    + right. eauto.
    + destruct (bit xy i) eqn:Ex; [left; eapply bit_pmask; eauto|]. right. exists (phi k). split; auto.
      unfold phi, bit. rewrite N.lxor_spec. fold (bit k i). fold (bit xy i). rewrite Hb, Ex. auto.
  - assert (K1 : forall k, (if masked_parity yz k then - pca else pca)%C = exp_coef th l k).
    { intros. unfold exp_coef, pca, pc2. rewrite cpow_neg. fold yz. rewrite <- Nat.negb_odd.
      destruct (masked_parity yz k); destruct (Nat.odd (ycount l)); simpl; unfold sgn; ring. }
    assert (K2 : forall k, (if masked_parity yz (phi k) then - pc2 else pc2)%C = exp_coef th l k).
    { intros. rewrite <- K1, Pp. unfold pca. rewrite <- Nat.negb_odd.
      destruct (masked_parity yz k); destruct (Nat.odd (ycount l)); simpl; ring. }
    assert (Ex : forall k, exp_op th l (lamp m) k = (RtoC (cos th) * lamp m k + exp_coef th l k * lamp m (phi k))%C).
    { intros. unfold exp_op, exp_coef. rewrite pauli_product_masks by auto. unfold phi, xy. ring. }
    intros k. unfold lamp at 1 3. rewrite B2. unfold pair_get, ctrl_op. fold (all_set cs k).
    destruct (all_set cs k) eqn:A; [|left; reflexivity].
    rewrite Ex. unfold lamp.
    destruct (hm_get m k) as [v|] eqn:G1; destruct (hm_get m (phi k)) as [w|] eqn:G2.
    + destruct (negb (N.ltb k (phi k))).
      * unfold t1. rewrite K2. unfold emo. replace (v * RtoC (cos th) + w * exp_coef th l k)%C with
          (RtoC (cos th) * v + exp_coef th l k * w)%C by ring. destruct (anz _); auto.
      * unfold t0. rewrite K1. unfold emo. replace (v * RtoC (cos th) + w * exp_coef th l k)%C with
          (RtoC (cos th) * v + exp_coef th l k * w)%C by ring. destruct (anz _); auto.
    + left. ring.
    + left. rewrite K2. ring.
    + left. ring.
Qed.

Lemma adjacent_dup_none : forall l, StronglySorted lt l -> adjacent_dup l = None.
Proof.
  induction l as [|x l IH]; intros H; auto. inversion H; subst. destruct l as [|y l]; auto.
  change (adjacent_dup (x :: y :: l)) with (if Nat.eqb x y then Some y else adjacent_dup (y :: l)).
  inversion H3; subst. destruct (Nat.eqb_spec x y); [lia|auto].
Qed.

Lemma Forall2_combine : forall m (ps : list pauli) ts ts', Forall2 (resolved m) ts ts' ->
  Forall2 (fun p p' => fst p = fst p' /\ resolved m (snd p) (snd p')) (combine ps ts) (combine ps ts').
Proof.
  induction ps; intros; simpl; [constructor|]. destruct H; constructor; auto.
Qed.
Lemma in_combine_snd : forall (ps : list pauli) (ts : list nat) x, In x (map snd (combine ps ts)) -> In x ts.
Proof.
  intros ps ts x H. apply in_map_iff in H. destruct H as [[p t] [<- H]]. eapply in_combine_r; eauto.
Qed.
Lemma nodup_combine_snd : forall (ps : list pauli) (ts : list nat), NoDup ts -> NoDup (map snd (combine ps ts)).
Proof.
  induction ps; intros; simpl; [constructor|]. destruct ts; simpl; [constructor|].
  inversion H; subst. constructor; auto. intro Hi. apply in_combine_snd in Hi. tauto.
Qed.
Lemma NoDup_app_inv : forall (A : Type) (l l' : list A), NoDup (l ++ l') ->
  NoDup l /\ NoDup l' /\ forall x, In x l -> ~ In x l'.
Proof.
  induction l; simpl; intros.
  - repeat split; auto. constructor.
  - inversion H; subst. destruct (IHl _ H3) as [I1 [I2 I3]]. rewrite in_app_iff in H2.
    repeat split; auto. + constructor; tauto. + intros x [->|Hx]; auto.
Qed.

Lemma Cis_nonzero : forall x, Cis x <> C0.
Proof. intros x E. assert (H := Cn2_Cis x). rewrite E, Cn2_C0 in H. lra. Qed.

Lemma mcexp_ok : forall s cs ps th ts, wf s -> NoDup (cs ++ ts) -> Forall (alloc s) (cs ++ ts) ->
  (length ps <= length ts)%nat ->
  exists s', mcexp s cs ps th ts = Ok s' /\ gstep s s' (ctrl_op cs (exp_op th (combine ps ts))).
Proof.
  intros s cs ps th ts W D A L. unfold mcexp. apply Forall_app in A as A'. destruct A' as [Ac At].
  destruct (flush_two horder_perm s cs ts W Ac At) as [s1 [s2 [E1 [E2 [G2 [Q2 [N2 L2]]]]]]].
  rewrite E1. cbn [bind]. rewrite E2. cbn [bind].
  assert (W2 : wf s2) by apply G2.
  assert (Ac2 : Forall (alloc s2) cs) by (eapply gstep_Forall; eauto).
  assert (At2 : Forall (alloc s2) ts) by (eapply gstep_Forall; eauto).
  destruct (mapM_find_ok s2 cs Ac2) as [cs' [E3 R3]]. rewrite E3. cbn [bind].
  destruct (mapM_find_ok s2 ts At2) as [ts' [E4 R4]]. rewrite E4. cbn [bind].
  assert (D' : NoDup (cs' ++ ts')).
  { eapply (resolved_nodup (id_map s2) (cs ++ ts)); eauto; [apply W2|]. apply Forall2_app; auto. }
  assert (Ad : adjacent_dup (sort_nat (cs' ++ ts')) = None).
  { apply adjacent_dup_none. apply sorted_le_lt; [apply sort_nat_sorted|].
    eapply Permutation_NoDup; [apply Permutation_sym, sort_nat_perm|auto]. }
  rewrite Ad.
  pose proof (exp_masks_ok ps [] ts' 0%N 0%N 0) as EM. rewrite <- (Forall2_len _ _ _ _ _ R4) in EM. specialize (EM L).
  simpl in EM. rewrite EM. cbn [bind]. clear EM.
  destruct (NoDup_app_inv _ _ _ D') as [Dc [Dt Dx]].
  destruct (NoDup_app_inv _ _ _ D) as [_ [_ Dx0]].
  set (l' := combine ps ts') in *.
  assert (Dl : NoDup (map snd l')) by (apply nodup_combine_snd; auto).
  assert (Dcl : forall c, In c cs' -> ~ In c (map snd l')).
  { intros c Hc Hi. apply in_combine_snd in Hi. eapply Dx; eauto. }
  assert (R5 : Forall2 (fun p p' => fst p = fst p' /\ resolved (id_map s2) (snd p) (snd p')) (combine ps ts) l')
    by (apply Forall2_combine; auto).
  assert (Fin : forall st, st_ok (id_map s2) st ->
    (tol = 0 -> lamp st = ctrl_op cs' (exp_op th l') (lamp (state s2))) ->
    gstep s (with_state s2 st) (ctrl_op cs (exp_op th (combine ps ts)))).
  { intros st So Hl. eapply gstep_id_l; [exact G2|].
    assert (C : cstep s2 (with_state s2 st) (ctrl_op cs (exp_op th (combine ps ts)))).
    { apply cstep_state0; auto. intros H0. rewrite Hl by auto. apply baseof_ctrl_exp; auto. apply W2. }
    constructor.
    - reflexivity.
    - reflexivity.
    - apply C.
    - auto.
    - intros H0. rewrite (cstep_abs _ _ _ C) by auto. unfold abs. apply pendl_commute.
      intros q U phi Hq. destruct (in_dec Nat.eq_dec q (cs ++ ts)) as [Hi|Hi].
      + left. apply no_pend_pm. apply N2. apply in_app_or in Hi. auto.
      + right. rewrite in_app_iff in Hi. apply ctrl_exp_gate1; [tauto|].
        intro Hx. apply in_combine_snd in Hx. tauto. }
  destruct (wf_st s2 W2) as [S1 S2].
  destruct (N.eqb_spec (pmask is_xy l') 0).
  - assert (Y0 : ycount l' = 0%nat).
    { clear - e Dl. induction l' as [|[p t] l IH]; auto. simpl in *. inversion Dl; subst.
      destruct p; simpl in *; auto.
      - exfalso. apply (f_equal (fun k => bit k t)) in e. rewrite bit_set_same, bit_0 in e. discriminate.
      - exfalso. apply (f_equal (fun k => bit k t)) in e. rewrite bit_set_same, bit_0 in e. discriminate. }
    assert (P1 : @aadd RArith (amul ampi (@sfull RArith th)) (@cfull RArith th) = Cis th) by (unfold Cis; toC; ceq).
    assert (P2 : @asub RArith (aadd (@cfull RArith th) (@cfull RArith th)) (Cis th) = Cis (- th))
      by (unfold Cis; toC; rewrite cos_neg, sin_neg; ceq).
    rewrite P1, P2.
    assert (Zs : tol = 0 -> forall x, @anz RArith (Cis x) = false).
    { intros H0 x. apply not_true_iff_false. intros H. apply anz_zero in H; auto. eapply Cis_nonzero; eauto. }
    assert (Fl : forall c : C, st_ok (id_map s2) (flat_map (fun iv =>
                if all_set cs' (fst iv) && masked_parity (pmask is_yz l') (fst iv)
                then [(fst iv, amul (snd iv) c)] else []) (state s2))).
    { intros c. match goal with |- st_ok _ ?x => set (r := x) end.
      assert (K : keys r = filter (fun k => all_set cs' k && masked_parity (pmask is_yz l') k) (keys (state s2)))
        by exact (keys_flat_map_filter (fun k => all_set cs' k && masked_parity (pmask is_yz l') k)
        (fun k v => @amul RArith v c) (state s2)). clearbody r. split.
      - rewrite K. apply NoDup_filter; auto.
      - intros k Hk. rewrite K in Hk. apply filter_In in Hk. apply S2; tauto. }
    destruct (@anz RArith (Cis th)) eqn:Z1; [|destruct (@anz RArith (Cis (- th))) eqn:Z2].
    + eexists; split; [reflexivity|]. apply Fin; auto. intros H0. rewrite Zs in Z1; auto. discriminate.
    + eexists; split; [reflexivity|]. apply Fin; auto. intros H0. rewrite Zs in Z2; auto. discriminate.
    + eexists; split; [reflexivity|].
      assert (Eq : map (fun iv => if all_set cs' (fst iv)
           then (fst iv, @amul RArith (snd iv) (if masked_parity (pmask is_yz l') (fst iv) then Cis (- th) else Cis th))
           else iv) (state s2) =
         scale_entries (fun k => if all_set cs' k then (if masked_parity (pmask is_yz l') k then Cis (- th) else Cis th) else C1) (state s2)).
      { apply map_ext. intros [k v]. simpl. destruct (all_set cs' k); auto. f_equal. aring. }
      rewrite Eq. apply Fin.
      * unfold st_ok. rewrite keys_scale_entries. auto.
      * intros _. apply functional_extensionality. intros k. rewrite lamp_scale_entries.
        unfold ctrl_op. fold (all_set cs' k). destruct (all_set cs' k); [|ring].
        unfold exp_op. rewrite pauli_product_masks by auto. rewrite e, Y0, N.lxor_0_r. simpl.
        destruct (masked_parity (pmask is_yz l') k); unfold sgn, Cis; rewrite ?cos_neg, ?sin_neg;
          destruct (lamp (state s2) k); ceq.
  - eexists; split; [reflexivity|].
    set (m := hm_collect (state s2)).
    assert (P : Permutation m (state s2)) by (apply hm_collect_perm; auto).
    assert (Nm : NoDup (keys m)) by (eapply perm_nodup_keys; [apply Permutation_sym; eauto | auto]).
    pose proof (exp_entry_both cs' l' th m Dcl Dl n Nm) as B. cbv zeta in B.
    rewrite cpow_mod4 in B. destruct B as [B1 [B2 B3]].
    apply Fin.
    + split; [exact B1|]. intros k Hk i Hi. destruct (B2 k i Hk Hi) as [Hl|[k' [Hk' Hi']]].
      * apply in_combine_snd in Hl. destruct (resolved_in _ _ _ _ R4 Hl) as [q [_ Hq]]. exists q. exact Hq.
      * eapply S2; eauto. eapply Permutation_in; [apply perm_keys; exact P|auto].
    + intros H0. rewrite <- (lamp_perm _ _ Nm P). apply functional_extensionality. intros k.
      destruct (B3 k) as [E|[E Z]].
      * exact E.
      * apply anz_zero in Z; auto. rewrite Z. exact E.
Qed.
End E.
