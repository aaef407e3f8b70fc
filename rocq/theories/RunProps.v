(** * Consequences of the refinement theorem, in the vocabulary of the property statements *)
From Coq Require Import Reals NArith List Bool Lia Lra Permutation Arith Sorted FunctionalExtensionality.
From Verif Require Import Cx Arith ArithR IndexMap IndexMapLemmas Bits BitsLemmas Spec QLib QSum Sim SimExp SimApply SpecExp
  SpecApply StateLemmas Loc Abs Gates Gates2 Meas Reg ExpLemmas ApplyLemmas SpecRun SpecLemmas SimRun RunLemmas.
Import ListNotations.
Local Open Scope R_scope.

(** ** Assignments and listings *)
Lemma spread_from_bit : forall l i x q, bit (spread_from i l x) q = true ->
  exists j, nth_error l j = Some q /\ bit x (i + j) = true.
Proof.
  induction l as [|a l IH]; simpl; intros i x q H; [rewrite bit_0 in H; discriminate|].
  rewrite bit_set in H. destruct (Nat.eqb_spec a q).
  - subst. exists 0%nat. rewrite Nat.add_0_r. auto.
  - apply IH in H. destruct H as [j [H1 H2]]. exists (S j). rewrite Nat.add_succ_r. auto.
Qed.
Lemma spread_from_nth : forall l i x j q, NoDup l -> nth_error l j = Some q ->
  bit (spread_from i l x) q = bit x (i + j).
Proof.
  induction l as [|a l IH]; simpl; intros i x j q N H; [destruct j; discriminate|].
  inversion N; subst. rewrite bit_set. destruct j; simpl in H.
  - inversion H; subst. rewrite Nat.eqb_refl, Nat.add_0_r. auto.
  - destruct (Nat.eqb_spec a q).
    + subst. exfalso. apply H2. eapply nth_error_In; eauto.
    + rewrite (IH (S i) x j q) by auto. f_equal. lia.
Qed.
(** Inverse of [spread]. *)
Fixpoint gather_from (i : nat) (l : list nat) (b : N) : N :=
  match l with [] => 0%N | q :: l' => set_bit (gather_from (S i) l' b) i (bit b q) end.
Lemma gather_bit : forall l i b j, bit (gather_from i l b) j =
  match nth_error l (j - i) with Some q => if Nat.leb i j then bit b q else false | None => false end.
Proof.
  induction l as [|a l IH]; simpl; intros i b j.
  - rewrite bit_0. destruct (j - i)%nat; auto.
  - rewrite bit_set. destruct (Nat.eqb_spec i j).
    + subst. rewrite Nat.sub_diag, Nat.leb_refl. auto.
    + rewrite IH. destruct (Nat.leb_spec i j); [destruct (Nat.leb_spec (S i) j); [|lia]|destruct (Nat.leb_spec (S i) j); [lia|]].
      * replace (j - i)%nat with (S (j - S i)) by lia. simpl. auto.
      * destruct (nth_error l (j - S i)); destruct (nth_error (a :: l) (j - i)); auto.
Qed.
Lemma bits_lt : forall n x, (forall i, bit x i = true -> (i < n)%nat) -> (x < 2 ^ N.of_nat n)%N.
Proof.
  intros n x H. destruct (N.eq_dec x 0) as [->|Hz]; [apply N.neq_0_lt_0, N.pow_nonzero; discriminate|].
  apply N.log2_lt_pow2; [lia|]. assert (B := N.bit_log2 x Hz).
  assert (N.to_nat (N.log2 x) < n)%nat. { apply H. unfold bit. rewrite N2Nat.id. auto. } lia.
Qed.
Lemma gather_lt : forall l b, (gather_from 0 l b < 2 ^ N.of_nat (length l))%N.
Proof.
  intros. apply bits_lt. intros i Hi. rewrite gather_bit, Nat.sub_0_r in Hi.
  destruct (nth_error l i) eqn:E; [|discriminate]. apply nth_error_Some. congruence.
Qed.
Lemma spread_gather : forall l b, NoDup l -> (forall i, bit b i = true -> In i l) ->
  spread l (gather_from 0 l b) = b.
Proof.
  intros l b N H. apply bits_ext. intros i. destruct (bit b i) eqn:E.
  - destruct (In_nth_error l i (H i E)) as [j Hj]. unfold spread. rewrite (spread_from_nth _ _ _ j) by auto.
    rewrite gather_bit. simpl. rewrite Nat.sub_0_r, Hj. auto.
  - destruct (bit (spread l (gather_from 0 l b)) i) eqn:F; auto. apply spread_from_bit in F.
    destruct F as [j [F1 F2]]. rewrite gather_bit in F2. simpl in F2. rewrite Nat.sub_0_r, F1 in F2. congruence.
Qed.
Lemma support_dec : forall l b, (forall i, bit b i = true -> In i l) \/ (exists i, bit b i = true /\ ~ In i l).
Proof.
  intros l b.
  destruct (forallb (fun i => negb (bit b i) || existsb (Nat.eqb i) l) (seq 0 (N.to_nat (N.size b)))) eqn:E.
  - left. intros i Hi. rewrite forallb_forall in E. assert (Li : (i < N.to_nat (N.size b))%nat).
    { destruct (Nat.lt_ge_cases i (N.to_nat (N.size b))); auto. exfalso. unfold bit in Hi.
      destruct (N.eq_dec b 0) as [->|Hz]; [rewrite N.bits_0 in Hi; discriminate|].
      rewrite N.bits_above_log2 in Hi; [discriminate|]. rewrite N.size_log2 in H by auto. lia. }
    specialize (E i). rewrite Hi in E. simpl in E. rewrite existsb_exists in E.
    destruct E as [x [E1 E2]]; [apply in_seq; lia|]. apply Nat.eqb_eq in E2. subst. auto.
  - right. apply not_true_iff_false in E. rewrite forallb_forall in E.
    destruct (existsb (fun i => bit b i && negb (existsb (Nat.eqb i) l)) (seq 0 (N.to_nat (N.size b)))) eqn:F.
    + apply existsb_exists in F. destruct F as [i [_ F]]. apply andb_prop in F. destruct F as [F1 F2]. exists i.
      split; auto. intro Hi. apply negb_true_iff in F2. apply not_true_iff_false in F2. apply F2.
      apply existsb_exists. exists i. split; auto. apply Nat.eqb_refl.
    + exfalso. apply E. intros i Hi. destruct (bit b i) eqn:Bi; auto. simpl.
      apply not_true_iff_false in F. rewrite existsb_exists in F.
      destruct (existsb (Nat.eqb i) l) eqn:Ex; auto. exfalso. apply F. exists i. rewrite Bi, Ex. auto.
Qed.
(** Two supported states with the same listing are equal. *)
Lemma supported_ext : forall l psi phi, NoDup l -> supported l psi -> supported l phi ->
  (forall x, (x < 2 ^ N.of_nat (length l))%N -> psi (spread l x) = phi (spread l x)) -> psi = phi.
Proof.
  intros l psi phi N S1 S2 H. apply functional_extensionality. intros b. destruct (support_dec l b) as [D|[i [B I]]].
  - rewrite <- (spread_gather l b N D). apply H. apply gather_lt.
  - rewrite (S1 b i B I), (S2 b i B I). auto.
Qed.

Lemma listing_lookup : forall st l psi x, (x < 2 ^ N.of_nat (length l))%N -> listing st l psi ->
  (exists v, In (x, v) st /\ psi (spread l x) = v) \/ (~ In x (map fst st) /\ psi (spread l x) = C0).
Proof.
  intros st l psi x Hx L. destruct (in_dec N.eq_dec x (map fst st)) as [I|I].
  - left. apply in_map_iff in I. destruct I as [[y v] [E I]]. simpl in E. subst. exists v. split; auto. apply (ls_amp _ _ _ L). auto.
  - right. split; auto. apply (ls_rest _ _ _ L); auto.
Qed.
Lemma listing_fun : forall st l psi phi x, (x < 2 ^ N.of_nat (length l))%N -> listing st l psi -> listing st l phi ->
  psi (spread l x) = phi (spread l x).
Proof.
  intros st l psi phi x Hx L1 L2. destruct (listing_lookup st l psi x Hx L1) as [[v [I E]]|[I E]]; rewrite E; symmetry.
  - apply (ls_amp _ _ _ L2). auto.
  - apply (ls_rest _ _ _ L2); auto.
Qed.
Lemma listing_ext : forall st l psi phi, listing st l psi ->
  (forall x, (x < 2 ^ N.of_nat (length l))%N -> psi (spread l x) = phi (spread l x)) -> listing st l phi.
Proof.
  intros st l psi phi L E. constructor; try apply L.
  - intros x v I. rewrite <- E; [apply (ls_amp _ _ _ L); auto|apply (ls_range _ _ _ L x v); auto].
  - intros x Hx I. rewrite <- E by auto. apply (ls_rest _ _ _ L); auto.
Qed.

Lemma supported_scale : forall l c psi, supported l psi -> supported l (scale c psi).
Proof. intros l c psi H b i B I. unfold scale. rewrite (H b i B I). ring. Qed.
Lemma unit_inv : forall c, Cn2 c = 1 -> exists d, Cn2 d = 1 /\ (d * c)%C = C1.
Proof.
  intros [a b] H. exists (a, - b). unfold Cn2 in *. simpl in *. split; [nra|].
  unfold Cmul, C1. simpl. f_equal; nra.
Qed.
Lemma scale_ext : forall c psi phi, scale c psi = scale c phi -> Cn2 c = 1 -> psi = phi.
Proof.
  intros c psi phi H Hc. destruct (unit_inv c Hc) as [d [_ E]].
  rewrite <- (scale_1 psi), <- (scale_1 phi), <- E, <- !scale_scale, H. reflexivity.
Qed.

Lemma fold_bstep : forall {A0 : Arith} {EN : Env} dr h m,
  bk (mrun dr m h) = fold_left bstep h (bk m).
Proof.
  intros A0 EN dr. induction h as [|c h IH]; intros m; simpl; auto. rewrite IH. unfold mstep1.
  destruct (dr (mgen m)); reflexivity.
Qed.

Section RunP.
Context {T : Tol} {EN : Env}.
Hypothesis horder_perm : order_ok.

Lemma proper_clash_free : forall g h, proper h -> no_odd_pi h -> clash_free (new_sim g) h.
Proof.
  intros g h [V _] [F|[G [SG [Gc F]]]].
  - apply no_ry_clash_free; auto.
  - eapply angles_clash_free; eauto; [apply new_tracks|apply new_rxin].
Qed.
Lemma reach_refines : forall g h, tol = 0 -> samples_ok -> proper h -> no_odd_pi h ->
  exists rs s, exec (new_sim g) h = Ok (rs, s) /\ replies_ok draws (initial g) h rs /\
    refines s (mrun draws (initial g) h).
Proof.
  intros g h H0 Sm P A. apply exec_refines; auto; try apply P.
  - apply new_refines.
  - apply proper_clash_free; auto.
Qed.
Lemma reach_effective : forall g h, tol = 0 -> samples_ok -> proper h ->
  exists rs s h', exec (new_sim g) h = Ok (rs, s) /\ Forall2 up_to_ry_sign h h' /\ (no_odd_pi h -> h' = h) /\
    replies_ok draws (initial g) h' rs /\ refines s (mrun draws (initial g) h').
Proof.
  intros g h H0 Sm P. destruct (exec_effective horder_perm H0 Sm h (new_sim g) (initial g)) as [rs [s [h' [E [F [C R]]]]]].
  - apply new_refines.
  - apply P.
  - apply P.
  - exists rs, s, h'. split; auto. split; auto. split; auto. intros A. apply C. apply proper_clash_free; auto.
Qed.
Lemma sign_bstep : forall h h' b, Forall2 up_to_ry_sign h h' -> fold_left bstep h b = fold_left bstep h' b.
Proof.
  intros h h' b F. revert b. induction F as [|c c' h h' S F IH]; intros b; simpl; auto. rewrite IH. f_equal.
  destruct S as [->|[th [t [-> ->]]]]; reflexivity.
Qed.
Lemma reached_refines : forall s l, tol = 0 -> samples_ok -> reached s l ->
  exists m, refines s m /\ live (bk m) = l.
Proof.
  intros s l H0 Sm [g [h [rs [P [E ->]]]]]. destruct (reach_effective g h H0 Sm P) as [rs' [s' [h' [E' [F [_ [_ R]]]]]]].
  rewrite E in E'. inversion E'; subst. eexists; split; [exact R|]. rewrite fold_bstep. unfold live_after.
  f_equal. symmetry. apply sign_bstep. exact F.
Qed.
Lemma reached_tracks : forall s l, reached s l -> exists b, tracks s b /\ live b = l.
Proof.
  intros s l [g [h [rs [[V _] [E ->]]]]].
  destruct (exec_tracks horder_perm h (new_sim g) _ (new_tracks g) V) as [[rs' [s' [E' Tr]]]|[E' _]]; rewrite E in E'.
  - inversion E'; subst. eauto.
  - discriminate.
Qed.

Lemma live_nodup : forall s b, tracks s b -> NoDup (live b).
Proof. intros s b []. rewrite <- tr_ids. apply im_keys_nodup. Qed.

Lemma refines_shows : forall s m c, tol = 0 -> refines s m -> Cn2 c = 1 -> shows s (live (bk m)) (scale c (vec m)).
Proof.
  intros s m c H0 R Hc. split; [apply supported_scale; apply R|].
  destruct (get_state_ok horder_perm s (tr_wf _ _ (rf_tr _ _ R))) as [st [s' [E [_ [_ [_ [_ [B [_ L]]]]]]]]].
  rewrite (tr_ids _ _ (rf_tr _ _ R)) in E, L. rewrite B in L by auto.
  destruct (rf_vec _ _ R) as [d [Hd Ed]]. destruct (unit_inv c Hc) as [e [He Ee]].
  exists st, s', (d * e)%C. split; auto. split; [rewrite Cn2_mul, Hd, He; ring|].
  rewrite scale_scale. replace (d * e * c)%C with (d * (e * c))%C by ring. rewrite Ee.
  replace (d * C1)%C with d by ring. rewrite <- Ed. auto.
Qed.
(** What is shown is the state of the ideal machine up to a phase. *)
Lemma shows_vec : forall s m psi, tol = 0 -> refines s m -> shows s (live (bk m)) psi ->
  exists c, Cn2 c = 1 /\ psi = scale c (vec m).
Proof.
  intros s m psi H0 R [Su [st [s' [c [E [Hc L]]]]]].
  destruct (get_state_ok horder_perm s (tr_wf _ _ (rf_tr _ _ R))) as [st1 [s1 [E1 [_ [_ [_ [_ [B [_ L1]]]]]]]]].
  rewrite (tr_ids _ _ (rf_tr _ _ R)) in E1, L1. rewrite B in L1 by auto.
  rewrite E in E1. inversion E1; subst st1 s1.
  destruct (rf_vec _ _ R) as [d [Hd Ed]]. rewrite Ed in L1.
  assert (Eq : scale c psi = scale d (vec m)).
  { apply (supported_ext (live (bk m))); auto using supported_scale.
    - eapply live_nodup. apply R.
    - apply supported_scale. apply R.
    - intros x Hx. eapply listing_fun; eauto. }
  destruct (unit_inv c Hc) as [e [He Ee]]. exists (e * d)%C. split; [rewrite Cn2_mul, He, Hd; ring|].
  rewrite <- scale_scale, <- Eq, scale_scale, Ee, scale_1. auto.
Qed.

(** One valid call from a reached state. *)
Lemma call_step : forall s m c, tol = 0 -> samples_ok -> refines s m -> valid (bk m) c -> unit_call c ->
  exists r s', run1 s c = Ok (r, s') /\
    reply_ok (live (bk m)) (vec m) (fst (draw (mgen m))) c r /\ refines s' (mstep1 draws m (effective s c)).
Proof.
  intros s m c H0 Sm R V U. destruct (run1_ok horder_perm s (bk m) c (rf_tr _ _ R) V) as [[r [s' [E [_ [_ Z]]]]]|[_ [_ Z]]].
  - destruct (Z m H0 eq_refl R U Sm) as [Z1 Z2]. eauto.
  - exfalso. eapply Z; eauto.
Qed.
Lemma mstep1_bk : forall m c, bk (mstep1 draws m c) = bstep (bk m) c.
Proof. intros. unfold mstep1. destruct (draws (mgen m)); auto. Qed.
Lemma mstep1_vec : forall m c, vec (mstep1 draws m c) = vstep (live (bk m)) (vec m) (fst (draw (mgen m))) c.
Proof. intros. unfold mstep1, draws. destruct (draw (mgen m)); auto. Qed.
End RunP.
