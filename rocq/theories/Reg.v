(** * Allocation, release, exchange of identifiers and reading the state *)
From Coq Require Import Reals NArith List Bool Lia Lra Permutation Arith Sorted FunctionalExtensionality.
From Verif Require Import Cx Arith ArithR IndexMap IndexMapLemmas Bits BitsLemmas Spec QLib QSum Sim
  StateLemmas Loc Abs Gates Gates2 Meas.
Import ListNotations.
Local Open Scope R_scope.

(** ** The first gap *)
Fixpoint tw (i : nat) (l : list nat) : list nat :=
  match l with [] => [] | k :: l' => if Nat.eqb i k then k :: tw (S i) l' else [] end.
Lemma tw_seq : forall l i, tw i l = seq i (length (tw i l)).
Proof.
  induction l; simpl; intros; auto. destruct (Nat.eqb_spec i a); auto. subst. simpl.
  f_equal. apply IHl.
Qed.
Lemma first_gap_len : forall l, first_gap l = length (tw 0 l).
Proof.
  intros. change (first_gap l) with (match rev (tw 0 l) with [] => 0%nat | k :: _ => S k end).
  rewrite (tw_seq l 0) at 1. destruct (length (tw 0 l)) as [|n]; auto.
  rewrite seq_S, rev_app_distr. simpl. reflexivity.
Qed.
Lemma tw_gap : forall l i, StronglySorted lt l -> (forall x, In x l -> (i <= x)%nat) ->
  ~ In (i + length (tw i l))%nat l /\
  forall x, (i <= x < i + length (tw i l))%nat -> In x l.
Proof.
  induction l as [|a l IH]; simpl; intros i SS H; [split; [tauto|lia]|].
  inversion SS; subst.
  destruct (Nat.eqb_spec i a).
  - subst. simpl. assert (HH : forall x, In x l -> (S a <= x)%nat).
    { intros x Hx. rewrite Forall_forall in H3. apply H3 in Hx. lia. }
    destruct (IH (S a) H2 HH) as [I1 I2].
    split.
    + intros [E|E]; [lia|]. apply I1. replace (S a + length (tw (S a) l))%nat with (a + S (length (tw (S a) l)))%nat by lia. auto.
    + intros x Hx. destruct (Nat.eq_dec x a); [subst; auto|]. right. apply I2. lia.
  - simpl. split; [|lia]. rewrite Nat.add_0_r. intros [E|E]; [lia|].
    assert (i <= a)%nat by auto. rewrite Forall_forall in H3. apply H3 in E. lia.
Qed.
Lemma first_gap_ok : forall l, StronglySorted lt l ->
  ~ In (first_gap l) l /\ forall x, (x < first_gap l)%nat -> In x l.
Proof.
  intros. rewrite first_gap_len. destruct (tw_gap l 0 H) as [H1 H2]; [intros; lia|].
  split; auto. intros. apply H2. lia.
Qed.

Lemma insert_nat_perm : forall x l, Permutation (insert_nat x l) (x :: l).
Proof.
  induction l; simpl; auto. destruct (Nat.leb x a); auto.
  eapply Permutation_trans; [apply perm_skip; exact IHl|]. apply perm_swap.
Qed.
Lemma sort_nat_perm : forall l, Permutation (sort_nat l) l.
Proof.
  unfold sort_nat. induction l; simpl; auto.
  eapply Permutation_trans; [apply insert_nat_perm|]. auto.
Qed.
Lemma insert_nat_sorted : forall x l, StronglySorted le l -> StronglySorted le (insert_nat x l).
Proof.
  induction l; simpl; intros; [repeat constructor|]. destruct (Nat.leb_spec x a).
  - constructor; auto. inversion H; subst. constructor; auto.
    eapply Forall_impl; [|exact H4]. simpl. intros; lia.
  - inversion H; subst. constructor; auto.
    eapply Permutation_Forall; [apply Permutation_sym, insert_nat_perm|].
    constructor; auto. lia.
Qed.
Lemma sort_nat_sorted : forall l, StronglySorted le (sort_nat l).
Proof. unfold sort_nat. induction l; simpl; [constructor|]. apply insert_nat_sorted; auto. Qed.
Lemma sorted_le_lt : forall l, StronglySorted le l -> NoDup l -> StronglySorted lt l.
Proof.
  induction 1; intros D; [constructor|]. inversion D; subst. constructor; auto.
  rewrite Forall_forall in *. intros x Hx. specialize (H0 x Hx).
  assert (x <> a) by (intro; subst; tauto). lia.
Qed.

(** ** Characterising [to_loc] *)
Lemma to_loc_char : forall m b k, im_inj m -> locs_of m k ->
  (forall i l, im_get m i = Some l -> bit k l = bit b i) -> to_loc m b = k.
Proof.
  intros m b k I L H. apply bits_ext. intros j.
  destruct (in_dec Nat.eq_dec j (im_values m)).
  - apply im_values_In in i. destruct i as [i E]. rewrite (bit_to_loc m I _ _ _ E). symmetry. auto.
  - assert (N : forall i, im_get m i <> Some j).
    { intros i E. apply n. apply im_values_In. eauto. }
    rewrite bit_to_loc_out by auto. destruct (bit k j) eqn:B; auto.
    destruct (L j B) as [i E]. exfalso. eapply N; eauto.
Qed.

Definition sw (a b i : nat) : nat := if Nat.eqb i a then b else if Nat.eqb i b then a else i.
Lemma sw_sw : forall a b i, sw a b (sw a b i) = i.
Proof.
  intros. unfold sw. destruct (Nat.eqb_spec i a); [|destruct (Nat.eqb_spec i b)];
  repeat match goal with |- context[Nat.eqb ?x ?y] => destruct (Nat.eqb_spec x y) end; congruence.
Qed.
Lemma sw_inj : forall a b i j, sw a b i = sw a b j -> i = j.
Proof. intros. rewrite <- (sw_sw a b i), H. apply sw_sw. Qed.
Lemma bit_swap_assign : forall a b k i, bit (swap_assign a b k) i = bit k (sw a b i).
Proof.
  intros. unfold swap_assign, sw. rewrite !bit_set.
  repeat match goal with |- context[Nat.eqb ?x ?y] => destruct (Nat.eqb_spec x y) end; subst; congruence.
Qed.
Lemma swap_assign_invol : forall a b k, swap_assign a b (swap_assign a b k) = k.
Proof. intros. apply bits_ext. intros. rewrite !bit_swap_assign, sw_sw. reflexivity. Qed.
Lemma bit_swap_bits : forall a b k i, bit (swap_bits a b k) i = bit k (sw a b i).
Proof.
  intros. unfold swap_bits, sw. destruct (Bool.eqb (bit k a) (bit k b)) eqn:E.
  - apply eqb_prop in E.
    repeat match goal with |- context[Nat.eqb ?x ?y] => destruct (Nat.eqb_spec x y) end; subst; congruence.
  - apply eqb_false_iff in E. rewrite !bit_set.
    assert (E1 : negb (bit k a) = bit k b) by (destruct (bit k a), (bit k b); simpl; congruence).
    assert (E2 : negb (bit k b) = bit k a) by (destruct (bit k a), (bit k b); simpl; congruence).
    rewrite E1, E2.
    repeat match goal with |- context[Nat.eqb ?x ?y] => destruct (Nat.eqb_spec x y) end; subst; congruence.
Qed.
Lemma swap_bits_invol : forall a b k, swap_bits a b (swap_bits a b k) = k.
Proof. intros. apply bits_ext. intros. rewrite !bit_swap_bits, sw_sw. reflexivity. Qed.

Section R.
Context {T : Tol} {EN : Env}.
Hypothesis horder_perm : horder_ok.

(** ** allocate *)
Lemma allocate_ok : forall s, wf s ->
  let s' := fst (allocate s) in let q := snd (allocate s) in
  ~ alloc s q /\ (forall x, (x < q)%nat -> alloc s x) /\ rng s' = rng s /\
  (forall x, alloc s' x <-> alloc s x \/ x = q) /\
  wf s' /\ rx_queue s' = rx_queue s /\
  abs s' = abs s.
Proof.
  intros s W s' q. unfold allocate in s', q. simpl in s', q.
  destruct (first_gap_ok (im_keys (id_map s)) (im_keys_sorted _)) as [K1 K2].
  fold q in K1, K2. rewrite im_keys_In in K1.
  set (v := first_gap (sort_nat (im_values (id_map s)))) in *.
  assert (V1 : ~ In v (im_values (id_map s))).
  { destruct (first_gap_ok (sort_nat (im_values (id_map s)))) as [V1 _].
    - apply sorted_le_lt; [apply sort_nat_sorted|].
      eapply Permutation_NoDup; [apply Permutation_sym, sort_nat_perm|].
      apply values_nodup. apply W.
    - intro H. apply V1. eapply Permutation_in; [apply Permutation_sym, sort_nat_perm|]. exact H. }
  rewrite im_values_In in V1.
  assert (G : forall x, im_get (id_map s') x = if Nat.eqb q x then Some v else im_get (id_map s) x)
    by (intros x; exact (im_get_insert (id_map s) q v x)).
  assert (Aq : forall x, alloc s' x <-> alloc s x \/ x = q).
  { intros x. unfold alloc. rewrite G. destruct (Nat.eqb_spec q x).
    - subst. split; eauto.
    - split; [auto|]. intros [?|?]; auto. congruence. }
  assert (Gn : im_get (id_map s) q = None).
  { destruct (im_get (id_map s) q) eqn:E; auto. exfalso. apply K1. eauto. }
  assert (I' : im_inj (id_map s')).
  { intros i j l. rewrite !G.
    destruct (Nat.eqb_spec q i); destruct (Nat.eqb_spec q j); intros E1 E2; subst; auto.
    - inversion E1; subst. exfalso. apply V1. eauto.
    - inversion E2; subst. exfalso. apply V1. eauto.
    - eapply (wf_inj s W); eauto. }
  assert (L' : forall k, locs_of (id_map s) k -> locs_of (id_map s') k).
  { intros k L i Hi. destruct (L i Hi) as [x E]. exists x. rewrite G.
    destruct (Nat.eqb_spec q x); [congruence|auto]. }
  assert (W' : wf s').
  { destruct W. constructor; auto.
    - destruct wf_st as [S1 S2]. split; auto.
    - simpl. rewrite Forall_forall in *. intros o Ho. destruct (wf_ops o Ho) as [O1 O2].
      split; auto. rewrite Forall_forall in *. intros x Hx. apply Aq. auto.
    - intros x Hx. apply Aq. left. apply wf_h; auto.
    - intros x a Hx. apply Aq. left. eapply wf_rx; eauto.
    - intros x a Hx. apply Aq. left. eapply wf_ry; eauto. }
  split; [exact K1|]. split; [intros x Hx; apply im_keys_In; auto|]. split; [reflexivity|].
  split; [exact Aq|]. split; [exact W'|]. split; [reflexivity|].
  assert (Bs : base s' = base s).
  { apply functional_extensionality. intros b. unfold base, baseof. simpl state.
    destruct (bit b q) eqn:Bq.
    - assert (E1 : inb (id_map s) b = false).
      { apply not_true_iff_false. rewrite inb_spec by apply W. intros H. destruct (H q Bq); congruence. }
      rewrite E1. destruct (inb (id_map s') b); auto. apply lamp_out. intro Hk.
      destruct (wf_st s W) as [_ S2]. destruct (S2 _ Hk v) as [x E].
      + rewrite (bit_to_loc (id_map s') I' b q v); auto. rewrite G, Nat.eqb_refl. reflexivity.
      + apply V1. eauto.
    - assert (E1 : inb (id_map s') b = inb (id_map s) b).
      { apply eq_true_iff_eq. rewrite !inb_spec by (auto; apply W). unfold ids_of.
        split; intros H i Hi; destruct (H i Hi) as [l E]; exists l; revert E;
          rewrite G; destruct (Nat.eqb_spec q i); congruence. }
      rewrite E1. destruct (inb (id_map s) b); auto. f_equal. apply to_loc_char; auto.
      + apply L', to_loc_locs.
      + intros i l. rewrite G. destruct (Nat.eqb_spec q i).
        * intros E. inversion E; subst. rewrite Bq. apply bit_to_loc_out. intros x Ex. apply V1. eauto.
        * intros E. apply bit_to_loc; auto. apply W. }
  unfold abs. assert (Cs : core s' = core s) by (unfold core; rewrite Bs; reflexivity). rewrite Cs.
  change (pm s') with (pm s).
  rewrite (pendl_perm _ (ids s') (q :: ids s)).
  - simpl. assert (Pq : pm s q = mI).
    { unfold pm. destruct W.
      destruct (bit (h_flag s) q) eqn:Eh; [exfalso; apply K1, (wf_h q Eh)|].
      destruct (im_get (rx_queue s) q) eqn:Ex; [exfalso; apply K1, (wf_rx q _ Ex)|].
      destruct (im_get (ry_queue s) q) eqn:Ey; [exfalso; apply K1, (wf_ry q _ Ey)|].
      simpl. now rewrite !mmul_I_l. }
    rewrite Pq. apply gate1_I.
  - apply NoDup_Permutation.
    + apply ids_nodup.
    + constructor; [|apply ids_nodup]. rewrite ids_In. exact K1.
    + intros x. rewrite ids_In, Aq. simpl. rewrite ids_In. intuition.
  - apply ids_nodup.
Qed.

(** ** swap_qubit_ids *)
Lemma get_swap_entries : forall (V : Type) (q : imap V) a b i,
  im_get (swap_entries q a b) i = im_get q (sw a b i).
Proof.
  intros. unfold swap_entries, sw.
  destruct (im_get q a) eqn:Ea; destruct (im_get q b) eqn:Eb;
  repeat rewrite ?im_get_insert, ?im_get_remove;
  repeat match goal with |- context[Nat.eqb ?x ?y] => destruct (Nat.eqb_spec x y) end; subst; congruence.
Qed.

Lemma gate1_swap : forall U a b q psi,
  gate1 U q (swap_qubits a b psi) = swap_qubits a b (gate1 U (sw a b q) psi).
Proof.
  intros. apply functional_extensionality. intros k. unfold gate1, swap_qubits.
  assert (E : forall v, swap_assign a b (set_bit k q v) = set_bit (swap_assign a b k) (sw a b q) v).
  { intros. apply bits_ext. intros i. rewrite bit_swap_assign, !bit_set, bit_swap_assign.
    destruct (Nat.eqb_spec q (sw a b i)); destruct (Nat.eqb_spec (sw a b q) i); auto.
    - exfalso. apply n. subst. apply sw_sw.
    - exfalso. apply n. subst. now rewrite sw_sw. }
  rewrite !E, bit_swap_assign, sw_sw. reflexivity.
Qed.
Lemma pendl_swap : forall f a b l psi,
  pendl f l (swap_qubits a b psi) = swap_qubits a b (pendl (fun q => f (sw a b q)) (map (sw a b) l) psi).
Proof.
  induction l; simpl; intros; auto. rewrite IHl, gate1_swap, sw_sw. reflexivity.
Qed.

Lemma flush_ops_abs : forall s s', wf s -> flush_ops s = Ok s' -> abs s' = abs s.
Proof.
  intros s s' W E. destruct (flush_ops_ok s W) as [s1 [E1 [C1 Q1]]]. rewrite E in E1. inversion E1; subst s1.
  unfold abs. rewrite (frame_ids _ _ (cs_frame _ _ _ C1)).
  rewrite (pendl_ext (pm s') (pm s)) by (intros; apply frame_pm; apply C1). f_equal.
  unfold flush_ops in E. destruct (op_queue s) eqn:Eq; [inversion E; reflexivity|].
  destruct (take_ops_ok s W) as [ops' [E2 [_ B1]]]. rewrite E2 in E. simpl in E. inversion E; subst s'.
  unfold core at 1. simpl. exact B1.
Qed.

Lemma swap_qubit_ids_ok : forall s a b, wf s -> alloc s a -> alloc s b ->
  exists s', swap_qubit_ids s a b = Ok s' /\ rng s' = rng s /\
    (forall q, alloc s' q <-> alloc s q) /\ wf s' /\
    (forall G, symm G -> rxin G s -> rxin G s') /\
    abs s' = swap_qubits a b (abs s).
Proof.
  intros s a b W Aa Ab. unfold swap_qubit_ids.
  destruct (flush_ops_ok s W) as [s1 [E1 [C1 Q1]]]. rewrite E1. cbn [bind].
  assert (F1 : frame s s1) by apply C1.
  assert (W1 : wf s1) by apply C1.
  destruct (proj2 (frame_alloc _ _ a F1) Aa) as [la Ea].
  destruct (proj2 (frame_alloc _ _ b F1) Ab) as [lb Eb].
  set (s4 := with_ry _ _).
  assert (Fa : find_qubit s4 a = Ok la) by (apply find_ok; exact Ea).
  assert (Fb : find_qubit s4 b = Ok lb) by (apply find_ok; exact Eb).
  rewrite Fa, Fb. cbn [bind]. eexists; split; [reflexivity|].
  set (s5 := with_id_map _ _).
  assert (G : forall i, im_get (id_map s5) i = im_get (id_map s1) (sw a b i)).
  { intros i. unfold s5. simpl. rewrite !im_get_update. unfold sw.
    destruct (Nat.eqb_spec i a); destruct (Nat.eqb_spec i b); destruct (Nat.eqb_spec a i);
    destruct (Nat.eqb_spec b i); subst; try congruence; simpl; rewrite ?Ea, ?Eb; simpl; congruence. }
  assert (Al : forall q, alloc s5 q <-> alloc s q).
  { intros q. rewrite <- (frame_alloc _ _ q F1). unfold alloc. rewrite G. unfold sw.
    destruct (Nat.eqb_spec q a); [subst; split; eauto|].
    destruct (Nat.eqb_spec q b); [subst; split; eauto|tauto]. }
  assert (Alsw : forall q, alloc s1 (sw a b q) <-> alloc s5 q).
  { intros. unfold alloc. rewrite G. tauto. }
  assert (H5 : forall i, bit (h_flag s5) i = bit (h_flag s1) (sw a b i)).
  { intros i. unfold s5. simpl. rewrite !bit_set. unfold sw.
    repeat match goal with |- context[Nat.eqb ?x ?y] => destruct (Nat.eqb_spec x y) end; subst; congruence. }
  assert (X5 : forall i, im_get (rx_queue s5) i = im_get (rx_queue s1) (sw a b i))
    by (intros; apply get_swap_entries).
  assert (Y5 : forall i, im_get (ry_queue s5) i = im_get (ry_queue s1) (sw a b i))
    by (intros; apply get_swap_entries).
  assert (I5 : im_inj (id_map s5)).
  { intros i j l. rewrite !G. intros E2 E3. apply (sw_inj a b). eapply (wf_inj s1 W1); eauto. }
  assert (L5 : forall k, locs_of (id_map s1) k -> locs_of (id_map s5) k).
  { intros k L i Hi. destruct (L i Hi) as [x E]. exists (sw a b x). rewrite G, sw_sw. auto. }
  split; [change (rng s1 = rng s); apply F1|]. split; [exact Al|].
  assert (W5 : wf s5).
  { constructor; auto.
    - destruct (wf_st s1 W1) as [S1 S2]. split; auto.
    - change (Forall (qop_ok s5) (op_queue s1)). rewrite Q1. constructor.
    - intros q. rewrite H5. intros. apply Alsw. apply (wf_h s1 W1); auto.
    - intros q x. rewrite X5. intros. apply Alsw. eapply (wf_rx s1 W1); eauto.
    - intros q x. rewrite Y5. intros. apply Alsw. eapply (wf_ry s1 W1); eauto.
    - change (N.of_nat (length (op_queue s1)) <= QUEUE_LIMIT)%N. apply W1. }
  split; [exact W5|]. split.
  { intros P _ N q x. rewrite X5. destruct F1. rewrite fr_rx. apply N. }
  assert (Ab1 : abs s1 = abs s) by (apply flush_ops_abs; auto). rewrite <- Ab1.
  assert (B5 : base s5 = swap_qubits a b (base s1)).
  { apply functional_extensionality. intros k. unfold base, baseof, swap_qubits.
    change (state s5) with (state s1).
    assert (Ei : inb (id_map s5) k = inb (id_map s1) (swap_assign a b k)).
    { apply eq_true_iff_eq. rewrite !inb_spec by (auto; apply W1). unfold ids_of. split; intros H i Hi.
      - rewrite bit_swap_assign in Hi. apply H in Hi. destruct Hi as [l El]. rewrite G, sw_sw in El. eauto.
      - destruct (H (sw a b i)) as [l El]; [now rewrite bit_swap_assign, sw_sw|].
        exists l. rewrite G. auto. }
    rewrite Ei. destruct (inb (id_map s1) (swap_assign a b k)); auto. f_equal.
    apply to_loc_char; auto.
    - apply L5. apply to_loc_locs.
    - intros i l. rewrite G. intros E. rewrite (bit_to_loc _ (wf_inj s1 W1) _ _ _ E).
      rewrite bit_swap_assign, sw_sw. reflexivity. }
  unfold abs. unfold core. change (op_queue s5) with (op_queue s1). rewrite Q1. cbn [opsem fold_left].
  unfold opsem. simpl. rewrite B5, pendl_swap. f_equal.
  assert (Ep : forall q, pm s5 (sw a b q) = pm s1 q).
  { intros. unfold pm. rewrite H5, X5, Y5, sw_sw. reflexivity. }
  rewrite (pendl_ext _ (pm s1)) by (intros; apply Ep).
  apply pendl_perm.
  - apply NoDup_Permutation; try apply ids_nodup.
    + apply FinFun.Injective_map_NoDup; [|apply ids_nodup]. intros x y. apply sw_inj.
    + intros x. rewrite in_map_iff, ids_In. split.
      * intros [y [<- Hy]]. apply ids_In in Hy. apply Alsw. auto.
      * intros Hx. exists (sw a b x). split; [apply sw_sw|]. apply ids_In.
        apply Alsw. rewrite sw_sw. auto.
  - apply FinFun.Injective_map_NoDup; [|apply ids_nodup]. intros x y. apply sw_inj.
Qed.

(** ** release *)
Lemma bit_0 : forall i, bit 0 i = false.
Proof. intros. unfold bit. apply N.bits_0. Qed.
Definition clear_loc (l : nat) (st : sstate) : sstate :=
  map (fun iv => (if bit (fst iv) l then set_bit (fst iv) l false else fst iv, snd iv)) st.
Lemma clear_key : forall k l, (if bit k l then set_bit k l false else k) = set_bit k l false.
Proof. intros. destruct (bit k l) eqn:E; auto. symmetry. apply set_bit_id'. auto. Qed.
Lemma keys_clear : forall l st, keys (clear_loc l st) = map (fun k => set_bit k l false) (keys st).
Proof.
  intros. unfold clear_loc, keys. rewrite !map_map. apply map_ext. intros. apply clear_key.
Qed.
Lemma hm_get_clear : forall l r st, (forall k, In k (keys st) -> bit k l = r) ->
  forall k, hm_get (clear_loc l st) k = if bit k l then None else hm_get st (set_bit k l r).
Proof.
  intros l r st. induction st as [|[k0 v0] st IH]; intros H k; simpl.
  - destruct (bit k l); auto.
  - rewrite clear_key. rewrite IH by (intros; apply H; right; auto).
    assert (B0 : bit k0 l = r) by (apply H; left; auto).
    destruct (N.eqb_spec (set_bit k0 l false) k).
    + subst k. rewrite bit_set_same, set_set_same, set_bit_id' by auto. rewrite N.eqb_refl. reflexivity.
    + destruct (bit k l) eqn:Bk; auto. destruct (N.eqb_spec k0 (set_bit k l r)); auto.
      exfalso. apply n. rewrite e, set_set_same. apply set_bit_id'. auto.
Qed.
Lemma clear_id : forall l st, (forall k, In k (keys st) -> bit k l = false) -> clear_loc l st = st.
Proof.
  intros. unfold clear_loc. rewrite <- (map_id st) at 2. apply map_ext_in. intros [k v] Hk. simpl.
  rewrite (H k) by (eapply In_keys; eauto). reflexivity.
Qed.

Lemma gate1_drop : forall U t q r psi, t <> q ->
  gate1 U t (drop_qubit q r psi) = drop_qubit q r (gate1 U t psi).
Proof.
  intros. apply functional_extensionality. intros b. unfold gate1, drop_qubit.
  rewrite !(bit_set_other b t q) by auto. destruct (bit b q).
  - ring.
  - rewrite (bit_set_other b q t) by auto.
    rewrite !(set_set_comm b t q) by auto. reflexivity.
Qed.
Lemma pendl_drop : forall f l q r psi, ~ In q l ->
  pendl f l (drop_qubit q r psi) = drop_qubit q r (pendl f l psi).
Proof.
  induction l; simpl; intros; auto. rewrite IHl by tauto. apply gate1_drop. intro; subst; tauto.
Qed.

Lemma length_one : forall (A : Type) (l : list A) x, length l = 1%nat -> In x l -> l = [x].
Proof.
  intros A [|y [|z l]] x H E; simpl in *; try discriminate. destruct E as [E|[]]. subst; auto.
Qed.

Lemma release_last_ok : forall s q, wf s -> ids s = [q] ->
  exists s', release s q = Ok s' /\ rng s' = rng s /\ (forall x, ~ alloc s' x) /\ wf s' /\
    state s' = [(0%N, C1)] /\ op_queue s' = [] /\ (forall x, no_pend s' x) /\ abs s' = ket0.
Proof.
  intros s q W E. unfold release.
  assert (L : length (im_iter (id_map s)) = 1%nat).
  { change (length (im_iter (id_map s))) with (length (im_iter (id_map s))).
    unfold ids in E. apply (f_equal (@length nat)) in E. unfold im_keys in E. rewrite map_length in E. exact E. }
  rewrite L. cbn [Nat.eqb bind]. eexists; split; [reflexivity|]. set (s' := with_id_map _ _).
  assert (G : forall x, im_get (id_map s') x = None).
  { intros x. unfold s'. simpl. rewrite im_get_remove. destruct (Nat.eqb_spec q x); auto.
    destruct (im_get (id_map s) x) eqn:Ex; auto. exfalso.
    assert (Hx : In x (ids s)) by (apply ids_In; exists n0; auto). rewrite E in Hx.
    destruct Hx as [Hx|[]]; congruence. }
  assert (NA : forall x, ~ alloc s' x) by (intros x [l Hl]; rewrite G in Hl; discriminate).
  assert (NP : forall x, no_pend s' x).
  { intros x. unfold s', no_pend. simpl. rewrite !im_get_empty. auto using bit_0. }
  assert (I' : im_inj (id_map s')) by (intros i j l; rewrite G; discriminate).
  assert (W' : wf s').
  { constructor; auto.
    - split; simpl; [repeat constructor; auto|]. intros k [<-|[]] i Hi. rewrite bit_0 in Hi. discriminate.
    - constructor.
    - intros x. destruct (NP x) as [Hh _]. rewrite Hh. discriminate.
    - intros x a. destruct (NP x) as [_ [Hx _]]. rewrite Hx. discriminate.
    - intros x a. destruct (NP x) as [_ [_ Hx]]. rewrite Hx. discriminate.
    - simpl. unfold QUEUE_LIMIT. lia. }
  repeat (split; [first [reflexivity | assumption]|]).
  unfold abs. rewrite pendl_I by (intros; apply no_pend_pm; auto).
  unfold core. change (op_queue s') with (@nil (@qop RArith)). unfold opsem. simpl.
  apply functional_extensionality. intros b. unfold base, baseof, ket0.
  assert (Ei : inb (id_map s') b = N.eqb b 0).
  { apply eq_true_iff_eq. rewrite inb_spec by auto. rewrite N.eqb_eq. split.
    - intros H. apply bits_ext. intros i. rewrite bit_0. destruct (bit b i) eqn:Eb; auto.
      destruct (H i Eb) as [l Hl]. rewrite G in Hl. discriminate.
    - intros -> i Hi. rewrite bit_0 in Hi. discriminate. }
  rewrite Ei. destruct (N.eqb_spec b 0); auto. subst.
  assert (Et : to_loc (id_map s') 0 = 0%N).
  { apply to_loc_char; [exact I'| |].
    - intros i Hi. rewrite bit_0 in Hi. discriminate.
    - intros i l. rewrite G. discriminate. }
  rewrite Et. reflexivity.
Qed.

Lemma release_ok : forall s q, wf s -> alloc s q -> length (ids s) <> 1%nat ->
  exists r s1 s', measure s q = Ok (r, s1) /\ release s q = Ok s' /\ rng s' = rng s1 /\
    (forall x, alloc s' x <-> alloc s x /\ x <> q) /\ wf s' /\
    (forall G, symm G -> rxin G s -> rxin G s') /\
    op_queue s' = [] /\ no_pend s' q /\
    abs s' = drop_qubit q r (abs s1).
Proof.
  intros s q W A L. unfold release.
  assert (L' : Nat.eqb (length (im_iter (id_map s))) 1 = false).
  { apply Nat.eqb_neq. unfold ids, im_keys in L. rewrite map_length in L. exact L. }
  rewrite L'. rewrite measure_joint.
  destruct (joint_measure_ok horder_perm s [q] W (nodup1 q)) as
    [r [s1 [E1 [R1 [Q1 [N1 [[locs [F1 K1]] [I1 [W1 [X1 _]]]]]]]]]]; auto.
  inversion F1; subst. inversion H3; subst. clear H3. rename y into loc.
  unfold resolved in H1. rewrite E1. cbn [bind]. rewrite (find_ok _ _ _ H1). cbn [bind].
  assert (KB : forall k, In k (keys (state s1)) -> bit k loc = r).
  { intros k Hk. rewrite <- (K1 k Hk). unfold par. simpl. now rewrite xorb_false_r. }
  exists r, s1.
  assert (Es : (if r then with_state s1 (map (fun iv => (if bit (fst iv) loc then set_bit (fst iv) loc false else fst iv, snd iv)) (state s1)) else s1) =
    with_state s1 (clear_loc loc (state s1))).
  { destruct r; auto. rewrite clear_id by auto. destruct s1; reflexivity. }
  rewrite Es. eexists. split; [reflexivity|]. split; [reflexivity|].
  set (s' := with_id_map _ _).
  assert (G : forall x, im_get (id_map s') x = if Nat.eqb q x then None else im_get (id_map s1) x)
    by (intros x; exact (im_get_remove (id_map s1) q x)).
  assert (Al : forall x, alloc s' x <-> alloc s x /\ x <> q).
  { intros x. unfold alloc. rewrite G, I1. destruct (Nat.eqb_spec q x).
    - subst. split; [intros [? ?]; discriminate|intros [_ ?]; congruence].
    - split; [intros; split; auto|tauto]. }
  assert (I' : im_inj (id_map s')).
  { intros i j l. rewrite !G. destruct (Nat.eqb q i); destruct (Nat.eqb q j); try discriminate. apply (wf_inj s1 W1). }
  assert (Nq : no_pend s1 q) by (apply N1; left; auto).
  assert (W' : wf s').
  { constructor; auto.
    - destruct (wf_st s1 W1) as [S1 S2]. split.
      + change (state s') with (clear_loc loc (state s1)). rewrite keys_clear. apply NoDup_map_inj; auto.
        intros x y Hx Hy E. rewrite <- (set_bit_id' x loc r), <- (set_bit_id' y loc r) by auto.
        rewrite <- (set_set_same x loc false r), <- (set_set_same y loc false r). now rewrite E.
      + change (state s') with (clear_loc loc (state s1)). rewrite keys_clear. intros k Hk.
        apply in_map_iff in Hk. destruct Hk as [k0 [<- Hk]]. intros i Hi. rewrite bit_set in Hi.
        destruct (Nat.eqb_spec loc i); [discriminate|]. destruct (S2 _ Hk i Hi) as [x Ex].
        exists x. rewrite G. destruct (Nat.eqb_spec q x); [congruence|auto].
    - change (op_queue s') with (op_queue s1). rewrite Q1. constructor.
    - intros x Hx. apply Al. split.
      + assert (alloc s1 x) by (apply (wf_h s1 W1); exact Hx). unfold alloc in *. rewrite <- I1. auto.
      + intros ->. destruct Nq as [Nq _]. change (h_flag s') with (h_flag s1) in Hx. congruence.
    - intros x a Hx. apply Al. split.
      + assert (alloc s1 x) by (apply (wf_rx s1 W1 x a); exact Hx). unfold alloc in *. rewrite <- I1. auto.
      + intros ->. destruct Nq as [_ [Nq _]]. change (rx_queue s') with (rx_queue s1) in Hx. congruence.
    - intros x a Hx. apply Al. split.
      + assert (alloc s1 x) by (apply (wf_ry s1 W1 x a); exact Hx). unfold alloc in *. rewrite <- I1. auto.
      + intros ->. destruct Nq as [_ [_ Nq]]. change (ry_queue s') with (ry_queue s1) in Hx. congruence.
    - change (op_queue s') with (op_queue s1). rewrite Q1. simpl. unfold QUEUE_LIMIT. lia. }
  split; [reflexivity|]. split; [exact Al|]. split; [exact W'|]. split; [exact X1|].
  split; [exact Q1|]. split; [exact Nq|].
  assert (B : base s' = drop_qubit q r (base s1)).
  { apply functional_extensionality. intros b. unfold base, baseof, drop_qubit.
    destruct (bit b q) eqn:Bq.
    - assert (Ei : inb (id_map s') b = false).
      { apply not_true_iff_false. rewrite inb_spec by auto. intros H. destruct (H q Bq) as [l Hl].
        rewrite G, Nat.eqb_refl in Hl. discriminate. }
      rewrite Ei. reflexivity.
    - assert (Ei : inb (id_map s') b = inb (id_map s1) (set_bit b q r)).
      { apply eq_true_iff_eq. rewrite !inb_spec by (auto; apply W1). split; intros H i Hi.
        - rewrite bit_set in Hi. destruct (Nat.eqb_spec q i); [subst; eauto|].
          destruct (H i Hi) as [l Hl]. rewrite G in Hl. destruct (Nat.eqb_spec q i); [congruence|eauto].
        - destruct (Nat.eqb_spec q i); [congruence|].
          destruct (H i) as [l Hl]; [rewrite bit_set_other; auto|]. exists l. rewrite G.
          destruct (Nat.eqb_spec q i); congruence. }
      rewrite Ei. destruct (inb (id_map s1) (set_bit b q r)); auto.
      change (state s') with (clear_loc loc (state s1)). unfold lamp.
      rewrite (hm_get_clear loc r) by auto.
      assert (Bl : bit (to_loc (id_map s') b) loc = false).
      { apply bit_to_loc_out. intros i. rewrite G. destruct (Nat.eqb_spec q i); [discriminate|].
        intros E. apply n. eapply (wf_inj s1 W1); eauto. }
      rewrite Bl.
      assert (Et : to_loc (id_map s1) (set_bit b q r) = set_bit (to_loc (id_map s') b) loc r).
      { apply to_loc_char; [apply W1| |].
        - intros i Hi. rewrite bit_set in Hi. destruct (Nat.eqb_spec loc i); [subst; eauto|].
          destruct (to_loc_locs (id_map s') b i Hi) as [x Hx]. exists x. rewrite G in Hx.
          destruct (Nat.eqb q x); [discriminate|auto].
        - intros i l Hl. rewrite !bit_set. destruct (Nat.eqb_spec loc l); destruct (Nat.eqb_spec q i); auto.
          + exfalso. subst. apply n. eapply (wf_inj s1 W1); eauto.
          + exfalso. subst. congruence.
          + apply bit_to_loc; auto. rewrite G. destruct (Nat.eqb_spec q i); [congruence|auto]. }
      rewrite Et. reflexivity. }
  unfold abs, core. change (op_queue s') with (op_queue s1). rewrite Q1. unfold opsem. simpl. rewrite B.
  change (pm s') with (pm s1).
  rewrite pendl_drop by (rewrite ids_In, Al; tauto). f_equal.
  rewrite (pendl_perm _ (ids s1) (q :: ids s')).
  - simpl. rewrite (no_pend_pm s1 q Nq), gate1_I. reflexivity.
  - apply NoDup_Permutation.
    + apply ids_nodup.
    + constructor; [rewrite ids_In, Al; tauto|apply ids_nodup].
    + intros x. simpl. rewrite !ids_In, Al.
      assert (A1 : alloc s1 x <-> alloc s x) by (unfold alloc; rewrite I1; tauto). rewrite A1.
      destruct (Nat.eq_dec x q); [subst|]; intuition; subst; auto; tauto.
  - apply ids_nodup.
Qed.

(** ** Reading the state *)
Definition quiet (s : sim) : Prop := op_queue s = [] /\ forall q, no_pend s q.

Lemma quiet_flush_one : forall lv s t, quiet s -> flush_one lv s t = Ok s.
Proof.
  intros lv s t [Q N]. destruct (N t) as [H [X Y]]. unfold flush_one. rewrite H. cbn [bind].
  destruct lv; auto; unfold flush_rx; rewrite X; auto. cbn [bind]. unfold flush_ry. rewrite Y. auto.
Qed.
Lemma quiet_flush : forall lv qs s, quiet s -> flush_queue s qs lv = Ok s.
Proof.
  intros lv qs s Q. unfold flush_queue.
  assert (E : foldM (flush_one lv) qs s = Ok s).
  { induction qs; simpl; auto. rewrite quiet_flush_one by auto. simpl. auto. }
  rewrite E. cbn [bind]. unfold flush_ops. destruct Q as [-> _]. reflexivity.
Qed.
Lemma quiet_abs : forall s, quiet s -> abs s = base s.
Proof.
  intros s [Q N]. unfold abs. rewrite pendl_I by (intros; apply no_pend_pm; auto).
  unfold core. rewrite Q. reflexivity.
Qed.

(** Exchanging two locations in the map and in the keys. *)
Record relabel (s s' : sim) (a b : nat) : Prop := {
  rl_id : forall i, im_get (id_map s') i = option_map (sw a b) (im_get (id_map s) i);
  rl_st : state s' = map (fun iv => (swap_bits a b (fst iv), snd iv)) (state s);
  rl_rng : rng s' = rng s;
  rl_h : h_flag s' = h_flag s;
  rl_rx : rx_queue s' = rx_queue s;
  rl_ry : ry_queue s' = ry_queue s;
  rl_ops : op_queue s' = op_queue s
}.

Lemma relabel_alloc : forall s s' a b q, relabel s s' a b -> (alloc s' q <-> alloc s q).
Proof.
  intros s s' a b q R. unfold alloc. rewrite (rl_id _ _ _ _ R). destruct (im_get (id_map s) q); simpl.
  - split; eauto.
  - split; intros [? ?]; discriminate.
Qed.

Lemma relabel_wf : forall s s' a b, relabel s s' a b -> wf s -> wf s'.
Proof.
  intros s s' a b R W. pose proof (fun q => relabel_alloc s s' a b q R) as Al.
  destruct R as [Ri Rs Rr Rh Rx Ry Ro]. destruct W. constructor.
  - destruct wf_st as [S1 S2].
    assert (Ek : keys (state s') = map (swap_bits a b) (keys (state s))).
    { rewrite Rs. unfold keys. rewrite !map_map. reflexivity. }
    split.
    + rewrite Ek. apply NoDup_map_inj; auto. intros x y _ _ E.
      rewrite <- (swap_bits_invol a b x), E. apply swap_bits_invol.
    + intros k Hk. rewrite Ek in Hk. apply in_map_iff in Hk. destruct Hk as [k0 [<- Hk]].
      intros i Hi. rewrite bit_swap_bits in Hi. destruct (S2 _ Hk _ Hi) as [x Hx].
      exists x. rewrite Ri, Hx. simpl. now rewrite sw_sw.
  - intros i j l. rewrite !Ri. destruct (im_get (id_map s) i) eqn:Ei; destruct (im_get (id_map s) j) eqn:Ej; simpl; try discriminate.
    intros E1 E2. eapply wf_inj; eauto. rewrite Ej. f_equal. apply (sw_inj a b). congruence.
  - rewrite Ro, Forall_forall in *. intros o Ho. destruct (wf_ops o Ho) as [O1 O2]. split; auto.
    rewrite Forall_forall in *. intros. apply Al. auto.
  - intros q. rewrite Rh. intros. apply Al. auto.
  - intros q x. rewrite Rx. intros. apply Al. eauto.
  - intros q x. rewrite Ry. intros. apply Al. eauto.
  - rewrite Ro. auto.
Qed.

Lemma relabel_base : forall s s' a b, relabel s s' a b -> wf s -> base s' = base s.
Proof.
  intros s s' a b R W. pose proof (relabel_wf _ _ _ _ R W) as W'.
  apply functional_extensionality. intros k. unfold base, baseof.
  assert (Ei : inb (id_map s') k = inb (id_map s) k).
  { apply eq_true_iff_eq. rewrite !inb_spec by (apply W || apply W'). unfold ids_of.
    split; intros H i Hi; apply (relabel_alloc s s' a b i R); apply H; auto. }
  rewrite Ei. destruct (inb (id_map s) k); auto.
  rewrite (rl_st _ _ _ _ R). unfold lamp.
  rewrite (hm_get_map (state s) (swap_bits a b) (swap_bits a b) (fun k v => v))
    by (intros; apply swap_bits_invol).
  assert (Et : swap_bits a b (to_loc (id_map s') k) = to_loc (id_map s) k).
  { symmetry. apply to_loc_char; [apply W| |].
    - intros i Hi. rewrite bit_swap_bits in Hi. destruct (to_loc_locs (id_map s') k _ Hi) as [x Hx].
      exists x. rewrite (rl_id _ _ _ _ R) in Hx. destruct (im_get (id_map s) x); simpl in Hx; [|discriminate].
      f_equal. apply (sw_inj a b). congruence.
    - intros i l Hl. rewrite bit_swap_bits. apply bit_to_loc; [apply W'|].
      rewrite (rl_id _ _ _ _ R), Hl. reflexivity. }
  rewrite Et. destruct (hm_get (state s) (to_loc (id_map s) k)); reflexivity.
Qed.

Lemma relabel_ids : forall s s' a b, relabel s s' a b -> ids s' = ids s.
Proof.
  intros s s' a b R. unfold ids. apply im_keys_ext. intros k.
  change ((exists v, im_get (id_map s') k = Some v) <-> exists v, im_get (id_map s) k = Some v).
  apply (relabel_alloc s s' a b k R).
Qed.
Lemma relabel_abs : forall s s' a b, relabel s s' a b -> wf s -> abs s' = abs s.
Proof.
  intros. unfold abs, core. rewrite (relabel_base _ _ _ _ H) by auto.
  rewrite (relabel_ids _ _ _ _ H). destruct H. rewrite rl_ops0. apply pendl_ext. intros.
  unfold pm. congruence.
Qed.

Lemma key_of_loc_Some : forall m l k, key_of_loc m l = Some k -> im_get m k = Some l.
Proof.
  intros m l k H. unfold key_of_loc in H.
  destruct (find (fun kv => Nat.eqb (snd kv) l) (im_iter m)) as [[k' l']|] eqn:E; [|discriminate].
  inversion H; subst. apply find_some in E. destruct E as [E1 E2]. simpl in E2.
  apply Nat.eqb_eq in E2. subst. apply im_iter_In; auto.
Qed.
Lemma key_of_loc_None : forall m l k, key_of_loc m l = None -> im_get m k <> Some l.
Proof.
  intros m l k H E. unfold key_of_loc in H.
  destruct (find (fun kv => Nat.eqb (snd kv) l) (im_iter m)) as [[k' l']|] eqn:F; [discriminate|].
  apply im_iter_In in E. apply (find_none _ _ F) in E. simpl in E. rewrite Nat.eqb_refl in E. discriminate.
Qed.

Lemma place_key_ok : forall s i q cur, wf s -> quiet s -> im_get (id_map s) q = Some cur ->
  exists s', place_key s (i, q) = Ok s' /\
    (s' = s /\ cur = i \/ relabel s s' cur i).
Proof.
  intros s i q cur W Q E. unfold place_key. rewrite (find_ok _ _ _ E). cbn [bind].
  destruct (Nat.eqb_spec i cur); [subst; eauto|].
  unfold swap_qubit_state. destruct (Nat.eqb_spec cur i); [congruence|].
  rewrite (quiet_flush LHRxRy [cur; i] s Q). cbn [bind]. set (s1 := with_state _ _).
  assert (F : find_qubit s1 q = Ok cur) by (apply find_ok; exact E). rewrite F. cbn [bind].
  eexists. split; [reflexivity|]. right. constructor; try reflexivity.
  intros j. change (id_map s1) with (id_map s).
  set (m1 := match key_of_loc (id_map s) i with Some _ => _ | None => _ end).
  change (im_get (im_update m1 q (fun _ => i)) j = option_map (sw cur i) (im_get (id_map s) j)).
  assert (G1 : forall j, j <> q -> im_get m1 j = option_map (sw cur i) (im_get (id_map s) j)).
  { clear j. intros j Hj. unfold m1. destruct (key_of_loc (id_map s) i) as [k|] eqn:Ek.
    - apply key_of_loc_Some in Ek. rewrite im_get_update. destruct (Nat.eqb_spec k j).
      + subst. rewrite Ek. simpl. unfold sw. destruct (Nat.eqb_spec i cur); [congruence|].
        now rewrite Nat.eqb_refl.
      + destruct (im_get (id_map s) j) as [l|] eqn:El; auto. simpl. f_equal. unfold sw.
        destruct (Nat.eqb_spec l cur); [subst; exfalso; apply Hj; eapply (wf_inj s W); eauto|].
        destruct (Nat.eqb_spec l i); auto. subst. exfalso. apply n1. eapply (wf_inj s W); eauto.
    - pose proof (fun k => key_of_loc_None _ _ k Ek) as Nk.
      destruct (im_get (id_map s) j) as [l|] eqn:El; auto. simpl. f_equal. unfold sw.
      destruct (Nat.eqb_spec l cur); [subst; exfalso; apply Hj; eapply (wf_inj s W); eauto|].
      destruct (Nat.eqb_spec l i); auto. subst. exfalso. eapply Nk; eauto. }
  rewrite im_get_update. destruct (Nat.eqb_spec q j).
  - subst j. rewrite E. simpl. unfold sw. rewrite Nat.eqb_refl.
    assert (Sm : exists l, im_get m1 q = Some l).
    { unfold m1. destruct (key_of_loc (id_map s) i) as [k|]; [|eauto].
      rewrite im_get_update. destruct (Nat.eqb k q); rewrite E; simpl; eauto. }
    destruct Sm as [l ->]. reflexivity.
  - apply G1. auto.
Qed.

Record same_reg (s s' : sim) : Prop := {
  sr_alloc : forall q, alloc s' q <-> alloc s q;
  sr_rng : rng s' = rng s;
  sr_wf : wf s';
  sr_quiet : quiet s';
  sr_abs : abs s' = abs s
}.

Lemma place_keys_ok : forall l pre s, wf s -> quiet s -> NoDup (pre ++ l) -> Forall (alloc s) l ->
  (forall j q, nth_error pre j = Some q -> im_get (id_map s) q = Some j) ->
  exists s', foldM place_key (enumerate_from (length pre) l) s = Ok s' /\ same_reg s s' /\
    (forall j q, nth_error (pre ++ l) j = Some q -> im_get (id_map s') q = Some j).
Proof.
  induction l as [|q l IH]; intros pre s W Q D A P.
  - rewrite app_nil_r in *. exists s. split; [reflexivity|]. split; [|auto].
    constructor; auto. tauto.
  - inversion A as [|? ? [cur Hc] A']; subst. cbn [enumerate_from foldM].
    destruct (place_key_ok s (length pre) q cur W Q Hc) as [s1 [E1 H1]]. rewrite E1. cbn [bind].
    assert (S1 : same_reg s s1 /\ im_get (id_map s1) q = Some (length pre) /\
      forall j x, nth_error pre j = Some x -> im_get (id_map s1) x = Some j).
    { destruct H1 as [[-> <-]|R].
      - split; [constructor; auto; tauto|]. split; auto.
      - split; [|split].
        + constructor.
          * intros; eapply relabel_alloc; eauto.
          * apply R.
          * eapply relabel_wf; eauto.
          * destruct R, Q as [Q1 Q2]. split; [congruence|]. intros x. destruct (Q2 x) as [? [? ?]].
            repeat split; congruence.
          * eapply relabel_abs; eauto.
        + rewrite (rl_id _ _ _ _ R), Hc. simpl. unfold sw. now rewrite Nat.eqb_refl.
        + intros j x Hj. rewrite (rl_id _ _ _ _ R), (P j x Hj). simpl. f_equal. unfold sw.
          destruct (Nat.eqb_spec j cur).
          * subst. exfalso. apply (NoDup_remove_2 pre l q D). apply in_or_app. left.
            rewrite (wf_inj s W q x cur Hc (P _ _ Hj)). eapply nth_error_In; eauto.
          * destruct (Nat.eqb_spec j (length pre)); auto. exfalso.
            assert (j < length pre)%nat by (apply nth_error_Some; congruence). lia. }
    destruct S1 as [S1 [G1 P1]].
    replace (S (length pre)) with (length (pre ++ [q])) by (rewrite app_length; simpl; lia).
    destruct (IH (pre ++ [q]) s1) as [s2 [E2 [S2 P2]]]; try apply S1.
    + rewrite <- app_assoc. exact D.
    + eapply Forall_impl; [|exact A']. intros x Hx. apply S1. exact Hx.
    + intros j x Hj. destruct (Nat.lt_ge_cases j (length pre)).
      * rewrite nth_error_app1 in Hj by auto. auto.
      * rewrite nth_error_app2 in Hj by auto.
        destruct (j - length pre)%nat eqn:Ej; simpl in Hj.
        { inversion Hj; subst. replace j with (length pre) by lia. auto. }
        { destruct n; discriminate. }
    + exists s2. split; [exact E2|]. rewrite <- app_assoc in P2. split; [|exact P2].
      destruct S1, S2. constructor; auto; try congruence.
      intros x. rewrite sr_alloc1. auto.
Qed.

Lemma bit_spread_from : forall l i x j q, NoDup l -> nth_error l j = Some q ->
  bit (spread_from i l x) q = bit x (i + j).
Proof.
  induction l as [|y l IH]; intros i x j q D E; [destruct j; discriminate|].
  inversion D; subst. simpl. destruct j; simpl in E.
  - inversion E; subst. rewrite bit_set_same. f_equal. lia.
  - rewrite bit_set_other.
    + rewrite (IH (S i) x j q) by auto. f_equal. lia.
    + intros ->. apply H1. eapply nth_error_In; eauto.
Qed.
Lemma bit_spread_out : forall l i x q, ~ In q l -> bit (spread_from i l x) q = false.
Proof.
  induction l; simpl; intros; [apply bit_0|]. rewrite bit_set_other by tauto. apply IHl. tauto.
Qed.

Lemma insert_entry_perm : forall x l, Permutation (insert_entry x l) (x :: l).
Proof.
  induction l; simpl; auto. match goal with |- context[if ?c then _ else _] => destruct c end; auto.
  eapply Permutation_trans; [apply perm_skip; exact IHl|]. apply perm_swap.
Qed.
Lemma sort_state_perm : forall l, Permutation (sort_state l) l.
Proof.
  unfold sort_state. induction l; simpl; auto.
  eapply Permutation_trans; [apply insert_entry_perm|]. auto.
Qed.
Lemma insert_entry_sorted : forall x l, StronglySorted N.le (keys l) -> StronglySorted N.le (keys (insert_entry x l)).
Proof.
  induction l as [|a l IH]; simpl; intros H; [repeat constructor|].
  match goal with |- context[if (?a <=? ?b)%N then _ else _] => destruct (N.leb_spec a b) end.
  - simpl. constructor; auto. inversion H; subst. constructor; auto.
    eapply Forall_impl; [|exact H4]. simpl. intros; eapply N.le_trans; eauto.
  - inversion H; subst. simpl. constructor; auto.
    eapply Permutation_Forall; [apply Permutation_sym, perm_keys, insert_entry_perm|].
    constructor; auto. apply N.lt_le_incl; auto.
Qed.
Lemma sort_state_sorted : forall l, StronglySorted N.le (keys (sort_state l)).
Proof. unfold sort_state. induction l; simpl; [constructor|]. apply insert_entry_sorted; auto. Qed.
Lemma sorted_Nle_lt : forall l, StronglySorted N.le l -> NoDup l -> StronglySorted N.lt l.
Proof.
  induction 1; intros D; [constructor|]. inversion D; subst. constructor; auto.
  rewrite Forall_forall in *. intros x Hx. specialize (H0 x Hx).
  assert (x <> a) by (intro; subst; tauto). lia.
Qed.

Lemma small_bits : forall x n, (forall i, bit x i = true -> (i < n)%nat) -> (x < 2 ^ N.of_nat n)%N.
Proof.
  intros x n H. destruct (N.eq_dec x 0); [subst; apply N.neq_0_lt_0; apply N.pow_nonzero; lia|].
  apply N.log2_lt_pow2; [lia|].
  specialize (H (N.to_nat (N.log2 x))). unfold bit in H. rewrite N2Nat.id in H.
  rewrite N.bit_log2 in H by auto. specialize (H eq_refl). lia.
Qed.
Lemma bits_small : forall x n i, (x < 2 ^ N.of_nat n)%N -> bit x i = true -> (i < n)%nat.
Proof.
  intros x n i H B. unfold bit in B. destruct (Nat.lt_ge_cases i n); auto.
  rewrite N.bits_above_log2 in B; [discriminate|].
  destruct (N.eq_dec x 0); [subst; rewrite N.bits_0 in B; discriminate|].
  apply N.log2_lt_pow2 in H; lia.
Qed.

Lemma canonicalize_ok : forall s, wf s ->
  exists s', canonicalize s = Ok (s', ids s) /\ rng s' = rng s /\
    (forall q, alloc s' q <-> alloc s q) /\ wf s' /\ quiet s' /\
    (tol = 0 -> abs s' = abs s) /\
    (forall j q, nth_error (ids s) j = Some q -> im_get (id_map s') q = Some j) /\
    (forall st, Permutation st (state s') -> StronglySorted N.le (map fst st) -> listing st (ids s) (abs s')).
Proof.
  intros s W. unfold canonicalize. fold (ids s).
  assert (A : Forall (alloc s) (ids s)).
  { rewrite Forall_forall. intros. apply ids_In; auto. }
  destruct (flush_queue_ok horder_perm LHRxRy (ids s) s W A) as [s1 [E1 [G1 [L1 [_ [D1 Q1]]]]]].
  rewrite E1. cbn [bind].
  assert (Qt : quiet s1).
  { split; auto. intros q. destruct (in_dec Nat.eq_dec q (ids s)); [apply D1; auto|].
    assert (NA : ~ alloc s1 q) by (rewrite (gstep_alloc _ _ _ q G1), <- ids_In; auto).
    pose proof (gs_wf _ _ _ G1) as W1. unfold no_pend.
    destruct (bit (h_flag s1) q) eqn:Eh; [exfalso; apply NA, (wf_h _ W1); auto|].
    destruct (im_get (rx_queue s1) q) eqn:Ex; [exfalso; apply NA; eapply (wf_rx _ W1); eauto|].
    destruct (im_get (ry_queue s1) q) eqn:Ey; [exfalso; apply NA; eapply (wf_ry _ W1); eauto|]. auto. }
  assert (A1 : Forall (alloc s1) (ids s)) by (eapply gstep_Forall; eauto).
  destruct (place_keys_ok (ids s) [] s1 (gs_wf _ _ _ G1) Qt) as [s2 [E2 [S2 P2]]]; auto.
  { simpl. apply ids_nodup. }
  { intros [|j] q; discriminate. }
  unfold enumerate. simpl in E2. rewrite E2. cbn [bind]. exists s2. destruct S2.
  split; [reflexivity|]. split; [rewrite sr_rng0; apply G1|].
  split; [intros q; rewrite sr_alloc0; eapply gstep_alloc; eauto|]. split; [auto|]. split; [auto|].
  split; [intros; rewrite sr_abs0; apply G1; auto|].
  simpl in P2. split; [exact P2|]. intros st Pst Sst.
  pose proof (perm_keys _ _ Pst) as Pk. change (map fst st) with (keys st) in *.
  destruct (wf_st _ sr_wf0) as [ND LO].
  assert (ND' : NoDup (keys st)) by (eapply Permutation_NoDup; [apply Permutation_sym; exact Pk|auto]).
  assert (Inv : forall q l, im_get (id_map s2) q = Some l -> nth_error (ids s) l = Some q).
  { intros q l Hl. assert (Aq : In q (ids s)).
    { apply ids_In. apply (gstep_alloc _ _ _ q G1). apply sr_alloc0. exists l; auto. }
    apply In_nth_error in Aq. destruct Aq as [j Hj]. pose proof (P2 _ _ Hj). congruence. }
  assert (Rg : forall x, In x (keys st) -> (x < 2 ^ N.of_nat (length (ids s)))%N).
  { intros x Hx. apply small_bits. intros i Hi.
    destruct (LO x) with (i := i) as [q Hq]; auto.
    - eapply Permutation_in; eauto.
    - apply nth_error_Some. rewrite (Inv _ _ Hq). discriminate. }
  assert (TL : forall x, (x < 2 ^ N.of_nat (length (ids s)))%N -> to_loc (id_map s2) (spread (ids s) x) = x).
  { intros x Hx. apply to_loc_char; [apply sr_wf0| |].
    - intros i Hi. apply (bits_small _ (length (ids s))) in Hi; auto.
      destruct (nth_error (ids s) i) eqn:Ei; [eauto|]. apply nth_error_None in Ei. lia.
    - intros q l Hl. unfold spread. rewrite (bit_spread_from _ 0 x l q); [reflexivity|apply ids_nodup|auto]. }
  assert (IB : forall x, inb (id_map s2) (spread (ids s) x) = true).
  { intros x. apply inb_spec; [apply sr_wf0|]. intros i Hi.
    destruct (in_dec Nat.eq_dec i (ids s)) as [Hn|Hn].
    - change (alloc s2 i). apply sr_alloc0. apply (gstep_alloc _ _ _ i G1). apply ids_In; auto.
    - unfold spread in Hi. rewrite bit_spread_out in Hi by auto. discriminate. }
  assert (Am : forall x, (x < 2 ^ N.of_nat (length (ids s)))%N -> abs s2 (spread (ids s) x) = lamp (state s2) x).
  { intros x Hx. rewrite quiet_abs by auto. unfold base, baseof. rewrite IB, TL by auto. reflexivity. }
  constructor.
  - apply sorted_Nle_lt; auto.
  - intros x v Hx. apply Rg. eapply In_keys; eauto.
  - intros x v Hx. rewrite Am by (apply Rg; eapply In_keys; eauto). unfold lamp.
    rewrite (@In_hm_get RArith (state s2) x v); auto. eapply Permutation_in; eauto.
  - intros x Hx Hn. rewrite Am by auto. apply lamp_out. intro Hk. apply Hn.
    eapply Permutation_in; [apply Permutation_sym; exact Pk|auto].
Qed.

Lemma get_state_ok : forall s, wf s ->
  exists st s', get_state s = Ok (st, length (ids s), s') /\ rng s' = rng s /\
    (forall q, alloc s' q <-> alloc s q) /\ wf s' /\ quiet s' /\
    (tol = 0 -> abs s' = abs s) /\
    (forall j q, nth_error (ids s) j = Some q -> im_get (id_map s') q = Some j) /\
    listing st (ids s) (abs s').
Proof.
  intros s W. unfold get_state. destruct (canonicalize_ok s W) as [s' [E [R [A [W' [Q [B [P0 L]]]]]]]].
  rewrite E. cbn [bind]. eexists _, _. split; [reflexivity|]. repeat (split; [auto|]).
  apply L; [apply sort_state_perm|apply sort_state_sorted].
Qed.

Lemma wf_perm_state : forall s st, wf s -> Permutation st (state s) -> wf (with_state s st).
Proof.
  intros s st W P. destruct W. constructor; auto. destruct wf_st as [S1 S2]. simpl. split.
  - eapply Permutation_NoDup; [apply perm_keys, Permutation_sym; exact P|auto].
  - intros k Hk. apply S2. eapply Permutation_in; [apply perm_keys; exact P|auto].
Qed.
Lemma abs_perm_state : forall s st, wf s -> Permutation st (state s) -> abs (with_state s st) = abs s.
Proof.
  intros s st W P. unfold abs, core, base. change (ids (with_state s st)) with (ids s).
  change (pm (with_state s st)) with (pm s). simpl.
  rewrite (lamp_perm st (state s)); auto.
  eapply Permutation_NoDup; [apply perm_keys, Permutation_sym; exact P|apply W].
Qed.

Lemma dump_ok : forall s, wf s ->
  exists st s', dump s = Ok (st, s') /\ rng s' = rng s /\
    (forall q, alloc s' q <-> alloc s q) /\ wf s' /\ quiet s' /\
    (tol = 0 -> abs s' = abs s) /\
    (forall j q, nth_error (ids s) j = Some q -> im_get (id_map s') q = Some j) /\
    listing st (ids s) (abs s').
Proof.
  intros s W. unfold dump. destruct (canonicalize_ok s W) as [s' [E [R [A [W' [Q [B [P0 L]]]]]]]].
  rewrite E. cbn [bind]. eexists _, _. split; [reflexivity|].
  assert (P := sort_state_perm (state s')).
  split; [exact R|]. split; [exact A|]. split; [apply wf_perm_state; auto|]. split; [exact Q|].
  rewrite (abs_perm_state _ _ W' P). split; [exact B|]. split; [exact P0|].
  apply L; [apply sort_state_perm|apply sort_state_sorted].
Qed.
End R.
