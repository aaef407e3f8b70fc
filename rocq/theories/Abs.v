(** * From simulator states to state vectors *)
From Coq Require Import Reals NArith List Bool Lia Lra Permutation Arith FunctionalExtensionality.
From Verif Require Import Cx Arith ArithR IndexMap IndexMapLemmas Bits BitsLemmas Spec QLib Sim
  StateLemmas Loc.
Import ListNotations.
Local Open Scope R_scope.

(** ** Moving bits between identifiers and locations *)

(** [remap l b]: bit [j] of the result is bit [i] of [b] for [(i, j)] in [l]. *)
Definition remap (l : list (nat * nat)) (b : N) : N :=
  fold_right (fun ij acc => set_bit acc (snd ij) (bit b (fst ij))) 0%N l.

Lemma remap_bit_in : forall l b i j, NoDup (map snd l) -> In (i, j) l -> bit (remap l b) j = bit b i.
Proof.
  induction l as [|[i' j'] l]; simpl; intros; [tauto|].
  inversion H; subst. destruct H0.
  - inversion H0; subst. apply bit_set_same.
  - rewrite bit_set_other; auto. intro; subst. apply H3. apply (in_map snd) in H0. exact H0.
Qed.

Lemma remap_bit_out : forall l b j, ~ In j (map snd l) -> bit (remap l b) j = false.
Proof.
  induction l as [|[i' j'] l]; simpl; intros; [apply bit_zero|].
  rewrite bit_set_other by tauto. apply IHl. tauto.
Qed.

Definition swp (l : list (nat * nat)) := map (fun ij => (snd ij, fst ij)) l.
Definition to_loc (m : imap nat) (b : N) : N := remap (im_iter m) b.
Definition from_loc (m : imap nat) (k : N) : N := remap (swp (im_iter m)) k.
Definition inb (m : imap nat) (b : N) : bool := N.eqb (from_loc m (to_loc m b)) b.

Definition im_inj (m : imap nat) : Prop :=
  forall i j l, im_get m i = Some l -> im_get m j = Some l -> i = j.
Definition locs_of (m : imap nat) (k : N) : Prop :=
  forall i, bit k i = true -> exists id, im_get m id = Some i.
Definition ids_of (m : imap nat) (b : N) : Prop :=
  forall i, bit b i = true -> exists l, im_get m i = Some l.

Section Map.
Variable m : imap nat.
Hypothesis inj : im_inj m.

Lemma values_nodup : NoDup (map snd (im_iter m)).
Proof.
  apply NoDup_map_inj; [|apply im_iter_nodup].
  intros [i l] [j l'] H1 H2 E. simpl in E. subst.
  apply im_iter_In in H1. apply im_iter_In in H2. f_equal. eapply inj; eauto.
Qed.

Lemma bit_to_loc : forall b i l, im_get m i = Some l -> bit (to_loc m b) l = bit b i.
Proof.
  intros. apply remap_bit_in; [apply values_nodup|]. apply im_iter_In; auto.
Qed.
Lemma bit_to_loc_out : forall b l, (forall i, im_get m i <> Some l) -> bit (to_loc m b) l = false.
Proof.
  intros. apply remap_bit_out. intro Hi. apply in_map_iff in Hi.
  destruct Hi as [[i l'] [E Hi]]. simpl in E; subst. apply im_iter_In in Hi. eapply H; eauto.
Qed.
Lemma swp_In : forall l i j, In (i, j) (swp l) <-> In (j, i) l.
Proof.
  intros. unfold swp. rewrite in_map_iff. split.
  - intros [[a b] [E H]]. inversion E; subst. auto.
  - intros. exists (j, i). auto.
Qed.
Lemma swp_snd : forall l, map snd (swp l) = map fst l.
Proof. intros. unfold swp. rewrite map_map. apply map_ext. auto. Qed.
Lemma bit_from_loc : forall k i l, im_get m i = Some l -> bit (from_loc m k) i = bit k l.
Proof.
  intros. apply remap_bit_in.
  - rewrite swp_snd. apply im_keys_nodup.
  - apply swp_In. apply im_iter_In; auto.
Qed.
Lemma bit_from_loc_out : forall k i, im_get m i = None -> bit (from_loc m k) i = false.
Proof.
  intros. apply remap_bit_out. rewrite swp_snd. intro Hi.
  change (In i (im_keys m)) in Hi. apply im_keys_In in Hi. destruct Hi; congruence.
Qed.

Lemma from_to : forall b i, bit (from_loc m (to_loc m b)) i =
  match im_get m i with Some _ => bit b i | None => false end.
Proof.
  intros. destruct (im_get m i) eqn:E.
  - rewrite (bit_from_loc _ _ _ E). apply bit_to_loc; auto.
  - apply bit_from_loc_out; auto.
Qed.

Lemma inb_spec : forall b, inb m b = true <-> ids_of m b.
Proof.
  intros. unfold inb. rewrite N.eqb_eq. split.
  - intros E i Hi. rewrite <- E, from_to in Hi. destruct (im_get m i); eauto. discriminate.
  - intros H. apply bits_ext. intros i. rewrite from_to. destruct (im_get m i) eqn:E; auto.
    destruct (bit b i) eqn:B; auto. apply H in B. destruct B; congruence.
Qed.

Lemma to_from : forall k, locs_of m k -> to_loc m (from_loc m k) = k.
Proof.
  intros k H. apply bits_ext. intros j.
  destruct (bit k j) eqn:B.
  - destruct (H j B) as [i E]. rewrite (bit_to_loc _ _ _ E), (bit_from_loc _ _ _ E). auto.
  - destruct (in_dec Nat.eq_dec j (im_values m)).
    + apply im_values_In in i. destruct i as [i E].
      rewrite (bit_to_loc _ _ _ E), (bit_from_loc _ _ _ E). auto.
    + apply bit_to_loc_out. intros i E. apply n. apply im_values_In. eauto.
Qed.

Lemma from_loc_ids : forall k, ids_of m (from_loc m k).
Proof.
  intros k i H. destruct (im_get m i) eqn:E; eauto.
  rewrite bit_from_loc_out in H; auto. discriminate.
Qed.

Lemma to_loc_locs : forall b, locs_of m (to_loc m b).
Proof.
  intros b j H. destruct (in_dec Nat.eq_dec j (im_values m)).
  - apply im_values_In in i. destruct i as [i E]. eauto.
  - rewrite bit_to_loc_out in H; [discriminate|].
    intros i E. apply n. apply im_values_In. eauto.
Qed.

Lemma set_to_loc : forall b i l v, im_get m i = Some l ->
  to_loc m (set_bit b i v) = set_bit (to_loc m b) l v.
Proof.
  intros. apply bits_ext. intros j. rewrite bit_set.
  destruct (Nat.eqb_spec l j).
  - subst. rewrite (bit_to_loc _ _ _ H). apply bit_set_same.
  - destruct (in_dec Nat.eq_dec j (im_values m)).
    + apply im_values_In in i0. destruct i0 as [i' E].
      rewrite !(bit_to_loc _ _ _ E). apply bit_set_other. intro; subst. congruence.
    + rewrite !bit_to_loc_out; auto; intros i' E; apply n0; apply im_values_In; eauto.
Qed.

Lemma set_inb : forall b i l v, im_get m i = Some l -> inb m (set_bit b i v) = inb m b.
Proof.
  intros. apply eq_true_iff_eq. rewrite !inb_spec. unfold ids_of.
  split; intros H0 j Hj.
  - destruct (Nat.eq_dec i j); [subst; eauto|]. apply H0. rewrite bit_set_other; auto.
  - destruct (Nat.eq_dec i j); [subst; eauto|]. apply H0. rewrite bit_set_other in Hj; auto.
Qed.

(** State vector over identifiers from a state vector over locations. *)
Definition baseof (phi : qstate) : qstate := fun b =>
  if inb m b then phi (to_loc m b) else C0.

Definition resolved (q l : nat) : Prop := im_get m q = Some l.

Lemma forallb_to_loc : forall cs cs' b, Forall2 resolved cs cs' ->
  forallb (bit (to_loc m b)) cs' = forallb (bit b) cs.
Proof.
  induction 1; simpl; auto. rewrite (bit_to_loc _ _ _ H), IHForall2. reflexivity.
Qed.

Lemma baseof_cgate : forall cs cs' t t' U phi, Forall2 resolved cs cs' -> resolved t t' ->
  baseof (cgate cs' U t' phi) = cgate cs U t (baseof phi).
Proof.
  intros. apply functional_extensionality. intros b.
  unfold baseof, cgate, gate1.
  rewrite (forallb_to_loc _ _ _ H). rewrite !(set_inb _ _ _ _ H0).
  rewrite !(set_to_loc _ _ _ _ H0). rewrite (bit_to_loc _ _ _ H0).
  destruct (inb m b); auto. destruct (forallb (bit b) cs); auto. ring.
Qed.
End Map.

Section A.
Context {T : Tol} {EN : Env}.

Definition rop_resolved (m : imap nat) (o o' : qop) : Prop :=
  Forall2 (resolved m) (fst (fst o)) (fst (fst o')) /\
  resolved m (snd (fst o)) (snd (fst o')) /\ snd o = snd o'.

Lemma baseof_opsem : forall m ops ops' phi, im_inj m -> Forall2 (rop_resolved m) ops ops' ->
  baseof m (opsem ops' phi) = opsem ops (baseof m phi).
Proof.
  intros m ops ops' phi inj H. revert phi. unfold opsem. induction H; simpl; intros; auto.
  rewrite IHForall2. f_equal. destruct H as [H1 [H2 H3]]. rewrite H3.
  apply baseof_cgate; auto.
Qed.

(** ** The meaning of a simulator state *)
Definition alloc (s : sim) (q : nat) : Prop := exists l, im_get (id_map s) q = Some l.
Definition base (s : sim) : qstate := baseof (id_map s) (lamp (state s)).
Definition core (s : sim) : qstate := opsem (op_queue s) (base s).
Definition rxo (o : option R) : mat := match o with Some a => mRx a | None => mI end.
Definition ryo (o : option R) : mat := match o with Some a => mRy a | None => mI end.
Definition hmat (b : bool) : mat := if b then mH else mI.
(** Nearly zero cosine of half an angle: the branch lib.rs:1042 of [mcrotation]. *)
Definition cz (theta : R) : bool := @anz RArith (@chalf RArith theta).
Definition oneg (o : option R) : option R := option_map Ropp o.
(** The flush of an Rx by an odd multiple of pi negates a pending Ry
    (lib.rs:619-624, 1044, 642-644). *)
Definition effy (ox oy : option R) : option R :=
  match ox with Some a => if cz a then oneg oy else oy | None => oy end.
Lemma effy_none : forall ox, effy ox None = None.
Proof. destruct ox; simpl; auto. destruct (cz r); auto. Qed.
Lemma effy_neg : forall ox oy, effy ox (oneg oy) = oneg (effy ox oy).
Proof. destruct ox; simpl; auto. intros. destruct (cz r); auto. Qed.
Lemma cz_neg : forall a, cz (- a) = cz a.
Proof. intros. unfold cz. ared. rewrite neg_half, cos_neg. reflexivity. Qed.
Lemma effy_negx : forall ox oy, effy (oneg ox) oy = effy ox oy.
Proof. destruct ox; simpl; auto. intros. now rewrite cz_neg. Qed.
(** Pending operations of one qubit as a flush will apply them: H, Rx, Ry. *)
Definition pm (s : sim) (q : nat) : mat :=
  mmul (ryo (effy (im_get (rx_queue s) q) (im_get (ry_queue s) q)))
    (mmul (rxo (im_get (rx_queue s) q)) (hmat (bit (h_flag s) q))).
Definition ids (s : sim) : list nat := im_keys (id_map s).
Definition abs (s : sim) : qstate := pendl (pm s) (ids s) (core s).

(** ** Invariant *)
Definition st_ok (m : imap nat) (st : sstate) : Prop :=
  NoDup (keys st) /\ forall k, In k (keys st) -> locs_of m k.
Definition qop_ok (s : sim) (o : qop) : Prop :=
  NoDup (snd (fst o) :: fst (fst o)) /\ Forall (alloc s) (snd (fst o) :: fst (fst o)).

Record wf (s : sim) : Prop := {
  wf_st : st_ok (id_map s) (state s);
  wf_inj : im_inj (id_map s);
  wf_ops : Forall (qop_ok s) (op_queue s);
  wf_h : forall q, bit (h_flag s) q = true -> alloc s q;
  wf_rx : forall q a, im_get (rx_queue s) q = Some a -> alloc s q;
  wf_ry : forall q a, im_get (ry_queue s) q = Some a -> alloc s q;
  wf_len : (N.of_nat (length (op_queue s)) <= QUEUE_LIMIT)%N
}.

Lemma ids_In : forall s q, In q (ids s) <-> alloc s q.
Proof. intros. apply im_keys_In. Qed.
Lemma ids_nodup : forall s, NoDup (ids s).
Proof. intros. apply im_keys_nodup. Qed.

(** ** Resolving identifiers *)
Lemma check_dup_ok : forall l seen, NoDup l -> (forall x, In x l -> ~ In x seen) ->
  check_dup_from seen l = Ok tt.
Proof.
  induction l; simpl; intros; auto. inversion H; subst.
  destruct (existsb (Nat.eqb a) seen) eqn:E.
  - apply existsb_exists in E. destruct E as [x [E1 E2]]. apply Nat.eqb_eq in E2. subst.
    exfalso. eapply H0; eauto.
  - apply IHl; auto. intros x Hx [Hy|Hy]; [subst; tauto|]. eapply H0; eauto.
Qed.

Lemma check_dup_bad : forall l seen, check_dup_from seen l = Ok tt ->
  NoDup l /\ (forall x, In x l -> ~ In x seen).
Proof.
  induction l; simpl; intros; [split; [constructor|tauto]|].
  destruct (existsb (Nat.eqb a) seen) eqn:E; [discriminate|].
  apply IHl in H. destruct H as [H1 H2]. split.
  - constructor; auto. intro. apply (H2 a); simpl; auto.
  - intros x [->|Hx].
    + intro. rewrite <- not_true_iff_false in E. apply E. apply existsb_exists.
      exists x. split; auto. apply Nat.eqb_refl.
    + intro. apply (H2 x); simpl; auto.
Qed.

Lemma find_ok : forall s q l, im_get (id_map s) q = Some l -> find_qubit s q = Ok l.
Proof. intros. unfold find_qubit. now rewrite H. Qed.

Lemma mapM_find_ok : forall s qs, Forall (alloc s) qs ->
  exists ls, mapM (find_qubit s) qs = Ok ls /\ Forall2 (resolved (id_map s)) qs ls.
Proof.
  induction 1; simpl.
  - exists []. split; auto.
  - destruct H as [l' E]. destruct IHForall as [ls [E1 E2]].
    exists (l' :: ls). rewrite (find_ok _ _ _ E). simpl. rewrite E1. simpl. split; auto.
Qed.

Lemma resolve_ok : forall s t cs, NoDup (t :: cs) -> Forall (alloc s) (t :: cs) ->
  exists t' cs', resolve_and_check_qubits s t cs = Ok (t', cs') /\
    resolved (id_map s) t t' /\ Forall2 (resolved (id_map s)) cs cs'.
Proof.
  intros s t cs H H0. inversion H0; subst. destruct H3 as [t' Et].
  destruct (mapM_find_ok s cs H4) as [cs' [E1 E2]].
  exists t', cs'. unfold resolve_and_check_qubits, check_for_duplicates.
  rewrite check_dup_ok; simpl; auto.
  - rewrite (find_ok _ _ _ Et). simpl. rewrite E1. simpl. auto.
  - apply NoDup_app_intro; inversion H; subst; auto.
    + repeat constructor; simpl; tauto.
    + simpl. intros x Hx [->|[]]. tauto.
Qed.

Lemma resolved_in : forall m qs ls l, Forall2 (resolved m) qs ls -> In l ls ->
  exists q, In q qs /\ resolved m q l.
Proof.
  induction 1; simpl; intros; [tauto|]. destruct H1.
  - subst. eauto.
  - destruct (IHForall2 H1) as [q [? ?]]. eauto.
Qed.

Lemma resolved_nodup : forall m qs ls, im_inj m -> Forall2 (resolved m) qs ls -> NoDup qs -> NoDup ls.
Proof.
  intros m qs ls inj. induction 1; intros; [constructor|].
  inversion H1; subst. constructor; auto. intro Hi.
  destruct (resolved_in _ _ _ _ H0 Hi) as [q [Hq Hr]].
  assert (x = q) by (eapply inj; eauto). subst; tauto.
Qed.

Definition take_resolver (s : sim) (o : qop) : res qop :=
  let '(ctls, target, op) := o in
  let* (t, cs) := resolve_and_check_qubits s target ctls in Ok (cs, t, op).

Lemma take_ops_eq : forall s, take_ops s =
  let* ops := mapM (take_resolver s) (op_queue s) in Ok (ops, with_ops s []).
Proof. reflexivity. Qed.

Lemma mapM_resolver_ok : forall s ops, im_inj (id_map s) -> Forall (qop_ok s) ops ->
  exists ops', mapM (take_resolver s) ops = Ok ops' /\
    Forall2 (rop_resolved (id_map s)) ops ops' /\ Forall op_ok ops'.
Proof.
  intros s ops inj. induction 1; simpl.
  - exists []. repeat split; auto.
  - destruct x as [[cs t] op]. destruct H as [H1 H2]; simpl in H1, H2.
    destruct (resolve_ok s t cs H1 H2) as [t' [cs' [E [R1 R2]]]].
    destruct IHForall as [ops' [E' [R3 R4]]].
    exists ((cs', t', op) :: ops'). unfold take_resolver at 1. rewrite E. simpl. rewrite E'. simpl.
    repeat split; auto.
    + constructor; auto. repeat split; auto.
    + constructor; auto. unfold op_ok; simpl.
      eapply (resolved_nodup (id_map s) (t :: cs)); eauto.
Qed.

Lemma apply_ops_st_ok : forall m ops ops' st, im_inj m ->
  Forall2 (rop_resolved m) ops ops' -> Forall op_ok ops' -> st_ok m st ->
  st_ok m (map (apply_ops ops') st).
Proof.
  intros m ops ops' st inj H1 H2 [H3 H4]. split; [apply apply_ops_nodup; auto|].
  rewrite apply_ops_map. clear H2 H3. revert st H4. induction H1; simpl; intros; auto.
  apply (IHForall2 (map (apply_op y) st)); auto.
  clear k H0. intros k Hk. rewrite (keys_map _ _ (op_key y)) in Hk by (intros; rewrite apply_op_eq; auto).
  apply in_map_iff in Hk. destruct Hk as [k' [E Hk]]. subst. intros i Hi.
  apply op_key_bits in Hi. destruct Hi as [Hi|Hi].
  - eapply H4; eauto.
  - subst. destruct H as [_ [H _]]. eauto.
Qed.

Lemma take_ops_ok : forall s, wf s ->
  exists ops', take_ops s = Ok (ops', with_ops s []) /\
    st_ok (id_map s) (map (apply_ops ops') (state s)) /\
    baseof (id_map s) (lamp (map (apply_ops ops') (state s))) = core s.
Proof.
  intros s W. destruct (mapM_resolver_ok s (op_queue s) (wf_inj s W) (wf_ops s W))
    as [ops' [E [R1 R2]]].
  exists ops'. rewrite take_ops_eq, E. simpl. repeat split.
  - eapply apply_ops_st_ok; eauto; apply W.
  - eapply apply_ops_st_ok; eauto; apply W.
  - rewrite lamp_apply_ops by auto. apply baseof_opsem; auto. apply W.
Qed.

(** ** Steps that keep the pending operations *)
Record frame (s s' : sim) : Prop := {
  fr_id : id_map s' = id_map s;
  fr_rng : rng s' = rng s;
  fr_h : h_flag s' = h_flag s;
  fr_rx : rx_queue s' = rx_queue s;
  fr_ry : ry_queue s' = ry_queue s
}.

Record cstep (s s' : sim) (F : qstate -> qstate) : Prop := {
  cs_frame : frame s s';
  cs_wf : wf s';
  cs_core : tol = 0 -> core s' = F (core s)
}.

Lemma frame_refl : forall s, frame s s.
Proof. intros; constructor; auto. Qed.
Lemma frame_trans : forall a b c, frame a b -> frame b c -> frame a c.
Proof. intros a b c [] []; constructor; congruence. Qed.
Lemma frame_alloc : forall s s' q, frame s s' -> (alloc s' q <-> alloc s q).
Proof. intros s s' q []. unfold alloc. rewrite fr_id0. tauto. Qed.
Lemma frame_pm : forall s s' q, frame s s' -> pm s' q = pm s q.
Proof. intros s s' q []. unfold pm. congruence. Qed.
Lemma frame_ids : forall s s', frame s s' -> ids s' = ids s.
Proof. intros s s' []. unfold ids. congruence. Qed.

Lemma cstep_trans : forall a b c F G, cstep a b F -> cstep b c G -> cstep a c (fun x => G (F x)).
Proof.
  intros a b c F G [] []; constructor; auto.
  - eapply frame_trans; eauto.
  - intros. rewrite cs_core1, cs_core0; auto.
Qed.

Lemma cstep_abs : forall s s' F, cstep s s' F -> tol = 0 ->
  abs s' = pendl (pm s) (ids s) (F (core s)).
Proof.
  intros s s' F [] H. unfold abs. rewrite (frame_ids _ _ cs_frame0).
  rewrite cs_core0 by auto. apply pendl_ext. intros. apply frame_pm; auto.
Qed.

(** New state, empty queue: the common shape of the eager operations. *)
Lemma cstep_state : forall s st F, wf s -> st_ok (id_map s) st ->
  (tol = 0 -> baseof (id_map s) (lamp st) = F (core s)) ->
  cstep s (with_state (with_ops s []) st) F.
Proof.
  intros s st F W S H. constructor.
  - constructor; reflexivity.
  - destruct W; constructor; simpl; auto. apply N.le_0_l.
  - intros. unfold core, base. simpl. auto.
Qed.

Lemma wf_with_ops : forall s ops, wf s -> Forall (qop_ok s) ops ->
  (N.of_nat (length ops) <= QUEUE_LIMIT)%N -> wf (with_ops s ops).
Proof. intros s ops [] H1 H2; constructor; simpl; auto. Qed.

Lemma flush_ops_ok : forall s, wf s ->
  exists s', flush_ops s = Ok s' /\ cstep s s' (fun x => x) /\ op_queue s' = [].
Proof.
  intros s W. unfold flush_ops. destruct (op_queue s) eqn:E.
  - exists s. split; auto. split; auto. constructor; auto. apply frame_refl.
  - destruct (take_ops_ok s W) as [ops' [E1 [S1 B1]]]. rewrite E1. simpl.
    eexists. split; [reflexivity|]. split; [|reflexivity].
    apply (cstep_state s _ (fun x => x)); auto.
Qed.

Lemma enqueue_op_ok : forall s t cs op, wf s -> NoDup (t :: cs) -> Forall (alloc s) (t :: cs) ->
  exists s', enqueue_op s t cs op = Ok s' /\ cstep s s' (cgate cs (opmat op) t).
Proof.
  intros s t cs op W D A. unfold enqueue_op.
  assert (P : forall s1, cstep s s1 (fun x => x) ->
              (N.of_nat (length (op_queue s1)) < QUEUE_LIMIT)%N ->
              cstep s (with_ops s1 (op_queue s1 ++ [(cs, t, op)])) (cgate cs (opmat op) t)).
  { intros s1 [Fr W1 C1] L. constructor.
    - destruct Fr; constructor; auto.
    - apply wf_with_ops; auto.
      + apply Forall_app. split; [apply W1|]. constructor; auto. split; auto. simpl.
        rewrite Forall_forall in *. intros x Hx. apply (frame_alloc s); auto.
      + rewrite app_length. simpl. lia.
    - intros H0. unfold core, base. simpl. unfold opsem. rewrite fold_left_app. simpl.
      f_equal. apply C1; auto. }
  destruct (N.eqb_spec (N.of_nat (length (op_queue s))) QUEUE_LIMIT).
  - destruct (flush_ops_ok s W) as [s1 [E [C1 Q]]]. rewrite E. simpl.
    eexists; split; [reflexivity|]. apply P; auto. rewrite Q. simpl. reflexivity.
  - simpl. eexists; split; [reflexivity|]. apply P.
    + constructor; auto. apply frame_refl.
    + generalize (wf_len s W). lia.
Qed.

Hypothesis horder_perm : horder_ok.

Lemma apply_mch_ok : forall s cs t, wf s -> NoDup (t :: cs) -> Forall (alloc s) (t :: cs) ->
  exists s', apply_mch s cs t = Ok s' /\ cstep s s' (cgate cs mH t).
Proof.
  intros s cs t W D A. unfold apply_mch.
  destruct (resolve_ok s t cs D A) as [t' [cs' [E [R1 R2]]]]. rewrite E. simpl.
  destruct (take_ops_ok s W) as [ops' [E1 [S1 B1]]]. rewrite E1. simpl.
  set (l := map (apply_ops ops') (state s)) in *.
  set (m := hm_collect l).
  assert (P : Permutation m l) by (apply hm_collect_perm; auto; apply S1).
  assert (Nm : NoDup (keys m)) by (eapply perm_nodup_keys; [apply Permutation_sym; eauto | apply S1]).
  assert (Nl : NoDup (t' :: cs')) by (eapply (resolved_nodup (id_map s) (t :: cs)); eauto; apply W).
  inversion Nl; subst.
  destruct (mch_both cs' t' m H1 Nm) as [N L].
  eexists; split; [reflexivity|]. apply cstep_state; auto.
  - split; auto. intros k Hk i Hi. destruct (Nat.eq_dec i t'); [subst; eauto|].
    destruct (two_level_keys cs' t' m _ _ _ _ k i L Hk Hi n) as [k' [Hk' Hi']].
    eapply S1; eauto. eapply Permutation_in; [apply perm_keys|]; eauto.
  - intros H0. rewrite mch_exact by auto.
    rewrite (baseof_cgate (id_map s) (wf_inj s W) cs cs' t t'); auto.
    rewrite <- B1. f_equal. f_equal. apply lamp_perm; auto.
Qed.

Lemma rot_general_ok : forall s cs t m00 m01 m10, wf s -> NoDup (t :: cs) -> Forall (alloc s) (t :: cs) ->
  exists t' cs' ops' s',
    resolve_and_check_qubits s t cs = Ok (t', cs') /\
    take_ops s = Ok (ops', with_ops s []) /\
    (let m := hm_collect (map (apply_ops ops') (state s)) in
     with_state (with_ops s []) (flat_map (rot_entry m00 m01 m10 cs' t' m) m)) = s' /\
    cstep s s' (cgate cs (rotmat m00 m01 m10) t).
Proof.
  intros s cs t m00 m01 m10 W D A.
  destruct (resolve_ok s t cs D A) as [t' [cs' [E [R1 R2]]]].
  destruct (take_ops_ok s W) as [ops' [E1 [S1 B1]]].
  exists t', cs', ops'. eexists. split; [exact E|]. split; [exact E1|]. split; [reflexivity|].
  set (l := map (apply_ops ops') (state s)) in *.
  set (m := hm_collect l).
  assert (P : Permutation m l) by (apply hm_collect_perm; auto; apply S1).
  assert (Nm : NoDup (keys m)) by (eapply perm_nodup_keys; [apply Permutation_sym; eauto | apply S1]).
  assert (Nl : NoDup (t' :: cs')) by (eapply (resolved_nodup (id_map s) (t :: cs)); eauto; apply W).
  inversion Nl; subst.
  destruct (rot_both cs' t' m H1 Nm m00 m01 m10) as [N L].
  apply cstep_state; auto.
  - split; auto. intros k Hk i Hi. destruct (Nat.eq_dec i t'); [subst; eauto|].
    destruct (two_level_keys cs' t' m _ _ _ _ k i L Hk Hi n) as [k' [Hk' Hi']].
    eapply S1; eauto. eapply Permutation_in; [apply perm_keys|]; eauto.
  - intros H0. rewrite rot_exact by auto.
    rewrite (baseof_cgate (id_map s) (wf_inj s W) cs cs' t t'); auto.
    rewrite <- B1. f_equal. f_equal. apply lamp_perm; auto.
Qed.

(** Multiplication by a factor where all controls are set. *)
Definition cfactor (cs : list nat) (f : C) (psi : qstate) : qstate := fun b =>
  if forallb (bit b) cs then (f * psi b)%C else psi b.

Lemma factor_ok : forall s cs cs' ops' f, wf s -> Forall2 (resolved (id_map s)) cs cs' ->
  take_ops s = Ok (ops', with_ops s []) ->
  cstep s (with_state (with_ops s []) (map (ops_then_factor ops' cs' f) (state s))) (cfactor cs f).
Proof.
  intros s cs cs' ops' f W R E. destruct (take_ops_ok s W) as [ops'' [E1 [S1 B1]]].
  rewrite E in E1. inversion E1; subst ops''. clear E1.
  set (l := map (apply_ops ops') (state s)) in *.
  assert (Eq : map (ops_then_factor ops' cs' f) (state s) =
               scale_entries (fun k => if all_set cs' k then f else C1) l).
  { unfold l, scale_entries. rewrite map_map. apply map_ext. intros kv. unfold ops_then_factor.
    destruct (apply_ops ops' kv); simpl. destruct (all_set cs' n); f_equal. aring. }
  rewrite Eq. apply cstep_state; auto.
  - unfold st_ok. rewrite keys_scale_entries. exact S1.
  - intros _. rewrite <- B1. apply functional_extensionality. intros b.
    unfold cfactor, baseof. rewrite lamp_scale_entries.
    unfold all_set. rewrite (forallb_to_loc (id_map s) (wf_inj s W) _ _ _ R).
    destruct (inb (id_map s) b); destruct (forallb (bit b) cs); ring.
Qed.
End A.
