(** * Bookkeeping of the simulator over any arithmetic

    Everything here holds for every instance of [Arith]: no law of arithmetic is
    used, so the results also cover rounding, infinities and NaNs. *)
From Coq Require Import NArith List Bool Lia Permutation Arith Sorted.
From Verif Require Import Arith IndexMap IndexMapLemmas Bits BitsLemmas Sim SimExp SimApply StateLemmas
  Loc Abs Reg Meas ExpLemmas ApplyLemmas RunLemmas SpecRun SpecAny.
Import ListNotations.

Section Any.
Context {AR : Arith} {EN : Env}.
Hypothesis horder_perm : any_order.

(** ** Calls *)
Definition agate_call (g : agate) (s : sim) (t : nat) : res sim :=
  match g with
  | AX => gate_x s t | AY => gate_y s t | AZ => gate_z s t | AH => gate_h s t
  | AS => gate_s s t | ASadj => gate_sadj s t | AT => gate_t s t | ATadj => gate_tadj s t
  | ARx th => gate_rx s th t | ARy th => gate_ry s th t | ARz th => gate_rz s th t
  end.
Definition amc_call (g : agate) (s : sim) (cs : list nat) (t : nat) : res sim :=
  match g with
  | AX => gate_mcx s cs t | AY => gate_mcy s cs t | AZ => gate_mcz s cs t | AH => gate_mch s cs t
  | AS => gate_mcs s cs t | ASadj => gate_mcsadj s cs t
  | AT => gate_mct s cs t | ATadj => gate_mctadj s cs t
  | ARx th => gate_mcrx s cs th t | ARy th => gate_mcry s cs th t | ARz th => gate_mcrz s cs th t
  end.
Definition aquietly (m : res sim) : res (areply * sim) := let* s := m in Ok (AUnit, s).

(** One call of a public function (sparsesim/src/lib.rs, exp.rs). *)
Definition arun1 (s : sim) (c : acall) : res (areply * sim) :=
  match c with
  | AGate g t => aquietly (agate_call g s t)
  | AMc g cs t => aquietly (amc_call g s cs t)
  | APhase cs p t => aquietly (gate_mcphase s cs p t)
  | AExp ps th ts => aquietly (exp_gate s ps th ts)
  | AMcExp cs ps th ts => aquietly (mcexp s cs ps th ts)
  | AApply rows cols u ts cs => aquietly (apply_matrix s (mkMatrix rows cols u) ts cs)
  | AAlloc => let '(s', q) := allocate s in Ok (AId q, s')
  | ARelease q => aquietly (release s q)
  | ASwap a b => aquietly (swap_qubit_ids s a b)
  | AMeasure q => let* (b, s') := measure s q in Ok (ABit b, s')
  | AJointMeasure qs => let* (b, s') := joint_measure s qs in Ok (ABit b, s')
  | AJointProb qs => let* (p, s') := joint_probability s qs in Ok (AProb p, s')
  | AIsZero q => let* (b, s') := qubit_is_zero s q in Ok (ABit b, s')
  | AForce v q => let* (p, s') := force_collapse s v q in Ok (AProb p, s')
  | AState => let* (st, n, s') := get_state s in Ok (AListed st n, s')
  | ADump => let* (st, s') := dump s in Ok (ADumped st, s')
  end.
Fixpoint aexec (s : sim) (h : list acall) : res (list areply * sim) :=
  match h with
  | [] => Ok ([], s)
  | c :: h' =>
      let* (r, s1) := arun1 s c in
      let* (rs, s2) := aexec s1 h' in
      Ok (r :: rs, s2)
  end.

(** ** Invariant *)
Definition has (m : imap nat) (q : nat) : Prop := exists l, im_get m q = Some l.
Definition stok (m : imap nat) (st : sstate) : Prop :=
  NoDup (keys st) /\ forall k, In k (keys st) -> locs_of m k.
Definition opok (m : imap nat) (o : qop) : Prop :=
  NoDup (snd (fst o) :: fst (fst o)) /\ Forall (has m) (snd (fst o) :: fst (fst o)).
Record inv (s : sim) : Prop := mkInv {
  i_st : stok (id_map s) (state s);
  i_inj : im_inj (id_map s);
  i_ops : Forall (opok (id_map s)) (op_queue s);
  i_h : forall q, bit (h_flag s) q = true -> has (id_map s) q;
  i_rx : forall q a, im_get (rx_queue s) q = Some a -> has (id_map s) q;
  i_ry : forall q a, im_get (ry_queue s) q = Some a -> has (id_map s) q;
  i_len : (N.of_nat (length (op_queue s)) <= QUEUE_LIMIT)%N }.

Definition has_loc (m : imap nat) (l : nat) : Prop := exists q, im_get m q = Some l.

(** ** Resolving identifiers *)
Lemma afind : forall s q l, im_get (id_map s) q = Some l -> find_qubit s q = Ok l.
Proof. intros. unfold find_qubit. now rewrite H. Qed.
Lemma amapM_find : forall s qs, Forall (has (id_map s)) qs ->
  exists ls, mapM (find_qubit s) qs = Ok ls /\ Forall2 (resolved (id_map s)) qs ls.
Proof.
  induction 1; simpl.
  - exists []. split; auto.
  - destruct H as [l' E]. destruct IHForall as [ls [E1 E2]].
    exists (l' :: ls). rewrite (afind _ _ _ E). simpl. rewrite E1. simpl. split; auto.
Qed.
Lemma acheck : forall l, NoDup l -> check_for_duplicates l = Ok tt.
Proof. intros. unfold check_for_duplicates. apply check_dup_ok; auto. Qed.
Lemma aresolve : forall s t cs, NoDup (t :: cs) -> Forall (has (id_map s)) (t :: cs) ->
  exists t' cs', resolve_and_check_qubits s t cs = Ok (t', cs') /\
    resolved (id_map s) t t' /\ Forall2 (resolved (id_map s)) cs cs'.
Proof.
  intros s t cs H H0. inversion H0; subst. destruct H3 as [t' Et].
  destruct (amapM_find s cs H4) as [cs' [E1 E2]].
  exists t', cs'. unfold resolve_and_check_qubits. rewrite acheck.
  - simpl. rewrite (afind _ _ _ Et). simpl. rewrite E1. simpl. auto.
  - apply NoDup_app_intro; inversion H; subst; auto.
    + repeat constructor; simpl; tauto.
    + simpl. intros x Hx [->|[]]. tauto.
Qed.

(** ** Keys of the state under queued operations *)
Definition akey (o : qop) (k : N) : N :=
  if all_set (fst (fst o)) k then
    match snd o with OX | OY => flip_bit k (snd (fst o)) | _ => k end
  else k.
Lemma apply_op_key : forall o iv, fst (apply_op o iv) = akey o (fst iv).
Proof.
  intros [[cs t] op] [k v]. unfold apply_op, akey. simpl. destruct (all_set cs k); auto. destruct op; reflexivity.
Qed.
Lemma akey_inv : forall o k, NoDup (snd (fst o) :: fst (fst o)) -> akey o (akey o k) = k.
Proof.
  intros [[cs t] op] k H. simpl in H. inversion H; subst.
  unfold akey; simpl. destruct (all_set cs k) eqn:E.
  - destruct op; rewrite ?E; auto; unfold all_set in *;
      rewrite forallb_bit_flip by auto; rewrite E; apply flip_flip.
  - rewrite E. reflexivity.
Qed.
Lemma akey_bits : forall o k i, bit (akey o k) i = true -> bit k i = true \/ i = snd (fst o).
Proof.
  intros [[cs t] op] k i. unfold akey. simpl. destruct (all_set cs k); auto.
  destruct op; auto; (destruct (Nat.eq_dec i t); [auto|rewrite bit_flip_other by auto; auto]).
Qed.
Lemma apply_ops_stok : forall m ops ops' st, im_inj m ->
  Forall2 (fun o o' => Forall2 (resolved m) (fst (fst o)) (fst (fst o')) /\ resolved m (snd (fst o)) (snd (fst o'))) ops ops' ->
  Forall (opok m) ops -> stok m st -> stok m (map (apply_ops ops') st).
Proof.
  intros m ops ops' st I F O. revert st.
  induction F as [|o o' ops ops' [R1 R2] F IH]; intros st [H1 H2].
  - unfold apply_ops. simpl. rewrite map_id. split; auto.
  - inversion O as [|? ? [O1 O2] O']; subst.
    assert (E : map (apply_ops (o' :: ops')) st = map (apply_ops ops') (map (apply_op o') st)).
    { rewrite map_map. reflexivity. }
    rewrite E. apply IH; auto.
    assert (Ek : keys (map (apply_op o') st) = map (akey o') (keys st)).
    { unfold keys. rewrite !map_map. apply map_ext. intros. apply apply_op_key. }
    assert (N : NoDup (snd (fst o') :: fst (fst o'))).
    { eapply (resolved_nodup m (snd (fst o) :: fst (fst o))); auto. }
    split; rewrite Ek.
    + apply NoDup_map_inj; auto. intros x y _ _ Exy. rewrite <- (akey_inv o' x N), Exy. apply akey_inv; auto.
    + intros k Hk. apply in_map_iff in Hk. destruct Hk as [k0 [<- Hk]]. intros i Hi.
      apply akey_bits in Hi. destruct Hi as [Hi|Hi]; [eapply H2; eauto|]. subst. eauto.
Qed.
Lemma atake : forall s, inv s -> exists ops, take_ops s = Ok (ops, with_ops s []) /\
  stok (id_map s) (map (apply_ops ops) (state s)).
Proof.
  intros s W.
  assert (H : forall l, Forall (opok (id_map s)) l -> exists ops,
    mapM (fun '(ctls, target, op) => let* (t, cs) := resolve_and_check_qubits s target ctls in Ok (cs, t, op)) l = Ok ops /\
    Forall2 (fun o o' => Forall2 (resolved (id_map s)) (fst (fst o)) (fst (fst o')) /\ resolved (id_map s) (snd (fst o)) (snd (fst o'))) l ops).
  { induction 1 as [|[[cs t] op] l [O1 O2] O' IH]; simpl; [exists []; auto|]. simpl in O1, O2.
    destruct (aresolve s t cs O1 O2) as [t' [cs' [E [R1 R2]]]]. destruct IH as [ops [E' F]].
    exists ((cs', t', op) :: ops). rewrite E. simpl. rewrite E'. simpl. split; auto. }
  destruct (H (op_queue s) (i_ops s W)) as [ops [E F]].
  exists ops. unfold take_ops. rewrite E. simpl. split; auto. eapply apply_ops_stok; eauto; apply W.
Qed.

(** ** Steps that keep the map *)

(** [less]: [s'] has pending single-qubit gates only where [s] has. *)
Definition less (s s' : sim) : Prop := forall q,
  (bit (h_flag s) q = false -> bit (h_flag s') q = false) /\
  (im_get (rx_queue s) q = None -> im_get (rx_queue s') q = None) /\
  (im_get (ry_queue s) q = None -> im_get (ry_queue s') q = None).
Definition calm (s : sim) (q : nat) : Prop :=
  bit (h_flag s) q = false /\ im_get (rx_queue s) q = None /\ im_get (ry_queue s) q = None.
Record kept (s s' : sim) : Prop := mkKept {
  k_inv : inv s'; k_map : id_map s' = id_map s; k_rng : rng s' = rng s }.
Lemma less_r : forall s, less s s. Proof. intros s q. auto. Qed.
Lemma less_t : forall a b c, less a b -> less b c -> less a c.
Proof. intros a b c H G q. destruct (H q) as [? [? ?]], (G q) as [? [? ?]]. auto. Qed.
Lemma less_calm : forall s s' q, less s s' -> calm s q -> calm s' q.
Proof. intros s s' q H [A [B C]]. destruct (H q) as [? [? ?]]. repeat split; auto. Qed.
Lemma kept_r : forall s, inv s -> kept s s. Proof. split; auto. Qed.
Lemma kept_t : forall a b c, kept a b -> kept b c -> kept a c.
Proof. intros a b c [? ? ?] [? ? ?]. split; congruence || auto. Qed.
Lemma kept_has : forall s s' qs, kept s s' -> Forall (has (id_map s)) qs -> Forall (has (id_map s')) qs.
Proof. intros s s' qs [? -> ?]. auto. Qed.
Lemma kept_has1 : forall s s' q, kept s s' -> has (id_map s) q -> has (id_map s') q.
Proof. intros s s' qs [? -> ?]. auto. Qed.

Lemma inv_state : forall s st, inv s -> stok (id_map s) st -> inv (with_state s st).
Proof. intros s st [] S. split; auto. Qed.
Lemma inv_ops : forall s ops, inv s -> Forall (opok (id_map s)) ops -> (N.of_nat (length ops) <= QUEUE_LIMIT)%N -> inv (with_ops s ops).
Proof. intros s st [] S. split; auto. Qed.
Lemma inv_taken : forall s st, inv s -> stok (id_map s) st -> inv (with_state (with_ops s []) st).
Proof. intros s st [] S. split; simpl; auto. unfold QUEUE_LIMIT. lia. Qed.
Lemma kept_taken : forall s st, inv s -> stok (id_map s) st -> kept s (with_state (with_ops s []) st).
Proof. intros. split; auto. apply inv_taken; auto. Qed.

Lemma aflush_ops : forall s, inv s -> exists s', flush_ops s = Ok s' /\ kept s s' /\ less s s' /\ op_queue s' = [].
Proof.
  intros s W. unfold flush_ops. destruct (op_queue s) as [|o l] eqn:Q.
  - exists s. split; auto. split; [apply kept_r; auto|]. split; [apply less_r|auto].
  - destruct (atake s W) as [ops [E S]]. rewrite E. simpl. eexists. split; [reflexivity|].
    split; [apply kept_taken; auto|]. split; [exact (less_r s)|auto].
Qed.
Lemma aenqueue : forall s t cs o, inv s -> NoDup (t :: cs) -> Forall (has (id_map s)) (t :: cs) ->
  exists s', enqueue_op s t cs o = Ok s' /\ kept s s' /\ less s s'.
Proof.
  intros s t cs o W D A. unfold enqueue_op.
  assert (H : exists s1, (if N.eqb (N.of_nat (length (op_queue s))) QUEUE_LIMIT then flush_ops s else Ok s) = Ok s1 /\
    kept s s1 /\ less s s1 /\ (N.of_nat (length (op_queue s1)) < QUEUE_LIMIT)%N).
  { destruct (N.eqb_spec (N.of_nat (length (op_queue s))) QUEUE_LIMIT).
    - destruct (aflush_ops s W) as [s1 [E [K [L Q]]]]. exists s1. rewrite Q. repeat (split; auto). 
    - exists s. split; auto. split; [apply kept_r; auto|]. split; [apply less_r|].
      generalize (i_len s W). lia. }
  destruct H as [s1 [-> [K [L Q]]]]. simpl. eexists. split; [reflexivity|]. split; [|exact L].
  split; [|apply K|apply K]. apply inv_ops; [apply K| |].
  - apply Forall_app. split; [apply K|]. constructor; [|constructor]. split; simpl; auto.
    eapply (kept_has s); eauto.
  - rewrite app_length. simpl. lia.
Qed.

(** Entries written in pairs of keys (H and rotations). *)
Lemma mch_stok : forall m cs' t' mm, has_loc m t' -> ~ In t' cs' -> stok m mm -> stok m (flat_map (mch_entry cs' t' mm) mm).
Proof.
  intros m cs t mm [q0 Hq0] Hn [H1 H2].
  assert (N : NoDup (keys (flat_map (mch_entry cs t mm) mm))).
  { eapply (pair_nodup (fun k => flip_bit k t) (all_set cs) (fun k => bit k t)) with
    (s0 := fun k v => if bit k t then amul (amul v ars2) (aopp amp1) else amul v ars2)
    (s1 := fun k v => if bit k t then amul v ars2 else amul (amul v ars2) amp1)
    (t0 := fun (k : N) v w => anz (aadd v w))
    (t1 := fun (k : N) v w => anz (asub v w))
    (p0 := fun (k : N) v w => amul (aadd v w) ars2)
    (p1 := fun (k : N) v w => amul (asub v w) ars2); auto.
    - intros; apply flip_flip.
    - intros; apply flip_ne.
    - intros; unfold all_set; apply forallb_bit_flip; auto.
    - intros; apply bit_flip_same.
    - intros k v H. unfold mch_entry. now rewrite H.
    - intros k v H G. unfold mch_entry. rewrite H. rewrite flip_lxor, G.
      destruct (bit k t) eqn:B; rewrite (flip_as_set k t _ B), (set_bit_id' k t _ B); simpl; [apply perm_swap|apply Permutation_refl].
    - intros k v w H G S. unfold mch_entry. rewrite H. rewrite flip_lxor, G, S. reflexivity.
    - intros k v w H G S. unfold mch_entry. rewrite H. rewrite flip_lxor, lor_one_bit, G, S.
      rewrite (flip_as_set k t _ S). reflexivity. }
  split; auto. intros k Hk i Hi. unfold keys in Hk. apply in_map_iff in Hk. destruct Hk as [[k' v'] [E Hk]]. simpl in E. subst k'.
  apply in_flat_map in Hk. destruct Hk as [[k0 v0] [Hk0 Hk]]. pose proof (In_keys _ _ _ Hk0) as K0.
  assert (Z : bit k0 i = true \/ i = t).
  { destruct (Nat.eq_dec i t) as [|Ne]; auto. left. unfold mch_entry in Hk. destruct (all_set cs k0).
    - destruct (hm_get mm (N.lxor k0 (one_bit t))).
      + destruct (bit k0 t); [destruct Hk|]. apply in_app_or in Hk.
        destruct Hk as [Hk|Hk]; [destruct (anz (aadd v0 a))|destruct (anz (asub v0 a))]; simpl in Hk; try contradiction; destruct Hk as [Hk|[]]; inversion Hk; subst; auto.
        rewrite lor_one_bit, bit_set_other in Hi; auto.
      + destruct Hk as [Hk|[Hk|[]]]; inversion Hk; subst; rewrite bit_set_other in Hi; auto.
    - destruct Hk as [Hk|[]]; inversion Hk; subst; auto. }
  destruct Z as [Z|Z]; [eapply H2; eauto|]. subst. eauto.
Qed.
Lemma rot_stok : forall m cs' t' mm m00 m01 m10, has_loc m t' -> ~ In t' cs' -> stok m mm ->
  stok m (flat_map (rot_entry m00 m01 m10 cs' t' mm) mm).
Proof.
  intros m cs t mm m00 m01 m10 [q0 Hq0] Hn [H1 H2].
  assert (N : NoDup (keys (flat_map (rot_entry m00 m01 m10 cs t mm) mm))).
  { eapply (pair_nodup (fun k => flip_bit k t) (all_set cs) (fun k => bit k t)) with
    (s0 := fun k v => amul v m00)
    (s1 := fun k v => if bit k t then amul v m01 else amul v m10)
    (t0 := fun (k : N) v w => anz (aadd (amul v m00) (amul w m01)))
    (t1 := fun (k : N) v w => anz (aadd (amul v m10) (amul w m00)))
    (p0 := fun (k : N) v w => aadd (amul v m00) (amul w m01))
    (p1 := fun (k : N) v w => aadd (amul v m10) (amul w m00)); auto.
    - intros; apply flip_flip.
    - intros; apply flip_ne.
    - intros; unfold all_set; apply forallb_bit_flip; auto.
    - intros; apply bit_flip_same.
    - intros k v H. unfold rot_entry. now rewrite H.
    - intros k v H G. unfold rot_entry. rewrite H. rewrite flip_lxor, G.
      destruct (bit k t) eqn:B; simpl; [apply perm_swap|apply Permutation_refl].
    - intros k v w H G S. unfold rot_entry. rewrite H. rewrite flip_lxor, G, S. reflexivity.
    - intros k v w H G S. unfold rot_entry. rewrite H. rewrite flip_lxor, G, S. reflexivity. }
  split; auto. intros k Hk i Hi. unfold keys in Hk. apply in_map_iff in Hk. destruct Hk as [[k' v'] [E Hk]]. simpl in E. subst k'.
  apply in_flat_map in Hk. destruct Hk as [[k0 v0] [Hk0 Hk]]. pose proof (In_keys _ _ _ Hk0) as K0.
  assert (Z : bit k0 i = true \/ i = t).
  { destruct (Nat.eq_dec i t) as [|Ne]; auto. left. unfold rot_entry in Hk. rewrite flip_lxor in Hk.
    assert (F : bit (flip_bit k0 t) i = bit k0 i) by (apply bit_flip_other; auto).
    destruct (all_set cs k0).
    - destruct (hm_get mm (flip_bit k0 t)).
      + destruct (bit k0 t); [destruct Hk|]. apply in_app_or in Hk.
        destruct Hk as [Hk|Hk]; match type of Hk with context[if ?c then _ else _] => destruct c end; simpl in Hk; try contradiction;
          destruct Hk as [Hk|[]]; inversion Hk; subst; congruence.
      + destruct (bit k0 t); destruct Hk as [Hk|[Hk|[]]]; inversion Hk; subst; congruence.
    - destruct Hk as [Hk|[]]; inversion Hk; subst; auto. }
  destruct Z as [Z|Z]; [eapply H2; eauto|]. subst. eauto.
Qed.
Lemma stok_collect : forall m l, stok m l -> stok m (hm_collect l).
Proof.
  intros m l [H1 H2]. assert (P : Permutation (hm_collect l) l) by (apply hm_collect_perm; auto). split.
  - eapply perm_nodup_keys; [apply Permutation_sym; eauto|auto].
  - intros k Hk. apply H2. eapply Permutation_in; [apply perm_keys; eauto|auto].
Qed.
Lemma stok_factor : forall m ops cs f st, stok m (map (apply_ops ops) st) -> stok m (map (ops_then_factor ops cs f) st).
Proof.
  intros m ops cs f st H. assert (E : keys (map (ops_then_factor ops cs f) st) = keys (map (apply_ops ops) st)).
  { unfold keys. rewrite !map_map. apply map_ext. intros iv. unfold ops_then_factor. destruct (apply_ops ops iv). simpl. destruct (all_set cs n); auto. }
  unfold stok in *. rewrite E. auto.
Qed.
Lemma aresolve_loc : forall s t cs, inv s -> NoDup (t :: cs) -> Forall (has (id_map s)) (t :: cs) ->
  exists t' cs', resolve_and_check_qubits s t cs = Ok (t', cs') /\ has_loc (id_map s) t' /\ ~ In t' cs'.
Proof.
  intros s t cs W D A. destruct (aresolve s t cs D A) as [t' [cs' [E [R1 R2]]]]. exists t', cs'. split; auto.
  split; [exists t; auto|]. assert (N : NoDup (t' :: cs')) by (eapply (resolved_nodup (id_map s) (t :: cs)); eauto; apply W).
  inversion N; auto.
Qed.

Lemma amch : forall s cs t, inv s -> NoDup (t :: cs) -> Forall (has (id_map s)) (t :: cs) ->
  exists s', apply_mch s cs t = Ok s' /\ kept s s' /\ less s s'.
Proof.
  intros s cs t W D A. unfold apply_mch. destruct (aresolve_loc s t cs W D A) as [t' [cs' [E [R1 R2]]]]. rewrite E. simpl.
  destruct (atake s W) as [ops [E1 S]]. rewrite E1. simpl. eexists. split; [reflexivity|]. split; [|exact (less_r s)].
  apply kept_taken; auto. apply mch_stok; auto. apply stok_collect. auto.
Qed.
Definition good2 (f : sim -> list nat -> nat -> res sim) (cs : list nat) (t : nat) : Prop :=
  forall s, inv s -> NoDup (t :: cs) -> Forall (has (id_map s)) (t :: cs) -> exists s', f s cs t = Ok s' /\ kept s s' /\ less s s'.
Lemma arotation : forall px py s cs th t b, good2 px cs t -> good2 py cs t ->
  inv s -> NoDup (t :: cs) -> Forall (has (id_map s)) (t :: cs) ->
  exists s', mcrotation_with px py s cs th t b = Ok s' /\ kept s s' /\ less s s'.
Proof.
  intros px py s cs th t b Hx Hy W D A. unfold mcrotation_with. destruct (anz (rot_m00 th)).
  - assert (P : exists s1, (if b then py s cs t else px s cs t) = Ok s1 /\ kept s s1 /\ less s s1) by (destruct b; auto).
    destruct P as [s1 [-> [K L]]]. simpl. destruct (aresolve_loc s1 t cs (k_inv _ _ K) D (kept_has _ _ _ K A)) as [t' [cs' [E [R1 R2]]]].
    rewrite E. simpl. match goal with |- context[if ?c then _ else _] => destruct c end; [exists s1; auto|].
    destruct (atake s1 (k_inv _ _ K)) as [ops [E1 S]]. rewrite E1. simpl. eexists. split; [reflexivity|].
    split; [|exact L]. eapply kept_t; [exact K|]. apply kept_taken; [apply K|]. apply stok_factor. auto.
  - destruct (anz (rot_m01 th b)).
    + match goal with |- context[if ?c then _ else _] => destruct c end; [|exists s; split; auto; split; [apply kept_r; auto|apply less_r]].
      destruct (atake s W) as [ops [E1 S]]. rewrite E1. simpl.
      assert (W1 : inv (with_ops s [])) by (apply inv_ops; auto; unfold QUEUE_LIMIT; simpl; lia).
      destruct (aresolve_loc (with_ops s []) t cs W1 D A) as [t' [cs' [E [R1 R2]]]]. rewrite E. simpl.
      eexists. split; [reflexivity|]. split; [|exact (less_r s)]. apply kept_taken; auto. apply stok_factor. auto.
    + destruct (aresolve_loc s t cs W D A) as [t' [cs' [E [R1 R2]]]]. rewrite E. simpl.
      destruct (atake s W) as [ops [E1 S]]. rewrite E1. simpl. eexists. split; [reflexivity|]. split; [|exact (less_r s)].
      apply kept_taken; auto. apply rot_stok; auto. apply stok_collect. auto.
Qed.

(** Changing only the pending single-qubit gates. *)
Lemma inv_rx : forall s q, inv s -> (forall k a, im_get q k = Some a -> has (id_map s) k) -> inv (with_rx s q).
Proof. intros s q [] H. split; auto. Qed.
Lemma inv_ry : forall s q, inv s -> (forall k a, im_get q k = Some a -> has (id_map s) k) -> inv (with_ry s q).
Proof. intros s q [] H. split; auto. Qed.
Lemma inv_hf : forall s v, inv s -> (forall q, bit v q = true -> has (id_map s) q) -> inv (with_h s v).
Proof. intros s q [] H. split; auto. Qed.
Lemma upd_some {V} : forall (q : imap V) t f k a, im_get (im_update q t f) k = Some a -> exists b, im_get q k = Some b.
Proof. intros q t f k a. rewrite im_get_update. destruct (Nat.eqb t k); [|eauto]. destruct (im_get q k); simpl; [eauto|discriminate]. Qed.
Lemma upd_none {V} : forall (q : imap V) t f k, im_get q k = None -> im_get (im_update q t f) k = None.
Proof. intros q t f k H. rewrite im_get_update, H. destruct (Nat.eqb t k); auto. Qed.
Lemma neg_ry : forall s t, inv s -> kept s (with_ry s (im_update (ry_queue s) t tneg)) /\ less s (with_ry s (im_update (ry_queue s) t tneg)).
Proof.
  intros s t W. split.
  - split; auto. apply inv_ry; auto. intros k a H. apply upd_some in H. destruct H as [b H]. eapply (i_ry s W); eauto.
  - intros q. simpl. split; auto. split; auto. apply upd_none.
Qed.
Lemma neg_rx : forall s t, inv s -> kept s (with_rx s (im_update (rx_queue s) t tneg)) /\ less s (with_rx s (im_update (rx_queue s) t tneg)).
Proof.
  intros s t W. split.
  - split; auto. apply inv_rx; auto. intros k a H. apply upd_some in H. destruct H as [b H]. eapply (i_rx s W); eauto.
  - intros q. simpl. split; auto. split; auto. apply upd_none.
Qed.
Ltac chain K L := split; [eapply kept_t; [exact K|eassumption]|eapply less_t; [exact L|eassumption]].
Lemma nd1 : forall t : nat, NoDup [t]. Proof. repeat constructor; auto. Qed.
Lemma ax : forall s t, inv s -> has (id_map s) t -> exists s', gate_x s t = Ok s' /\ kept s s' /\ less s s'.
Proof.
  intros s t W A. unfold gate_x. destruct (neg_ry s t W) as [K L]. set (s1 := with_ry s _) in *.
  assert (P : forall o, exists s', enqueue_op s1 t [] o = Ok s' /\ kept s s' /\ less s s').
  { intros o. destruct (aenqueue s1 t [] o (k_inv _ _ K) (nd1 t)) as [s2 [E [K2 L2]]]; [constructor; auto|].
    exists s2. split; auto. chain K L. }
  cbv zeta. match goal with |- context[if ?c then _ else _] => destruct c end; apply P.
Qed.
Lemma ay : forall s t, inv s -> has (id_map s) t -> exists s', gate_y s t = Ok s' /\ kept s s' /\ less s s'.
Proof.
  intros s t W A. unfold gate_y. destruct (neg_rx s t W) as [K L]. set (s1 := with_rx s _) in *.
  destruct (aenqueue s1 t [] OY (k_inv _ _ K) (nd1 t)) as [s2 [E [K2 L2]]]; [constructor; auto|].
  exists s2. split; auto. chain K L.
Qed.
Lemma az : forall s t, inv s -> has (id_map s) t -> exists s', gate_z s t = Ok s' /\ kept s s' /\ less s s'.
Proof.
  intros s t W A. unfold gate_z. destruct (neg_ry s t W) as [K L]. set (s1 := with_ry s _) in *.
  destruct (neg_rx s1 t (k_inv _ _ K)) as [K1 L1]. set (s2 := with_rx s1 _) in *.
  assert (K' := kept_t _ _ _ K K1). assert (L' := less_t _ _ _ L L1).
  assert (P : forall o, exists s', enqueue_op s2 t [] o = Ok s' /\ kept s s' /\ less s s').
  { intros o. destruct (aenqueue s2 t [] o (k_inv _ _ K') (nd1 t)) as [s3 [E [K2 L2]]]; [constructor; auto|].
    exists s3. split; auto. chain K' L'. }
  cbv zeta. fold s1. fold s2. match goal with |- context[if ?c then _ else _] => destruct c end; apply P.
Qed.
Lemma rem_some {V} : forall (q : imap V) t k a, im_get (im_remove q t) k = Some a -> im_get q k = Some a.
Proof. intros q t k a. rewrite im_get_remove. destruct (Nat.eqb t k); [discriminate|auto]. Qed.
Lemma arot1 : forall s th t b, inv s -> has (id_map s) t ->
  exists s', mcrotation_with (fun s _ t => gate_x s t) (fun s _ t => gate_y s t) s [] th t b = Ok s' /\ kept s s' /\ less s s'.
Proof.
  intros s th t b W A. apply arotation; [| |auto|apply nd1|constructor; auto].
  - intros s0 W0 _ A0. inversion A0; subst. apply ax; auto.
  - intros s0 W0 _ A0. inversion A0; subst. apply ay; auto.
Qed.
Lemma aflush_rx : forall s t, inv s -> exists s', flush_rx s t = Ok s' /\ kept s s' /\ less s s' /\ im_get (rx_queue s') t = None.
Proof.
  intros s t W. unfold flush_rx. destruct (im_get (rx_queue s) t) as [th|] eqn:E.
  - destruct (arot1 s th t false W (i_rx s W _ _ E)) as [s1 [-> [K L]]]. simpl. eexists. split; [reflexivity|].
    split; [|split].
    + split; [|apply K|apply K]. apply inv_rx; [apply K|]. intros k a H. apply rem_some in H. eapply (i_rx _ (k_inv _ _ K)); eauto.
    + intros q. destruct (L q) as [L1 [L2 L3]]. simpl. split; auto. split; auto. intros H.
      rewrite im_get_remove. destruct (Nat.eqb t q); auto.
    + simpl. rewrite im_get_remove, Nat.eqb_refl. auto.
  - exists s. split; auto. split; [apply kept_r; auto|]. split; [apply less_r|auto].
Qed.
Lemma aflush_ry : forall s t, inv s -> exists s', flush_ry s t = Ok s' /\ kept s s' /\ less s s' /\ im_get (ry_queue s') t = None.
Proof.
  intros s t W. unfold flush_ry. destruct (im_get (ry_queue s) t) as [th|] eqn:E.
  - destruct (arot1 s th t true W (i_ry s W _ _ E)) as [s1 [-> [K L]]]. simpl. eexists. split; [reflexivity|].
    split; [|split].
    + split; [|apply K|apply K]. apply inv_ry; [apply K|]. intros k a H. apply rem_some in H. eapply (i_ry _ (k_inv _ _ K)); eauto.
    + intros q. destruct (L q) as [L1 [L2 L3]]. simpl. split; auto. split; auto. intros H.
      rewrite im_get_remove. destruct (Nat.eqb t q); auto.
    + simpl. rewrite im_get_remove, Nat.eqb_refl. auto.
  - exists s. split; auto. split; [apply kept_r; auto|]. split; [apply less_r|auto].
Qed.
Lemma aflush_one : forall lv s t, inv s -> exists s', flush_one lv s t = Ok s' /\ kept s s' /\ less s s' /\ (lv = LHRxRy -> calm s' t).
Proof.
  intros lv s t W. unfold flush_one.
  assert (H : exists s1, (if bit (h_flag s) t then let* s' := apply_mch s [] t in Ok (with_h s' (set_bit (h_flag s') t false)) else Ok s) = Ok s1 /\
    kept s s1 /\ less s s1 /\ bit (h_flag s1) t = false).
  { destruct (bit (h_flag s) t) eqn:B.
    - destruct (amch s [] t W (nd1 t)) as [s1 [-> [K L]]]; [constructor; auto; apply W; auto|]. simpl.
      eexists. split; [reflexivity|]. split; [|split].
      + split; [|apply K|apply K]. apply inv_hf; [apply K|]. intros q. rewrite bit_set. destruct (Nat.eqb t q); [discriminate|]. apply K.
      + intros q. destruct (L q) as [L1 [L2 L3]]. simpl. split; auto. rewrite bit_set. destruct (Nat.eqb t q); auto.
      + simpl. apply bit_set_same.
    - exists s. split; auto. split; [apply kept_r; auto|]. split; [apply less_r|auto]. }
  destruct H as [s1 [-> [K [L B]]]]. simpl. destruct lv.
  - exists s1. split; auto. split; auto. split; auto. discriminate.
  - destruct (aflush_rx s1 t (k_inv _ _ K)) as [s2 [-> [K2 [L2 B2]]]]. exists s2. split; auto.
    split; [eapply kept_t; eauto|]. split; [eapply less_t; eauto|discriminate].
  - destruct (aflush_rx s1 t (k_inv _ _ K)) as [s2 [-> [K2 [L2 B2]]]]. simpl.
    destruct (aflush_ry s2 t (k_inv _ _ K2)) as [s3 [-> [K3 [L3 B3]]]]. exists s3. split; auto.
    split; [eapply kept_t; [eapply kept_t|]; eauto|]. split; [eapply less_t; [eapply less_t|]; eauto|].
    intros _. split; [apply L3, L2, B|]. split; [apply L3, B2|auto].
Qed.
Lemma aflush_queue : forall lv qs s, inv s ->
  exists s', flush_queue s qs lv = Ok s' /\ kept s s' /\ less s s' /\ op_queue s' = [] /\ (lv = LHRxRy -> Forall (calm s') qs).
Proof.
  intros lv qs s W. unfold flush_queue.
  assert (H : exists s1, foldM (flush_one lv) qs s = Ok s1 /\ kept s s1 /\ less s s1 /\ (lv = LHRxRy -> Forall (calm s1) qs)).
  { revert s W. induction qs as [|q qs IH]; intros s W; simpl.
    - exists s. split; auto. split; [apply kept_r; auto|]. split; [apply less_r|auto].
    - destruct (aflush_one lv s q W) as [s1 [-> [K [L C]]]]. simpl. destruct (IH s1 (k_inv _ _ K)) as [s2 [-> [K2 [L2 C2]]]].
      exists s2. split; auto. split; [eapply kept_t; eauto|]. split; [eapply less_t; eauto|].
      intros E. constructor; auto. eapply less_calm; eauto. }
  destruct H as [s1 [-> [K [L C]]]]. simpl. destruct (aflush_ops s1 (k_inv _ _ K)) as [s2 [-> [K2 [L2 Q]]]].
  exists s2. split; auto. split; [eapply kept_t; eauto|]. split; [eapply less_t; eauto|]. split; auto.
  intros E. eapply Forall_impl; [|apply C, E]. intros q. apply less_calm; auto.
Qed.
Lemma has_queued_calm : forall s q, has_queued_hrxy s q = false -> calm s q.
Proof.
  intros s q. unfold has_queued_hrxy. intros H. apply orb_false_iff in H. destruct H as [H H3]. apply orb_false_iff in H. destruct H as [H1 H2].
  apply im_contains_false in H2, H3. repeat split; auto.
Qed.
Lemma amaybe : forall qs s, inv s -> exists s', maybe_flush_queue s qs LHRxRy = Ok s' /\ kept s s' /\ less s s' /\ Forall (calm s') qs.
Proof.
  intros qs s W. unfold maybe_flush_queue. destruct (existsb (has_queued_hrxy s) qs) eqn:E.
  - destruct (aflush_queue LHRxRy qs s W) as [s1 [-> [K [L [_ C]]]]]. exists s1. auto.
  - exists s. split; auto. split; [apply kept_r; auto|]. split; [apply less_r|]. apply Forall_forall. intros q Hq.
    apply has_queued_calm. apply not_true_iff_false. intros H. rewrite <- not_true_iff_false in E. apply E. apply existsb_exists. eauto.
Qed.
End Any.
