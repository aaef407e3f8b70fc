(** * What the operations on sparse states do to amplitudes

    Everything here is about locations (bit positions of the state keys). *)
From Coq Require Import Reals NArith List Bool Lia Lra Permutation Arith FunctionalExtensionality.
From Verif Require Import Cx Arith ArithR IndexMap Bits BitsLemmas Spec QLib Sim StateLemmas.
Import ListNotations.
Local Open Scope R_scope.

Section Loc.
Context {T : Tol} {EN : Env}.

(** Amplitude of a key. *)
Definition lamp (l : sstate) : qstate := fun k =>
  match hm_get l k with Some v => v | None => C0 end.

Lemma lamp_perm : forall l l', NoDup (keys l) -> Permutation l l' -> lamp l = lamp l'.
Proof.
  intros. apply functional_extensionality. intros k. unfold lamp.
  rewrite (hm_get_perm l l') by auto. reflexivity.
Qed.

Lemma lamp_out : forall l k, ~ In k (keys l) -> lamp l k = C0.
Proof. intros. unfold lamp. apply hm_get_None in H. now rewrite H. Qed.

(** Matrix of a queued operation. *)
Definition opmat (o : opcode) : mat :=
  match o with
  | OX => mX | OY => mY | OZ => mZ | OS => mS | OSadj => mSadj
  | OT => mT | OTadj => mTadj | ORz th => mRz th
  end.

(** A queue of operations as an operator (first operation first). *)
Definition opsem (ops : list qop) (psi : qstate) : qstate :=
  fold_left (fun psi o => cgate (fst (fst o)) (opmat (snd o)) (snd (fst o)) psi) ops psi.

Definition op_ok (o : qop) := NoDup (snd (fst o) :: fst (fst o)).

(** Key map and factor of one operation. *)
Definition op_key (o : qop) (k : N) : N :=
  if all_set (fst (fst o)) k then
    match snd o with OX | OY => flip_bit k (snd (fst o)) | _ => k end
  else k.
Definition op_factor (o : qop) (k : N) : C :=
  if all_set (fst (fst o)) k then
    match snd o with
    | OX => C1
    | OY => if bit k (snd (fst o)) then (- Ci)%C else Ci
    | _ => opmat (snd o) (bit k (snd (fst o))) (bit k (snd (fst o)))
    end
  else C1.

Lemma cos_PI4 : cos (PI / 4) = / sqrt 2.
Proof. rewrite cos_PI4. field. apply sqrt2_neq_0. Qed.
Lemma sin_PI4 : sin (PI / 4) = / sqrt 2.
Proof. rewrite sin_PI4. field. apply sqrt2_neq_0. Qed.

Lemma apply_op_eq : forall o kv,
  apply_op o kv = (op_key o (fst kv), (snd kv * op_factor o (fst kv))%C).
Proof.
  intros [[cs t] op] [k v]. unfold apply_op, op_key, op_factor. simpl.
  destruct (all_set cs k); [|f_equal; aring].
  destruct op; unfold x_transform, y_transform, z_transform, s_transform, sadj_transform,
    t_transform, tadj_transform, rz_transform, phase_transform; simpl;
    try (rewrite bit_flip_same);
    (f_equal; [try (destruct (bit k t) eqn:E; simpl)]);
    unfold mZ, mS, mSadj, mT, mTadj, mRz, mPhase, mk2; try aring.
  all: toC; unfold Cis; rewrite ?cos_neg, ?sin_neg, ?cos_PI4, ?sin_PI4; ceq.
Qed.

Lemma op_key_inv : forall o k, op_ok o -> op_key o (op_key o k) = k.
Proof.
  intros [[cs t] op] k H. unfold op_ok in H; simpl in H. inversion H; subst.
  unfold op_key; simpl. destruct (all_set cs k) eqn:E.
  - destruct op; rewrite ?E; auto; unfold all_set in *;
      rewrite forallb_bit_flip by auto; rewrite E; apply flip_flip.
  - rewrite E. reflexivity.
Qed.

Lemma apply_op_nodup : forall o l, op_ok o -> NoDup (keys l) -> NoDup (keys (map (apply_op o) l)).
Proof.
  intros. rewrite (keys_map _ _ (op_key o)) by (intros; rewrite apply_op_eq; auto).
  apply NoDup_map_inj; auto. intros. rewrite <- (op_key_inv o x), <- (op_key_inv o y) by auto.
  congruence.
Qed.

Lemma lamp_apply_op : forall o l, op_ok o ->
  lamp (map (apply_op o) l) = cgate (fst (fst o)) (opmat (snd o)) (snd (fst o)) (lamp l).
Proof.
  intros o l H. apply functional_extensionality. intros k. unfold lamp at 1.
  rewrite (map_ext _ (fun kv => (op_key o (fst kv), (snd kv * op_factor o (fst kv))%C)))
    by (intros; apply apply_op_eq).
  rewrite (hm_get_map l (op_key o) (op_key o) (fun k v => (v * op_factor o k)%C))
    by (intros; apply op_key_inv; auto).
  destruct o as [[cs t] op]; simpl. unfold op_ok in H; simpl in H. inversion H; subst.
  transitivity ((lamp l (op_key (cs, t, op) k) * op_factor (cs, t, op) (op_key (cs, t, op) k))%C).
  { unfold lamp. destruct (hm_get l (op_key (cs, t, op) k)); simpl; [reflexivity|]. cbn; ring. }
  unfold op_key, op_factor, cgate, all_set; simpl.
  destruct (forallb (bit k) cs) eqn:E; [|rewrite E; ring].
  destruct op; rewrite ?(forallb_bit_flip cs k t), E by auto; unfold gate1; simpl;
    unfold mX, mY, mZ, mS, mSadj, mT, mTadj, mRz, mPhase, mk2;
    rewrite ?bit_flip_same;
    destruct (bit k t) eqn:B; simpl;
    rewrite ?(flip_as_set k t _ B); simpl;
    rewrite ?(set_bit_id' k t _ B); ring.
Qed.

Lemma apply_ops_map : forall ops l,
  map (apply_ops ops) l = fold_left (fun l o => map (apply_op o) l) ops l.
Proof.
  unfold apply_ops. induction ops; simpl; intros.
  - apply map_id.
  - rewrite <- IHops. rewrite map_map. reflexivity.
Qed.

Lemma apply_ops_nodup : forall ops l, Forall op_ok ops -> NoDup (keys l) ->
  NoDup (keys (map (apply_ops ops) l)).
Proof.
  intros ops l H. rewrite apply_ops_map. revert l. induction H; simpl; intros; auto.
  apply IHForall. apply apply_op_nodup; auto.
Qed.

Lemma lamp_apply_ops : forall ops l, Forall op_ok ops ->
  lamp (map (apply_ops ops) l) = opsem ops (lamp l).
Proof.
  intros ops l H. rewrite apply_ops_map. revert l. unfold opsem. induction H; simpl; intros; auto.
  rewrite IHForall. rewrite lamp_apply_op by auto. reflexivity.
Qed.

(** Keys produced by queued operations only differ on their targets. *)
Lemma op_key_bits : forall o k i, bit (op_key o k) i = true -> bit k i = true \/ i = snd (fst o).
Proof.
  intros o k i H. unfold op_key in H. destruct (all_set _ _); auto.
  destruct (Nat.eq_dec i (snd (fst o))); auto. left.
  destruct (snd o); auto; rewrite bit_flip_other in H; auto.
Qed.

(** Multiplying each entry by a factor depending on its key. *)
Definition scale_entries (p : N -> C) (l : sstate) : sstate :=
  map (fun kv => (fst kv, amul (snd kv) (p (fst kv)))) l.
Lemma keys_scale_entries : forall p l, keys (scale_entries p l) = keys l.
Proof. intros. unfold scale_entries, keys. rewrite map_map. reflexivity. Qed.
Lemma lamp_scale_entries : forall p l k, lamp (scale_entries p l) k = (p k * lamp l k)%C.
Proof.
  intros. unfold lamp, scale_entries.
  rewrite (hm_get_map l (fun k => k) (fun k => k) (fun k v => amul v (p k))) by auto.
  destruct (hm_get l k); simpl; ring.
Qed.

(** ** Dropping amplitudes *)

(** [dropped a b]: [a] is [b], or [a] is zero and [b] is nearly zero. *)
Definition dropped (a b : C) : Prop := a = b \/ (a = C0 /\ @anz RArith b = true).

Lemma anz_zero : tol = 0 -> forall a, @anz RArith a = true -> a = C0.
Proof.
  intros H [x y]. simpl. unfold rnz, Rleb. rewrite H. intros E.
  apply andb_prop in E. destruct E as [E1 E2].
  destruct (Rle_dec (Rabs x) 0); [|discriminate]. destruct (Rle_dec (Rabs y) 0); [|discriminate].
  assert (x = 0) by (generalize (Rabs_pos x); intros; apply Rabs_eq_0 || idtac;
    destruct (Req_dec x 0); auto; apply Rabs_pos_lt in H1; lra).
  assert (y = 0) by (destruct (Req_dec y 0); auto; apply Rabs_pos_lt in H1; lra).
  subst. reflexivity.
Qed.

(** The matrix of [mcrotation]. *)
Definition rotmat (m00 m01 m10 : C) : mat := mk2 m00 m01 m10 m00.

Lemma flip_ne : forall k i, flip_bit k i <> k.
Proof.
  intros k i H. assert (bit (flip_bit k i) i = bit k i) by now rewrite H.
  rewrite bit_flip_same in H0. destruct (bit k i); discriminate.
Qed.

Section TwoLevel.
Variables (cs : list nat) (t : nat) (m : sstate).
Hypothesis t_cs : ~ In t cs.
Hypothesis m_nodup : NoDup (keys m).

(** Lookup after an operation that pairs the keys differing in bit [t]. *)
Definition two_level (U : mat) (x0 x1 : C -> C -> C) (k : N) : option C :=
  if all_set cs k then
    match hm_get m (set_bit k t false), hm_get m (set_bit k t true) with
    | None, None => None
    | Some v, None => Some (U (bit k t) false * v)%C
    | None, Some w => Some (U (bit k t) true * w)%C
    | Some v, Some w =>
        if bit k t then emo (@anz RArith (x1 v w)) (U true false * v + U true true * w)%C
        else emo (@anz RArith (x0 v w)) (U false false * v + U false true * w)%C
    end
  else hm_get m k.

Lemma mch_both : NoDup (keys (flat_map (mch_entry cs t m) m)) /\
  forall k, hm_get (flat_map (mch_entry cs t m) m) k = two_level mH Cadd Csub k.
Proof.
  edestruct (pair_both (fun k => flip_bit k t) (all_set cs) (fun k => bit k t)) with
    (s0 := fun k v => (mH (bit k t) (bit k t) * v)%C)
    (s1 := fun k v => (mH (negb (bit k t)) (bit k t) * v)%C)
    (t0 := fun (k : N) v w => @anz RArith (v + w)%C)
    (t1 := fun (k : N) v w => @anz RArith (v - w)%C)
    (p0 := fun (k : N) v w => ((v + w) * rsqrt2)%C)
    (p1 := fun (k : N) v w => ((v - w) * rsqrt2)%C) (m := m)
    (f := mch_entry cs t m) as [N L]; auto.
  - intros; apply flip_flip.
  - intros; apply flip_ne.
  - intros; unfold all_set; apply forallb_bit_flip; auto.
  - intros; apply bit_flip_same.
  - intros k' v H. unfold mch_entry. now rewrite H.
  - intros k' v H G. unfold mch_entry. rewrite H. rewrite flip_lxor, G.
    destruct (bit k' t) eqn:B; rewrite (flip_as_set k' t _ B), (set_bit_id' k' t _ B); simpl.
    + eapply Permutation_trans; [apply perm_swap|].
      apply Permutation_refl'. unfold mH, mk2, rsqrt2; repeat (apply (f_equal2 cons); [f_equal; aring|]); reflexivity.
    + apply Permutation_refl'. unfold mH, mk2, rsqrt2; repeat (apply (f_equal2 cons); [f_equal; aring|]); reflexivity.
  - intros k' v w H G S. unfold mch_entry. rewrite H. rewrite flip_lxor, G, S. reflexivity.
  - intros k' v w H G S. unfold mch_entry. rewrite H. rewrite flip_lxor, lor_one_bit, G, S.
    rewrite (flip_as_set k' t _ S). reflexivity.
  - split; auto. intros k. rewrite L.
    unfold pair_get, two_level. destruct (all_set cs k) eqn:A; auto.
    destruct (bit k t) eqn:B.
    + rewrite (flip_as_set k t true B), (set_bit_id' k t true B). simpl negb.
      destruct (hm_get m k) eqn:G1; destruct (hm_get m (set_bit k t false)) eqn:G2; auto.
      * unfold emo. destruct (anz _); auto. f_equal. unfold mH, mk2; aring.
      * rewrite bit_set_same. reflexivity.
    + rewrite (flip_as_set k t false B), (set_bit_id' k t false B). simpl negb.
      destruct (hm_get m k) eqn:G1; destruct (hm_get m (set_bit k t true)) eqn:G2; auto.
      * unfold emo. destruct (anz _); auto. f_equal. unfold mH, mk2; aring.
      * rewrite bit_set_same. reflexivity.
Qed.

Lemma rot_both : forall m00 m01 m10,
  NoDup (keys (flat_map (rot_entry m00 m01 m10 cs t m) m)) /\
  forall k, hm_get (flat_map (rot_entry m00 m01 m10 cs t m) m) k =
    two_level (rotmat m00 m01 m10) (fun v w => v * m00 + w * m01)%C
      (fun v w => v * m10 + w * m00)%C k.
Proof.
  intros.
  edestruct (pair_both (fun k => flip_bit k t) (all_set cs) (fun k => bit k t)) with
    (s0 := fun (k : N) v => (v * m00)%C)
    (s1 := fun k v => if bit k t then (v * m01)%C else (v * m10)%C)
    (t0 := fun (k : N) v w => @anz RArith (v * m00 + w * m01)%C)
    (t1 := fun (k : N) v w => @anz RArith (v * m10 + w * m00)%C)
    (p0 := fun (k : N) v w => (v * m00 + w * m01)%C)
    (p1 := fun (k : N) v w => (v * m10 + w * m00)%C) (m := m)
    (f := rot_entry m00 m01 m10 cs t m) as [N L]; auto.
  - intros; apply flip_flip.
  - intros; apply flip_ne.
  - intros; unfold all_set; apply forallb_bit_flip; auto.
  - intros; apply bit_flip_same.
  - intros k' v H. unfold rot_entry. now rewrite H.
  - intros k' v H G. unfold rot_entry. rewrite H. rewrite flip_lxor, G.
    destruct (bit k' t) eqn:B.
    + apply perm_swap.
    + apply Permutation_refl.
  - intros k' v w H G S. unfold rot_entry. rewrite H. rewrite flip_lxor, G, S. reflexivity.
  - intros k' v w H G S. unfold rot_entry. rewrite H. rewrite flip_lxor, G, S. reflexivity.
  - split; auto. intros k. rewrite L.
    unfold pair_get, two_level. destruct (all_set cs k) eqn:A; auto.
    destruct (bit k t) eqn:B.
    + rewrite (flip_as_set k t true B), (set_bit_id' k t true B). simpl negb.
      destruct (hm_get m k) eqn:G1; destruct (hm_get m (set_bit k t false)) eqn:G2; auto.
      * unfold emo. destruct (anz _); auto. f_equal. unfold rotmat, mk2; aring.
      * f_equal. unfold rotmat, mk2; aring.
      * rewrite bit_set_same. f_equal. unfold rotmat, mk2; aring.
    + rewrite (flip_as_set k t false B), (set_bit_id' k t false B). simpl negb.
      destruct (hm_get m k) eqn:G1; destruct (hm_get m (set_bit k t true)) eqn:G2; auto.
      * unfold emo. destruct (anz _); auto. f_equal. unfold rotmat, mk2; aring.
      * f_equal. unfold rotmat, mk2; aring.
      * rewrite bit_set_same. f_equal. unfold rotmat, mk2; aring.
Qed.

(** Amplitudes after a two-level operation: those of the gate, except that
    nearly zero ones may have been dropped. *)
Lemma two_level_amp : forall U x0 x1 r k,
  (forall k, hm_get r k = two_level U x0 x1 k) ->
  lamp r k = cgate cs U t (lamp m) k \/
  (lamp r k = C0 /\
   @anz RArith ((if bit k t then x1 else x0)
     (lamp m (set_bit k t false)) (lamp m (set_bit k t true))) = true).
Proof.
  intros U x0 x1 r k H. unfold lamp at 1 3. rewrite H. unfold two_level, cgate, gate1.
  fold (all_set cs k). destruct (all_set cs k) eqn:A; [|left; reflexivity].
  unfold lamp.
  destruct (hm_get m (set_bit k t false)) eqn:G1; destruct (hm_get m (set_bit k t true)) eqn:G2;
    try (left; aring).
  destruct (bit k t); unfold emo; destruct (anz _); auto.
Qed.

(** Keys after a two-level operation. *)
Lemma two_level_keys : forall U x0 x1 r k i,
  (forall k, hm_get r k = two_level U x0 x1 k) -> In k (keys r) -> bit k i = true -> i <> t ->
  exists k', In k' (keys m) /\ bit k' i = true.
Proof.
  intros U x0 x1 r k i H Hi B Ht. apply hm_get_keys in Hi. destruct Hi as [v Hv].
  rewrite H in Hv. unfold two_level in Hv.
  assert (P : forall b, bit (set_bit k t b) i = true) by (intros; rewrite bit_set_other; auto).
  destruct (all_set cs k).
  - destruct (hm_get m (set_bit k t false)) eqn:G1.
    { exists (set_bit k t false). split; auto. apply hm_get_keys; eauto. }
    destruct (hm_get m (set_bit k t true)) eqn:G2; [|discriminate].
    exists (set_bit k t true). split; auto. apply hm_get_keys; eauto.
  - exists k. split; auto. apply hm_get_keys; eauto.
Qed.
End TwoLevel.

Lemma mch_exact : forall cs t m, tol = 0 -> ~ In t cs -> NoDup (keys m) ->
  lamp (flat_map (mch_entry cs t m) m) = cgate cs mH t (lamp m).
Proof.
  intros cs t m H0 H1 H2. apply functional_extensionality. intros k.
  destruct (mch_both cs t m H1 H2) as [N L].
  destruct (two_level_amp cs t m _ _ _ _ k L) as [E|[E Z]]; auto.
  apply anz_zero in Z; auto.
  destruct (all_set cs k) eqn:A.
  - rewrite E. unfold cgate, gate1. fold (all_set cs k). rewrite A.
    destruct (bit k t); simpl.
    + transitivity (rsqrt2 * (lamp m (set_bit k t false) - lamp m (set_bit k t true)))%C;
        [rewrite Z; ring | ring].
    + transitivity (rsqrt2 * (lamp m (set_bit k t false) + lamp m (set_bit k t true)))%C;
        [rewrite Z; ring | ring].
  - unfold lamp. rewrite L. unfold two_level, cgate. fold (all_set cs k). rewrite A. reflexivity.
Qed.

Lemma rot_exact : forall m00 m01 m10 cs t m, tol = 0 -> ~ In t cs -> NoDup (keys m) ->
  lamp (flat_map (rot_entry m00 m01 m10 cs t m) m) = cgate cs (rotmat m00 m01 m10) t (lamp m).
Proof.
  intros m00 m01 m10 cs t m H0 H1 H2. apply functional_extensionality. intros k.
  destruct (rot_both cs t m H1 H2 m00 m01 m10) as [N L].
  destruct (two_level_amp cs t m _ _ _ _ k L) as [E|[E Z]]; auto.
  apply anz_zero in Z; auto.
  destruct (all_set cs k) eqn:A.
  - rewrite E. unfold cgate, gate1. fold (all_set cs k). rewrite A.
    rewrite <- Z. unfold rotmat. destruct (bit k t); simpl; ring.
  - unfold lamp. rewrite L. unfold two_level, cgate. fold (all_set cs k). rewrite A. reflexivity.
Qed.
End Loc.
