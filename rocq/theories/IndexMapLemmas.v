(** * Lemmas about the index map *)
From Coq Require Import List Arith Lia Bool Sorted.
From Verif Require Import IndexMap.
Import ListNotations.

Section L.
Context {V : Type}.
Implicit Type m : imap V.

Lemma list_set_length : forall (A : Type) (l : list A) k v, length (list_set l k v) = length l.
Proof. induction l; destruct k; simpl; intros; auto. Qed.

Lemma nth_list_set_same : forall (A : Type) (l : list A) k v, k < length l ->
  nth_error (list_set l k v) k = Some v.
Proof. induction l; destruct k; simpl; intros; try lia; auto. apply IHl. lia. Qed.

Lemma nth_list_set_other : forall (A : Type) (l : list A) k j v, k <> j ->
  nth_error (list_set l k v) j = nth_error l j.
Proof. induction l; destruct k, j; simpl; intros; try lia; auto. Qed.

Lemma nth_repeat_none : forall n j, nth_error (repeat (@None V) n) j = Some None \/
  nth_error (repeat (@None V) n) j = None.
Proof. induction n; destruct j; simpl; auto. Qed.

Lemma im_get_app_none : forall m n k, im_get (m ++ repeat None n) k = im_get m k.
Proof.
  intros. unfold im_get. destruct (Nat.lt_ge_cases k (length m)).
  - rewrite nth_error_app1 by auto. reflexivity.
  - rewrite nth_error_app2 by auto.
    assert (nth_error m k = None) as -> by (apply nth_error_None; auto).
    destruct (nth_repeat_none n (k - length m)) as [-> | ->]; reflexivity.
Qed.

Lemma im_get_insert : forall m k v j,
  im_get (im_insert m k v) j = if Nat.eqb k j then Some v else im_get m j.
Proof.
  intros. unfold im_insert.
  set (m' := if Nat.leb (length m) k then _ else _).
  assert (Hl : k < length m').
  { unfold m'. destruct (Nat.leb_spec (length m) k); auto.
    rewrite app_length, repeat_length. lia. }
  assert (Hg : forall x, im_get m' x = im_get m x).
  { intros. unfold m'. destruct (Nat.leb _ _); auto. apply im_get_app_none. }
  clearbody m'. destruct (Nat.eqb_spec k j).
  - subst. unfold im_get. rewrite nth_list_set_same by auto. reflexivity.
  - rewrite <- Hg. unfold im_get. rewrite nth_list_set_other by auto. reflexivity.
Qed.

Lemma im_get_lt : forall m k v, im_get m k = Some v -> k < length m.
Proof.
  unfold im_get; intros. apply nth_error_Some. destruct (nth_error m k); congruence.
Qed.

Lemma im_get_remove : forall m k j,
  im_get (im_remove m k) j = if Nat.eqb k j then None else im_get m j.
Proof.
  intros. unfold im_remove. destruct (Nat.ltb_spec k (length m)).
  - destruct (Nat.eqb_spec k j).
    + subst. unfold im_get. rewrite nth_list_set_same by auto. reflexivity.
    + unfold im_get. rewrite nth_list_set_other by auto. reflexivity.
  - destruct (Nat.eqb_spec k j); auto. subst.
    unfold im_get. assert (nth_error m j = None) as -> by (apply nth_error_None; auto). reflexivity.
Qed.

Lemma im_get_update : forall m k f j,
  im_get (im_update m k f) j = if Nat.eqb k j then option_map f (im_get m j) else im_get m j.
Proof.
  intros. unfold im_update. destruct (im_get m k) eqn:E.
  - destruct (Nat.eqb_spec k j).
    + subst. rewrite E. simpl. unfold im_get.
      rewrite nth_list_set_same by (eapply im_get_lt; eauto). reflexivity.
    + unfold im_get. rewrite nth_list_set_other by auto. reflexivity.
  - destruct (Nat.eqb_spec k j); auto. subst. rewrite E. reflexivity.
Qed.

Lemma im_get_empty : forall k, im_get (@im_empty V) k = None.
Proof. intros. unfold im_get. destruct k; reflexivity. Qed.

Lemma im_contains_get : forall m k, im_contains m k = true <-> exists v, im_get m k = Some v.
Proof.
  intros. unfold im_contains. destruct (im_get m k); split; intros; eauto; try congruence.
  destruct H; congruence.
Qed.
Lemma im_contains_false : forall m k, im_contains m k = false <-> im_get m k = None.
Proof. intros. unfold im_contains. destruct (im_get m k); split; congruence. Qed.

Lemma im_iter_from_In : forall m i k v,
  In (k, v) (im_iter_from i m) <-> i <= k /\ im_get m (k - i) = Some v.
Proof.
  induction m as [|o m]; simpl; intros.
  - split; [tauto|]. intros [_ H]. unfold im_get in H. destruct (k - i); discriminate.
  - destruct o as [w|]; simpl; rewrite IHm.
    + split.
      * intros [H|[H1 H2]].
        { inversion H; subst. split; auto. rewrite Nat.sub_diag. reflexivity. }
        split; [lia|]. replace (k - i) with (S (k - S i)) by lia. exact H2.
      * intros [H1 H2]. destruct (Nat.eq_dec i k).
        { subst. rewrite Nat.sub_diag in H2. unfold im_get in H2; simpl in H2. left; congruence. }
        right. split; [lia|]. replace (k - i) with (S (k - S i)) in H2 by lia. exact H2.
    + split.
      * intros [H1 H2]. split; [lia|]. replace (k - i) with (S (k - S i)) by lia. exact H2.
      * intros [H1 H2]. destruct (Nat.eq_dec i k).
        { subst. rewrite Nat.sub_diag in H2. unfold im_get in H2; simpl in H2. congruence. }
        split; [lia|]. replace (k - i) with (S (k - S i)) in H2 by lia. exact H2.
Qed.

Lemma im_iter_In : forall m k v, In (k, v) (im_iter m) <-> im_get m k = Some v.
Proof.
  intros. unfold im_iter. rewrite im_iter_from_In. rewrite Nat.sub_0_r.
  intuition lia.
Qed.

Lemma im_iter_from_sorted : forall m i,
  StronglySorted lt (map fst (im_iter_from i m)) /\
  Forall (fun k => i <= k) (map fst (im_iter_from i m)).
Proof.
  induction m as [|o m]; simpl; intros; [split; constructor|].
  destruct (IHm (S i)) as [H1 H2]. destruct o; simpl.
  - split.
    + constructor; auto.
    + constructor; auto. eapply Forall_impl; [|exact H2]. simpl; lia.
  - split; auto. eapply Forall_impl; [|exact H2]. simpl; lia.
Qed.

Lemma im_keys_sorted : forall m, StronglySorted lt (im_keys m).
Proof. intros. apply im_iter_from_sorted. Qed.

Lemma ssorted_lt_nodup : forall l, StronglySorted lt l -> NoDup l.
Proof.
  induction 1; constructor; auto. intro. rewrite Forall_forall in H0.
  specialize (H0 _ H1). lia.
Qed.

Lemma im_keys_nodup : forall m, NoDup (im_keys m).
Proof. intros. apply ssorted_lt_nodup, im_keys_sorted. Qed.

Lemma im_keys_In : forall m k, In k (im_keys m) <-> exists v, im_get m k = Some v.
Proof.
  intros. unfold im_keys. rewrite in_map_iff. split.
  - intros [[k' v] [E H]]. simpl in E; subst. exists v. now apply im_iter_In.
  - intros [v H]. exists (k, v). split; auto. now apply im_iter_In.
Qed.

Lemma im_values_In : forall m v, In v (im_values m) <-> exists k, im_get m k = Some v.
Proof.
  intros. unfold im_values. rewrite in_map_iff. split.
  - intros [[k v'] [E H]]. simpl in E; subst. exists k. now apply im_iter_In.
  - intros [k H]. exists (k, v). split; auto. now apply im_iter_In.
Qed.

Lemma im_iter_nodup : forall m, NoDup (im_iter m).
Proof. intros. apply (NoDup_map_inv fst). apply im_keys_nodup. Qed.

(** Two maps with the same lookups iterate alike. *)
Lemma sorted_unique : forall l1 l2 : list nat, StronglySorted lt l1 -> StronglySorted lt l2 ->
  (forall x, In x l1 <-> In x l2) -> l1 = l2.
Proof.
  induction l1 as [|a l1]; intros l2 H1 H2 H.
  - destruct l2 as [|b l2]; auto. exfalso. apply (H b); simpl; auto.
  - destruct l2 as [|b l2]; [exfalso; apply (H a); simpl; auto|].
    inversion H1; subst. inversion H2; subst.
    rewrite Forall_forall in *.
    assert (a = b).
    { destruct (proj1 (H a)) as [|Ha]; simpl; auto.
      destruct (proj2 (H b)) as [|Hb]; simpl; auto.
      specialize (H5 _ Hb). specialize (H7 _ Ha). lia. }
    subst b. f_equal. apply IHl1; auto. intros x. split; intros Hx.
    + destruct (proj1 (H x)); simpl; auto. subst. specialize (H5 _ Hx). lia.
    + destruct (proj2 (H x)); simpl; auto. subst. specialize (H7 _ Hx). lia.
Qed.

Lemma im_is_empty_spec : forall m, im_is_empty m = true <-> forall k, im_get m k = None.
Proof.
  unfold im_is_empty. intros. rewrite forallb_forall. split; intros.
  - unfold im_get. destruct (nth_error m k) as [[v|]|] eqn:E; auto.
    apply nth_error_In in E. apply H in E. discriminate.
  - destruct x; auto. apply In_nth_error in H0. destruct H0 as [n Hn].
    specialize (H n). unfold im_get in H. rewrite Hn in H. discriminate.
Qed.

Lemma im_get_retain_from : forall f m i k,
  im_get (im_retain_from i f m) k =
  match im_get m k with Some v => if f (i + k) v then Some v else None | None => None end.
Proof.
  induction m as [|o m]; intros; simpl.
  - unfold im_get. destruct k; reflexivity.
  - destruct k.
    + rewrite Nat.add_0_r. destruct o; simpl; unfold im_get; simpl; auto.
      destruct (f i v); reflexivity.
    + rewrite <- Nat.add_succ_comm.
      transitivity (im_get (im_retain_from (S i) f m) k);
        [destruct o; reflexivity | apply IHm].
Qed.

Lemma im_get_retain : forall f m k,
  im_get (im_retain f m) k =
  match im_get m k with Some v => if f k v then Some v else None | None => None end.
Proof. intros. unfold im_retain. rewrite im_get_retain_from. reflexivity. Qed.

(** Last occurrence of a key in an association list. *)
Definition assoc_last (l : list (nat * V)) (k : nat) (d : option V) : option V :=
  fold_left (fun acc kv => if Nat.eqb (fst kv) k then Some (snd kv) else acc) l d.

Lemma im_get_from_iter_gen : forall l m k,
  im_get (fold_left (fun m kv => im_insert m (fst kv) (snd kv)) l m) k
  = assoc_last l k (im_get m k).
Proof.
  induction l as [|[a v] l]; simpl; intros; auto.
  rewrite IHl. unfold assoc_last at 2. simpl. rewrite im_get_insert. reflexivity.
Qed.
Lemma im_get_from_iter : forall l k, im_get (im_from_iter l) k = assoc_last l k None.
Proof. intros. unfold im_from_iter. rewrite im_get_from_iter_gen, im_get_empty. reflexivity. Qed.

Lemma im_iter_keys_length : forall m, length (im_iter m) = length (im_keys m).
Proof. intros. unfold im_keys. now rewrite map_length. Qed.
End L.

Lemma im_keys_ext : forall (V W : Type) (m : imap V) (m2 : imap W),
  (forall k, (exists v, im_get m k = Some v) <-> (exists v, im_get m2 k = Some v)) ->
  im_keys m = im_keys m2.
Proof.
  intros. apply sorted_unique; try apply im_keys_sorted.
  intros x. rewrite !im_keys_In. apply H.
Qed.
