(** * Lemmas about sparse states as association lists *)
From Coq Require Import NArith List Bool Lia Permutation Arith.
From Verif Require Import Arith IndexMap Bits BitsLemmas Sim.
Import ListNotations.

Section S.
Context {AR : Arith} {EN : Env}.
Implicit Types (l m : sstate) (k : N).

Definition keys (l : sstate) : list N := map fst l.

Lemma hm_get_In : forall l k v, hm_get l k = Some v -> In (k, v) l.
Proof.
  induction l as [|[k' v'] l]; simpl; intros; [discriminate|].
  destruct (N.eqb_spec k' k); subst; auto. left; congruence.
Qed.

Lemma In_keys : forall l k v, In (k, v) l -> In k (keys l).
Proof. intros. apply (in_map fst) in H. exact H. Qed.

Lemma In_hm_get : forall l k v, NoDup (keys l) -> In (k, v) l -> hm_get l k = Some v.
Proof.
  induction l as [|[k' v'] l]; simpl; intros; [tauto|].
  inversion H; subst. destruct H0.
  - inversion H0; subst. now rewrite N.eqb_refl.
  - destruct (N.eqb_spec k' k); auto. subst. apply In_keys in H0. tauto.
Qed.

Lemma hm_get_None : forall l k, hm_get l k = None <-> ~ In k (keys l).
Proof.
  induction l as [|[k' v'] l]; simpl; intros; [tauto|].
  destruct (N.eqb_spec k' k).
  - split; [discriminate|]. intros. exfalso. tauto.
  - rewrite IHl. split; tauto.
Qed.

Lemma hm_get_keys : forall l k, (exists v, hm_get l k = Some v) <-> In k (keys l).
Proof.
  intros. destruct (hm_get l k) eqn:E.
  - split; [|eauto]. intros _. apply hm_get_In in E. eapply In_keys; eauto.
  - split; [intros [v H]; discriminate|]. intros. apply hm_get_None in E. tauto.
Qed.

Lemma hm_get_perm : forall l l' k, NoDup (keys l) -> Permutation l l' ->
  hm_get l k = hm_get l' k.
Proof.
  intros l l' k H P.
  assert (H' : NoDup (keys l')).
  { eapply Permutation_NoDup; [|exact H]. apply Permutation_map; auto. }
  destruct (hm_get l k) eqn:E.
  - symmetry. apply In_hm_get; auto. eapply Permutation_in; eauto. apply hm_get_In; auto.
  - symmetry. apply hm_get_None. apply hm_get_None in E. intro. apply E.
    eapply Permutation_in; [|exact H0]. apply Permutation_sym, Permutation_map; auto.
Qed.

(** Equality of lookups from membership. *)
Lemma hm_get_eq : forall l k o, NoDup (keys l) ->
  (forall v, o = Some v -> In (k, v) l) -> (o = None -> ~ In k (keys l)) -> hm_get l k = o.
Proof.
  intros. destruct o.
  - apply In_hm_get; auto.
  - apply hm_get_None; auto.
Qed.

Lemma hm_put_fresh : forall m k v, ~ In k (keys m) -> hm_put m k v = m ++ [(k, v)].
Proof.
  induction m as [|[k' v'] m]; simpl; intros; auto.
  destruct (N.eqb_spec k' k).
  - exfalso; tauto.
  - rewrite IHm; auto.
Qed.

Lemma hm_from_app : forall l m, NoDup (keys (m ++ l)) ->
  fold_left (fun m kv => hm_put m (fst kv) (snd kv)) l m = m ++ l.
Proof.
  induction l as [|[k v] l]; simpl; intros; [now rewrite app_nil_r|].
  rewrite hm_put_fresh.
  - rewrite IHl; rewrite <- app_assoc; auto.
  - unfold keys in *. rewrite map_app in H. simpl in H. apply NoDup_remove_2 in H.
    intro. apply H. apply in_or_app; auto.
Qed.

Lemma hm_from_nodup : forall l, NoDup (keys l) -> hm_from l = l.
Proof. intros. unfold hm_from. apply hm_from_app. auto. Qed.

Definition horder_ok := forall l, Permutation (horder l) l.

Lemma hm_collect_perm : forall l, horder_ok -> NoDup (keys l) -> Permutation (hm_collect l) l.
Proof. intros. unfold hm_collect. rewrite hm_from_nodup by auto. apply H. Qed.

Lemma perm_keys : forall l l', Permutation l l' -> Permutation (keys l) (keys l').
Proof. intros. apply Permutation_map; auto. Qed.
Lemma perm_nodup_keys : forall l l', Permutation l l' -> NoDup (keys l) -> NoDup (keys l').
Proof. intros. eapply Permutation_NoDup; [apply perm_keys|]; eauto. Qed.

(** ** Mapping keys injectively *)
Lemma keys_map : forall (g : N * amp -> N * amp) l phi,
  (forall kv, fst (g kv) = phi (fst kv)) -> keys (map g l) = map phi (keys l).
Proof. intros. unfold keys. rewrite !map_map. apply map_ext. auto. Qed.

Lemma NoDup_map_inj : forall (A B : Type) (f : A -> B) (l : list A),
  (forall x y, In x l -> In y l -> f x = f y -> x = y) -> NoDup l -> NoDup (map f l).
Proof.
  induction l; simpl; intros; [constructor|]. inversion H0; subst. constructor; auto.
  intro. apply in_map_iff in H1. destruct H1 as [y [E Hy]].
  apply H in E; auto. subst. tauto.
Qed.

Lemma hm_get_map : forall l phi psi (w : N -> amp -> amp) k,
  (forall x, psi (phi x) = x) -> (forall x, phi (psi x) = x) ->
  hm_get (map (fun kv => (phi (fst kv), w (fst kv) (snd kv))) l) k
  = option_map (w (psi k)) (hm_get l (psi k)).
Proof.
  induction l as [|[k' v'] l]; simpl; intros; auto.
  destruct (N.eqb_spec (phi k') k).
  - subst. rewrite H, N.eqb_refl. reflexivity.
  - destruct (N.eqb_spec k' (psi k)).
    + subst. rewrite H0 in n. congruence.
    + apply IHl; auto.
Qed.

(** ** flat_map *)
Lemma NoDup_app_intro : forall (A : Type) (l1 l2 : list A),
  NoDup l1 -> NoDup l2 -> (forall x, In x l1 -> In x l2 -> False) -> NoDup (l1 ++ l2).
Proof.
  induction l1; simpl; intros; auto. inversion H; subst. constructor.
  - rewrite in_app_iff. intros [?|?]; eauto.
  - apply IHl1; auto. intros; eapply H1; eauto.
Qed.

Lemma keys_flat_map_In : forall f l k,
  In k (keys (flat_map f l)) <-> exists kv, In kv l /\ In k (keys (f kv)).
Proof.
  intros. unfold keys. rewrite in_map_iff. split.
  - intros [x [E H]]. apply in_flat_map in H. destruct H as [kv [H1 H2]].
    exists kv. split; auto. apply in_map_iff. eauto.
  - intros [kv [H1 H2]]. apply in_map_iff in H2. destruct H2 as [x [E H2]].
    exists x. split; auto. apply in_flat_map. eauto.
Qed.

Lemma NoDup_flat_map : forall f l, NoDup (keys l) ->
  (forall kv, In kv l -> NoDup (keys (f kv))) ->
  (forall kv kv' k, In kv l -> In kv' l -> In k (keys (f kv)) -> In k (keys (f kv')) ->
     fst kv = fst kv') ->
  NoDup (keys (flat_map f l)).
Proof.
  induction l as [|kv l]; simpl; intros; [constructor|].
  inversion H; subst.
  unfold keys. rewrite map_app. apply NoDup_app_intro.
  - apply H0; auto.
  - apply IHl; auto. intros; eapply H1; eauto.
  - intros x Hx Hy. change (In x (keys (flat_map f l))) in Hy.
    apply keys_flat_map_In in Hy. destruct Hy as [kv' [Hk Hy]].
    assert (fst kv = fst kv') by (eapply (H1 kv kv' x); eauto).
    apply H4. rewrite H2. apply in_map; auto.
Qed.

(** ** Filtering and rescaling *)
Lemma keys_flat_map_filter : forall (p : N -> bool) (w : N -> amp -> amp) l,
  keys (flat_map (fun kv => if p (fst kv) then [(fst kv, w (fst kv) (snd kv))] else []) l)
  = filter p (keys l).
Proof.
  induction l as [|[k v] l]; simpl; auto. destruct (p k); simpl; rewrite IHl; reflexivity.
Qed.

Lemma hm_get_flat_map_filter : forall (p : N -> bool) (w : N -> amp -> amp) l k,
  hm_get (flat_map (fun kv => if p (fst kv) then [(fst kv, w (fst kv) (snd kv))] else []) l) k
  = if p k then option_map (w k) (hm_get l k) else None.
Proof.
  induction l as [|[k' v] l]; simpl; intros.
  - destruct (p k); reflexivity.
  - destruct (p k') eqn:E; simpl.
    + destruct (N.eqb_spec k' k).
      * subst. rewrite E. reflexivity.
      * apply IHl.
    + rewrite IHl. destruct (N.eqb_spec k' k); auto. subst. rewrite E. reflexivity.
Qed.

(** ** Pairing each key with its image under an involution *)
Section Pair.
Variables (phi : N -> N) (ctl sel : N -> bool).
Hypothesis phi_inv : forall k, phi (phi k) = k.
Hypothesis phi_ne : forall k, phi k <> k.
Hypothesis ctl_phi : forall k, ctl (phi k) = ctl k.
Hypothesis sel_phi : forall k, sel (phi k) = negb (sel k).
Variables (s0 s1 : N -> amp -> amp) (t0 t1 : N -> amp -> amp -> bool) (p0 p1 : N -> amp -> amp -> amp).
Variable m : sstate.
Hypothesis m_nodup : NoDup (keys m).
Variable f : N * amp -> sstate.

Definition emit (b : bool) (k : N) (v : amp) : sstate := if b then [] else [(k, v)].
Definition emo (b : bool) (v : amp) : option amp := if b then None else Some v.

Hypothesis F1 : forall k v, ctl k = false -> f (k, v) = [(k, v)].
Hypothesis F2 : forall k v, ctl k = true -> hm_get m (phi k) = None ->
  Permutation (f (k, v)) [(k, s0 k v); (phi k, s1 k v)].
Hypothesis F3 : forall k v w, ctl k = true -> hm_get m (phi k) = Some w -> sel k = true ->
  f (k, v) = [].
Hypothesis F4 : forall k v w, ctl k = true -> hm_get m (phi k) = Some w -> sel k = false ->
  f (k, v) = emit (t0 k v w) k (p0 k v w) ++ emit (t1 k v w) (phi k) (p1 k v w).

Lemma pair_keys : forall k v x, In x (keys (f (k, v))) -> x = k \/ (ctl k = true /\ x = phi k).
Proof.
  intros k v x H. destruct (ctl k) eqn:E.
  - destruct (hm_get m (phi k)) eqn:G.
    + destruct (sel k) eqn:S.
      * erewrite F3 in H by eauto. simpl in H. tauto.
      * erewrite F4 in H by eauto. unfold keys in H. rewrite map_app, in_app_iff in H.
        unfold emit in H. destruct (t0 _ _ _), (t1 _ _ _); simpl in H; intuition.
    + apply (Permutation_in x (perm_keys _ _ (F2 k v E G))) in H. simpl in H. intuition.
  - rewrite F1 in H by auto. simpl in H. intuition.
Qed.

Lemma pair_entry_nodup : forall k v, NoDup (keys (f (k, v))).
Proof.
  intros. destruct (ctl k) eqn:E.
  - destruct (hm_get m (phi k)) eqn:G.
    + destruct (sel k) eqn:S.
      * erewrite F3 by eauto. constructor.
      * erewrite F4 by eauto. unfold emit.
        assert (phi k <> k) by auto.
        destruct (t0 _ _ _), (t1 _ _ _); simpl; repeat constructor; simpl; intuition.
    + eapply perm_nodup_keys; [apply Permutation_sym, F2; auto|].
      assert (phi k <> k) by auto.
      simpl; repeat constructor; simpl; intuition.
  - rewrite F1 by auto. simpl; repeat constructor; simpl; tauto.
Qed.

Lemma pair_nodup : NoDup (keys (flat_map f m)).
Proof.
  apply NoDup_flat_map; auto.
  - intros [k v] _. apply pair_entry_nodup.
  - intros [k v] [k' v'] x H H' Hx Hx'. simpl.
    destruct (pair_keys _ _ _ Hx) as [->|[C ->]].
    + destruct (pair_keys _ _ _ Hx') as [->|[C' E]]; auto. exfalso.
      assert (G : hm_get m (phi k') = Some v) by (apply In_hm_get; auto; now rewrite <- E).
      assert (G' : hm_get m (phi k) = Some v') by (apply In_hm_get; auto; now rewrite E, phi_inv).
      destruct (sel k') eqn:S.
      * erewrite F3 in Hx' by eauto. simpl in Hx'. tauto.
      * assert (ctl k = true) by (rewrite E, ctl_phi; auto).
        assert (sel k = true) by (rewrite E, sel_phi, S; auto).
        erewrite (F3 k) in Hx by eauto. simpl in Hx. tauto.
    + destruct (pair_keys _ _ _ Hx') as [E|[C' E]].
      * exfalso.
        assert (G : hm_get m (phi k') = Some v) by (apply In_hm_get; auto; now rewrite <- E, phi_inv).
        assert (G' : hm_get m (phi k) = Some v') by (apply In_hm_get; auto; now rewrite E).
        destruct (sel k) eqn:S.
        { erewrite F3 in Hx by eauto. simpl in Hx. tauto. }
        assert (ctl k' = true) by (rewrite <- E, ctl_phi; auto).
        assert (sel k' = true) by (rewrite <- E, sel_phi, S; auto).
        erewrite (F3 k') in Hx' by eauto. simpl in Hx'. tauto.
      * rewrite <- (phi_inv k), <- (phi_inv k'). congruence.
Qed.

Definition pair_get (k : N) : option amp :=
  if ctl k then
    match hm_get m k, hm_get m (phi k) with
    | None, None => None
    | Some v, None => Some (s0 k v)
    | None, Some w => Some (s1 (phi k) w)
    | Some v, Some w =>
        if sel k then emo (t1 (phi k) w v) (p1 (phi k) w v) else emo (t0 k v w) (p0 k v w)
    end
  else hm_get m k.

Lemma emit_In : forall b k v x, In (k, x) (emit b k v) <-> emo b v = Some x.
Proof.
  intros. unfold emit, emo. destruct b; simpl; split; try tauto; try congruence.
  - intros [H|[]]; congruence.
  - intros H; left; congruence.
Qed.

Lemma pair_In : forall k x, pair_get k = Some x -> In (k, x) (flat_map f m).
Proof.
  intros k x H. unfold pair_get in H. apply in_flat_map. destruct (ctl k) eqn:E.
  - destruct (hm_get m k) as [v|] eqn:Gk; destruct (hm_get m (phi k)) as [w|] eqn:Gp;
      try discriminate.
    + destruct (sel k) eqn:S.
      * exists (phi k, w). split; [apply hm_get_In; auto|].
        erewrite F4; [| now rewrite ctl_phi | rewrite phi_inv; eauto | now rewrite sel_phi, S].
        rewrite phi_inv. apply in_or_app. right. apply emit_In. auto.
      * exists (k, v). split; [apply hm_get_In; auto|].
        erewrite F4; eauto. apply in_or_app. left. apply emit_In. auto.
    + exists (k, v). split; [apply hm_get_In; auto|].
      eapply Permutation_in; [apply Permutation_sym, F2; auto|]. simpl. left; congruence.
    + exists (phi k, w). split; [apply hm_get_In; auto|].
      eapply Permutation_in; [apply Permutation_sym, F2; auto|].
      * now rewrite ctl_phi.
      * now rewrite phi_inv.
      * simpl. right; left. rewrite phi_inv. congruence.
  - exists (k, x). split; [apply hm_get_In; auto|]. rewrite F1 by auto. simpl; auto.
Qed.

Lemma pair_not_In : forall k, pair_get k = None -> ~ In k (keys (flat_map f m)).
Proof.
  intros k H Hi. apply keys_flat_map_In in Hi. destruct Hi as [[k' v'] [H1 H2]].
  assert (G' : hm_get m k' = Some v') by (apply In_hm_get; auto).
  unfold pair_get in H.
  destruct (pair_keys _ _ _ H2) as [->|[C ->]].
  - rewrite G' in H. destruct (ctl k') eqn:E; [|discriminate].
    destruct (hm_get m (phi k')) as [w|] eqn:Gp; [|discriminate].
    destruct (sel k') eqn:S.
    + erewrite F3 in H2 by eauto. simpl in H2. tauto.
    + erewrite F4 in H2 by eauto. unfold keys in H2. rewrite map_app, in_app_iff in H2.
      unfold emo in H. destruct (t0 k' v' w) eqn:T; [|discriminate].
      unfold emit in H2; simpl in H2. destruct H2 as [H2|H2]; [tauto|].
      destruct (t1 _ _ _); simpl in H2; [tauto|]. destruct H2 as [H2|[]]. now apply phi_ne in H2.
  - rewrite ctl_phi, C, phi_inv, G' in H.
    destruct (hm_get m (phi k')) as [w|] eqn:Gp; [|discriminate].
    rewrite sel_phi in H. destruct (sel k') eqn:S; simpl in H.
    + erewrite F3 in H2 by eauto. simpl in H2. tauto.
    + erewrite F4 in H2 by eauto. unfold keys in H2. rewrite map_app, in_app_iff in H2.
      unfold emo in H. destruct (t1 k' v' w) eqn:T; [|discriminate].
      unfold emit in H2; simpl in H2. destruct H2 as [H2|H2]; [|tauto].
      destruct (t0 _ _ _); simpl in H2; [tauto|]. destruct H2 as [H2|[]].
      symmetry in H2. now apply phi_ne in H2.
Qed.

Lemma pair_lookup : forall k, hm_get (flat_map f m) k = pair_get k.
Proof.
  intros. apply hm_get_eq.
  - apply pair_nodup.
  - intros; apply pair_In; auto.
  - apply pair_not_In.
Qed.

Lemma pair_both : NoDup (keys (flat_map f m)) /\ forall k, hm_get (flat_map f m) k = pair_get k.
Proof. split; [apply pair_nodup | apply pair_lookup]. Qed.
End Pair.
End S.
