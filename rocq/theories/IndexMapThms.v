(** * Lemmas about histories of operations on a map *)
From Coq Require Import List Arith Bool Lia Sorted.
From Verif Require Import IndexMap IndexMapLemmas SpecIndexMap.
Import ListNotations.

Section Thms.
Context {V : Type}.
Lemma get_map_from : forall (f : nat -> V -> V) (m : imap V) i k, im_get (im_map_from i f m) k = option_map (f (i + k)) (im_get m k).
Proof.
  induction m as [|o m IH]; intros i k; simpl; [unfold im_get; destruct k; reflexivity|].
  destruct k.
  - rewrite Nat.add_0_r. destruct o; reflexivity.
  - rewrite <- Nat.add_succ_comm. transitivity (im_get (im_map_from (S i) f m) k); [destruct o; reflexivity|apply IH].
Qed.
Lemma real_get : forall l (m : imap V) g, (forall k, im_get m k = g k) -> forall k, im_get (fold_left real1 l m) k = fold_left ideal1 l g k.
Proof.
  induction l as [|o l IH]; intros m g H k; simpl; auto. apply IH. clear k. intros k. destruct o; simpl; unfold put.
  - rewrite im_get_insert, Nat.eqb_sym, H. auto.
  - rewrite im_get_remove, Nat.eqb_sym, H. auto.
  - rewrite im_get_update, Nat.eqb_sym, H. destruct (Nat.eqb_spec k k0); subst; auto.
  - unfold im_update_or. rewrite im_get_insert, Nat.eqb_sym, !H. auto.
  - rewrite im_get_retain, H. auto.
  - rewrite get_map_from, H. auto.
  - apply im_get_empty.
  - apply im_get_empty.
Qed.
Definition rest (c : im_cursor (V := V)) := im_iter_from (fst c) (snd c).
Lemma iter_from_app : forall (a b : imap V) i, im_iter_from i (a ++ b) = im_iter_from i a ++ im_iter_from (i + length a) b.
Proof.
  induction a as [|o a IH]; intros b i; simpl; [rewrite Nat.add_0_r; auto|]. rewrite IH, Nat.add_succ_comm. destruct o; auto.
Qed.
Lemma next_rest : forall c x c', im_next c = (x, c') ->
  rest c = match x with Some e => e :: rest c' | None => rest c' end /\ (x = None -> rest c = []).
Proof.
  intros [i m]. unfold im_next, rest. simpl. revert i. induction m as [|[v|] m IH]; simpl; intros i x c' H.
  - inversion H; subst. auto.
  - inversion H; subst. simpl. split; auto. discriminate.
  - eauto.
Qed.
Lemma back_rest : forall c x c', im_next_back c = (x, c') ->
  rest c = match x with Some e => rest c' ++ [e] | None => rest c' end /\ (x = None -> rest c = []).
Proof.
  intros [i m]. unfold im_next_back, rest. simpl. assert (E : m = rev (rev m)) by (symmetry; apply rev_involutive).
  remember (rev m) as r eqn:R. clear R. subst m. induction r as [|[v|] r IH]; simpl; intros x c' H.
  - inversion H; subst. auto.
  - inversion H; subst. simpl. rewrite iter_from_app. simpl. rewrite rev_length. split; auto. discriminate.
  - rewrite iter_from_app. simpl. rewrite app_nil_r. eauto.
Qed.
Lemma drive_rest : forall l c fr bk c', drive c l = (fr, bk, c') -> fr ++ rest c' ++ rev bk = rest c.
Proof.
  induction l as [|b l IH]; simpl; intros c fr bk c' H; [inversion H; subst; simpl; apply app_nil_r|].
  destruct b.
  - destruct (im_next c) as [x c1] eqn:E. destruct (drive c1 l) as [[fr1 bk1] c2] eqn:D. apply IH in D. apply next_rest in E. destruct E as [E _].
    destruct x; inversion H; subst; simpl; rewrite E, D; auto.
  - destruct (im_next_back c) as [x c1] eqn:E. destruct (drive c1 l) as [[fr1 bk1] c2] eqn:D. apply IH in D. apply back_rest in E. destruct E as [E _].
    destruct x; inversion H; subst; simpl; rewrite E, <- D, ?app_assoc; auto.
Qed.
Lemma drive_done : forall l c fr bk c', drive c l = (fr, bk, c') -> length (rest c) <= length l -> rest c' = [].
Proof.
  induction l as [|b l IH]; simpl; intros c fr bk c' H L.
  - inversion H; subst. destruct (rest c'); auto. simpl in L. lia.
  - destruct b.
    + destruct (im_next c) as [x c1] eqn:E. destruct (drive c1 l) as [[fr1 bk1] c2] eqn:D. apply next_rest in E. destruct E as [E N].
      assert (c2 = c') by (destruct x; inversion H; auto). subst c2. eapply IH; eauto. destruct x; rewrite E in L; simpl in L; [lia|].
      rewrite N in E by auto. rewrite <- E. simpl. lia.
    + destruct (im_next_back c) as [x c1] eqn:E. destruct (drive c1 l) as [[fr1 bk1] c2] eqn:D. apply back_rest in E. destruct E as [E N].
      assert (c2 = c') by (destruct x; inversion H; auto). subst c2. eapply IH; eauto. destruct x; rewrite E in L; [rewrite app_length in L; simpl in L; lia|].
      rewrite N in E by auto. rewrite <- E. simpl. lia.
Qed.
End Thms.
