(** * C47: the index map is a finite map from identifiers *)
From Coq Require Import List Arith Bool Lia Sorted.
From Verif Require Import IndexMap IndexMapLemmas SpecIndexMap IndexMapThms.
Import ListNotations.

(** After any operations the map agrees with the ideal one: lookup, membership, emptiness. *)
Theorem C47_get : forall (V : Type) (l : list (op V)),
  (forall k, im_get (real l) k = ideal l k) /\
  (forall k, im_contains (real l) k = true <-> ideal l k <> None) /\
  (im_is_empty (real l) = true <-> forall k, ideal l k = None).
Proof.
  intros V l. assert (G : forall k, im_get (real l) k = ideal l k) by (apply real_get; apply im_get_empty).
  split; auto. split.
  - intros k. rewrite im_contains_get, <- G. destruct (im_get (real l) k); split; eauto; try congruence. intros [v H]. discriminate.
  - rewrite im_is_empty_spec. split; intros H k; [rewrite <- G|rewrite G]; auto.
Qed.
Print Assumptions C47_get.
(** Iteration lists the present keys in increasing order, each once, with their values. *)
Theorem C47_iter : forall (V : Type) (l : list (op V)),
  StronglySorted lt (map fst (im_iter (real l))) /\
  (forall k v, In (k, v) (im_iter (real l)) <-> ideal l k = Some v) /\
  im_values (real l) = map snd (im_iter (real l)) /\ fst (im_drain (real l)) = im_iter (real l).
Proof.
  intros V l. split; [apply im_keys_sorted|]. split; [|auto].
  intros k v. rewrite im_iter_In, (proj1 (C47_get V l)). tauto.
Qed.
Print Assumptions C47_iter.
(** Taking items from both ends in any order: together they are the iteration, nothing twice, nothing lost. *)
Theorem C47_both_ends : forall (V : Type) (m : imap V) (l : list bool) fr bk c,
  length (im_iter m) <= length l -> drive (im_start m) l = (fr, bk, c) -> fr ++ rev bk = im_iter m.
Proof.
  intros V m l fr bk c L H. pose proof (drive_rest _ _ _ _ _ H) as R. rewrite (drive_done _ _ _ _ _ H L) in R. exact R.
Qed.
Print Assumptions C47_both_ends.
(** Building from a list keeps the last value of each key. *)
Theorem C47_from_iter : forall (V : Type) (l : list (nat * V)) k,
  im_get (im_from_iter l) k = ideal (map (fun kv => Insert (fst kv) (snd kv)) l) k.
Proof.
  intros V l k. rewrite <- (proj1 (C47_get V _)). f_equal. unfold im_from_iter, real.
  generalize (@im_empty V). induction l as [|x l IH]; simpl; intros m; auto.
Qed.
Print Assumptions C47_from_iter.
Example C47_ex : let l := [Insert 3 7; Insert 1 5; Remove 3; ModifyOr 4 0 S; Insert 1 6; Modify 9 S; Insert 2 9; Retain (fun k _ => negb (Nat.eqb k 2))] in
  im_iter (real l) = [(1, 6); (4, 1)] /\ ideal l 1 = Some 6 /\ ideal l 3 = None /\
  drive (im_start (real l)) [false; true; true] = ([(1, 6)], [(4, 1)], (4, [])).
Proof. vm_compute. auto. Qed.
