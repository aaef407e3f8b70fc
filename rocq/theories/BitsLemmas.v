(** * Lemmas about bit operations *)
From Coq Require Import NArith List Bool Lia Arith PeanoNat.
From Verif Require Import Bits.
Import ListNotations.

#[global] Arguments set_bit : simpl never.
#[global] Arguments bit : simpl never.
#[global] Arguments flip_bit : simpl never.

Lemma bits_ext : forall a b, (forall i, bit a i = bit b i) -> a = b.
Proof.
  intros a b H. apply N.bits_inj. intros n.
  specialize (H (N.to_nat n)). unfold bit in H. rewrite N2Nat.id in H. exact H.
Qed.

Lemma bit_set_same : forall k i v, bit (set_bit k i v) i = v.
Proof.
  intros. unfold bit, set_bit. destruct v.
  - apply N.setbit_eq.
  - apply N.clearbit_eq.
Qed.

Lemma bit_set_other : forall k i j v, i <> j -> bit (set_bit k i v) j = bit k j.
Proof.
  intros. unfold bit, set_bit. destruct v.
  - apply N.setbit_neq. lia.
  - apply N.clearbit_neq. lia.
Qed.

Lemma bit_set : forall k i j v, bit (set_bit k i v) j = if Nat.eqb i j then v else bit k j.
Proof.
  intros. destruct (Nat.eqb_spec i j).
  - subst. apply bit_set_same.
  - apply bit_set_other; auto.
Qed.

Lemma bit_zero : forall i, bit 0 i = false.
Proof. intros. unfold bit. apply N.bits_0. Qed.

Lemma bit_one_bit : forall i j, bit (one_bit i) j = Nat.eqb i j.
Proof.
  intros. unfold one_bit. rewrite bit_set, bit_zero.
  destruct (Nat.eqb i j); reflexivity.
Qed.

Lemma bit_lxor : forall a b i, bit (N.lxor a b) i = xorb (bit a i) (bit b i).
Proof. intros. unfold bit. apply N.lxor_spec. Qed.
Lemma bit_lor : forall a b i, bit (N.lor a b) i = orb (bit a i) (bit b i).
Proof. intros. unfold bit. apply N.lor_spec. Qed.
Lemma bit_land : forall a b i, bit (N.land a b) i = andb (bit a i) (bit b i).
Proof. intros. unfold bit. apply N.land_spec. Qed.

Lemma set_set_same : forall k i u v, set_bit (set_bit k i u) i v = set_bit k i v.
Proof.
  intros. apply bits_ext. intros j. rewrite !bit_set. destruct (Nat.eqb i j); reflexivity.
Qed.

Lemma set_set_comm : forall k i j u v, i <> j ->
  set_bit (set_bit k i u) j v = set_bit (set_bit k j v) i u.
Proof.
  intros. apply bits_ext. intros x. rewrite !bit_set.
  destruct (Nat.eqb_spec i x); destruct (Nat.eqb_spec j x); subst; try reflexivity. congruence.
Qed.

Lemma set_bit_id : forall k i, set_bit k i (bit k i) = k.
Proof.
  intros. apply bits_ext. intros x. rewrite bit_set.
  destruct (Nat.eqb_spec i x); subst; reflexivity.
Qed.

Lemma set_bit_id' : forall k i v, bit k i = v -> set_bit k i v = k.
Proof. intros; subst; apply set_bit_id. Qed.

Lemma flip_lxor : forall k i, N.lxor k (one_bit i) = flip_bit k i.
Proof.
  intros. apply bits_ext. intros j. unfold flip_bit.
  rewrite bit_lxor, bit_one_bit, bit_set.
  destruct (Nat.eqb_spec i j); subst.
  - destruct (bit k j); reflexivity.
  - destruct (bit k j); reflexivity.
Qed.

Lemma lor_one_bit : forall k i, N.lor k (one_bit i) = set_bit k i true.
Proof.
  intros. apply bits_ext. intros j.
  rewrite bit_lor, bit_one_bit, bit_set.
  destruct (Nat.eqb i j); [apply orb_true_r | apply orb_false_r].
Qed.

Lemma bit_flip_same : forall k i, bit (flip_bit k i) i = negb (bit k i).
Proof. intros. unfold flip_bit. apply bit_set_same. Qed.
Lemma bit_flip_other : forall k i j, i <> j -> bit (flip_bit k i) j = bit k j.
Proof. intros. unfold flip_bit. apply bit_set_other; auto. Qed.
Lemma flip_flip : forall k i, flip_bit (flip_bit k i) i = k.
Proof.
  intros. unfold flip_bit at 1. rewrite bit_flip_same, negb_involutive.
  unfold flip_bit. rewrite set_set_same. apply set_bit_id.
Qed.
Lemma flip_inj : forall a b i, flip_bit a i = flip_bit b i -> a = b.
Proof. intros. rewrite <- (flip_flip a i), <- (flip_flip b i). congruence. Qed.
Lemma set_flip : forall k i v, set_bit (flip_bit k i) i v = set_bit k i v.
Proof. intros. unfold flip_bit. apply set_set_same. Qed.
Lemma flip_as_set : forall k i v, bit k i = v -> flip_bit k i = set_bit k i (negb v).
Proof. intros; subst; reflexivity. Qed.

Lemma forallb_bit_set : forall cs k i v, ~ In i cs ->
  forallb (bit (set_bit k i v)) cs = forallb (bit k) cs.
Proof.
  induction cs; simpl; intros; auto.
  rewrite bit_set_other by (intro; subst; tauto).
  rewrite IHcs by tauto. reflexivity.
Qed.
Lemma forallb_bit_flip : forall cs k i, ~ In i cs ->
  forallb (bit (flip_bit k i)) cs = forallb (bit k) cs.
Proof. intros; apply forallb_bit_set; auto. Qed.
