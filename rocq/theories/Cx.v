(** * Complex numbers over the stdlib reals *)
From Coq Require Import Reals Lra Ring FunctionalExtensionality.
Local Open Scope R_scope.

Definition C := (R * R)%type.
Definition RtoC (x : R) : C := (x, 0).
Definition C0 : C := (0, 0).
Definition C1 : C := (1, 0).
Definition Ci : C := (0, 1).
Definition Cadd (a b : C) : C := (fst a + fst b, snd a + snd b).
Definition Copp (a : C) : C := (- fst a, - snd a).
Definition Csub (a b : C) : C := (fst a - fst b, snd a - snd b).
Definition Cmul (a b : C) : C :=
  (fst a * fst b - snd a * snd b, fst a * snd b + snd a * fst b).
Definition Conj (a : C) : C := (fst a, - snd a).
(** Squared modulus. *)
Definition Cn2 (a : C) : R := fst a * fst a + snd a * snd a.
(** [Cis x] is exp(i x). *)
Definition Cis (x : R) : C := (cos x, sin x).

Declare Scope C_scope.
Delimit Scope C_scope with C.
Bind Scope C_scope with C.
Infix "+" := Cadd : C_scope.
Infix "-" := Csub : C_scope.
Infix "*" := Cmul : C_scope.
Notation "- x" := (Copp x) : C_scope.

Lemma C_eq : forall a b : C, fst a = fst b -> snd a = snd b -> a = b.
Proof. intros [? ?] [? ?]; simpl; intros; subst; reflexivity. Qed.

Ltac cunfold := unfold C0, C1, Ci, RtoC, Cis, Cadd, Csub, Cmul, Copp, Conj, Cn2 in *.
Ltac csimp := repeat match goal with a : C |- _ => destruct a end; cunfold; simpl.
Ltac ceq := csimp; apply C_eq; simpl; ring.

Lemma C_ring_theory : ring_theory C0 C1 Cadd Cmul Csub Copp (@eq C).
Proof. constructor; intros; ceq. Qed.
Add Ring C_ring : C_ring_theory.

Lemma Cn2_nonneg : forall a, 0 <= Cn2 a.
Proof. intros [x y]. unfold Cn2; simpl. nra. Qed.
Lemma Cn2_mul : forall a b, Cn2 (a * b)%C = Cn2 a * Cn2 b.
Proof. intros; csimp; ring. Qed.
Lemma Cn2_opp : forall a, Cn2 (- a)%C = Cn2 a.
Proof. intros; csimp; ring. Qed.
Lemma Cn2_zero : forall a, Cn2 a = 0 -> a = C0.
Proof. intros [x y]; unfold Cn2; simpl; intros H.
  assert (x = 0) by nra. assert (y = 0) by nra. subst; reflexivity. Qed.
Lemma Cn2_C0 : Cn2 C0 = 0.
Proof. csimp; ring. Qed.
Lemma Cn2_C1 : Cn2 C1 = 1.
Proof. csimp; ring. Qed.
Lemma Cn2_Ci : Cn2 Ci = 1.
Proof. csimp; ring. Qed.
Lemma Cn2_RtoC : forall x, Cn2 (RtoC x) = x * x.
Proof. intros; csimp; ring. Qed.
Lemma Cn2_Cis : forall x, Cn2 (Cis x) = 1.
Proof. intros; csimp. generalize (sin2_cos2 x); unfold Rsqr; lra. Qed.
Lemma Conj_mul_self : forall a, (a * Conj a)%C = RtoC (Cn2 a).
Proof. intros; ceq. Qed.
