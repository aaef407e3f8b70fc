(** * Specification of an arbitrary matrix on a list of qubits *)
From Coq Require Import Reals NArith List Bool.
From Verif Require Import Cx Bits Spec.
Import ListNotations.
Local Open Scope R_scope.

Definition Csum (l : list C) : C := fold_right Cadd C0 l.

(** The number written by the qubits [qs] in [b], first qubit most significant. *)
Fixpoint msb_index (qs : list nat) (b : N) : nat :=
  match qs with
  | [] => 0%nat
  | q :: qs' => ((if bit b q then Nat.pow 2 (length qs') else 0) + msb_index qs' b)%nat
  end.

(** [b] with the qubits [qs] set so that they write the number [x]. *)
Fixpoint assign (qs : list nat) (x : nat) (b : N) : N :=
  match qs with
  | [] => b
  | q :: qs' => set_bit (assign qs' x b) q (bit (N.of_nat x) (length qs'))
  end.

(** The 2^n x 2^n matrix [U] on the n qubits [qs]. *)
Definition mat_op (U : nat -> nat -> C) (qs : list nat) (psi : qstate) : qstate := fun b =>
  Csum (map (fun l => U (msb_index qs b) l * psi (assign qs l b))%C (seq 0 (Nat.pow 2 (length qs)))).

(** The matrix preserves lengths of vectors of dimension [d]. *)
Definition isometry (d : nat) (U : nat -> nat -> C) : Prop := forall v : nat -> C,
  Rsum (map (fun r => Cn2 (Csum (map (fun l => U r l * v l)%C (seq 0 d)))) (seq 0 d)) =
  Rsum (map (fun l => Cn2 (v l)) (seq 0 d)).
