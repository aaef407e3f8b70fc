(** * Specification of Pauli products and their exponentials *)
From Coq Require Import Reals NArith List Bool.
From Verif Require Import Cx Bits Spec SimExp.
Import ListNotations.
Local Open Scope R_scope.

(** Matrix of a Pauli operator. *)
Definition pmat (p : pauli) : mat :=
  match p with PI_ => mI | PX_ => mX | PY_ => mY | PZ_ => mZ end.

(** Product of Pauli operators on the listed qubits. *)
Definition pauli_product (l : list (pauli * nat)) (psi : qstate) : qstate :=
  fold_right (fun pt psi => gate1 (pmat (fst pt)) (snd pt) psi) psi l.

(** exp(i theta P) = cos theta I + i sin theta P for the Pauli product P. *)
Definition exp_op (theta : R) (l : list (pauli * nat)) (psi : qstate) : qstate := fun b =>
  (RtoC (cos theta) * psi b + Ci * RtoC (sin theta) * pauli_product l psi b)%C.

(** [F] applied where all controls are 1. *)
Definition ctrl_op (ctls : list nat) (F : qstate -> qstate) (psi : qstate) : qstate := fun b =>
  if forallb (bit b) ctls then F psi b else psi b.
