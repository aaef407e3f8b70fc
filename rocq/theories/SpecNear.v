(** * Specification of the truncation error

    Distance between state vectors, and how many truncating steps a call takes. *)
From Coq Require Import Reals NArith List.
From Verif Require Import Cx Bits Spec ArithR SpecRun.
Import ListNotations.
Local Open Scope R_scope.

(** Pointwise difference. *)
Definition qdiff (phi psi : qstate) : qstate := fun b => (phi b - psi b)%C.

(** Euclidean distance of two vectors on the qubits below [n]. *)
Definition dist (n : nat) (phi psi : qstate) : R := sqrt (norm2 n (qdiff phi psi)).

(** What one truncating step can change on [n] qubits: real and imaginary part of
    each of the 2^n amplitudes by at most [tol]. *)
Definition unit_err {T : Tol} (n : nat) : R := tol * sqrt (2 * 2 ^ n).

(** The calls that neither measure, release nor apply a matrix. *)
Definition soft (c : call) : Prop :=
  match c with
  | CApply _ _ _ _ _ | CRelease _ | CMeasure _ | CJointMeasure _ | CForce _ _ => False
  | _ => True
  end.

(** The calls other than the application of a matrix. *)
Definition no_matrix (c : call) : Prop := match c with CApply _ _ _ _ _ => False | _ => True end.

(** The exact effect of such calls (which depends neither on the sample nor on
    the list of allocated qubits that [vstep] takes). *)
Definition evolve (h : list call) (psi : qstate) : qstate := fold_left (fun phi c => vstep [] phi 0 c) h psi.

(** The number of truncating steps charged to a call, [l] being the allocated
    qubits: linear in the number of qubits it names. *)
Definition cost (l : list nat) (c : call) : nat :=
  match c with
  | CGate _ _ => 4
  | CMc _ cs _ | CPhase cs _ _ => 7 * (1 + length cs)
  | CExp _ _ ts => 3 * length ts + 1
  | CMcExp cs _ _ ts => 3 * (length cs + length ts) + 1
  | CJointProb qs => 3 * length qs
  | CIsZero _ => 3
  | CState | CDump => 3 * length l
  | _ => 0
  end.
Fixpoint total_cost (b : book) (h : list call) : nat :=
  match h with [] => 0 | c :: h' => cost (live b) c + total_cost (bstep b c) h' end.

(** A condition on the calls alone that rules out the defect of [C01_refuted] for
    every threshold: there is no single-qubit [ry], or no sum of the single-qubit
    [rx] angles used comes within the threshold of an odd multiple of pi. *)
Definition far_from_odd_pi {T : Tol} (h : list call) : Prop :=
  Forall (fun c => ~ is_ry c) h \/
  exists G, subgroup G /\ (forall a, G a -> tol < Rabs (cos (a / 2))) /\ Forall (rx_angles G) h.
