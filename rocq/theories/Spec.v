(** * Specification: state vectors and textbook gates

    Nothing here refers to the simulator.  A basis assignment is a number whose
    bit [i] is the value of the qubit with identifier [i].  A (pure) quantum
    state gives each assignment a complex amplitude. *)
From Coq Require Import Reals NArith List Bool Sorted.
From Verif Require Import Cx Bits.
Import ListNotations.
Local Open Scope R_scope.

Definition qstate := N -> C.

(** All qubits zero. *)
Definition ket0 : qstate := fun b => if N.eqb b 0 then C1 else C0.

(** 2x2 matrices: row and column are [false] for 0 and [true] for 1. *)
Definition mat := bool -> bool -> C.
Definition mk2 (a b c d : C) : mat := fun r col =>
  match r, col with
  | false, false => a | false, true => b
  | true, false => c | true, true => d
  end.

(** The matrix [U] on qubit [t]. *)
Definition gate1 (U : mat) (t : nat) (psi : qstate) : qstate := fun b =>
  (U (bit b t) false * psi (set_bit b t false) + U (bit b t) true * psi (set_bit b t true))%C.

(** The matrix [U] on qubit [t], applied where all controls are 1. *)
Definition cgate (ctls : list nat) (U : mat) (t : nat) (psi : qstate) : qstate := fun b =>
  if forallb (bit b) ctls then gate1 U t psi b else psi b.

Definition rsqrt2 : C := RtoC (/ sqrt 2).

Definition mI : mat := mk2 C1 C0 C0 C1.
Definition mX : mat := mk2 C0 C1 C1 C0.
Definition mY : mat := mk2 C0 (- Ci)%C Ci C0.
Definition mZ : mat := mk2 C1 C0 C0 (- C1)%C.
Definition mH : mat := mk2 rsqrt2 rsqrt2 rsqrt2 (- rsqrt2)%C.
Definition mPhase (p : C) : mat := mk2 C1 C0 C0 p.
Definition mS : mat := mPhase Ci.
Definition mSadj : mat := mPhase (- Ci)%C.
Definition mT : mat := mPhase (Cis (PI / 4)).
Definition mTadj : mat := mPhase (Cis (- (PI / 4))).
(** Rotations exp(-i theta/2 P). *)
Definition mRx (th : R) : mat :=
  mk2 (RtoC (cos (th / 2))) (- (Ci * RtoC (sin (th / 2))))%C
      (- (Ci * RtoC (sin (th / 2))))%C (RtoC (cos (th / 2))).
Definition mRy (th : R) : mat :=
  mk2 (RtoC (cos (th / 2))) (RtoC (- sin (th / 2)))
      (RtoC (sin (th / 2))) (RtoC (cos (th / 2))).
Definition mRz (th : R) : mat := mk2 (Cis (- (th / 2))) C0 C0 (Cis (th / 2)).

(** Scalar multiple, and equality up to a global phase. *)
Definition scale (c : C) (psi : qstate) : qstate := fun b => (c * psi b)%C.
Definition phase_eq (psi phi : qstate) : Prop :=
  exists c, Cn2 c = 1 /\ psi = scale c phi.

(** Exchange of the roles of two qubits. *)
Definition swap_assign (a b : nat) (k : N) : N :=
  set_bit (set_bit k a (bit k b)) b (bit k a).
Definition swap_qubits (a b : nat) (psi : qstate) : qstate := fun k => psi (swap_assign a b k).

(** Sum over all assignments of the qubits 0 .. n-1. *)
Definition basis (n : nat) : list N := map N.of_nat (seq 0 (Nat.pow 2 n)).
Definition Rsum (l : list R) : R := fold_right Rplus 0 l.
Definition qsum (n : nat) (f : N -> R) : R := Rsum (map f (basis n)).

(** Parity of the given qubits in an assignment. *)
Definition par (ids : list nat) (b : N) : bool := fold_right xorb false (map (bit b) ids).

(** Born probability of odd parity of [ids], in a state of qubits 0 .. n-1. *)
Definition born (n : nat) (ids : list nat) (psi : qstate) : R :=
  qsum n (fun b => if par ids b then Cn2 (psi b) else 0).
Definition norm2 (n : nat) (psi : qstate) : R := qsum n (fun b => Cn2 (psi b)).

(** Projection on the assignments with the given parity of [ids], unnormalised. *)
Definition proj (ids : list nat) (v : bool) (psi : qstate) : qstate := fun b =>
  if Bool.eqb (par ids b) v then psi b else C0.

(** The amplitudes outside the given qubits are zero: all other qubits are 0. *)
Definition supported (ids : list nat) (psi : qstate) : Prop :=
  forall b i, bit b i = true -> ~ In i ids -> psi b = C0.

(** The state of the other qubits after qubit [q], known to be [r], is given up;
    the assignment bit of [q] is 0 from then on. *)
Definition drop_qubit (q : nat) (r : bool) (psi : qstate) : qstate := fun b =>
  if bit b q then C0 else psi (set_bit b q r).

(** The assignment that gives the i-th qubit of the list bit number i of [x]. *)
Fixpoint spread_from (i : nat) (l : list nat) (x : N) : N :=
  match l with
  | [] => 0%N
  | q :: l' => set_bit (spread_from (S i) l' x) q (bit x i)
  end.
Definition spread (l : list nat) (x : N) : N := spread_from 0 l x.

(** What a listing of (index, amplitude) pairs says about a state of the qubits
    [qs]: strictly increasing indices, bit [i] of an index is the value of the
    i-th qubit, and an assignment that is not listed has amplitude zero. *)
Record listing (st : list (N * C)) (qs : list nat) (psi : qstate) : Prop := {
  ls_sorted : StronglySorted N.lt (map fst st);
  ls_range : forall x v, In (x, v) st -> (x < 2 ^ N.of_nat (length qs))%N;
  ls_amp : forall x v, In (x, v) st -> psi (spread qs x) = v;
  ls_rest : forall x, (x < 2 ^ N.of_nat (length qs))%N -> ~ In x (map fst st) -> psi (spread qs x) = C0
}.
