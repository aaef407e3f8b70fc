(** * Specification of the backend: which qubits exist, valid programs, Pauli measurements *)
From Coq Require Import Reals NArith List Bool Arith.
From Verif Require Import Cx Bits Arith ArithR IndexMap Sim SimExp Spec SpecExp SpecRun SimRun Text Backend.
Import ListNotations.
Local Open Scope R_scope.

(** Square root of X. *)
Definition mSX : mat := mk2 (1/2, 1/2) (1/2, -1/2) (1/2, -1/2) (1/2, 1/2).

(** Projection on the eigenspace of a Pauli product: eigenvalue -1 for [true] (One), +1 for [false] (Zero). *)
Definition eigen_proj (l : list (pauli * nat)) (r : bool) (psi : qstate) : qstate := fun b =>
  (RtoC (/ 2) * (if r then psi b - pauli_product l psi b else psi b + pauli_product l psi b))%C.
(** Probability of the outcome One, for a state of qubits 0 .. n-1. *)
Definition one_prob (n : nat) (l : list (pauli * nat)) (psi : qstate) : R := norm2 n (eigen_proj l true psi).
(** Probability of an outcome and the state after it. *)
Definition result_prob (n : nat) (l : list (pauli * nat)) (r : bool) (psi : qstate) : R :=
  if r then one_prob n l psi else 1 - one_prob n l psi.
Definition after_result (n : nat) (l : list (pauli * nat)) (r : bool) (psi : qstate) : qstate :=
  scale (RtoC (1 / sqrt (result_prob n l r psi))) (eigen_proj l r psi).

(** ** Which qubits exist *)

(** [n] further qubits, each with the least unused identifier. *)
Fixpoint grow (n : nat) (l : list nat) : list nat :=
  match n with O => l | S n' => grow n' (insert_id (fresh_id l) l) end.
(** Naming the qubits [qs] when identifiers below [m] have been provided for. *)
Definition top (qs : list nat) : nat := list_max (map S qs).
Definition opened (m : nat) (l qs : list nat) : list nat := grow (top qs - m) l.

Section Valid.
Context {T : Tol} {EN : Env} {D : Doubles} {SW : Shows}.

(** The pairs that matter in a Pauli list. *)
Definition paired (ps : list pauli) (qs : list nat) : list (pauli * nat) := filter not_id (combine ps qs).

(** The qubits named by a call. *)
Definition bnames (c : bcall) : list nat :=
  match c with
  | QGate _ q | QSx q | QReset q | QMresetz q _ | QMz q _ | QM q | QIsZero q => [q]
  | QC1 _ c t => [t; c] | QC2 _ c1 c2 t => [t; c1; c2]
  | QCtl _ cs q => q :: cs
  | QRxx _ a b | QRyy _ a b | QRzz _ a b | QSwap a b => [a; b]
  | QR PI_ _ _ | QRAdj PI_ _ _ => []
  | QR _ _ q | QRAdj _ _ q => [q]
  | QRCtl [] PI_ _ _ | QRCtlAdj [] PI_ _ _ => []
  | QRCtl cs _ _ q | QRCtlAdj cs _ _ q => q :: cs
  | QExp _ _ qs | QExpAdj _ _ qs => qs
  | QExpCtl cs _ _ qs | QExpCtlAdj cs _ _ qs => cs ++ qs
  | QMeasure ps qs | QAssert ps qs _ _ _ _ => map snd (paired ps qs)
  | _ => []
  end.

(** Identifiers provided for so far, and the qubits that exist. *)
Record bbook := mkBBook { bb_max : nat; bb_live : list nat }.
Fixpoint alloc_max (n m : nat) (l : list nat) : nat :=
  match n with O => m | S n' => alloc_max n' (Nat.max m (S (fresh_id l))) (insert_id (fresh_id l) l) end.
Definition bbstep (k : bbook) (c : bcall) : bbook :=
  match c with
  | QAlloc => mkBBook (alloc_max 1 (bb_max k) (bb_live k)) (grow 1 (bb_live k))
  | QAllocArray n => mkBBook (alloc_max n (bb_max k) (bb_live k)) (grow n (bb_live k))
  | QRelease q => mkBBook (bb_max k) (remove_id q (bb_live k))
  | QReleaseArray qs => mkBBook (bb_max k) (fold_left (fun l q => remove_id q l) qs (bb_live k))
  | QInit => mkBBook 0 []
  | _ => mkBBook (Nat.max (bb_max k) (top (bnames c))) (opened (bb_max k) (bb_live k) (bnames c))
  end.

(** Calls that name existing, distinct qubits and arrays of matching lengths. *)
Definition bvalid (k : bbook) (c : bcall) : Prop :=
  let l' := opened (bb_max k) (bb_live k) (bnames c) in
  match c with
  | QRelease q => In q (bb_live k)
  | QReleaseArray qs => NoDup qs /\ incl qs (bb_live k)
  | QRxx _ a b | QRyy _ a b =>
      In a (opened (bb_max k) (bb_live k) [a]) /\ In b l' /\ a <> b
  | QSwap a b => In a l' /\ In b l'
  | QExp ps _ qs | QExpAdj ps _ qs | QExpCtl _ ps _ qs | QExpCtlAdj _ ps _ qs =>
      NoDup (bnames c) /\ incl (bnames c) l' /\ (length ps <= length qs)%nat
  | QMeasure ps qs | QAssert ps qs _ _ _ _ =>
      NoDup (bnames c) /\ incl (bnames c) l' /\ length ps = length qs
  | QDump loc => loc = 0%nat
  | QFail _ => False
  | _ => NoDup (bnames c) /\ incl (bnames c) l'
  end.
Fixpoint bproper (k : bbook) (h : list bcall) : Prop :=
  match h with [] => True | c :: h' => bvalid k c /\ bproper (bbstep k c) h' end.

Definition bbstart : bbook := mkBBook 0 [].
(** A backend state that a valid program leads to, with its qubits. *)
Definition breached (b : back) (l : list nat) : Prop :=
  exists g h rs, bproper bbstart h /\ bexec h (back_default g) = BOk rs b /\
    l = bb_live (fold_left bbstep h bbstart).

(** The operator a gate call stands for. *)
Definition bop (c : bcall) : option (qstate -> qstate) :=
  match c with
  | QGate g q => Some (gate1 (gmat g) q)
  | QC1 g c t => Some (cgate [c] (gmat g) t)
  | QC2 g c1 c2 t => Some (cgate [c1; c2] (gmat g) t)
  | QCtl g cs t => Some (cgate cs (gmat g) t)
  | QSx q => Some (gate1 mSX q)
  | QRxx th a b => Some (exp_op (- (th / 2)) [(PX_, a); (PX_, b)])
  | QRyy th a b => Some (exp_op (- (th / 2)) [(PY_, a); (PY_, b)])
  | QRzz th a b => Some (exp_op (- (th / 2)) [(PZ_, a); (PZ_, b)])
  | QR p th q => Some (exp_op (- (th / 2)) [(p, q)])
  | QRAdj p th q => Some (exp_op (th / 2) [(p, q)])
  | QRCtl cs p th q => Some (ctrl_op cs (exp_op (- (th / 2)) [(p, q)]))
  | QRCtlAdj cs p th q => Some (ctrl_op cs (exp_op (th / 2) [(p, q)]))
  | QExp ps th qs => Some (exp_op th (combine ps qs))
  | QExpAdj ps th qs => Some (exp_op (- th) (combine ps qs))
  | QExpCtl cs ps th qs => Some (ctrl_op cs (exp_op th (combine ps qs)))
  | QExpCtlAdj cs ps th qs => Some (ctrl_op cs (exp_op (- th) (combine ps qs)))
  | QSwap a b => Some (swap_qubits a b)
  | QBarrier => Some (fun psi => psi)
  | _ => None
  end.
(** Single-qubit rotations about Y. *)
Definition turns_y (c : bcall) : option nat :=
  match c with QGate (GRy _) q | QR PY_ _ q | QRAdj PY_ _ q => Some q | _ => None end.
(** The angle of a single-qubit rotation about X is in [G]. *)
Definition bangles (G : R -> Prop) (c : bcall) : Prop :=
  match c with QGate (GRx th) _ | QR PX_ th _ | QRAdj PX_ th _ => G th | _ => True end.
(** No odd multiple of pi of rx is pending on that qubit. *)
Definition y_free (b : back) (c : bcall) : Prop :=
  forall q a, turns_y c = Some q -> im_get (rx_queue (bsim b)) q = Some a -> cos (a / 2) <> 0.

(** Programs without dynamic allocation. *)
Definition is_static (c : bcall) : Prop :=
  match c with QAlloc | QAllocArray _ | QRelease _ | QReleaseArray _ | QInit => False | _ => True end.
(** Distinct qubits and arrays of matching lengths; nothing about which qubits exist. *)
Definition well_named (c : bcall) : Prop :=
  match c with
  | QSwap _ _ => True
  | QExp ps _ qs | QExpAdj ps _ qs | QExpCtl _ ps _ qs | QExpCtlAdj _ ps _ qs =>
      NoDup (bnames c) /\ (length ps <= length qs)%nat
  | QMeasure ps qs | QAssert ps qs _ _ _ _ => NoDup (bnames c) /\ length ps = length qs
  | QDump loc => loc = 0%nat
  | QFail _ => False
  | _ => NoDup (bnames c)
  end.
(** The identifiers the simulator holds. *)
Definition held (b : back) : list nat := im_keys (id_map (bsim b)).

(** The result a call writes. *)
Definition writes (c : bcall) : option nat :=
  match c with QMz _ i | QMresetz _ i | QWriteResult _ i => Some i | _ => None end.
(** [read_result] returns [v]. *)
Definition reads_result (b : back) (i : nat) (v : bool) : Prop :=
  exists b', bcall1 (QReadResult i) b = BOk (VBool v) b'.
(** Calls that use static results. *)
Definition uses_store (c : bcall) : Prop :=
  match c with QMz _ _ | QMresetz _ _ | QWriteResult _ _ | QReadResult _ => True | _ => False end.
(** Calls that may stop a valid program. *)
Definition is_assert (c : bcall) : Prop := match c with QAssert _ _ _ _ _ _ => True | _ => False end.

(** What [capture_quantum_state] shows, up to one global phase. *)
Definition bshows (b : back) (l : list nat) (psi : qstate) : Prop := shows (bsim b) l psi.
(** Everything but the simulator and the count of identifiers is as before. *)
Definition same_rest (b b' : back) : Prop := bres b' = bres b /\ bout b' = bout b.
End Valid.
