(** * Specification of histories of simulator calls

    An ideal machine: the list of allocated identifiers, an exact state vector
    and the random generator.  Nothing here refers to the simulator. *)
From Coq Require Import Reals NArith List Bool.
From Verif Require Import Cx Bits Spec Arith ArithR SimExp SpecExp SpecApply.
Import ListNotations.
Local Open Scope R_scope.

(** Gates with a 2x2 matrix. *)
Inductive gname := GX | GY | GZ | GH | GS | GSadj | GT | GTadj
  | GRx (th : R) | GRy (th : R) | GRz (th : R).
Definition gmat (g : gname) : mat :=
  match g with
  | GX => mX | GY => mY | GZ => mZ | GH => mH
  | GS => mS | GSadj => mSadj | GT => mT | GTadj => mTadj
  | GRx th => mRx th | GRy th => mRy th | GRz th => mRz th
  end.

(** The public functions of the simulator. *)
Inductive call :=
| CGate (g : gname) (t : nat)                                   (* x(t), h(t), rx(th,t), ... *)
| CMc (g : gname) (cs : list nat) (t : nat)                     (* mcx(cs,t), mch(cs,t), ... *)
| CPhase (cs : list nat) (p : C) (t : nat)                      (* mcphase *)
| CExp (ps : list pauli) (th : R) (ts : list nat)               (* exp *)
| CMcExp (cs : list nat) (ps : list pauli) (th : R) (ts : list nat)
| CApply (rows cols : nat) (u : nat -> nat -> C) (ts : list nat) (cs : option (list nat))
| CAlloc
| CRelease (q : nat)
| CSwap (a b : nat)                                             (* swap_qubit_ids *)
| CMeasure (q : nat)
| CJointMeasure (qs : list nat)
| CJointProb (qs : list nat)
| CIsZero (q : nat)
| CForce (v : bool) (q : nat)                                   (* force_collapse *)
| CState                                                        (* get_state *)
| CDump.

Inductive reply :=
| RUnit | RId (q : nat) | RBit (b : bool) | RProb (p : R)
| RState (st : list (N * C)) (n : nat) | RDump (st : list (N * C)).

(** ** Which identifiers are allocated *)

(** [live]: the allocated identifiers in increasing order.
    [tidy]: no qubit was released since the last complete reset, listing or dump. *)
Record book := mkBook { live : list nat; tidy : bool }.

(** The least number not in a strictly increasing list. *)
Fixpoint gap_from (i : nat) (l : list nat) : nat :=
  match l with [] => i | k :: l' => if Nat.eqb i k then gap_from (S i) l' else i end.
Definition fresh_id (l : list nat) : nat := gap_from 0 l.
Fixpoint insert_id (q : nat) (l : list nat) : list nat :=
  match l with [] => [q] | k :: l' => if Nat.ltb q k then q :: l else k :: insert_id q l' end.
Definition remove_id (q : nat) (l : list nat) : list nat := filter (fun k => negb (Nat.eqb k q)) l.

Definition bstep (b : book) (c : call) : book :=
  match c with
  | CAlloc => mkBook (insert_id (fresh_id (live b)) (live b)) (tidy b)
  | CRelease q => match remove_id q (live b) with
                  | [] => mkBook [] true
                  | l => mkBook l false
                  end
  | CState | CDump => mkBook (live b) true
  | _ => b
  end.

Definition targets_ok (b : book) (qs : list nat) : Prop := NoDup qs /\ incl qs (live b).
Definition ctl_list (cs : option (list nat)) : list nat := match cs with Some l => l | None => [] end.

(** Calls that name allocated, distinct qubits (and matrices of the right size). *)
Definition valid (b : book) (c : call) : Prop :=
  match c with
  | CGate _ t => In t (live b)
  | CMc _ cs t | CPhase cs _ t => targets_ok b (t :: cs)
  | CExp ps _ ts => targets_ok b ts /\ (length ps <= length ts)%nat
  | CMcExp cs ps _ ts => targets_ok b (cs ++ ts) /\ (length ps <= length ts)%nat
  | CApply rows cols _ ts cs =>
      targets_ok b (ctl_list cs ++ ts) /\ rows = Nat.pow 2 (length ts) /\ cols = rows /\ tidy b = true
  | CAlloc | CState | CDump => True
  | CRelease q | CMeasure q | CIsZero q | CForce _ q => In q (live b)
  | CSwap x y => In x (live b) /\ In y (live b)
  | CJointMeasure qs | CJointProb qs => targets_ok b qs
  end.

(** Matrices and phases that preserve lengths. *)
Definition unit_call (c : call) : Prop :=
  match c with
  | CPhase _ p _ => Cn2 p = 1
  | CApply rows _ u _ _ => isometry rows u
  | _ => True
  end.

Fixpoint valid_run (b : book) (h : list call) : Prop :=
  match h with
  | [] => True
  | c :: h' => valid b c /\ valid_run (bstep b c) h'
  end.

(** Sets of angles, used to say which histories avoid the defect of [C01_refuted]. *)
Definition subgroup (G : R -> Prop) : Prop :=
  G 0 /\ (forall a, G a -> G (- a)) /\ (forall a b, G a -> G b -> G (a + b)).
(** The angle of a single-qubit [rx] call is in [G]. *)
Definition rx_angles (G : R -> Prop) (c : call) : Prop :=
  match c with CGate (GRx th) _ => G th | _ => True end.
Definition is_ry (c : call) : Prop := match c with CGate (GRy _) _ => True | _ => False end.

(** ** The state vector *)
Section Machine.
Context {A : Arith} {EN : Env} (draws : gen -> R * gen).

Record machine := mkMachine { bk : book; vec : qstate; mgen : gen }.

(** All allocated identifiers are below this number. *)
Definition width (l : list nat) : nat := S (list_max l).

(** Outcome of measuring the parity of [qs] with sample [x], and the state after. *)
Definition outcome (l qs : list nat) (psi : qstate) (x : R) : bool :=
  if Rlt_dec x (born (width l) qs psi) then true else false.
Definition collapsed (l qs : list nat) (r : bool) (psi : qstate) : qstate :=
  let p := born (width l) qs psi in
  scale (RtoC (1 / sqrt (if r then p else 1 - p))) (proj qs r psi).

(** The effect of a call on the state vector; [x] is the next sample. *)
Definition vstep (l : list nat) (psi : qstate) (x : R) (c : call) : qstate :=
  match c with
  | CGate g t => gate1 (gmat g) t psi
  | CMc g cs t => cgate cs (gmat g) t psi
  | CPhase cs p t => cgate cs (mPhase p) t psi
  | CExp ps th ts => exp_op th (combine ps ts) psi
  | CMcExp cs ps th ts => ctrl_op cs (exp_op th (combine ps ts)) psi
  | CApply _ _ u ts cs => ctrl_op (ctl_list cs) (mat_op u ts) psi
  | CRelease q =>
      match remove_id q l with
      | [] => ket0
      | _ => let r := outcome l [q] psi x in drop_qubit q r (collapsed l [q] r psi)
      end
  | CSwap a b => swap_qubits a b psi
  | CMeasure q => collapsed l [q] (outcome l [q] psi x) psi
  | CJointMeasure qs => collapsed l qs (outcome l qs psi x) psi
  | CForce v q =>
      let p := born (width l) [q] psi in
      let pv := if v then p else 1 - p in
      if Req_EM_T pv 0 then psi else collapsed l [q] v psi
  | CAlloc | CJointProb _ | CIsZero _ | CState | CDump => psi
  end.

(** Does the call consume a sample? *)
Definition draws_sample (l : list nat) (c : call) : bool :=
  match c with
  | CMeasure _ | CJointMeasure _ => true
  | CRelease q => match remove_id q l with [] => false | _ => true end
  | _ => false
  end.

(** The reply.  A listing shows the state up to one global phase. *)
Definition reply_ok (l : list nat) (psi : qstate) (x : R) (c : call) (r : reply) : Prop :=
  match c with
  | CAlloc => r = RId (fresh_id l)
  | CMeasure q => r = RBit (outcome l [q] psi x)
  | CJointMeasure qs => r = RBit (outcome l qs psi x)
  | CJointProb qs => r = RProb (born (width l) qs psi)
  | CIsZero q => exists b, r = RBit b /\ (b = true <-> born (width l) [q] psi = 0)
  | CForce v q => let p := born (width l) [q] psi in r = RProb (if v then p else 1 - p)
  | CState => exists st c, r = RState st (length l) /\ Cn2 c = 1 /\ listing st l (scale c psi)
  | CDump => exists st c, r = RDump st /\ Cn2 c = 1 /\ listing st l (scale c psi)
  | _ => r = RUnit
  end.

Definition mstep1 (m : machine) (c : call) : machine :=
  let '(x, g) := draws (mgen m) in
  mkMachine (bstep (bk m) c) (vstep (live (bk m)) (vec m) x c)
            (if draws_sample (live (bk m)) c then g else mgen m).

Fixpoint mrun (m : machine) (h : list call) : machine :=
  match h with [] => m | c :: h' => mrun (mstep1 m c) h' end.

(** The replies to a history. *)
Fixpoint replies_ok (m : machine) (h : list call) (rs : list reply) : Prop :=
  match h, rs with
  | [], [] => True
  | c :: h', r :: rs' =>
      reply_ok (live (bk m)) (vec m) (fst (draws (mgen m))) c r /\ replies_ok (mstep1 m c) h' rs'
  | _, _ => False
  end.

(** Nothing allocated. *)
Definition initial (g : gen) : machine := mkMachine (mkBook [] true) ket0 g.
End Machine.
