(** * Histories of calls to the simulator model *)
From Coq Require Import Reals NArith List Bool Permutation.
From Verif Require Import Cx Arith ArithR IndexMap Sim SimExp SimApply Spec SpecExp SpecApply SpecRun.
Import ListNotations.

Section Run.
Context {T : Tol} {EN : Env}.

Definition quietly (m : res sim) : res (reply * sim) := let* s := m in Ok (RUnit, s).

(** sparsesim/src/lib.rs, the public functions on one target. *)
Definition gate_call (g : gname) (s : sim) (t : nat) : res sim :=
  match g with
  | GX => gate_x s t | GY => gate_y s t | GZ => gate_z s t | GH => gate_h s t
  | GS => gate_s s t | GSadj => gate_sadj s t | GT => gate_t s t | GTadj => gate_tadj s t
  | GRx th => gate_rx s th t | GRy th => gate_ry s th t | GRz th => gate_rz s th t
  end.
(** sparsesim/src/lib.rs, the public functions with controls. *)
Definition mc_call (g : gname) (s : sim) (cs : list nat) (t : nat) : res sim :=
  match g with
  | GX => gate_mcx s cs t | GY => gate_mcy s cs t | GZ => gate_mcz s cs t | GH => gate_mch s cs t
  | GS => gate_mcs s cs t | GSadj => gate_mcsadj s cs t
  | GT => gate_mct s cs t | GTadj => gate_mctadj s cs t
  | GRx th => gate_mcrx s cs th t | GRy th => gate_mcry s cs th t | GRz th => gate_mcrz s cs th t
  end.

(** One call of a public function. *)
Definition run1 (s : sim) (c : call) : res (reply * sim) :=
  match c with
  | CGate g t => quietly (gate_call g s t)
  | CMc g cs t => quietly (mc_call g s cs t)
  | CPhase cs p t => quietly (gate_mcphase s cs p t)
  | CExp ps th ts => quietly (exp_gate s ps th ts)
  | CMcExp cs ps th ts => quietly (mcexp s cs ps th ts)
  | CApply rows cols u ts cs => quietly (apply_matrix s (@mkMatrix RArith rows cols u) ts cs)
  | CAlloc => let '(s', q) := allocate s in Ok (RId q, s')
  | CRelease q => quietly (release s q)
  | CSwap a b => quietly (swap_qubit_ids s a b)
  | CMeasure q => let* (b, s') := measure s q in Ok (RBit b, s')
  | CJointMeasure qs => let* (b, s') := joint_measure s qs in Ok (RBit b, s')
  | CJointProb qs => let* (p, s') := joint_probability s qs in Ok (RProb p, s')
  | CIsZero q => let* (b, s') := qubit_is_zero s q in Ok (RBit b, s')
  | CForce v q => let* (p, s') := force_collapse s v q in Ok (RProb p, s')
  | CState => let* (st, n, s') := get_state s in Ok (RState st n, s')
  | CDump => let* (st, s') := dump s in Ok (RDump st, s')
  end.

(** A sequence of calls on one simulator. *)
Fixpoint exec (s : sim) (h : list call) : res (list reply * sim) :=
  match h with
  | [] => Ok ([], s)
  | c :: h' =>
      let* (r, s1) := run1 s c in
      let* (rs, s2) := exec s1 h' in
      Ok (r :: rs, s2)
  end.

(** No call [ry(_, t)] is made while an [rx] of an odd multiple of pi is pending
    on [t] (see [C01_refuted] for what happens otherwise). *)
Definition no_clash (s : sim) (c : call) : Prop :=
  match c with
  | CGate (GRy _) t => forall a, im_get (rx_queue s) t = Some a -> cos (a / 2) <> 0%R
  | _ => True
  end.
Fixpoint clash_free (s : sim) (h : list call) : Prop :=
  match h with
  | [] => True
  | c :: h' =>
      no_clash s c /\ match run1 s c with Ok (_, s1) => clash_free s1 h' | Panic _ => True end
  end.
End Run.

(** ** Vocabulary of the property statements *)
Section Vocabulary.
Context {T : Tol} {EN : Env}.

(** Hash-map iteration visits every entry once ([horder] is any such order). *)
Definition order_ok : Prop := forall l, Permutation (horder l) l.
(** Random samples are in [0,1). *)
Definition samples_ok : Prop := forall g, (0 <= fst (draw g) < 1)%R.

(** Exact arithmetic: nothing is truncated (the threshold [tol] is zero). *)
Definition exact_world : Prop := tol = 0%R /\ order_ok /\ samples_ok.

(** Histories of calls on allocated, distinct qubits, whose matrices and phases
    preserve lengths. *)
Definition proper (h : list call) : Prop := valid_run (mkBook [] true) h /\ Forall unit_call h.

(** A condition on the calls alone that rules out the defect of [C01_refuted]:
    there is no single-qubit [ry], or no sum of the single-qubit [rx] angles
    used is an odd multiple of pi. *)
Definition no_odd_pi (h : list call) : Prop :=
  Forall (fun c => ~ is_ry c) h \/
  exists G, subgroup G /\ (forall a, G a -> cos (a / 2) <> 0%R) /\ Forall (rx_angles G) h.

(** The qubits allocated after a history. *)
Definition live_after (h : list call) : list nat := live (fold_left bstep h (mkBook [] true)).

(** A simulator state that some history leads to, with its allocated qubits. *)
Definition reached (s : sim) (l : list nat) : Prop :=
  exists g h rs, proper h /\ exec (new_sim g) h = Ok (rs, s) /\ l = live_after h.

(** The same call, or the same single-qubit [ry] with the opposite angle. *)
Definition up_to_ry_sign (c c' : call) : Prop :=
  c' = c \/ exists th t, c = CGate (GRy th) t /\ c' = CGate (GRy (- th)) t.

(** [get_state] lists [psi] up to one global phase. *)
Definition shows (s : sim) (l : list nat) (psi : qstate) : Prop :=
  supported l psi /\
  exists st s' c, get_state s = Ok (st, length l, s') /\ Cn2 c = 1%R /\ listing st l (scale c psi).

(** The allocated qubits are [l] and [get_state] lists exactly [psi]. *)
Definition lists (s : sim) (l : list nat) (psi : qstate) : Prop :=
  supported l psi /\ exists st s', get_state s = Ok (st, length l, s') /\ listing st l psi.

(** The calls that apply a fixed operator, and the operator. *)
Definition gate_action (c : call) : option (qstate -> qstate) :=
  match c with
  | CGate g t => Some (gate1 (gmat g) t)
  | CMc g cs t => Some (cgate cs (gmat g) t)
  | CPhase cs p t => Some (cgate cs (mPhase p) t)
  | CExp ps th ts => Some (exp_op th (combine ps ts))
  | CMcExp cs ps th ts => Some (ctrl_op cs (exp_op th (combine ps ts)))
  | CApply _ _ u ts cs => Some (ctrl_op (ctl_list cs) (mat_op u ts))
  | _ => None
  end.
Fixpoint gates_action (gs : list call) (psi : qstate) : option qstate :=
  match gs with
  | [] => Some psi
  | c :: gs' => match gate_action c with Some f => gates_action gs' (f psi) | None => None end
  end.

(** Calls that only look at the state. *)
Definition observer (c : call) : Prop :=
  match c with CJointProb _ | CIsZero _ | CState | CDump => True | _ => False end.

(** Equal replies, listings up to one global phase. *)
Definition amp_at (st : list (N * C)) (x : N) : C :=
  match find (fun kv => N.eqb (fst kv) x) st with Some kv => snd kv | None => C0 end.
Definition same_listing (st st' : list (N * C)) : Prop :=
  exists c, Cn2 c = 1%R /\ forall x, amp_at st' x = (c * amp_at st x)%C.
Definition same_reply (r r' : reply) : Prop :=
  match r, r' with
  | RState st n, RState st' n' => n = n' /\ same_listing st st'
  | RDump st, RDump st' => same_listing st st'
  | _, _ => r = r'
  end.

(** The call that undoes a gate call. *)
Definition inverse_gate (g : gname) : gname :=
  match g with
  | GX => GX | GY => GY | GZ => GZ | GH => GH
  | GS => GSadj | GSadj => GS | GT => GTadj | GTadj => GT
  | GRx th => GRx (- th) | GRy th => GRy (- th) | GRz th => GRz (- th)
  end.
Definition inverse_call (c : call) : option call :=
  match c with
  | CGate g t => Some (CGate (inverse_gate g) t)
  | CMc g cs t => Some (CMc (inverse_gate g) cs t)
  | CExp ps th ts => Some (CExp ps (- th) ts)
  | CMcExp cs ps th ts => Some (CMcExp cs ps (- th) ts)
  | _ => None
  end.
End Vocabulary.

(** ** Misuse of identifiers *)

(** The identifiers a call names. *)
Definition names (c : call) : list nat :=
  match c with
  | CGate _ t => [t]
  | CMc _ cs t | CPhase cs _ t => cs ++ [t]
  | CExp _ _ ts => ts
  | CMcExp cs _ _ ts => cs ++ ts
  | CApply _ _ _ ts cs => ctl_list cs ++ ts
  | CRelease q | CMeasure q | CIsZero q | CForce _ q => [q]
  | CJointMeasure qs | CJointProb qs => qs
  | CSwap a b => if Nat.eqb a b then [a] else [a; b]
  | CAlloc | CState | CDump => []
  end.
(** One of them is not allocated, or is named twice. *)
Definition misuse (l : list nat) (c : call) : Prop :=
  ~ NoDup (names c) \/ exists q, In q (names c) /\ ~ In q l.
(** The gates whose identifiers are looked up when they are applied: all but
    the single-qubit h, rx, ry, and controlled rotations by (nearly) a multiple
    of 2 pi. *)
Definition checked_gate {T : Tol} (c : call) : Prop :=
  match c with
  | CGate GH _ | CGate (GRx _) _ | CGate (GRy _) _ => False
  | CMc (GRx th) _ _ | CMc (GRy th) _ _ => (tol < Rabs (sin (th / 2)))%R
  | CGate _ _ | CMc _ _ _ | CPhase _ _ _ | CExp _ _ _ | CMcExp _ _ _ _ | CApply _ _ _ _ _ => True
  | _ => False
  end.
(** The calls that reveal something of the state. *)
Definition reads (c : call) : Prop :=
  match c with
  | CMeasure _ | CJointMeasure _ | CJointProb _ | CIsZero _ | CForce _ _ | CState | CDump => True
  | _ => False
  end.
Definition is_release (c : call) : Prop := match c with CRelease _ => True | _ => False end.
