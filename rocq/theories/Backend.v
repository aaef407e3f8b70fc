(** * backend/src/lib.rs, exp.rs: the QIR entry points

    Runtime arrays and tuples passed by pointer appear as their contents (lists, separate arguments);
    creation and release of the argument tuples made inside r__ctl, r__ctladj, exp__ctladj is left out
    (see Callables.v for reference counts).  Qubits and results are pointers used as numbers. *)
From Coq Require Import String Ascii List NArith ZArith Reals Bool.
From Verif Require Import Cx Bits Arith ArithR IndexMap Sim SimExp SimApply Spec SpecRun SimRun Text.
Import ListNotations.

(** Text of values that are not modelled: the result register (bitvec's [Display]) and a dump of the state
    (sparsesim/src/lib.rs:231-258). *)
Class Shows := { show_results : list bool -> text; show_dump : list (N * C) -> text }.

(** Why a call does not return. *)
(** backend/src/lib.rs: the panics of the functions below and of the simulator. *)
Inductive berr :=
| ESim (e : perr)              (* panic in the simulator *)
| EFail (msg : list N)         (* __quantum__rt__fail, stdlib/src/lib.rs:85-90 *)
| EUnimplemented.              (* dumpmachine with a location, lib.rs:1025-1027 *)

Section Backend.
Context {T : Tol} {EN : Env} {D : Doubles} {SW : Shows}.

(** lib.rs:37-41 [SimulatorState] and the thread's output buffer (stdlib/src/output_recording.rs:74-76). *)
Record back := mkBack { bsim : sim; bres : list bool; bmax : nat; bout : text }.
Definition with_sim (b : back) (s : sim) : back := mkBack s (bres b) (bmax b) (bout b).
Definition with_res (b : back) (r : list bool) : back := mkBack (bsim b) r (bmax b) (bout b).
Definition with_max (b : back) (m : nat) : back := mkBack (bsim b) (bres b) m (bout b).
Definition with_out (b : back) (o : text) : back := mkBack (bsim b) (bres b) (bmax b) o.

(** A call returns, or stops the program leaving what was output so far. *)
(** Not in the source: a Rust panic in an extern function of backend/src/lib.rs ends the process. *)
Inductive bresult (X : Type) := BOk (x : X) (b : back) | BErr (e : berr) (out : text).
Arguments BOk {X} x b. Arguments BErr {X} e out.
Definition B (X : Type) := back -> bresult X.
Definition bret {X} (x : X) : B X := fun b => BOk x b.
Definition bbind {X Y} (m : B X) (f : X -> B Y) : B Y := fun b =>
  match m b with BOk x b' => f x b' | BErr e o => BErr e o end.
Notation "x <- m ;; k" := (bbind m (fun x => k)) (at level 100, m at next level, right associativity).
Notation "m ;;; k" := (bbind m (fun _ => k)) (at level 100, k at level 200, right associativity).

(** One call of a public function of the simulator. *)
(** The [state.sim.f(..)] of backend/src/lib.rs:73-716. *)
Definition simcall (c : call) : B reply := fun b =>
  match run1 (bsim b) c with
  | Ok (r, s) => BOk r (with_sim b s)
  | Panic e => BErr (ESim e) (bout b)
  end.
(** backend/src/lib.rs:73-716. *)
Definition simdo (c : call) : B unit := _ <- simcall c ;; bret tt.
Definition simbit (c : call) : B bool :=
  r <- simcall c ;; bret (match r with RBit v => v | _ => false end).
(** The [for] loops of backend/src/lib.rs:114, 133, 977. *)
Definition bfor {X} (l : list X) (f : X -> B unit) : B unit :=
  fold_right (fun x k => f x ;;; k) (bret tt) l.
(** output_recording.rs:82-113. *)
Definition emit (t : text) : B unit := fun b => BOk tt (with_out b (bout b ++ t)).
(** stdlib/src/lib.rs:85-105: the message is recorded, then the program stops. *)
Definition rt_message (m : list N) : B unit := emit (render (RecMessage m)).
Definition rt_fail {X} (m : list N) : B X := fun b => BErr (EFail m) (bout b ++ render (RecMessage m)).
Definition codes (s : string) : list N := map N_of_ascii (list_ascii_of_string s).

(** lib.rs:60-70 [initialize]: the generator is kept, the output buffer is not touched. *)
Definition rt_initialize : B unit := fun b => BOk tt (mkBack (new_sim (rng (bsim b))) [] 0 (bout b)).
(** lib.rs:43-49: the state of a thread before the first call. *)
Definition back_default (g : gen) : back := mkBack (new_sim g) [] 0 [].

(** lib.rs:72-77 [ensure_sufficient_qubits]: the number of iterations is fixed by the first test. *)
Fixpoint alloc_times (n : nat) : B unit :=
  match n with
  | O => bret tt
  | S n' => _ <- simcall CAlloc ;; (fun b => BOk tt (with_max b (S (bmax b)))) ;;; alloc_times n'
  end.
Definition ensure (q : nat) : B unit := fun b => alloc_times (S q - bmax b) b.

(** lib.rs:146-201, 271-301: single-qubit gates and rotations. *)
Definition qis_gate (g : gname) (q : nat) : B unit := ensure q ;;; simdo (CGate g q).
(** lib.rs:203-269: one or two controls. *)
Definition qis_c1 (g : gname) (c t : nat) : B unit := ensure t ;;; ensure c ;;; simdo (CMc g [c] t).
Definition qis_c2 (g : gname) (c1 c2 t : nat) : B unit :=
  ensure t ;;; ensure c1 ;;; ensure c2 ;;; simdo (CMc g [c1; c2] t).
(** lib.rs:303-434: any number of controls. *)
Definition qis_ctl (g : gname) (cs : list nat) (t : nat) : B unit :=
  ensure t ;;; bfor cs ensure ;;; simdo (CMc g cs t).

(** lib.rs:436-442 [sx]. *)
Definition qis_sx (q : nat) : B unit := qis_gate GH q ;;; qis_gate GS q ;;; qis_gate GH q.
(** lib.rs:490-498 [rzz]. *)
Definition qis_rzz (th : R) (q1 q2 : nat) : B unit :=
  qis_c1 GX q2 q1 ;;; qis_gate (GRz th) q1 ;;; qis_c1 GX q2 q1.
(** lib.rs:444-460 [rxx]. *)
Definition qis_rxx (th : R) (q1 q2 : nat) : B unit :=
  qis_gate GH q1 ;;; qis_gate GH q2 ;;; qis_rzz th q1 q2 ;;; qis_gate GH q2 ;;; qis_gate GH q1.
(** lib.rs:462-486 [ryy]. *)
Definition qis_ryy (th : R) (q1 q2 : nat) : B unit :=
  qis_gate GH q1 ;;; qis_gate GS q1 ;;; qis_gate GH q1 ;;;
  qis_gate GH q2 ;;; qis_gate GS q2 ;;; qis_gate GH q2 ;;;
  qis_rzz th q1 q2 ;;;
  qis_gate GH q2 ;;; qis_gate GSadj q2 ;;; qis_gate GH q2 ;;;
  qis_gate GH q1 ;;; qis_gate GSadj q1 ;;; qis_gate GH q1.
(** lib.rs:500-515, 517-521 [r], [r__adj]. *)
Definition qis_r (p : pauli) (th : R) (q : nat) : B unit :=
  match p with
  | PI_ => bret tt
  | PX_ => qis_gate (GRx th) q | PY_ => qis_gate (GRy th) q | PZ_ => qis_gate (GRz th) q
  end.
Definition qis_r_adj (p : pauli) (th : R) (q : nat) : B unit := qis_r p (- th) q.
(** lib.rs:531-587, 589-610 [r__ctl], [r__ctladj]. *)
Definition qis_r_ctl (cs : list nat) (p : pauli) (th : R) (q : nat) : B unit :=
  match p with
  | PX_ => qis_ctl (GRx th) cs q | PY_ => qis_ctl (GRy th) cs q | PZ_ => qis_ctl (GRz th) cs q
  | PI_ => match cs with
           | [] => bret tt
           | head :: rest => ensure q ;;; bfor cs ensure ;;; simdo (CPhase rest (Cis (- th / 2)) head)
           end
  end.
Definition qis_r_ctladj (cs : list nat) (p : pauli) (th : R) (q : nat) : B unit := qis_r_ctl cs p (- th) q.

(** exp.rs:37-68, 75-83 *)
Definition qis_exp (ps : list pauli) (th : R) (qs : list nat) : B unit := bfor qs ensure ;;; simdo (CExp ps th qs).
Definition qis_exp_adj (ps : list pauli) (th : R) (qs : list nat) : B unit := qis_exp ps (- th) qs.
(** exp.rs:99-141, 149-165 *)
Definition qis_exp_ctl (cs : list nat) (ps : list pauli) (th : R) (qs : list nat) : B unit :=
  bfor cs ensure ;;; bfor qs ensure ;;; simdo (CMcExp cs ps th qs).
Definition qis_exp_ctladj (cs : list nat) (ps : list pauli) (th : R) (qs : list nat) : B unit :=
  qis_exp_ctl cs ps (- th) qs.

(** lib.rs:612-622 [swap]. *)
Definition qis_swap (q1 q2 : nat) : B unit := ensure q1 ;;; ensure q2 ;;; simdo (CSwap q1 q2).
(** lib.rs:624-635 [reset]. *)
Definition qis_reset (q : nat) : B unit :=
  ensure q ;;; r <- simbit (CMeasure q) ;; (if r : bool then simdo (CGate GX q) else bret tt).

(** [BitVec::resize] to at least [i + 1] bits (lib.rs:648-650 and others). *)
Definition grow_res (r : list bool) (i : nat) : list bool := r ++ repeat false (S i - length r).
Definition set_res (r : list bool) (i : nat) (v : bool) : list bool := firstn i r ++ [v] ++ skipn (S i) r.
Definition expand (i : nat) : B unit := fun b => BOk tt (with_res b (grow_res (bres b) i)).
Definition put_res (i : nat) (v : bool) : B unit := fun b => BOk tt (with_res b (set_res (bres b) i v)).
Definition get_res (i : nat) : B bool := fun b => BOk (nth i (bres b) false) b.
(** lib.rs:637-663 [mresetz]. *)
Definition qis_mresetz (q i : nat) : B unit :=
  ensure q ;;; expand i ;;; r <- simbit (CMeasure q) ;;
  (if r : bool then simdo (CGate GX q) else bret tt) ;;; put_res i r.
(** lib.rs:665-685 [mz]. *)
Definition qis_mz (q i : nat) : B unit := ensure q ;;; expand i ;;; r <- simbit (CMeasure q) ;; put_res i r.
(** lib.rs:687-712 [read_result]. *)
Definition qis_read_result (i : nat) : B bool := expand i ;;; get_res i.
(** lib.rs:714-729 [write_result]. *)
Definition rt_write_result (v : bool) (i : nat) : B unit := expand i ;;; put_res i v.
(** lib.rs:731-744 [m], result_bool.rs:9-17: One is the pointer 1, Zero is null. *)
Definition qis_m (q : nat) : B nat := ensure q ;;; r <- simbit (CMeasure q) ;; bret (if r : bool then 1 else 0).

(** lib.rs:79-128 [map_to_z_basis]; the failure message is that of line 94. *)
Definition to_z (pq : pauli * nat) : B unit :=
  let '(p, q) := pq in
  match p with
  | PX_ => simdo (CGate GH q)
  | PY_ => simdo (CGate GH q) ;;; simdo (CGate GS q) ;;; simdo (CGate GH q)
  | _ => bret tt
  end.
Definition not_id (pq : pauli * nat) : bool := match fst pq with PI_ => false | _ => true end.
Definition map_to_z_basis (ps : list pauli) (qs : list nat) : B (list (pauli * nat)) :=
  if Nat.eqb (length ps) (length qs) then
    let cl := filter not_id (combine ps qs) in
    bfor cl (fun pq => ensure (snd pq)) ;;; bfor cl to_z ;;; bret cl
  else rt_fail (codes "Pauli array and Qubit array must be the same size.").
(** lib.rs:130-144 [unmap_from_z_basis]. *)
Definition from_z (pq : pauli * nat) : B unit :=
  let '(p, q) := pq in
  match p with
  | PX_ => simdo (CGate GH q)
  | PY_ => simdo (CGate GH q) ;;; simdo (CGate GSadj q) ;;; simdo (CGate GH q)
  | _ => bret tt
  end.
(** lib.rs:746-781 [measure]. *)
Definition qis_measure (ps : list pauli) (qs : list nat) : B nat :=
  cl <- map_to_z_basis ps qs ;; r <- simbit (CJointMeasure (map snd cl)) ;;
  bfor cl from_z ;;; bret (if r : bool then 1 else 0).
(** lib.rs:784-791. *)
Definition api_qubit_is_zero (q : nat) : B bool := ensure q ;;; simbit (CIsZero q).
(** lib.rs:793-831 [assertmeasurementprobability]; lib.rs:844-866 (the ctl variant) ignores the controls. *)
Definition qis_assert (ps : list pauli) (qs : list nat) (result : nat) (prob : R) (msg : list N) (tolerance : R) : B unit :=
  cl <- map_to_z_basis ps qs ;; p <- simcall (CJointProb (map snd cl)) ;;
  let p := match p with RProb p => p | _ => 0%R end in
  let actual := if Nat.eqb result 0 then (1 - p)%R else p in
  (if Rltb tolerance (Rabs (actual - prob)) then rt_fail msg else bret tt) ;;;
  bfor cl from_z.

(** lib.rs:881-899 (legacy), 901-931 [result_record_output]. *)
Definition recorded (i : nat) : B bool := fun b =>
  match bres b with
  | [] => BOk (Nat.eqb i 1) b
  | _ => (expand i ;;; get_res i) b
  end.
Definition rt_result_record (i : nat) (tag : option text) : B unit := v <- recorded i ;; emit (render (RecResult v tag)).
Definition rt_result_record_legacy (i : nat) : B unit := v <- recorded i ;; emit (render (LegResult v)).

(** lib.rs:933-946 [qubit_allocate]. *)
Definition rt_qubit_allocate : B nat :=
  r <- simcall CAlloc ;;
  let q := match r with RId q => q | _ => 0 end in
  (fun b => BOk q (with_max b (Nat.max (bmax b) (S q)))).
(** lib.rs:948-967 [qubit_allocate_array]. *)
Fixpoint rt_allocate_array (n : nat) : B (list nat) :=
  match n with O => bret [] | S n' => q <- rt_qubit_allocate ;; l <- rt_allocate_array n' ;; bret (q :: l) end.
(** lib.rs:985-992 [qubit_release], 969-983 [qubit_release_array] (with the memory of the array in QubitArray.v). *)
Definition rt_qubit_release (q : nat) : B unit := simdo (CRelease q).
Definition rt_release_array (qs : list nat) : B unit := bfor qs rt_qubit_release.
(** lib.rs:994-1008 [qubit_to_string]. *)
Definition rt_qubit_to_string (q : nat) : B text := bret (show_Z (Z.of_nat q)).
(** lib.rs:1010-1018 [capture_quantum_state]. *)
Definition api_capture : B (list (N * C) * nat) :=
  r <- simcall CState ;; bret (match r with RState st n => (st, n) | _ => ([], 0) end).
(** lib.rs:1020-1047 [dumpmachine]. *)
Definition qis_dumpmachine (location : nat) : B unit :=
  match location with
  | O => fun b => ((match bres b with [] => bret tt | _ => emit (lit "Global Results: " ++ show_results (bres b) ++ [NL]) end) ;;;
                   (r <- simcall CDump ;; emit (show_dump (match r with RDump st => st | _ => [] end)))) b
  | S _ => fun b => BErr EUnimplemented (bout b)
  end.

(** ** Calls of a program *)
(** One constructor for each exported function of backend/src/lib.rs:57-850, backend/src/exp.rs, backend/src/result_bool.rs and of the record functions (stdlib/src/output_recording.rs); the name is the lower-case function in this file. *)
Inductive bcall :=
| QGate (g : gname) (q : nat) | QC1 (g : gname) (c t : nat) | QC2 (g : gname) (c1 c2 t : nat)
| QCtl (g : gname) (cs : list nat) (q : nat)
| QSx (q : nat) | QRxx (th : R) (a b : nat) | QRyy (th : R) (a b : nat) | QRzz (th : R) (a b : nat)
| QR (p : pauli) (th : R) (q : nat) | QRAdj (p : pauli) (th : R) (q : nat)
| QRCtl (cs : list nat) (p : pauli) (th : R) (q : nat) | QRCtlAdj (cs : list nat) (p : pauli) (th : R) (q : nat)
| QExp (ps : list pauli) (th : R) (qs : list nat) | QExpAdj (ps : list pauli) (th : R) (qs : list nat)
| QExpCtl (cs : list nat) (ps : list pauli) (th : R) (qs : list nat)
| QExpCtlAdj (cs : list nat) (ps : list pauli) (th : R) (qs : list nat)
| QSwap (a b : nat) | QReset (q : nat) | QMresetz (q i : nat) | QMz (q i : nat)
| QReadResult (i : nat) | QWriteResult (v : bool) (i : nat)
| QM (q : nat) | QMeasure (ps : list pauli) (qs : list nat) | QIsZero (q : nat)
| QAssert (ps : list pauli) (qs : list nat) (result : nat) (prob : R) (msg : list N) (tolerance : R)
| QAlloc | QAllocArray (n : nat) | QRelease (q : nat) | QReleaseArray (qs : list nat)
| QQubitString (q : nat) | QCapture | QDump (location : nat) | QBarrier
| QResult (i : nat) (tag : option text) | QResultLegacy (i : nat)
| QRecord (r : record)                       (* the other record calls, and message *)
| QFail (m : list N)
| QInit.

(** What the exported functions of backend/src/lib.rs return. *)
Inductive breply := VUnit | VBool (b : bool) | VResult (r : nat) | VQubit (q : nat) | VQubits (qs : list nat)
  | VText (t : text) | VState (st : list (N * C)) (n : nat).
(** Functions of backend/src/lib.rs without a return value. *)
Definition vunit (m : B unit) : B breply := _ <- m ;; bret VUnit.

(** Not in the source: the function of backend/src/lib.rs that a call names. *)
Definition bcall1 (c : bcall) : B breply :=
  match c with
  | QGate g q => vunit (qis_gate g q) | QC1 g c t => vunit (qis_c1 g c t) | QC2 g c1 c2 t => vunit (qis_c2 g c1 c2 t)
  | QCtl g cs q => vunit (qis_ctl g cs q)
  | QSx q => vunit (qis_sx q) | QRxx th a b => vunit (qis_rxx th a b) | QRyy th a b => vunit (qis_ryy th a b)
  | QRzz th a b => vunit (qis_rzz th a b)
  | QR p th q => vunit (qis_r p th q) | QRAdj p th q => vunit (qis_r_adj p th q)
  | QRCtl cs p th q => vunit (qis_r_ctl cs p th q) | QRCtlAdj cs p th q => vunit (qis_r_ctladj cs p th q)
  | QExp ps th qs => vunit (qis_exp ps th qs) | QExpAdj ps th qs => vunit (qis_exp_adj ps th qs)
  | QExpCtl cs ps th qs => vunit (qis_exp_ctl cs ps th qs) | QExpCtlAdj cs ps th qs => vunit (qis_exp_ctladj cs ps th qs)
  | QSwap a b => vunit (qis_swap a b) | QReset q => vunit (qis_reset q)
  | QMresetz q i => vunit (qis_mresetz q i) | QMz q i => vunit (qis_mz q i)
  | QReadResult i => v <- qis_read_result i ;; bret (VBool v)
  | QWriteResult v i => vunit (rt_write_result v i)
  | QM q => r <- qis_m q ;; bret (VResult r) | QMeasure ps qs => r <- qis_measure ps qs ;; bret (VResult r)
  | QIsZero q => v <- api_qubit_is_zero q ;; bret (VBool v)
  | QAssert ps qs r p m t => vunit (qis_assert ps qs r p m t)
  | QAlloc => q <- rt_qubit_allocate ;; bret (VQubit q)
  | QAllocArray n => qs <- rt_allocate_array n ;; bret (VQubits qs)
  | QRelease q => vunit (rt_qubit_release q) | QReleaseArray qs => vunit (rt_release_array qs)
  | QQubitString q => t <- rt_qubit_to_string q ;; bret (VText t)
  | QCapture => sn <- api_capture ;; bret (VState (fst sn) (snd sn))
  | QDump loc => vunit (qis_dumpmachine loc)
  | QBarrier => bret VUnit                                       (* lib.rs:1049-1053 *)
  | QResult i tag => vunit (rt_result_record i tag) | QResultLegacy i => vunit (rt_result_record_legacy i)
  | QRecord r => vunit (emit (render r))
  | QFail m => rt_fail m
  | QInit => vunit rt_initialize
  end.
(** A sequence of calls. *)
(** Not in the source: calls of backend/src/lib.rs in sequence. *)
Fixpoint bexec (h : list bcall) : B (list breply) :=
  match h with [] => bret [] | c :: h' => r <- bcall1 c ;; rs <- bexec h' ;; bret (r :: rs) end.
End Backend.
Arguments BOk {T EN X} x b.
Arguments BErr {T EN X} e out.
