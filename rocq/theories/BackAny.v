(** * The backend over any arithmetic: backend/src/lib.rs, exp.rs

    The same functions as in Backend.v, for amplitudes and angles of any type with any operations on them ([Arith]).  A function of
    the backend is given as the calls of the simulator it makes, one after another, each depending on the replies to the earlier ones
    (a [tree]); [play] makes them.  Left out are the functions whose effect depends on a computed probability or amplitude: dumpmachine,
    qubit_is_zero, capture_quantum_state and assertmeasurementprobability (they are in Backend.v).  As there, arrays and tuples passed by
    pointer appear as their contents, and qubits and results are pointers used as numbers. *)
From Coq Require Import String Ascii List NArith ZArith Bool.
From Verif Require Import Arith IndexMap Sim SimExp SpecAny Any Text Backend Runner.
Import ListNotations.

(** lib.rs:571-575: [Complex64::exp(Complex64::new(0.0, -theta / 2.0))]. *)
Class Phases {A : Arith} := { half_phase : ang -> amp }.
(** The generator of the thread: [rand::rng().random_range(lo..=hi)] (stdlib/src/math.rs:116). *)
Class ThreadGen := { tg : Type; tg_range : Z -> Z -> tg -> Z * tg }.

Section BackAny.
Context {A : Arith} {EN : Env} {PH : Phases} {D : Doubles} {TG : ThreadGen}.

(** ** Calls of the simulator *)

(** The end; a call (with the text printed so far) and what follows each reply; a new simulator with the same generator. *)
(** Not in the source: the [state.sim.f(..)] calls that a function of backend/src/lib.rs:57-716 makes, by the replies. *)
Inductive tree (X : Type) := Leaf (x : X) | Ask (o : text) (c : acall) (k : areply -> tree X) | Renew (t : tree X).
Arguments Leaf {X} x. Arguments Ask {X} o c k. Arguments Renew {X} t.
(** Sequencing; not in the source (backend/src/lib.rs). *)
Fixpoint tbind {X Y} (t : tree X) (f : X -> tree Y) : tree Y :=
  match t with Leaf x => f x | Ask o c k => Ask o c (fun r => tbind (k r) f) | Renew t' => Renew (tbind t' f) end.

(** lib.rs:37-41 [SimulatorState] without the simulator, and the thread's output buffer (output_recording.rs:74-76). *)
Record desk := mkDesk { dres : list bool; dmax : nat; dout : text }.
Inductive answer (X : Type) := Fine (x : X) (k : desk) | Broken (e : berr) (out : text).
Arguments Fine {X} x k. Arguments Broken {X} e out.
(** Making the calls.  A panic in the simulator stops the program. *)
(** As [simcall] in Backend.v (backend/src/lib.rs:57-716). *)
Fixpoint play {X} (s : sim) (t : tree (answer X)) : answer X * sim :=
  match t with
  | Leaf x => (x, s)
  | Ask o c k => match arun1 s c with Ok (r, s') => play s' (k r) | Panic e => (Broken (ESim e) o, s) end
  | Renew t' => play (new_sim (rng s)) t'
  end.

(** Sequencing; not in the source (backend/src/lib.rs). *)
Definition W (X : Type) := desk -> tree (answer X).
Definition wret {X} (x : X) : W X := fun k => Leaf (Fine x k).
Definition wbind {X Y} (m : W X) (f : X -> W Y) : W Y := fun k =>
  tbind (m k) (fun a => match a with Fine x k' => f x k' | Broken e o => Leaf (Broken e o) end).
Notation "x <- m ;; k" := (wbind m (fun x => k)) (at level 100, m at next level, right associativity).
Notation "m ;;; k" := (wbind m (fun _ => k)) (at level 100, k at level 200, right associativity).

(** One call of a public function of the simulator. *)
(** The [state.sim.f(..)] of backend/src/lib.rs:73-716. *)
Definition ask (c : acall) : W areply := fun k => Ask (dout k) c (fun r => Leaf (Fine r k)).
Definition ask_do (c : acall) : W unit := _ <- ask c ;; wret tt.
Definition ask_bit (c : acall) : W bool := r <- ask c ;; wret (match r with ABit v => v | _ => false end).
Definition wfor {X} (l : list X) (f : X -> W unit) : W unit := fold_right (fun x k => f x ;;; k) (wret tt) l.
(** output_recording.rs:82-113. *)
Definition wemit (t : text) : W unit := fun k => Leaf (Fine tt (mkDesk (dres k) (dmax k) (dout k ++ t))).
(** stdlib/src/lib.rs:85-105. *)
Definition wfail {X} (m : list N) : W X := fun k => Leaf (Broken (EFail m) (dout k ++ render (RecMessage m))).

(** lib.rs:60-70 [initialize]. *)
Definition a_initialize : W unit := fun k => Renew (Leaf (Fine tt (mkDesk [] 0 (dout k)))).
(** lib.rs:72-77 [ensure_sufficient_qubits]. *)
Fixpoint a_alloc_times (n : nat) : W unit :=
  match n with
  | O => wret tt
  | S n' => _ <- ask AAlloc ;; (fun k => Leaf (Fine tt (mkDesk (dres k) (S (dmax k)) (dout k)))) ;;; a_alloc_times n'
  end.
Definition a_ensure (q : nat) : W unit := fun k => a_alloc_times (S q - dmax k) k.

(** lib.rs:146-201, 271-301. *)
Definition a_gate (g : agate) (q : nat) : W unit := a_ensure q ;;; ask_do (AGate g q).
(** lib.rs:203-269. *)
Definition a_c1 (g : agate) (c t : nat) : W unit := a_ensure t ;;; a_ensure c ;;; ask_do (AMc g [c] t).
Definition a_c2 (g : agate) (c1 c2 t : nat) : W unit :=
  a_ensure t ;;; a_ensure c1 ;;; a_ensure c2 ;;; ask_do (AMc g [c1; c2] t).
(** lib.rs:303-434. *)
Definition a_ctl (g : agate) (cs : list nat) (t : nat) : W unit :=
  a_ensure t ;;; wfor cs a_ensure ;;; ask_do (AMc g cs t).
(** lib.rs:436-442 [sx]. *)
Definition a_sx (q : nat) : W unit := a_gate AH q ;;; a_gate AS q ;;; a_gate AH q.
(** lib.rs:490-498 [rzz]. *)
Definition a_rzz (th : ang) (q1 q2 : nat) : W unit :=
  a_c1 AX q2 q1 ;;; a_gate (ARz th) q1 ;;; a_c1 AX q2 q1.
(** lib.rs:444-460 [rxx]. *)
Definition a_rxx (th : ang) (q1 q2 : nat) : W unit :=
  a_gate AH q1 ;;; a_gate AH q2 ;;; a_rzz th q1 q2 ;;; a_gate AH q2 ;;; a_gate AH q1.
(** lib.rs:462-486 [ryy]. *)
Definition a_ryy (th : ang) (q1 q2 : nat) : W unit :=
  a_gate AH q1 ;;; a_gate AS q1 ;;; a_gate AH q1 ;;;
  a_gate AH q2 ;;; a_gate AS q2 ;;; a_gate AH q2 ;;;
  a_rzz th q1 q2 ;;;
  a_gate AH q2 ;;; a_gate ASadj q2 ;;; a_gate AH q2 ;;;
  a_gate AH q1 ;;; a_gate ASadj q1 ;;; a_gate AH q1.
(** lib.rs:500-515, 517-521 [r], [r__adj]. *)
Definition a_r (p : pauli) (th : ang) (q : nat) : W unit :=
  match p with
  | PI_ => wret tt
  | PX_ => a_gate (ARx th) q | PY_ => a_gate (ARy th) q | PZ_ => a_gate (ARz th) q
  end.
Definition a_r_adj (p : pauli) (th : ang) (q : nat) : W unit := a_r p (tneg th) q.
(** lib.rs:531-587, 589-610 [r__ctl], [r__ctladj]. *)
Definition a_r_ctl (cs : list nat) (p : pauli) (th : ang) (q : nat) : W unit :=
  match p with
  | PX_ => a_ctl (ARx th) cs q | PY_ => a_ctl (ARy th) cs q | PZ_ => a_ctl (ARz th) cs q
  | PI_ => match cs with
           | [] => wret tt
           | head :: rest => a_ensure q ;;; wfor cs a_ensure ;;; ask_do (APhase rest (half_phase th) head)
           end
  end.
Definition a_r_ctladj (cs : list nat) (p : pauli) (th : ang) (q : nat) : W unit := a_r_ctl cs p (tneg th) q.
(** exp.rs:37-68, 75-83. *)
Definition a_exp (ps : list pauli) (th : ang) (qs : list nat) : W unit := wfor qs a_ensure ;;; ask_do (AExp ps th qs).
Definition a_exp_adj (ps : list pauli) (th : ang) (qs : list nat) : W unit := a_exp ps (tneg th) qs.
(** exp.rs:99-141, 149-165. *)
Definition a_exp_ctl (cs : list nat) (ps : list pauli) (th : ang) (qs : list nat) : W unit :=
  wfor cs a_ensure ;;; wfor qs a_ensure ;;; ask_do (AMcExp cs ps th qs).
Definition a_exp_ctladj (cs : list nat) (ps : list pauli) (th : ang) (qs : list nat) : W unit :=
  a_exp_ctl cs ps (tneg th) qs.
(** lib.rs:612-622 [swap]. *)
Definition a_swap (q1 q2 : nat) : W unit := a_ensure q1 ;;; a_ensure q2 ;;; ask_do (ASwap q1 q2).
(** lib.rs:624-635 [reset]. *)
Definition a_reset (q : nat) : W unit :=
  a_ensure q ;;; r <- ask_bit (AMeasure q) ;; (if r : bool then ask_do (AGate AX q) else wret tt).

(** Static results: growing (lib.rs:648-650 and others), writing, reading. *)
Definition w_expand (i : nat) : W unit := fun k => Leaf (Fine tt (mkDesk (grow_res (dres k) i) (dmax k) (dout k))).
Definition w_put (i : nat) (v : bool) : W unit := fun k => Leaf (Fine tt (mkDesk (set_res (dres k) i v) (dmax k) (dout k))).
Definition w_get (i : nat) : W bool := fun k => Leaf (Fine (nth i (dres k) false) k).
(** lib.rs:637-663 [mresetz]. *)
Definition a_mresetz (q i : nat) : W unit :=
  a_ensure q ;;; w_expand i ;;; r <- ask_bit (AMeasure q) ;;
  (if r : bool then ask_do (AGate AX q) else wret tt) ;;; w_put i r.
(** lib.rs:665-685 [mz]. *)
Definition a_mz (q i : nat) : W unit := a_ensure q ;;; w_expand i ;;; r <- ask_bit (AMeasure q) ;; w_put i r.
(** lib.rs:687-712 [read_result], 714-729 [write_result]. *)
Definition a_read_result (i : nat) : W bool := w_expand i ;;; w_get i.
Definition a_write_result (v : bool) (i : nat) : W unit := w_expand i ;;; w_put i v.
(** lib.rs:731-744 [m]. *)
Definition a_m (q : nat) : W nat := a_ensure q ;;; r <- ask_bit (AMeasure q) ;; wret (if r : bool then 1 else 0).
(** lib.rs:79-128 [map_to_z_basis], 130-144 [unmap_from_z_basis]. *)
Definition a_to_z (pq : pauli * nat) : W unit :=
  let '(p, q) := pq in
  match p with
  | PX_ => ask_do (AGate AH q)
  | PY_ => ask_do (AGate AH q) ;;; ask_do (AGate AS q) ;;; ask_do (AGate AH q)
  | _ => wret tt
  end.
Definition a_map_to_z_basis (ps : list pauli) (qs : list nat) : W (list (pauli * nat)) :=
  if Nat.eqb (length ps) (length qs) then
    let cl := filter not_id (combine ps qs) in
    wfor cl (fun pq => a_ensure (snd pq)) ;;; wfor cl a_to_z ;;; wret cl
  else wfail (codes "Pauli array and Qubit array must be the same size.").
Definition a_from_z (pq : pauli * nat) : W unit :=
  let '(p, q) := pq in
  match p with
  | PX_ => ask_do (AGate AH q)
  | PY_ => ask_do (AGate AH q) ;;; ask_do (AGate ASadj q) ;;; ask_do (AGate AH q)
  | _ => wret tt
  end.
(** lib.rs:746-781 [measure]. *)
Definition a_measure (ps : list pauli) (qs : list nat) : W nat :=
  cl <- a_map_to_z_basis ps qs ;; r <- ask_bit (AJointMeasure (map snd cl)) ;;
  wfor cl a_from_z ;;; wret (if r : bool then 1 else 0).
(** lib.rs:881-899 (legacy), 901-931 [result_record_output]. *)
Definition a_recorded (i : nat) : W bool := fun k =>
  match dres k with
  | [] => Leaf (Fine (Nat.eqb i 1) k)
  | _ => (w_expand i ;;; w_get i) k
  end.
Definition a_result_record (i : nat) (tag : option text) : W unit := v <- a_recorded i ;; wemit (render (RecResult v tag)).
Definition a_result_record_legacy (i : nat) : W unit := v <- a_recorded i ;; wemit (render (LegResult v)).
(** lib.rs:933-946 [qubit_allocate], 948-967 [qubit_allocate_array]. *)
Definition a_qubit_allocate : W nat :=
  r <- ask AAlloc ;;
  let q := match r with AId q => q | _ => 0 end in
  (fun k => Leaf (Fine q (mkDesk (dres k) (Nat.max (dmax k) (S q)) (dout k)))).
Fixpoint a_allocate_array (n : nat) : W (list nat) :=
  match n with O => wret [] | S n' => q <- a_qubit_allocate ;; l <- a_allocate_array n' ;; wret (q :: l) end.
(** lib.rs:985-992 [qubit_release], 969-983 [qubit_release_array]. *)
Definition a_qubit_release (q : nat) : W unit := ask_do (ARelease q).
Definition a_release_array (qs : list nat) : W unit := wfor qs a_qubit_release.
(** lib.rs:994-1008 [qubit_to_string]. *)
Definition a_qubit_to_string (q : nat) : W text := wret (show_Z (Z.of_nat q)).

(** ** Calls of a program *)
(** One constructor for each function of backend/src/lib.rs:57-716, backend/src/exp.rs and of the record functions, as [bcall] in Backend.v. *)
Inductive acallb :=
| UGate (g : agate) (q : nat) | UC1 (g : agate) (c t : nat) | UC2 (g : agate) (c1 c2 t : nat)
| UCtl (g : agate) (cs : list nat) (q : nat)
| USx (q : nat) | URxx (th : ang) (a b : nat) | URyy (th : ang) (a b : nat) | URzz (th : ang) (a b : nat)
| UR (p : pauli) (th : ang) (q : nat) | URAdj (p : pauli) (th : ang) (q : nat)
| URCtl (cs : list nat) (p : pauli) (th : ang) (q : nat) | URCtlAdj (cs : list nat) (p : pauli) (th : ang) (q : nat)
| UExp (ps : list pauli) (th : ang) (qs : list nat) | UExpAdj (ps : list pauli) (th : ang) (qs : list nat)
| UExpCtl (cs : list nat) (ps : list pauli) (th : ang) (qs : list nat)
| UExpCtlAdj (cs : list nat) (ps : list pauli) (th : ang) (qs : list nat)
| USwap (a b : nat) | UReset (q : nat) | UMresetz (q i : nat) | UMz (q i : nat)
| UReadResult (i : nat) | UWriteResult (v : bool) (i : nat)
| UM (q : nat) | UMeasure (ps : list pauli) (qs : list nat)
| UAlloc | UAllocArray (n : nat) | URelease (q : nat) | UReleaseArray (qs : list nat)
| UQubitString (q : nat) | UBarrier
| UResult (i : nat) (tag : option text) | UResultLegacy (i : nat)
| URecord (r : record)
| UFail (m : list N)
| UInit.
(** Functions of backend/src/lib.rs without a return value. *)
Definition wunit (m : W unit) : W breply := _ <- m ;; wret VUnit.
(** Not in the source: the function of backend/src/lib.rs that a call names. *)
Definition acall1 (c : acallb) : W breply :=
  match c with
  | UGate g q => wunit (a_gate g q) | UC1 g c t => wunit (a_c1 g c t) | UC2 g c1 c2 t => wunit (a_c2 g c1 c2 t)
  | UCtl g cs q => wunit (a_ctl g cs q)
  | USx q => wunit (a_sx q) | URxx th a b => wunit (a_rxx th a b) | URyy th a b => wunit (a_ryy th a b)
  | URzz th a b => wunit (a_rzz th a b)
  | UR p th q => wunit (a_r p th q) | URAdj p th q => wunit (a_r_adj p th q)
  | URCtl cs p th q => wunit (a_r_ctl cs p th q) | URCtlAdj cs p th q => wunit (a_r_ctladj cs p th q)
  | UExp ps th qs => wunit (a_exp ps th qs) | UExpAdj ps th qs => wunit (a_exp_adj ps th qs)
  | UExpCtl cs ps th qs => wunit (a_exp_ctl cs ps th qs) | UExpCtlAdj cs ps th qs => wunit (a_exp_ctladj cs ps th qs)
  | USwap a b => wunit (a_swap a b) | UReset q => wunit (a_reset q)
  | UMresetz q i => wunit (a_mresetz q i) | UMz q i => wunit (a_mz q i)
  | UReadResult i => v <- a_read_result i ;; wret (VBool v)
  | UWriteResult v i => wunit (a_write_result v i)
  | UM q => r <- a_m q ;; wret (VResult r) | UMeasure ps qs => r <- a_measure ps qs ;; wret (VResult r)
  | UAlloc => q <- a_qubit_allocate ;; wret (VQubit q)
  | UAllocArray n => qs <- a_allocate_array n ;; wret (VQubits qs)
  | URelease q => wunit (a_qubit_release q) | UReleaseArray qs => wunit (a_release_array qs)
  | UQubitString q => t <- a_qubit_to_string q ;; wret (VText t)
  | UBarrier => wret VUnit                                       (* lib.rs:1049-1053 *)
  | UResult i tag => wunit (a_result_record i tag) | UResultLegacy i => wunit (a_result_record_legacy i)
  | URecord r => wunit (wemit (render r))
  | UFail m => wfail m
  | UInit => wunit a_initialize
  end.

(** ** Programs, as in Runner.v *)
(** As [action] in Runner.v: one step of the code run by runner/src/lib.rs:244-255. *)
Inductive aact (M L : Type) := BDone (m : M) | BCall (c : acallb) (k : breply -> L) | BRandom (lo hi : Z) (k : Z -> L) | BTrap.
Arguments BDone {M L} m. Arguments BCall {M L} c k. Arguments BRandom {M L} lo hi k. Arguments BTrap {M L}.
Record aprogram := { amem : Type; aloc : Type; astart : amem -> aloc; astep : aloc -> aact amem aloc }.
(** How a shot ends: it returns, the process aborts, or it is still running. *)
(** runner/src/lib.rs:209-210. *)
Inductive ashot (M : Type) := SDone (m : M) (t : tg) | SStop (e : stop) | SMore.
Arguments SDone {M} m t. Arguments SStop {M} e. Arguments SMore {M}.
(** stdlib/src/math.rs:110-117. *)
Definition bad_bounds : list N := codes "Invalid Argument: minimum > maximum".
Fixpoint shot_tree (p : aprogram) (fuel : nat) (l : aloc p) (k : desk) (t : tg) : tree (answer (ashot (amem p))) :=
  match fuel with
  | O => Leaf (Fine SMore k)
  | S n =>
    match astep p l with
    | BDone m => Leaf (Fine (SDone m t) k)
    | BCall c f =>
      tbind (acall1 c k) (fun a =>
        match a with
        | Fine r k' => shot_tree p n (f r) k' t
        | Broken e o => Leaf (Broken e o)
        end)
    | BRandom lo hi f =>
      if (hi <? lo)%Z then Leaf (Broken (EFail bad_bounds) (dout k ++ render (RecMessage bad_bounds)))
      else let (z, t') := tg_range lo hi t in shot_tree p n (f z) k t'
    | BTrap => Leaf (Fine (SStop StopTrap) k)
    end
  end.
(** A shot on a new simulator, with no results and no output (runner/src/lib.rs:209-210, 243-256, and lib.rs:60-70). *)
Definition desk0 : desk := mkDesk [] 0 [].
Definition shot (p : aprogram) (fuel : nat) (mem : amem p) (g : gen) (t : tg) : answer (ashot (amem p)) * sim :=
  play (new_sim g) (shot_tree p fuel (astart p mem) desk0 t).
(** [n] shots (runner/src/lib.rs:203-227): each has a new simulator that goes on with the generator of the last one, the memory of the
    program and the generator of the thread go on too.  The texts printed, or nothing if a shot does not return. *)
Fixpoint shots (p : aprogram) (fuel n : nat) (mem : amem p) (g : gen) (t : tg) : option (list text) :=
  match n with
  | O => Some []
  | S n' =>
    match shot p fuel mem g t with
    | (Fine (SDone mem' t') k, s) => option_map (cons (dout k)) (shots p fuel n' mem' (rng s) t')
    | _ => None
    end
  end.
End BackAny.
Arguments Leaf {A X} x.
Arguments Ask {A X} o c k.
Arguments Renew {A X} t.
Arguments Fine {X} x k.
Arguments Broken {X} e out.
Arguments BDone {A D M L} m.
Arguments BCall {A D M L} c k.
Arguments BRandom {A D M L} lo hi k.
Arguments BTrap {A D M L}.
Arguments SDone {TG M} m t.
Arguments SStop {TG M} e.
Arguments SMore {TG M}.
