(** * An ideal machine for programs

    Exact quantum mechanics on the calls of the backend: no amplitudes below a threshold, no queues, no maps.
    A program in [Runner.v] is run on it call by call.  Only [observed] refers to the simulator or to the backend's state. *)
From Coq Require Import String List NArith ZArith Reals Bool.
From Verif Require Import Cx Bits Arith ArithR Sim SimExp Spec SpecExp SpecRun SimRun Text Backend SpecBackend Runner.
Import ListNotations.
Local Open Scope R_scope.
Local Open Scope list_scope.

Section Ideal.
Context {T : Tol} {EN : Env} {D : Doubles} {SW : Shows} {RN : Rand}.

(** Which qubits exist, their state, the static results (how many have been used, their values), the generator, the text printed. *)
Record ideal := mkIdeal { i_book : bbook; i_psi : qstate; i_used : nat; i_res : nat -> bool; i_gen : gen; i_out : text }.
Definition ideal0 (g : gen) : ideal := mkIdeal bbstart ket0 0 (fun _ => false) g [].

(** A call returns or stops the program. *)
Inductive ires := IGo (r : breply) (m : ideal) | IHalt (e : berr) (out : text).

Definition put (m : ideal) (k : bbook) (psi : qstate) (g : gen) : ideal := mkIdeal k psi (i_used m) (i_res m) g (i_out m).
Definition touch (m : ideal) (i : nat) : ideal :=
  mkIdeal (i_book m) (i_psi m) (Nat.max (i_used m) (S i)) (i_res m) (i_gen m) (i_out m).
Definition store (i : nat) (v : bool) (m : ideal) : ideal :=
  mkIdeal (i_book m) (i_psi m) (Nat.max (i_used m) (S i)) (fun j => if Nat.eqb j i then v else i_res m j) (i_gen m) (i_out m).
Definition say (t : text) (m : ideal) : ideal := mkIdeal (i_book m) (i_psi m) (i_used m) (i_res m) (i_gen m) (i_out m ++ t).

(** Identifiers given to [n] new qubits. *)
Fixpoint fresh_ids (n : nat) (l : list nat) : list nat :=
  match n with O => [] | S n' => fresh_id l :: fresh_ids n' (insert_id (fresh_id l) l) end.
(** Releasing measures the qubit and removes it; the last qubit is removed without a measurement. *)
Definition discard (s : list nat * qstate * gen) (q : nat) : list nat * qstate * gen :=
  let '(l, psi, g) := s in
  match remove_id q l with
  | [] => ([], ket0, g)
  | l' => let r := SpecRun.outcome l [q] psi (fst (draw g)) in (l', drop_qubit q r (collapsed l [q] r psi), snd (draw g))
  end.
Definition truly (P : Prop) (d : {P} + {~ P}) : bool := if d then true else false.

Definition ideal_step (m : ideal) (c : bcall) : ires :=
  let k := bbstep (i_book m) c in
  let l := bb_live k in
  let psi := i_psi m in
  let x := fst (draw (i_gen m)) in
  let g := snd (draw (i_gen m)) in
  match bop c with
  | Some F => IGo VUnit (put m k (F psi) (i_gen m))
  | None =>
    match c with
    | QM q => let r := SpecRun.outcome l [q] psi x in IGo (VResult (if r then 1 else 0)%nat) (put m k (collapsed l [q] r psi) g)
    | QMz q i => let r := SpecRun.outcome l [q] psi x in IGo VUnit (store i r (put m k (collapsed l [q] r psi) g))
    | QReset q => let r := SpecRun.outcome l [q] psi x in IGo VUnit (put m k (drop_qubit q r (collapsed l [q] r psi)) g)
    | QMresetz q i => let r := SpecRun.outcome l [q] psi x in IGo VUnit (store i r (put m k (drop_qubit q r (collapsed l [q] r psi)) g))
    | QMeasure ps qs =>
        let r := truly _ (Rlt_dec x (one_prob (width l) (paired ps qs) psi)) in
        IGo (VResult (if r then 1 else 0)%nat) (put m k (after_result (width l) (paired ps qs) r psi) g)
    | QIsZero q => IGo (VBool (truly _ (Req_EM_T (born (width l) [q] psi) 0))) (put m k psi (i_gen m))
    | QAssert ps qs result prob msg tolerance =>
        let p := result_prob (width l) (paired ps qs) (negb (Nat.eqb result 0)) psi in
        if Rlt_dec tolerance (Rabs (p - prob)) then IHalt (EFail msg) (i_out m ++ render (RecMessage msg))
        else IGo VUnit (put m k psi (i_gen m))
    | QAlloc => IGo (VQubit (fresh_id (bb_live (i_book m)))) (put m k psi (i_gen m))
    | QAllocArray n => IGo (VQubits (fresh_ids n (bb_live (i_book m)))) (put m k psi (i_gen m))
    | QRelease q => let '(_, psi', g') := discard (bb_live (i_book m), psi, i_gen m) q in IGo VUnit (put m k psi' g')
    | QReleaseArray qs => let '(_, psi', g') := fold_left discard qs (bb_live (i_book m), psi, i_gen m) in IGo VUnit (put m k psi' g')
    | QReadResult i => IGo (VBool (i_res m i)) (touch m i)
    | QWriteResult v i => IGo VUnit (store i v m)
    | QResult i tag =>
        if Nat.eqb (i_used m) 0 then IGo VUnit (say (render (RecResult (Nat.eqb i 1) tag)) m)
        else IGo VUnit (say (render (RecResult (i_res m i) tag)) (touch m i))
    | QResultLegacy i =>
        if Nat.eqb (i_used m) 0 then IGo VUnit (say (render (LegResult (Nat.eqb i 1))) m)
        else IGo VUnit (say (render (LegResult (i_res m i))) (touch m i))
    | QRecord r => IGo VUnit (say (render r) m)
    | QQubitString q => IGo (VText (show_Z (Z.of_nat q))) m
    | QInit => IGo VUnit (mkIdeal bbstart ket0 0 (fun _ => false) (i_gen m) (i_out m))
    | QFail msg => IHalt (EFail msg) (i_out m ++ render (RecMessage msg))
    | QDump (S _) => IHalt EUnimplemented (i_out m)
    | _ => IGo VUnit m
    end
  end.
(** Listings show the state up to a global phase, which the ideal machine does not fix. *)
Definition istep (m : ideal) (c : bcall) (x : ires) : Prop :=
  let l := bb_live (i_book m) in
  match c with
  | QCapture => exists st p, Cn2 p = 1 /\ listing st l (scale p (i_psi m)) /\ x = IGo (VState st (length l)) m
  | QDump O => exists st p, Cn2 p = 1 /\ listing st l (scale p (i_psi m)) /\
      x = IGo VUnit (say ((if Nat.eqb (i_used m) 0 then [] else lit "Global Results: " ++ show_results (map (i_res m) (seq 0 (i_used m))) ++ [NL]) ++
                          show_dump st) m)
  | _ => x = ideal_step m c
  end.
(** Valid calls, or calls that stop the program on purpose. *)
Definition ivalid (m : ideal) (c : bcall) : Prop :=
  match c with QFail _ | QDump _ => True | _ => bvalid (i_book m) c end.

(** What can be told from a run: how it ended, what it printed, and if it returned the generators it leaves. *)
Inductive outcome_of (M : Type) :=
| ODone (mem : M) (out : text) (g : gen) (t : tgen) | OStop (e : stop) (out : text) | OMore (out : text).
Arguments ODone {M} mem out g t. Arguments OStop {M} e out. Arguments OMore {M} out.
Definition observed {M : Type} (r : prun M) : outcome_of M :=
  match r with
  | PDone m w => ODone m (bout (wback w)) (rng (bsim (wback w))) (wtgen w)
  | PStop e o => OStop e o
  | PMore o => OMore o
  end.

(** Runs of a program on the ideal machine, with the thread's own generator [t] for drawrandomint. *)
Definition bad_range : list N := codes "Invalid Argument: minimum > maximum".
Inductive irun (p : program) : nat -> ploc p -> ideal -> tgen -> outcome_of (pmem p) -> Prop :=
| ir_more : forall l m t, irun p 0 l m t (OMore (i_out m))
| ir_done : forall n l m t mem, pstep p l = ADone mem -> irun p (S n) l m t (ODone mem (i_out m) (i_gen m) t)
| ir_trap : forall n l m t, pstep p l = ATrap -> irun p (S n) l m t (OStop StopTrap (i_out m))
| ir_call : forall n l m t c k r m' o, pstep p l = ACall c k -> istep m c (IGo r m') -> irun p n (k r) m' t o -> irun p (S n) l m t o
| ir_halt : forall n l m t c k e o, pstep p l = ACall c k -> istep m c (IHalt e o) -> irun p (S n) l m t (OStop (StopErr e) o)
| ir_draw : forall n l m t lo hi k o, pstep p l = ARandom lo hi k -> (lo <= hi)%Z ->
    irun p n (k (fst (draw_range lo hi t))) m (snd (draw_range lo hi t)) o -> irun p (S n) l m t o
| ir_range : forall n l m t lo hi k, pstep p l = ARandom lo hi k -> (hi < lo)%Z ->
    irun p (S n) l m t (OStop (StopErr (EFail bad_range)) (i_out m ++ render (RecMessage bad_range))).

(** Every call that the program makes on the ideal machine, whatever the listings show, is valid and satisfies [P]. *)
Fixpoint isafe (P : bcall -> Prop) (p : program) (fuel : nat) (l : ploc p) (m : ideal) (t : tgen) : Prop :=
  match fuel with
  | O => True
  | S n =>
    match pstep p l with
    | ACall c k => P c /\ ivalid m c /\ forall r m', istep m c (IGo r m') -> isafe P p n (k r) m' t
    | ARandom lo hi k => (lo <= hi)%Z -> isafe P p n (k (fst (draw_range lo hi t))) m (snd (draw_range lo hi t))
    | _ => True
    end
  end.

(** A condition on the calls alone that rules out the defect of [C01_refuted]: no single-qubit rotation about Y,
    or no sum of angles of single-qubit rotations about X is an odd multiple of pi. *)
Definition careful (P : bcall -> Prop) : Prop :=
  (forall c, P c -> turns_y c = None) \/
  exists G, subgroup G /\ (forall a, G a -> cos (a / 2) <> 0) /\ forall c, P c -> bangles G c.
(** No call asks for a listing of the state. *)
Definition lists_nothing (P : bcall -> Prop) : Prop := forall c, P c -> c <> QCapture /\ c <> QDump 0.

(** Shots on the ideal machine: each starts afresh; the generators and the program's own memory go on. *)
Inductive ishots (p : program) (fuel : nat) : nat -> pmem p -> gen -> tgen -> list text -> pmem p -> gen -> tgen -> Prop :=
| is_none : forall m g t, ishots p fuel 0 m g t [] m g t
| is_more : forall n m g t m1 o g1 t1 recs m' g' t',
    irun p fuel (pstart p m) (ideal0 g) t (ODone m1 o g1 t1) ->
    ishots p fuel n m1 g1 t1 recs m' g' t' -> ishots p fuel (S n) m g t (o :: recs) m' g' t'.
End Ideal.
Arguments ODone {T EN RN M} mem out g t.
Arguments OStop {T EN RN M} e out.
Arguments OMore {T EN RN M} out.
