(** * The chances of a program in quantum mechanics

    A program is followed along every sequence of measurement results.  A path carries an unnormalised state vector: every result
    applies its projection, and the squared length of the vector is the chance of the path.  No samples, no generator, no
    normalisation.  Paths of chance zero are not followed. *)
From Coq Require Import String List NArith ZArith Reals Bool.
From Verif Require Import Cx Bits Arith ArithR Sim SimExp Spec SpecExp SpecRun SimRun Text Backend SpecBackend Runner SpecRunner SpecIdeal.
Import ListNotations.
Local Open Scope R_scope.
Local Open Scope list_scope.

Section Chance.
Context {T : Tol} {EN : Env} {D : Doubles} {SW : Shows} {RN : Rand}.

(** The qubits, the vector, the static results (how many have been used, their values), the text printed. *)
Record path := mkPath { h_book : bbook; h_vec : qstate; h_used : nat; h_res : nat -> bool; h_out : text }.
Definition path0 : path := mkPath bbstart ket0 0 (fun _ => false) [].
Definition size2 (l : list nat) (psi : qstate) : R := norm2 (width l) psi.
Definition chance (m : path) : R := size2 (bb_live (h_book m)) (h_vec m).

Definition moved (m : path) (k : bbook) (psi : qstate) : path := mkPath k psi (h_used m) (h_res m) (h_out m).
Definition noted (i : nat) (v : bool) (m : path) : path :=
  mkPath (h_book m) (h_vec m) (Nat.max (h_used m) (S i)) (fun j => if Nat.eqb j i then v else h_res m j) (h_out m).
Definition looked (i : nat) (m : path) : path := mkPath (h_book m) (h_vec m) (Nat.max (h_used m) (S i)) (h_res m) (h_out m).
Definition printed (t : text) (m : path) : path := mkPath (h_book m) (h_vec m) (h_used m) (h_res m) (h_out m ++ t).

(** No qubits left: a vector of the same length. *)
Definition nothing (l : list nat) (psi : qstate) : qstate := scale (RtoC (sqrt (size2 l psi))) ket0.
(** Giving up qubits one after another: each is projected on a result and removed. *)
Fixpoint discards (qs : list nat) (l : list nat) (psi : qstate) : list qstate :=
  match qs with
  | [] => [psi]
  | q :: qs' =>
    match remove_id q l with
    | [] => discards qs' [] (nothing l psi)
    | l' => discards qs' l' (drop_qubit q true (proj [q] true psi)) ++ discards qs' l' (drop_qubit q false (proj [q] false psi))
    end
  end.

(** A call goes on, in one or several ways, or stops the program.  (Listings of the state are not covered: they are shown only up to
    a global phase.) *)
Inductive side := Go (r : breply) (m : path) | Halt (e : berr) (out : text).
Definition bothways (f : bool -> side) : list side := [f true; f false].
Definition as_result (r : bool) : breply := VResult (if r then 1 else 0)%nat.
Definition sides (m : path) (c : bcall) : list side :=
  let k := bbstep (h_book m) c in
  let l := bb_live k in
  let psi := h_vec m in
  match bop c with
  | Some F => [Go VUnit (moved m k (F psi))]
  | None =>
    match c with
    | QM q => bothways (fun r => Go (as_result r) (moved m k (proj [q] r psi)))
    | QMz q i => bothways (fun r => Go VUnit (noted i r (moved m k (proj [q] r psi))))
    | QReset q => bothways (fun r => Go VUnit (moved m k (drop_qubit q r (proj [q] r psi))))
    | QMresetz q i => bothways (fun r => Go VUnit (noted i r (moved m k (drop_qubit q r (proj [q] r psi)))))
    | QMeasure ps qs => bothways (fun r => Go (as_result r) (moved m k (eigen_proj (paired ps qs) r psi)))
    | QIsZero q => [Go (VBool (truly _ (Req_EM_T (born (width l) [q] psi) 0))) (moved m k psi)]
    | QAssert ps qs result prob msg tolerance =>
        let p := size2 l (eigen_proj (paired ps qs) (negb (Nat.eqb result 0)) psi) / size2 l psi in
        if Rlt_dec tolerance (Rabs (p - prob)) then [Halt (EFail msg) (h_out m ++ render (RecMessage msg))]
        else [Go VUnit (moved m k psi)]
    | QAlloc => [Go (VQubit (fresh_id (bb_live (h_book m)))) (moved m k psi)]
    | QAllocArray n => [Go (VQubits (fresh_ids n (bb_live (h_book m)))) (moved m k psi)]
    | QRelease q => map (fun psi' => Go VUnit (moved m k psi')) (discards [q] (bb_live (h_book m)) psi)
    | QReleaseArray qs => map (fun psi' => Go VUnit (moved m k psi')) (discards qs (bb_live (h_book m)) psi)
    | QReadResult i => [Go (VBool (h_res m i)) (looked i m)]
    | QWriteResult v i => [Go VUnit (noted i v m)]
    | QResult i tag =>
        if Nat.eqb (h_used m) 0 then [Go VUnit (printed (render (RecResult (Nat.eqb i 1) tag)) m)]
        else [Go VUnit (printed (render (RecResult (h_res m i) tag)) (looked i m))]
    | QResultLegacy i =>
        if Nat.eqb (h_used m) 0 then [Go VUnit (printed (render (LegResult (Nat.eqb i 1))) m)]
        else [Go VUnit (printed (render (LegResult (h_res m i))) (looked i m))]
    | QRecord r => [Go VUnit (printed (render r) m)]
    | QQubitString q => [Go (VText (show_Z (Z.of_nat q))) m]
    | QInit => [Go VUnit (mkPath bbstart (nothing (bb_live (h_book m)) psi) 0 (fun _ => false) (h_out m))]
    | QFail msg => [Halt (EFail msg) (h_out m ++ render (RecMessage msg))]
    | QDump (S _) => [Halt EUnimplemented (h_out m)]
    | _ => [Go VUnit m]
    end
  end.

(** How a shot ends: it returns with the program's memory, having printed some text (and leaving the thread's own generator), or it
    stops, or it is still running. *)
Inductive ended (M : Type) := EDone (mem : M) (out : text) (t : tgen) | EStop (e : stop) (out : text) | EMore (out : text).
Arguments EDone {M} mem out t. Arguments EStop {M} e out. Arguments EMore {M} out.
Definition ending {M : Type} (r : prun M) : ended M :=
  match r with
  | PDone m w => EDone m (bout (wback w)) (wtgen w)
  | PStop e o => EStop e o
  | PMore o => EMore o
  end.
(** The ways a program can end, each with its chance. *)
Fixpoint chances (p : program) (fuel : nat) (l : ploc p) (m : path) (t : tgen) : list (R * ended (pmem p)) :=
  match fuel with
  | O => [(chance m, EMore (h_out m))]
  | S n =>
    match pstep p l with
    | ADone mem => [(chance m, EDone mem (h_out m) t)]
    | ATrap => [(chance m, EStop StopTrap (h_out m))]
    | ARandom lo hi k =>
      if Z.ltb hi lo then [(chance m, EStop (StopErr (EFail bad_range)) (h_out m ++ render (RecMessage bad_range)))]
      else chances p n (k (fst (draw_range lo hi t))) m (snd (draw_range lo hi t))
    | ACall c k =>
      flat_map (fun x =>
        match x with
        | Go r m' => if Req_EM_T (chance m') 0 then [] else chances p n (k r) m' t
        | Halt e o => [(chance m, EStop (StopErr e) o)]
        end) (sides m c)
    end
  end.
(** The ways [n] shots can end, each with its chance: the texts printed, or nothing if a shot does not return.
    Each shot starts afresh; the program's memory and the thread's own generator go on. *)
Fixpoint series (p : program) (fuel n : nat) (mem : pmem p) (t : tgen) : list (R * option (list text)) :=
  match n with
  | O => [(1, Some [])]
  | S n' =>
    flat_map (fun we =>
      match snd we with
      | EDone mem' out t' => map (fun wr => (fst we * fst wr, option_map (cons out) (snd wr))) (series p fuel n' mem' t')
      | _ => [(fst we, None)]
      end) (chances p fuel (pstart p mem) path0 t)
  end.
(** Every call on every path is valid and satisfies [P]. *)
Definition hvalid (m : path) (c : bcall) : Prop := match c with QFail _ | QDump _ => True | _ => bvalid (h_book m) c end.
Fixpoint sound (P : bcall -> Prop) (p : program) (fuel : nat) (l : ploc p) (m : path) (t : tgen) : Prop :=
  match fuel with
  | O => True
  | S n =>
    match pstep p l with
    | ACall c k => P c /\ hvalid m c /\ forall r m', In (Go r m') (sides m c) -> chance m' <> 0 -> sound P p n (k r) m' t
    | ARandom lo hi k => (lo <= hi)%Z -> sound P p n (k (fst (draw_range lo hi t))) m (snd (draw_range lo hi t))
    | _ => True
    end
  end.

(** ** Sets of samples
    A box is a range for each of the first samples; its volume is the chance that independent, uniform samples fall into it. *)
Definition box := list (R * R).
Fixpoint volume (b : box) : R := match b with [] => 1 | (lo, hi) :: b' => (hi - lo) * volume b' end.
Fixpoint inside (xs : nat -> R) (b : box) : Prop :=
  match b with [] => True | (lo, hi) :: b' => (lo <= xs O < hi) /\ inside (fun n => xs (S n)) b' end.
Definition unit_samples (xs : nat -> R) : Prop := forall n, 0 <= xs n < 1.
(** Boxes that cover all samples and do not overlap. *)
Definition partition (bs : list box) : Prop :=
  Forall (Forall (fun r => 0 <= fst r /\ fst r <= snd r /\ snd r <= 1)) bs /\
  ForallOrdPairs (fun b c => forall xs, ~ (inside xs b /\ inside xs c)) bs /\
  (forall xs, unit_samples xs -> Exists (inside xs) bs).
(** The samples of a generator. *)
Fixpoint gen_after (n : nat) (g : gen) : gen := match n with O => g | S n' => gen_after n' (snd (draw g)) end.
Definition samples_of (g : gen) : nat -> R := fun n => fst (draw (gen_after n g)).
End Chance.
Arguments EDone {T EN RN M} mem out t.
Arguments EStop {T EN RN M} e out.
Arguments EMore {T EN RN M} out.
