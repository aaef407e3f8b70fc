(** * Programs that cannot be told apart

    Calls on different qubits may be made in either order, and calls on qubits that are no longer used may be left out. *)
From Coq Require Import List NArith ZArith Reals Bool.
From Verif Require Import Cx Bits Arith ArithR Sim SimExp Spec SpecExp SpecRun SimRun Text Backend SpecBackend Runner SpecIdeal SpecChance SpecIdle.
Import ListNotations.
Local Open Scope R_scope.

Section Alike.
Context {T : Tol} {EN : Env} {D : Doubles} {SW : Shows} {RN : Rand}.

(** Gates, resets and measurements of any kind. *)
Definition acting (c : bcall) : Prop := match c with QMz _ _ | QMresetz _ _ => True | _ => ordinary c end.
(** The static result that a call writes. *)
Definition slot (c : bcall) : option nat := match c with QMz _ i | QMresetz _ i => Some i | _ => None end.
(** A call of this kind that is valid and names only qubits that are there. *)
Definition ready (m : path) (c : bcall) : Prop := acting c /\ hvalid m c /\ (top (bnames c) <= bb_max (h_book m))%nat.
(** The calls have no qubit and no static result in common. *)
Definition unrelated (c c' : bcall) : Prop :=
  (forall q, In q (bnames c) -> ~ In q (bnames c')) /\ forall i, slot c = Some i -> slot c' <> Some i.
(** The same two calls, in either order; what follows may depend on both replies. *)
Definition crossed (p : program) (l l' : ploc p) (m : path) (c c' : bcall) : Prop :=
  exists k k' j, pstep p l = ACall c k /\ (forall r, pstep p (k r) = ACall c' (j r)) /\
    pstep p l' = ACall c' k' /\ (forall r', pstep p (k' r') = ACall c (fun r => j r r')) /\
    ready m c /\ ready m c' /\ unrelated c c'.

(** [alike p n l n' l' m t]: from [l] with [n] steps and from [l'] with [n'] steps the program does the same, but for the order of
    unrelated calls and for idle calls. *)
Inductive alike (p : program) : nat -> ploc p -> nat -> ploc p -> path -> tgen -> Prop :=
| al_same : forall n l m t, alike p n l n l m t
| al_back : forall n l n' l' m t, alike p n l n' l' m t -> alike p n' l' n l m t
| al_then : forall n l n1 l1 n' l' m t, alike p n l n1 l1 m t -> alike p n1 l1 n' l' m t -> alike p n l n' l' m t
| al_idle : forall n l m t c l', idle p n l m t c l' -> alike p (S n) l n l' m t
| al_cross : forall n l l' m t c c', crossed p l l' m c c' -> alike p (S (S n)) l (S (S n)) l' m t
| al_call : forall n l n' l' m t c k k', pstep p l = ACall c k -> pstep p l' = ACall c k' -> hvalid m c ->
    (forall r m', In (Go r m') (sides m c) -> chance m' <> 0 -> alike p n (k r) n' (k' r) m' t) -> alike p (S n) l (S n') l' m t
| al_draw : forall n l n' l' m t lo hi k k', pstep p l = ARandom lo hi k -> pstep p l' = ARandom lo hi k' ->
    ((lo <= hi)%Z -> alike p n (k (fst (draw_range lo hi t))) n' (k' (fst (draw_range lo hi t))) m (snd (draw_range lo hi t))) ->
    alike p (S n) l (S n') l' m t.
End Alike.

(** The same instructions of a program over any arithmetic, started elsewhere. *)
From Verif Require Import BackAny.
Definition astarted {A : Arith} {D : Doubles} (p : aprogram) (s : amem p -> aloc p) : aprogram :=
  {| amem := amem p; aloc := aloc p; astart := s; astep := astep p |}.
