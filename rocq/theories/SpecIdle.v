(** * Calls without consequences

    What a program does to qubits it never uses again, and whose results it does not look at. *)
From Coq Require Import List NArith ZArith Reals Bool.
From Verif Require Import Cx Bits Arith ArithR Sim SimExp Spec SpecExp SpecRun SimRun Text Backend SpecBackend Runner SpecIdeal SpecChance.
Import ListNotations.
Local Open Scope R_scope.

Section Idle.
Context {T : Tol} {EN : Env} {D : Doubles} {SW : Shows} {RN : Rand}.

(** The qubits a call uses, those it gives back included. *)
Definition uses (c : bcall) : list nat :=
  match c with QRelease q => [q] | QReleaseArray qs => qs | _ => bnames c end.
(** The call uses none of the qubits [Q], does not look at the state from outside (listings, assertions on probabilities,
    the question whether a qubit is certainly zero), and does not start afresh. *)
Definition apart (Q : list nat) (c : bcall) : Prop :=
  (forall q, In q Q -> ~ In q (uses c)) /\
  match c with QInit | QCapture | QDump O | QIsZero _ | QAssert _ _ _ _ _ _ => False | _ => True end.
(** Gates, resets and measurements whose result, if any, is only returned. *)
Definition ordinary (c : bcall) : Prop :=
  match c with QM _ | QReset _ | QMeasure _ _ => True | _ => bop c <> None end.

(** The chance that a program ends in a way that passes the test [E]. *)
Definition odds {M : Type} (E : ended M -> bool) (ws : list (R * ended M)) : R :=
  Rsum (map (fun w => if E (snd w) then fst w else 0) ws).

(** An ordinary call that is valid and names qubits that exist. *)
Definition touching (m : path) (c : bcall) : Prop :=
  ordinary c /\ bnames c <> [] /\ hvalid m c /\ (top (bnames c) <= bb_max (h_book m))%nat.
(** [idle p n l m t c l']: the program is about to make such a call [c]; whatever the reply it goes on at [l'], and from there, in [n]
    steps on any path, it uses none of the qubits that [c] names. *)
Definition idle (p : program) (n : nat) (l : ploc p) (m : path) (t : tgen) (c : bcall) (l' : ploc p) : Prop :=
  (exists k, pstep p l = ACall c k /\ forall r, k r = l') /\ touching m c /\ sound (apart (bnames c)) p n l' m t.
(** Two places in a program that do the same, except that calls on the way from the first are left out from the second: calls on
    qubits that the second does not use from then on, and whose replies make no difference to what it is compared with. *)
Inductive trims (p : program) : nat -> ploc p -> nat -> ploc p -> path -> tgen -> Prop :=
| tr_same : forall n l m t, trims p n l n l m t
| tr_idle : forall n l n' l' m t c k, pstep p l = ACall c k -> touching m c -> sound (apart (bnames c)) p n' l' m t ->
    (forall r m', In (Go r m') (sides m c) -> chance m' <> 0 -> trims p n (k r) n' l' m' t) -> trims p (S n) l n' l' m t
| tr_call : forall n l n' l' m t c k k', pstep p l = ACall c k -> pstep p l' = ACall c k' -> hvalid m c ->
    (forall r m', In (Go r m') (sides m c) -> chance m' <> 0 -> trims p n (k r) n' (k' r) m' t) -> trims p (S n) l (S n') l' m t
| tr_draw : forall n l n' l' m t lo hi k k', pstep p l = ARandom lo hi k -> pstep p l' = ARandom lo hi k' ->
    trims p n (k (fst (draw_range lo hi t))) n' (k' (fst (draw_range lo hi t))) m (snd (draw_range lo hi t)) -> trims p (S n) l (S n') l' m t.
(** The same instructions, started elsewhere. *)
Definition started (p : program) (s : pmem p -> ploc p) : program :=
  {| pmem := pmem p; ploc := ploc p; pinit := pinit p; pstart := s; pstep := pstep p |}.
(** The volume of the samples with which a run ends in a way that passes the test. *)
Definition bulk {M : Type} (E : ended M -> bool) (leaves : list (box * ended M)) : R :=
  Rsum (map (fun leaf => if E (snd leaf) then volume (fst leaf) else 0) leaves).
End Idle.
