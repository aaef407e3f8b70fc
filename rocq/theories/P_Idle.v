(** * C78: calls without consequences *)
From Coq Require Import String Reals NArith ZArith List Bool Lia Lra.
From Verif Require Import Cx Bits Arith ArithR Sim SimExp Spec SpecExp SpecRun SimRun Text Backend SpecBackend Runner SpecRunner SpecIdeal IdealEx
  World SimEx BackEx RunnerThms RunnerEx SpecChance Chance ChanceEx P_Chance SpecIdle IdleThms IdleEx.
Import ListNotations.
Local Open Scope R_scope.
Local Open Scope list_scope.

(** A gate, a reset or a measurement whose reply is ignored, on qubits that are not used any more, changes the chance of no ending. *)
Theorem C78_idle : forall (T : Tol) (EN : Env) (D : Doubles) (SW : Shows) (RN : Rand) p (E : ended (pmem p) -> bool) n l m t c l',
  supported (bb_live (h_book m)) (h_vec m) -> idle p n l m t c l' -> odds E (chances p (S n) l m t) = odds E (chances p n l' m t).
Proof. intros T EN D SW RN. exact idle_thm. Qed.
Print Assumptions C78_idle.
(** Any number of them can be left out, anywhere on the way. *)
Theorem C78_trims : forall (T : Tol) (EN : Env) (D : Doubles) (SW : Shows) (RN : Rand) p (E : ended (pmem p) -> bool) n l n' l' t,
  trims p n l n' l' path0 t -> odds E (chances p n l path0 t) = odds E (chances p n' l' path0 t).
Proof. intros T EN D SW RN p E n l n' l' t H. exact (trims_thm p E n l n' l' path0 t H start_supported). Qed.
Print Assumptions C78_trims.
(** The simulator: a shot of either function ends as foretold by the box its samples lie in, and for every test of how it ends the
    boxes that pass have the same total volume. *)
Theorem C78_shot : forall (T : Tol) (EN : Env) (D : Doubles) (SW : Shows) (RN : Rand), exact_world ->
  forall (P : bcall -> Prop) p s s' n n' mem t name name' attrs attrs',
  careful P -> lists_nothing P ->
  let f := entry name attrs 0 true (started p s) in
  let f' := entry name' attrs' 0 true (started p s') in
  sound P (fprog f) n (s mem) path0 t -> sound P (fprog f') n' (s' mem) path0 t -> trims p n (s mem) n' (s' mem) path0 t ->
  exists leaves leaves' : list (box * ended (pmem p)),
    partition (map fst leaves) /\ partition (map fst leaves') /\
    (forall g leaf, In leaf leaves -> inside (samples_of g) (fst leaf) -> ending (fresh_run f n mem g t) = snd leaf) /\
    (forall g leaf, In leaf leaves' -> inside (samples_of g) (fst leaf) -> ending (fresh_run f' n' mem g t) = snd leaf) /\
    forall E, bulk E leaves = bulk E leaves'.
Proof.
  intros T EN D SW RN EW P p s s' n n' mem t name name' attrs attrs' CP LN f f' S1 S2 H.
  destruct (C60_shot T EN D SW RN EW P f n mem t CP LN S1) as (ls & F1 & P1 & R1).
  destruct (C60_shot T EN D SW RN EW P f' n' mem t CP LN S2) as (ls' & F2 & P2 & R2).
  exists ls, ls'. repeat (split; [assumption|]). intros E.
  rewrite (bulk_odds _ E _ _ F1), (bulk_odds _ E _ _ F2).
  transitivity (odds E (chances p n (s mem) path0 t)); [f_equal; apply started_chances|].
  transitivity (odds E (chances p n' (s' mem) path0 t)); [exact (C78_trims T EN D SW RN p E _ _ _ _ t H)|f_equal; symmetry; apply started_chances].
Qed.
Print Assumptions C78_shot.

(** Asking whether a qubit is certainly zero is not covered, and cannot be: it tells whether the other half of an entangled pair has
    been measured. *)
Theorem C78_peek : forall (T : Tol) (EN : Env) (D : Doubles) (SW : Shows) (RN : Rand) n t, let silent := fun e : ended unit => match e with EDone _ [] _ => true | _ => false end in
  odds silent (chances (tree (peek true)) (6 + n) (peek true) path0 t) = 1 / 2 /\
  odds silent (chances (tree (peek false)) (5 + n) (peek false) path0 t) = 1.
Proof.
  intros T EN D SW RN n t silent. destruct (peek_calc n t) as [[_ E1] [_ E2]]. rewrite E1, E2. unfold odds, Rsum. cbn [map fold_right fst snd].
  split; [|cbn; lra]. change (silent (EDone tt [] t)) with true. replace (silent (EDone tt (render (RecResult true None)) t)) with false by reflexivity. lra.
Qed.
Print Assumptions C78_peek.
(** The hypotheses are met. *)
Example C78_ex : @exact_world T0 E0 /\ careful (@plain D0) /\ lists_nothing (@plain D0) /\
  let s := fun b (_ : unit) => @half D0 b in let p := tree (half true) in
  (forall b n t, @sound T0 E0 D0 RN0 plain (@started D0 p (s b)) n (half b) path0 t) /\
  (forall n t, @trims T0 E0 D0 RN0 p (4 + n) (half true) (2 + n) (half false) path0 t).
Proof.
  split; [exact exact0|]. split; [apply plain_careful|]. split; [apply plain_lists|]. intros s p. split.
  - intros b n t. exact (@half_sound T0 E0 D0 RN0 b n t).
  - intros n t. apply half_trims.
Qed.
