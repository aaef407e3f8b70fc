(** * C79: the order of unrelated calls *)
From Coq Require Import String Reals NArith ZArith List Bool Lia Lra.
From Verif Require Import Cx Bits Arith ArithR Sim SimExp Spec SpecExp SpecRun SimRun Text Backend SpecBackend Runner SpecRunner SpecIdeal IdealEx
  World SimEx BackEx RunnerThms RunnerEx SpecChance Chance ChanceEx P_Chance SpecIdle IdleThms SpecAlike AlikeThms AlikeEx.
Import ListNotations.
Local Open Scope R_scope.
Local Open Scope list_scope.

(** Two calls, gates, resets or measurements, that have no qubit and no static result in common: in either order, every ending has the
    same chance. *)
Theorem C79_cross : forall (T : Tol) (EN : Env) (D : Doubles) (SW : Shows) (RN : Rand) p (E : ended (pmem p) -> bool) n l l' m t c c',
  supported (bb_live (h_book m)) (h_vec m) -> crossed p l l' m c c' ->
  odds E (chances p (S (S n)) l m t) = odds E (chances p (S (S n)) l' m t).
Proof. intros T EN D SW RN. exact cross_thm. Qed.
Print Assumptions C79_cross.
(** Any number of such exchanges and of omissions of idle calls, anywhere on the way. *)
Theorem C79_alike : forall (T : Tol) (EN : Env) (D : Doubles) (SW : Shows) (RN : Rand) p (E : ended (pmem p) -> bool) n l n' l' t,
  alike p n l n' l' path0 t -> odds E (chances p n l path0 t) = odds E (chances p n' l' path0 t).
Proof. intros T EN D SW RN p E n l n' l' t H. exact (alike_thm p E n l n' l' path0 t H start_supported). Qed.
Print Assumptions C79_alike.
(** The simulator: for every test of how a shot ends, the boxes of samples that pass have the same total volume. *)
Theorem C79_shot : forall (T : Tol) (EN : Env) (D : Doubles) (SW : Shows) (RN : Rand), exact_world ->
  forall (P : bcall -> Prop) p s s' n n' mem t name name' attrs attrs',
  careful P -> lists_nothing P ->
  let f := entry name attrs 0 true (started p s) in
  let f' := entry name' attrs' 0 true (started p s') in
  sound P (fprog f) n (s mem) path0 t -> sound P (fprog f') n' (s' mem) path0 t -> alike p n (s mem) n' (s' mem) path0 t ->
  exists leaves leaves' : list (box * ended (pmem p)),
    partition (map fst leaves) /\ partition (map fst leaves') /\
    (forall g leaf, In leaf leaves -> inside (samples_of g) (fst leaf) -> ending (fresh_run f n mem g t) = snd leaf) /\
    (forall g leaf, In leaf leaves' -> inside (samples_of g) (fst leaf) -> ending (fresh_run f' n' mem g t) = snd leaf) /\
    forall E, bulk E leaves = bulk E leaves'.
Proof.
  intros T EN D SW RN EW P p s s' n n' mem t name name' attrs attrs' CP LN f f' S1 S2 H.
  destruct (C60_shot T EN D SW RN EW P f n mem t CP LN S1) as (ls & F1 & P1 & R1).
  destruct (C60_shot T EN D SW RN EW P f' n' mem t CP LN S2) as (ls' & F2 & P2 & R2).
  exists ls, ls'. repeat (split; [assumption|]). intros E.
  rewrite (bulk_odds _ E _ _ F1), (bulk_odds _ E _ _ F2).
  transitivity (odds E (chances p n (s mem) path0 t)); [f_equal; apply started_chances|].
  transitivity (odds E (chances p n' (s' mem) path0 t)); [exact (C79_alike T EN D SW RN p E _ _ _ _ t H)|f_equal; symmetry; apply started_chances].
Qed.
Print Assumptions C79_shot.
(** The hypotheses are met: a pair of entangled qubits, measured in either order. *)
Example C79_ex : @exact_world T0 E0 /\ careful (@plain D0) /\ lists_nothing (@plain D0) /\
  let s := fun b (_ : unit) => @pair D0 b in let p := tree (pair true) in
  (forall b n t, @sound T0 E0 D0 RN0 plain (@started D0 p (s b)) n (pair b) path0 t) /\
  (forall n t, @alike T0 E0 D0 RN0 p (5 + n) (pair true) (5 + n) (pair false) path0 t).
Proof.
  split; [exact exact0|]. split; [apply plain_careful|]. split; [apply plain_lists|]. intros s p. split.
  - intros b n t. exact (@pair_sound T0 E0 D0 RN0 b n t).
  - intros n t. apply pair_alike.
Qed.
