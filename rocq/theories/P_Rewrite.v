(** * C80: circuits that do the same *)
From Coq Require Import String Reals NArith ZArith List Bool Lia Lra.
From Verif Require Import Cx Bits Arith ArithR Sim SimExp Spec SpecExp SpecRun SimRun Text Backend SpecBackend Runner SpecRunner SpecIdeal IdealEx
  World SimEx BackEx RunnerThms RunnerEx SpecChance Chance ChanceEx P_Chance SpecIdle IdleThms SpecAlike AlikeThms SpecRewrite RewriteThms RewriteEx.
Import ListNotations.
Local Open Scope R_scope.
Local Open Scope list_scope.

(** The identities hold on any state: if both sides are valid and open the same qubits they lead to the same state up to a global phase. *)
Theorem C80_rules : forall (T : Tol) (EN : Env) (D : Doubles) cs cs' m, rule cs cs' -> circuit m cs -> circuit m cs' ->
  h_book (after m cs) = h_book (after m cs') -> upto_phase (after m cs) (after m cs').
Proof. intros T EN D. exact rules_thm. Qed.
Print Assumptions C80_rules.
(** The global phase never shows: from states that differ by it, whatever the program does, it ends in the same ways with the same chances. *)
Theorem C80_phase : forall (T : Tol) (EN : Env) (D : Doubles) (SW : Shows) (RN : Rand) p n l m m' t,
  upto_phase m m' -> chances p n l m t = chances p n l m' t.
Proof. intros T EN D SW RN. exact phase_chances. Qed.
Print Assumptions C80_phase.
(** Any number of replacements of gates by others that lead to the same state up to a global phase, of exchanges and of omissions:
    every set of endings has the same chance. *)
Theorem C80_rewritten : forall (T : Tol) (EN : Env) (D : Doubles) (SW : Shows) (RN : Rand) p (E : ended (pmem p) -> bool) n l n' l' t,
  rewritten p n l n' l' path0 t -> odds E (chances p n l path0 t) = odds E (chances p n' l' path0 t).
Proof.
  intros T EN D SW RN p E n l n' l' t H. refine (rewritten_thm p E n l n' l' path0 t H start_supported _). rewrite start_chance. lra.
Qed.
Print Assumptions C80_rewritten.
(** The simulator: for every test of how a shot ends, the boxes of samples that pass have the same total volume. *)
Theorem C80_shot : forall (T : Tol) (EN : Env) (D : Doubles) (SW : Shows) (RN : Rand), exact_world ->
  forall (P : bcall -> Prop) p s s' n n' mem t name name' attrs attrs',
  careful P -> lists_nothing P ->
  let f := entry name attrs 0 true (started p s) in
  let f' := entry name' attrs' 0 true (started p s') in
  sound P (fprog f) n (s mem) path0 t -> sound P (fprog f') n' (s' mem) path0 t -> rewritten p n (s mem) n' (s' mem) path0 t ->
  exists leaves leaves' : list (box * ended (pmem p)),
    partition (map fst leaves) /\ partition (map fst leaves') /\
    (forall g leaf, In leaf leaves -> inside (samples_of g) (fst leaf) -> ending (fresh_run f n mem g t) = snd leaf) /\
    (forall g leaf, In leaf leaves' -> inside (samples_of g) (fst leaf) -> ending (fresh_run f' n' mem g t) = snd leaf) /\
    forall E, bulk E leaves = bulk E leaves'.
Proof.
  intros T EN D SW RN EW P p s s' n n' mem t name name' attrs attrs' CP LN f f' S1 S2 H.
  destruct (C60_shot T EN D SW RN EW P f n mem t CP LN S1) as (ls & F1 & P1 & R1).
  destruct (C60_shot T EN D SW RN EW P f' n' mem t CP LN S2) as (ls' & F2 & P2 & R2).
  exists ls, ls'. repeat (split; [assumption|]). intros E.
  rewrite (bulk_odds _ E _ _ F1), (bulk_odds _ E _ _ F2).
  transitivity (odds E (chances p n (s mem) path0 t)); [f_equal; apply started_chances|].
  transitivity (odds E (chances p n' (s' mem) path0 t)); [exact (C80_rewritten T EN D SW RN p E _ _ _ _ t H)|f_equal; symmetry; apply started_chances].
Qed.
Print Assumptions C80_shot.
(** The hypotheses are met: an entangled pair made with a controlled X and a Y, or with H, controlled Z and H, and Z and X. *)
Example C80_ex : @exact_world T0 E0 /\ careful (@plain D0) /\ lists_nothing (@plain D0) /\
  let s := fun b (_ : unit) => @recast D0 b in let p := tree (recast true) in
  (forall b n t, @sound T0 E0 D0 RN0 plain (@started D0 p (s b)) n (recast b) path0 t) /\
  (forall n t, @rewritten T0 E0 D0 RN0 p (3 + n) (recast true) (6 + n) (recast false) path0 t).
Proof.
  split; [exact exact0|]. split; [apply plain_careful|]. split; [apply plain_lists|]. intros s p. split.
  - intros b n t. exact (@recast_sound T0 E0 D0 RN0 (recast b) b n t).
  - intros n t. apply recast_rewritten.
Qed.
(** An identity with a phase of its own, on a state that is not a basis state. *)
Example C80_rules_ex : let m := @after D0 path0 [QGate GH 0] in let cs := [QGate GZ 0; QGate GX 0] : list (@bcall D0) in let cs' := [QGate GY 0] : list (@bcall D0) in
  @rule D0 cs cs' /\ @circuit D0 m cs /\ @circuit D0 m cs' /\ h_book (@after D0 m cs) = h_book (@after D0 m cs') /\ h_vec (@after D0 m cs) <> h_vec (@after D0 m cs').
Proof.
  intros m cs cs'. split; [constructor|].
  assert (V : forall g k, @circuit D0 (mkPath (mkBBook 1 [0%nat]) k 0 (fun _ => false) []) [QGate g 0]).
  { intros g k. split; [discriminate|]. split; [|exact I]. split; [repeat constructor; intros []|intros x Hx; exact Hx]. }
  split; [split; [discriminate|split; [apply (V GZ)|apply (V GX)]]|]. split; [apply (V GY)|]. split; [reflexivity|].
  intros H. apply (f_equal (fun f : qstate => fst (f 1%N))) in H. revert H. unfold m, cs, cs', after, gated, moved. cbn [fold_left bop h_vec gmat path0].
  unfold gate1, mX, mZ, mY, mH, mk2, ket0.
  assert (B1 : bit 1 0 = true) by reflexivity. assert (B0 : bit 0 0 = false) by reflexivity. assert (S1 : set_bit 1 0 false = 0%N) by reflexivity.
  assert (S2 : set_bit 1 0 true = 1%N) by reflexivity. assert (S3 : set_bit 0 0 false = 0%N) by reflexivity. assert (S4 : set_bit 0 0 true = 1%N) by reflexivity.
  repeat (rewrite ?S1, ?S2, ?S3, ?S4, ?B1, ?B0; cbn [N.eqb]).
  unfold rsqrt2, RtoC, Ci, C0, C1, Cmul, Cadd, Copp. cbn [fst snd]. assert (P : 0 < / sqrt 2) by (apply Rinv_0_lt_compat, sqrt_lt_R0; lra). set (z := / sqrt 2) in *. clearbody z. intros H. ring_simplify in H. lra.
Qed.
