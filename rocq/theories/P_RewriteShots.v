(** * C80: several shots of circuits that do the same *)
From Coq Require Import String Reals NArith ZArith List Bool Lia Lra.
From Verif Require Import Cx Bits Arith ArithR Sim SimExp Spec SpecExp SpecRun SimRun Text Backend SpecBackend Runner SpecRunner SpecIdeal IdealEx
  World SimEx BackEx RunnerThms RunnerEx SpecChance Chance ChanceEx P_Chance SpecIdle IdleThms SpecAlike AlikeThms SpecRewrite RewriteThms RewriteEx SpecShot RewriteShots.
Import ListNotations.
Local Open Scope R_scope.
Local Open Scope list_scope.

(** Any number of shots of two programs that arise from each other by rewriting, whatever the memory with which a shot starts:
    every set of lists of what the shots print has the same chance. *)
Theorem C80_series : forall (T : Tol) (EN : Env) (D : Doubles) (SW : Shows) (RN : Rand) p s s' n n',
  (forall mem t, rewritten p n (s mem) n' (s' mem) path0 t) ->
  forall k mem t (F : option (list text) -> bool),
    chance_of F (series (started p s) n k mem t) = chance_of F (series (started p s') n' k mem t).
Proof. intros T EN D SW RN. exact rewritten_series. Qed.
Print Assumptions C80_series.
(** The simulator and runner: two modules whose entry points arise from each other by rewriting, with the same attributes.
    The samples divide into boxes, for each module; with samples in a box the run prints the blocks of its list of texts, or fails.
    For every test of such lists the boxes that pass have the same total volume for both modules. *)
Theorem C80_module : forall (T : Tol) (EN : Env) (D : Doubles) (SW : Shows) (RN : Rand) (LL : Llvm), exact_world ->
  forall (P : bcall -> Prop) p s s' n n' fs fs' fs1 fs1' name name' wish wish' attrs, careful P -> lists_nothing P ->
  let f := entry name attrs 0 true (started p s) in
  let f' := entry name' attrs 0 true (started p s') in
  prepare fs = inl fs1 -> bind_functions fs1 = Linked -> only_one (wanted wish) fs1 f ->
  prepare fs' = inl fs1' -> bind_functions fs1' = Linked -> only_one (wanted wish') fs1' f' ->
  (forall mem t, sound P (fprog f) n (s mem) path0 t) -> (forall mem t, sound P (fprog f') n' (s' mem) path0 t) ->
  (forall mem t, rewritten p n (s mem) n' (s' mem) path0 t) ->
  forall k t, exists leaves leaves' : list (box * option (list text)),
    partition (map fst leaves) /\ partition (map fst leaves') /\
    (forall w leaf, pbuffer w = [] -> ptgen w = t -> In leaf leaves -> inside (samples_of (pgen w)) (fst leaf) ->
      match snd leaf with
      | Some recs => exists evs w', run_module fs wish n k w = (evs, ROk, w') /\ at_both evs = concat (map (block attrs) recs)
      | None => forall evs w', run_module fs wish n k w <> (evs, ROk, w')
      end) /\
    (forall w leaf, pbuffer w = [] -> ptgen w = t -> In leaf leaves' -> inside (samples_of (pgen w)) (fst leaf) ->
      match snd leaf with
      | Some recs => exists evs w', run_module fs' wish' n' k w = (evs, ROk, w') /\ at_both evs = concat (map (block attrs) recs)
      | None => forall evs w', run_module fs' wish' n' k w <> (evs, ROk, w')
      end) /\
    forall F, mass volume F leaves = mass volume F leaves'.
Proof.
  intros T EN D SW RN LL EW P p s s' n n' fs fs' fs1 fs1' name name' wish wish' attrs CP LN f f' A1 A2 A3 B1 B2 B3 S1 S2 H k t.
  destruct (C60_module T EN D SW RN LL EW P fs fs1 wish f n CP LN A1 A2 A3 eq_refl S1 k t) as (ls & F1 & P1 & R1).
  destruct (C60_module T EN D SW RN LL EW P fs' fs1' wish' f' n' CP LN B1 B2 B3 eq_refl S2 k t) as (ls' & F2 & P2 & R2).
  exists ls, ls'. repeat (split; [assumption|]). intros F.
  rewrite (mass_chance F _ _ F1), (mass_chance F _ _ F2). exact (rewritten_series p s s' n n' H k (pinit p) t F).
Qed.
Print Assumptions C80_module.
(** The hypotheses are met by the entangled pair made in two ways. *)
Example C80_module_ex : @exact_world T0 E0 /\ careful (@plain D0) /\ lists_nothing (@plain D0) /\
  let p := tree (recast true) in let s := fun b (_ : unit) => @recast D0 b in
  let f := fun b => @entry D0 "main" [("entry_point", "")]%string 0 true (@started D0 p (s b)) in
  (forall b, @prepare D0 (LL0 []) [f b] = inl [f b] /\ bind_functions [f b] = Linked /\ only_one (wanted None) [f b] (f b)) /\
  (forall b n (mem : unit) t, @sound T0 E0 D0 RN0 plain (fprog (f b)) n (s b mem) path0 t) /\
  pbuffer (proc0 false false) = [] /\
  (forall n (mem : unit) t, @rewritten T0 E0 D0 RN0 p (3 + n) (s true mem) (6 + n) (s false mem) path0 t).
Proof.
  split; [exact exact0|]. split; [apply plain_careful|]. split; [apply plain_lists|]. intros p s f. split; [|split; [|split; [reflexivity|]]].
  - intros b. split; [reflexivity|]. split; [reflexivity|]. apply (proj1 (choose_thm [f b] None)). reflexivity.
  - intros b n mem t. exact (@recast_sound T0 E0 D0 RN0 (recast b) b n t).
  - intros n mem t. apply recast_rewritten.
Qed.
