(** * Programs run as on an ideal machine: C54 *)
From Coq Require Import String List NArith ZArith Reals Bool Lia.
From Verif Require Import Cx Bits Arith ArithR IndexMap Sim SimExp SimApply Spec SpecRun SimRun Text Backend SpecBackend World BackEx Runner SpecRunner
  RunnerThms RunnerLink RunnerEx SpecIdeal Ideal IdealEx.
Import ListNotations.
Local Open Scope list_scope.

(** ** C54: one shot of a program is a run on the ideal machine *)
Theorem C54_shot : forall (T : Tol) (EN : Env) (D : Doubles) (SW : Shows) (RN : Rand), exact_world -> forall (P : bcall -> Prop) f fuel mem g t,
  careful P -> isafe P (fprog f) fuel (pstart (fprog f) mem) (ideal0 g) t ->
  irun (fprog f) fuel (pstart (fprog f) mem) (ideal0 g) t (observed (fresh_run f fuel mem g t)).
Proof. intros T EN D SW RN. exact fresh_ideal. Qed.
Print Assumptions C54_shot.
(** Without listings of the state the ideal machine has one run: the shot prints exactly its text, ends as it does and leaves its generators. *)
Theorem C54_determined : forall (T : Tol) (EN : Env) (D : Doubles) (SW : Shows) (RN : Rand), exact_world -> forall (P : bcall -> Prop) f fuel mem g t,
  careful P -> lists_nothing P -> isafe P (fprog f) fuel (pstart (fprog f) mem) (ideal0 g) t ->
  forall o, irun (fprog f) fuel (pstart (fprog f) mem) (ideal0 g) t o <-> observed (fresh_run f fuel mem g t) = o.
Proof.
  intros T EN D SW RN EW P f fuel mem g t C L S o. assert (X := fresh_ideal EW P f fuel mem g t C S).
  split; [intros H; eapply irun_det; eauto|intros <-; exact X].
Qed.
Print Assumptions C54_determined.
(** A run of a module that succeeds prints the blocks of that many shots on the ideal machine. *)
Theorem C54_module : forall (T : Tol) (EN : Env) (D : Doubles) (SW : Shows) (RN : Rand) (LL : Llvm), exact_world -> forall (P : bcall -> Prop) fs name fuel n p evs p',
  careful P -> pbuffer p = [] ->
  (forall fs' f, prepare fs = inl fs' -> only_one (wanted name) fs' f ->
     forall mem g t, isafe P (fprog f) fuel (pstart (fprog f) mem) (ideal0 g) t) ->
  run_module fs name fuel n p = (evs, ROk, p') ->
  exists fs' f recs m' t', prepare fs = inl fs' /\ only_one (wanted name) fs' f /\
    ishots (fprog f) fuel n (pinit (fprog f)) (pgen p) (ptgen p) recs m' (pgen p') t' /\ at_both evs = concat (map (block (fattrs f)) recs).
Proof.
  intros T EN D SW RN LL EW P fs name fuel n p evs p' C H S R.
  destruct (module_ok fs name fuel n p evs p' H R) as (fs' & f & recs & m' & g' & t' & A & B & _ & S1 & (V & _) & G & _).
  exists fs', f, recs, m', t'. split; [exact A|]. split; [exact B|]. split; [|exact V]. rewrite G.
  exact (shots_ideal EW P f fuel C (S fs' f A B) n _ _ _ _ _ _ _ S1).
Qed.
Print Assumptions C54_module.
(** Teleportation of any state Rz(ph) Rx(th) |0>, with corrections that depend on measured results: every shot, whatever the samples,
    prints one zero after the preparation is undone on the receiving qubit. *)
Theorem C54_teleport : forall (T : Tol) (EN : Env) (D : Doubles) (SW : Shows) (RN : Rand), exact_world -> forall th ph name attrs n g t,
  let f := entry name attrs 0 true (tree (teleport th ph)) in
  isafe plain (fprog f) (17 + n) (pstart (fprog f) tt) (ideal0 g) t /\
  exists w, fresh_run f (17 + n) tt g t = PDone tt w /\ bout (wback w) = render (RecResult false None) /\
    rng (bsim (wback w)) = snd (draw (snd (draw (snd (draw g))))) /\ wtgen w = t.
Proof.
  intros T EN D SW RN EW th ph name attrs n g t f. destruct (teleport_run th ph EW n g t) as [S R]. split; [exact S|].
  assert (X := proj1 (C54_determined T EN D SW RN EW plain f (17 + n) tt g t plain_careful plain_lists S _) R).
  destruct (fresh_run f (17 + n) tt g t) as [[] w|e o|o]; try discriminate X. exists w. inversion X. auto.
Qed.
Print Assumptions C54_teleport.
(** The hypotheses are met: an exact world, a program with branches on measured results, and three shots of a module. *)
Example C54_ex : @exact_world T0 E0 /\ careful (@plain D0) /\ lists_nothing (@plain D0) /\
  (forall th ph, let f := @entry D0 "main" [("entry_point", "")]%string 0 true (tree (teleport th ph)) in
   let LL := LL0 [] in
   (forall mem g t, @isafe T0 E0 D0 SW0 RN0 plain (fprog f) 20 (pstart (fprog f) mem) (ideal0 g) t) /\
   exists evs p', @run_module T0 E0 D0 SW0 RN0 LL [f] None 20 3 (proc0 false false) = (evs, ROk, p')).
Proof.
  split; [exact exact0|]. split; [apply plain_careful|]. split; [apply plain_lists|]. intros th ph f LL. split.
  - intros [] g t. exact (proj1 (teleport_run (T := T0) (EN := E0) (SW := SW0) (RN := RN0) th ph exact0 3 g t)).
  - assert (X := fun g t => proj2 (C54_teleport T0 E0 D0 SW0 RN0 exact0 th ph "main" [("entry_point", "")]%string 3 g t)).
    destruct (X g0 false) as (w1 & F1 & O1 & _ & T1).
    destruct (X (rng (bsim (wback w1))) (wtgen w1)) as (w2 & F2 & O2 & _ & T2).
    destruct (X (rng (bsim (wback w2))) (wtgen w2)) as (w3 & F3 & O3 & _ & T3).
    assert (S1 : @shots_of T0 E0 D0 SW0 RN0 f 20 3 tt g0 false [bout (wback w1); bout (wback w2); bout (wback w3)] tt (rng (bsim (wback w3))) (wtgen w3)).
    { eapply shots_more; [exact F1|]. eapply shots_more; [exact F2|]. eapply shots_more; [exact F3|]. constructor. }
    assert (O : only_one (wanted None) [f] f) by (apply (proj1 (choose_thm [f] None)); reflexivity).
    assert (M := module_cases (LL := LL) (T := T0) (EN := E0) (SW := SW0) (RN := RN0) [f] None 20 3 (proc0 false false)). cbn [prepare LL LL0] in M.
    destruct M as (_ & _ & _ & M). rewrite (M f eq_refl O). exact (shots_run f 20 3 tt (proc0 false false) _ _ _ _ eq_refl eq_refl S1).
Qed.
