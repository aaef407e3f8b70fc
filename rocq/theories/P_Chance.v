(** * C60: the chances of what a program prints *)
From Coq Require Import String Reals NArith ZArith List Bool Lra.
From Verif Require Import Cx Bits Arith ArithR Sim SimExp Spec SpecExp SpecRun SimRun Text Backend SpecBackend Runner SpecRunner SpecIdeal IdealEx
  World SimEx BackEx RunnerThms RunnerEx SpecChance Chance ChanceEx.
Import ListNotations.
Local Open Scope R_scope.
Local Open Scope list_scope.

(** The samples that a shot may meet are divided into boxes, one for each way of ending that quantum mechanics allows.  The volume of a
    box is the chance of that ending, and with samples in the box the shot ends in that way. *)
Theorem C60_shot : forall (T : Tol) (EN : Env) (D : Doubles) (SW : Shows) (RN : Rand), exact_world -> forall (P : bcall -> Prop) f fuel mem t,
  careful P -> lists_nothing P -> sound P (fprog f) fuel (pstart (fprog f) mem) path0 t ->
  exists leaves : list (box * ended (pmem (fprog f))),
    Forall2 (fun leaf w => volume (fst leaf) = fst w /\ snd leaf = snd w) leaves (chances (fprog f) fuel (pstart (fprog f) mem) path0 t) /\
    partition (map fst leaves) /\
    forall g leaf, In leaf leaves -> inside (samples_of g) (fst leaf) -> ending (fresh_run f fuel mem g t) = snd leaf.
Proof.
  intros T EN D SW RN EW P f fuel mem t CP LN Sd. destruct (shot_tiles EW P f fuel mem t CP LN Sd) as (ls & [T1 T2] & F). exists ls. split; [|split; [exact T2|]].
  - clear - T1. induction T1 as [|y wy ls ws [E1 E2] T1 IH]; constructor; auto. rewrite Rmult_1_r in E1. auto.
  - intros g y Hy Hi. rewrite Forall_forall in F. apply (observed_gen _ _ _ _ (F y Hy g Hi)).
Qed.
Print Assumptions C60_shot.
(** The chances are positive and add up to 1; so some box contains the samples of every generator. *)
Theorem C60_total : forall (T : Tol) (EN : Env) (D : Doubles) (SW : Shows) (RN : Rand) (P : bcall -> Prop) f fuel mem t,
  lists_nothing P -> sound P (fprog f) fuel (pstart (fprog f) mem) path0 t ->
  Rsum (map fst (chances (fprog f) fuel (pstart (fprog f) mem) path0 t)) = 1 /\
  Forall (fun w => 0 < fst w) (chances (fprog f) fuel (pstart (fprog f) mem) path0 t).
Proof.
  intros T EN D SW RN P f fuel mem t LN Sd. rewrite <- start_chance. apply (chances_sum P); auto using start_supported. rewrite start_chance. lra.
Qed.
Print Assumptions C60_total.
(** Several shots: the chances of a sequence of texts multiply. *)
Theorem C60_shots : forall (T : Tol) (EN : Env) (D : Doubles) (SW : Shows) (RN : Rand), exact_world -> forall (P : bcall -> Prop) f fuel,
  careful P -> lists_nothing P -> (forall mem t, sound P (fprog f) fuel (pstart (fprog f) mem) path0 t) ->
  forall n mem t, Rsum (map fst (series (fprog f) fuel n mem t)) = 1 /\
  exists leaves : list (box * option (list text)),
    Forall2 (fun leaf w => volume (fst leaf) = fst w /\ snd leaf = snd w) leaves (series (fprog f) fuel n mem t) /\
    partition (map fst leaves) /\
    forall g leaf, In leaf leaves -> inside (samples_of g) (fst leaf) ->
      match snd leaf with
      | Some recs => exists m' g' t', shots_of f fuel n mem g t recs m' g' t'
      | None => forall recs m' g' t', ~ shots_of f fuel n mem g t recs m' g' t'
      end.
Proof.
  intros T EN D SW RN EW P f fuel CP LN Sd n mem t. split; [exact (series_sum EW P f fuel LN Sd n mem t)|].
  destruct (series_tiles EW P f fuel CP LN Sd n mem t) as (ls & [T1 T2] & F). exists ls. split; [|split; [exact T2|]].
  - clear - T1. induction T1 as [|y wy ls ws [E1 E2] T1 IH]; constructor; auto. rewrite Rmult_1_r in E1. auto.
  - intros g y Hy Hi. rewrite Forall_forall in F. exact (F y Hy g Hi).
Qed.
Print Assumptions C60_shots.
(** What a run of a module prints, at a terminal, for every state of the simulator's generator. *)
Theorem C60_module : forall (T : Tol) (EN : Env) (D : Doubles) (SW : Shows) (RN : Rand) (LL : Llvm), exact_world ->
  forall (P : bcall -> Prop) fs fs' name f fuel, careful P -> lists_nothing P ->
  prepare fs = inl fs' -> bind_functions fs' = Linked -> only_one (wanted name) fs' f -> fparams f = 0%nat ->
  (forall mem t, sound P (fprog f) fuel (pstart (fprog f) mem) path0 t) ->
  forall n t, exists leaves : list (box * option (list text)),
    Forall2 (fun leaf w => volume (fst leaf) = fst w /\ snd leaf = snd w) leaves (series (fprog f) fuel n (pinit (fprog f)) t) /\
    partition (map fst leaves) /\
    forall p leaf, pbuffer p = [] -> ptgen p = t -> In leaf leaves -> inside (samples_of (pgen p)) (fst leaf) ->
      match snd leaf with
      | Some recs => exists evs p', run_module fs name fuel n p = (evs, ROk, p') /\ at_both evs = concat (map (block (fattrs f)) recs)
      | None => forall evs p', run_module fs name fuel n p <> (evs, ROk, p')
      end.
Proof.
  intros T EN D SW RN LL EW P fs fs' name f fuel CP LN Ep El Eo Ef Sd n t.
  destruct (module_tiles EW P fs fs' name f fuel CP LN Ep El Eo Ef Sd n t) as (ls & [T1 T2] & F). exists ls. split; [|split; [exact T2|]].
  - clear - T1. induction T1 as [|y wy ls ws [E1 E2] T1 IH]; constructor; auto. rewrite Rmult_1_r in E1. auto.
  - intros p y Hb Ht Hy Hi. rewrite Forall_forall in F. exact (F y Hy p Hb Ht Hi).
Qed.
Print Assumptions C60_module.
(** A qubit turned by rx(th) and measured prints 1 with chance sin^2(th/2) and 0 with chance cos^2(th/2). *)
Theorem C60_rotation : forall (T : Tol) (EN : Env) (D : Doubles) (SW : Shows) (RN : Rand), exact_world -> forall th name attrs n t,
  sin (th / 2) <> 0 -> cos (th / 2) <> 0 -> let f := entry name attrs 0 true (tree (rot th)) in
  exists b1 b0, volume b1 = sin (th / 2) * sin (th / 2) /\ volume b0 = cos (th / 2) * cos (th / 2) /\ partition [b1; b0] /\
    (forall g, inside (samples_of g) b1 -> ending (fresh_run f (4 + n) tt g t) = EDone tt (render (RecResult true None)) t) /\
    (forall g, inside (samples_of g) b0 -> ending (fresh_run f (4 + n) tt g t) = EDone tt (render (RecResult false None)) t).
Proof.
  intros T EN D SW RN EW th name attrs n t Hs Hc f. destruct (rot_calc th n t Hs Hc) as [Sd E].
  destruct (C60_shot T EN D SW RN EW plain f (4 + n) tt t plain_careful plain_lists Sd) as (ls & F & Pt & H).
  change (chances (fprog f) (4 + n) (pstart (fprog f) tt) path0 t) with (chances (tree (rot th)) (4 + n) (rot th) path0 t) in F. rewrite E in F.
  inversion F as [|[b1 e1] ? ls1 ? [V1 E1] F1]; subst. inversion F1 as [|[b0 e0] ? ls0 ? [V0 E0] F0]; subst. inversion F0; subst. cbn [fst snd] in *. subst e1 e0.
  exists b1, b0. repeat (split; [assumption|]). split.
  - intros g Hi. apply (H g (b1, _)); simpl; auto.
  - intros g Hi. apply (H g (b0, EDone tt (render (RecResult false None)) t)); simpl; auto.
Qed.
Print Assumptions C60_rotation.
(** Two entangled qubits: each of the 2^n sequences of equal pairs has chance 2^-n; no other text has a chance. *)
Theorem C60_bell : forall (T : Tol) (EN : Env) (D : Doubles) (SW : Shows) (RN : Rand) k n t,
  (forall mem t, sound plain (tree bell) (7 + k) (pstart (tree bell) mem) path0 t) /\
  length (series (tree bell) (7 + k) n tt t) = Nat.pow 2 n /\
  Forall (fun w => fst w = (1 / 2) ^ n /\ exists vs, length vs = n /\ snd w = Some (map said vs)) (series (tree bell) (7 + k) n tt t).
Proof.
  intros T EN D SW RN k n t. split; [intros mem t0; apply (bell_calc k t0)|]. destruct (bell_series n k t). auto.
Qed.
Print Assumptions C60_bell.
(** The hypotheses are met: an exact world, and a module with that program. *)
Example C60_ex : @exact_world T0 E0 /\ careful (@plain D0) /\ lists_nothing (@plain D0) /\
  let f := @entry D0 "main" [("entry_point", "")]%string 0 true (tree bell) in
  @prepare D0 (LL0 []) [f] = inl [f] /\ bind_functions [f] = Linked /\ only_one (wanted None) [f] f /\ fparams f = 0%nat /\
  pbuffer (proc0 false false) = [] /\
  forall mem t, @sound T0 E0 D0 RN0 plain (fprog f) 20 (pstart (fprog f) mem) path0 t.
Proof.
  split; [exact exact0|]. split; [apply plain_careful|]. split; [apply plain_lists|]. intros f. split; [reflexivity|]. split; [reflexivity|].
  split; [apply (proj1 (choose_thm [f] None)); reflexivity|]. split; [reflexivity|]. split; [reflexivity|].
  intros mem t. exact (proj1 (bell_calc (T := T0) (EN := E0) (RN := RN0) 13 t)).
Qed.
