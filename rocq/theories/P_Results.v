(** * C82: result values *)
From Coq Require Import String Reals NArith ZArith List Bool Lia Lra.
From Verif Require Import Cx Bits Arith ArithR Sim SimExp Spec SpecExp SpecRun SimRun Text Backend SpecBackend BackLemmas BackThms BackStore P_Backend World BackEx
  Heap SpecHeap HeapLemmas HeapThms SpecString Strings StringThms ResultBool ResultThms.
Import ListNotations.
Local Open Scope R_scope.
Local Open Scope list_scope.

(** A measurement returns a result that is equal to One exactly if 1 was measured, and to Zero exactly if not. *)
Theorem C82_m : forall (T : Tol) (EN : Env) (D : Doubles) (SW : Shows), exact_world ->
  forall b l psi q, let l' := opened (bmax b) l [q] in breached b l -> bshows b l psi -> In q l' ->
  exists r b', bcall1 (QM q) b = BOk (VResult r) b' /\
    (result_equal r result_get_one = true <-> fst (draw (rng (bsim b))) < born (width l') [q] psi) /\
    result_equal r result_get_zero = negb (result_equal r result_get_one).
Proof.
  intros T EN D SW EW b l psi q l' R Sh Hq. destruct (m_thm EW b l psi q R Sh Hq) as (r & b' & E & H & _).
  eexists. exists b'. split; [exact E|]. fold l' in H. split; [|destruct r; reflexivity]. refine (iff_trans _ H). destruct r; cbn; intuition congruence.
Qed.
Print Assumptions C82_m.
Theorem C82_measure : forall (T : Tol) (EN : Env) (D : Doubles) (SW : Shows), exact_world ->
  forall b l psi ps qs, let c := QMeasure ps qs in let l' := opened (bmax b) l (bnames c) in
  breached b l -> bshows b l psi -> bvalid (mkBBook (bmax b) l) c ->
  exists r b', bcall1 c b = BOk (VResult r) b' /\
    (result_equal r result_get_one = true <-> fst (draw (rng (bsim b))) < one_prob (width l') (combine ps qs) psi) /\
    result_equal r result_get_zero = negb (result_equal r result_get_one).
Proof.
  intros T EN D SW EW b l psi ps qs c l' R Sh V. destruct (measure_thm' EW b l psi ps qs R Sh V) as (_ & r & b' & E & H & _).
  eexists. exists b'. split; [exact E|]. fold l' in H. split; [|destruct r; reflexivity]. refine (iff_trans _ H). destruct r; cbn; intuition congruence.
Qed.
Print Assumptions C82_measure.
(** The results that a program got are each One or Zero, as text too, whatever else it did. *)
Theorem C82_text : forall (T : Tol) (EN : Env) (D : Doubles) (SW : Shows) h b rs b' r r' hp, bexec h b = BOk rs b' -> In (VResult r) rs -> In (VResult r') rs ->
  exists t t', gives (rt_result_to_string (N.of_nat r)) hp t /\ gives (rt_result_to_string (N.of_nat r')) hp t' /\
    (t = lit "One" <-> result_equal r result_get_one = true) /\ (t = lit "Zero" <-> result_equal r result_get_zero = true) /\
    (result_equal r r' = true <-> t = t').
Proof.
  intros T EN D SW h b rs b' r r' hp E I I'. assert (V := run_results _ _ _ _ _ E I). assert (V' := run_results _ _ _ _ _ E I').
  eexists. eexists. split; [apply result_text; exact V|]. split; [apply result_text; exact V'|].
  destruct V as [-> | ->], V' as [-> | ->]; cbn; intuition congruence.
Qed.
Print Assumptions C82_text.
(** In a program without static results, a result is recorded as the value measured; so two results are equal exactly if their
    records are.  Missing: programs with static results too, where this is false (below). *)
Theorem C82_record_partial : forall (T : Tol) (EN : Env) (D : Doubles) (SW : Shows) h g rs b r r' tag, bexec h (back_default g) = BOk rs b ->
  ~ Exists uses_store h -> In (VResult r) rs -> In (VResult r') rs ->
  exists b1 b2, bcall1 (QResult r tag) b = BOk VUnit b1 /\ bcall1 (QResult r' tag) b = BOk VUnit b2 /\
    bout b1 = bout b ++ render (RecResult (result_equal r result_get_one) tag) /\
    (result_equal r r' = true <-> bout b1 = bout b2).
Proof.
  intros T EN D SW h g rs b r r' tag E N I I'. assert (V := run_results _ _ _ _ _ E I). assert (V' := run_results _ _ _ _ _ E I').
  destruct (proj1 (dynamic_record_thm h g rs b r E N) tag) as (b1 & E1 & O1). destruct (proj1 (dynamic_record_thm h g rs b r' E N) tag) as (b2 & E2 & O2).
  exists b1, b2. repeat (split; [assumption|]). rewrite O1, O2.
  assert (Ne : bout b ++ render (RecResult true tag) <> bout b ++ render (RecResult false tag)) by (intros H; apply app_inv_head in H; discriminate H).
  destruct V as [-> | ->], V' as [-> | ->]; cbn [result_equal result_get_zero result_get_one Nat.eqb]; intuition congruence.
Qed.
Print Assumptions C82_record_partial.
(** In a program that also writes static results, results of measurements are taken for identifiers: whichever value is measured,
    the other is recorded. *)
Theorem C82_record_refuted : exists (T : Tol) (EN : Env) (D : Doubles) (SW : Shows), exact_world /\
  exists g r rs b b', bproper bbstart [QWriteResult true 0; QWriteResult false 1; QM 0] /\
    bexec [QWriteResult true 0; QWriteResult false 1; QM 0] (back_default g) = BOk (rs ++ [VResult r]) b /\
    bcall1 (QResult r None) b = BOk VUnit b' /\ bout b' = render (RecResult (negb (result_equal r result_get_one)) None).
Proof.
  exists T0, E0, D0, SW0. split; [apply exact0|]. exists g0.
  assert (P : @bproper D0 bbstart [QWriteResult true 0; QWriteResult false 1]) by (repeat split; constructor || (intros x [])).
  set (b0 := mkBack (bsim (back_default g0)) [true; false] (bmax (back_default g0)) []).
  assert (E : @bexec T0 E0 D0 SW0 [QWriteResult true 0; QWriteResult false 1] (back_default g0) = BOk [VUnit; VUnit] b0) by reflexivity.
  assert (R : @breached T0 E0 D0 SW0 b0 []) by (exists g0; eexists; eexists; split; [exact P|split; [exact E|reflexivity]]).
  destruct (m_thm exact0 b0 [] ket0 0%nat R start_shows (or_introl eq_refl)) as (r & b & Em & _ & _ & _ & _ & [S1 S2]).
  assert (O : exists b', @bcall1 T0 E0 D0 SW0 (QResult (if r then 1 else 0) None) b = BOk VUnit b' /\
    bout b' = @render D0 (RecResult (negb (result_equal (if r then 1 else 0)%nat result_get_one)) None)).
  { clear Em. destruct b as [s u m o]. cbn [bres bout b0] in S1, S2. subst u o. destruct r; eexists; split; reflexivity. }
  destruct O as (b' & O1 & O2). exists (if r then 1 else 0)%nat, [VUnit; VUnit], b, b'. split; [|split; [|split; assumption]].
  - split; [apply P|]. split; [apply P|]. split; [|exact I]. split; [repeat constructor; intros []|]. intros x [<-|[]]. left. reflexivity.
  - change (bbind (@bcall1 T0 E0 D0 SW0 (QM 0)) (fun r => bret [VUnit; VUnit; r]) b0 = BOk [VUnit; VUnit; VResult (if r then 1 else 0)] b).
    unfold bbind. rewrite Em. reflexivity.
Qed.
Print Assumptions C82_record_refuted.
(** The hypotheses are met: both halves of a Bell pair are measured, in a program without static results. *)
Example C82_ex : exists rs b r r', @bexec T0 E0 D0 SW0 (bell_calls ++ [QM 0; QM 1]) (back_default g0) = BOk (rs ++ [VResult r; VResult r']) b /\
  ~ Exists (@uses_store D0) (bell_calls ++ [QM 0; QM 1]).
Proof.
  destruct bell_back as (rs & b & E & R & S & M).
  destruct (m_thm exact0 b _ _ 0%nat R S) as (r & b1 & E1 & _ & R1 & S1 & _); [rewrite M; left; reflexivity|].
  assert (V : @bvalid D0 (mkBBook 2 [0; 1]%nat) (QM 0)) by (split; [repeat constructor; intros []|intros x [<-|[]]; left; reflexivity]).
  assert (K1 : K b (mkBBook 2 [0; 1]%nat)) by (split; [apply (breached_K (proj1 (proj2 exact0)) _ _ R)|exact M]).
  assert (M1 : bmax b1 = 2%nat) by exact (proj2 (wp_ok _ _ _ _ _ _ _ E1 (bcall_k (proj1 (proj2 exact0)) b _ _ K1 V))).
  rewrite M in R1, S1. change (opened 2 [0; 1] [0])%nat with [0; 1]%nat in *.
  destruct (m_thm exact0 b1 _ _ 1%nat R1 S1) as (r' & b2 & E2 & _); [rewrite M1; right; left; reflexivity|].
  exists rs, b2. eexists. eexists. split; [|intros H; repeat (inversion H as [? ? X|? ? X]; subst; [exact X|]; clear H; rename X into H); inversion H].
  revert E. unfold bell_calls. cbn [app bexec]. unfold bbind. destruct (bcall1 (QGate GH 0) (back_default g0)) as [x1 c1|]; [|discriminate].
  destruct (bcall1 (QC1 GX 0 1) c1) as [x2 c2|]; [|discriminate]. unfold bret. intros E. injection E as <- <-. rewrite E1, E2. reflexivity.
Qed.
