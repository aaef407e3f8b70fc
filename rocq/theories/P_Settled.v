(** * Settled qubits over any arithmetic: C71

    As in C52 nothing is assumed about amplitudes, angles, probabilities and samples.  Calls and replies are those of
    SpecAny; which calls settle the value of a qubit, which spare it, and what later replies say is in SpecSettled. *)
From Coq Require Import ZArith NArith List Bool Lia Permutation Reals.
From Flocq Require Import IEEE754.BinarySingleNaN.
From Verif Require Import Arith Math Binary64 IndexMap Sim SimExp SpecRun SpecAny Any AnyRun SpecSettled Settled SettledEx.
Import ListNotations.

(** C71: a qubit that was measured, or has just been allocated, keeps its value as long as no call turns it, and X and Y
    invert it: every
    basis state listed by [get_state] and [dump] shows it, and the probability of reading 1 from a qubit with the
    value 0 is the number zero, not a small number. *)
Theorem C71_settled : forall (A : Arith) (E : @Env A), any_order ->
  forall g h c h' rs a rs' q r s, avalid_run (mkBook [] true) (h ++ c :: h') ->
  aexec (new_sim g) (h ++ c :: h') = Ok (rs ++ a :: rs', s) -> length rs = length h ->
  settles c a q r -> spares_all q h' ->
  all_say (books (mkBook [] true) (h ++ [c])) (gen_after (mkBook [] true) g (h ++ [c])) q r h' rs'.
Proof. exact (fun A E O => settled_thm O). Qed.
Print Assumptions C71_settled.

(** Its hypotheses are met: gates on the other qubits with the settled one as a control, diagonal gates on it,
    exponentials with Z on it, a renaming, a release and more measurements. *)
Definition before (cosf sinf : f64 -> f64) : list (@acall (Arith64 cosf sinf)) :=
  [AAlloc; AAlloc; AAlloc; AGate AH 0; AMc AX [0] 1; AGate (@ARx (Arith64 cosf sinf) f2) 2].
Definition after (cosf sinf : f64 -> f64) : list (@acall (Arith64 cosf sinf)) :=
  [AGate AH 1; AMc AX [0] 1; AMc AZ [1] 0; AGate AT 0; AMc (@ARy (Arith64 cosf sinf) f1) [0] 2;
   @AExp (Arith64 cosf sinf) [PZ_; PX_] f1 [0; 2]; @AMcExp (Arith64 cosf sinf) [0] [PY_] f1 [1]; AState;
   AGate AX 0; AMc AZ [0] 2; AGate AY 0; ASwap 0 2; AMeasure 0; AJointMeasure [1; 2]; AGate AX 2; ARelease 1; ADump; AMeasure 2].
Example C71_settled_ex : forall cosf sinf g,
  avalid_run (mkBook [] true) (before cosf sinf ++ AMeasure 0 :: after cosf sinf) /\ spares_all 0 (after cosf sinf) /\
  exists rs r rs' s, @aexec _ (Env53 cosf sinf) (new_sim g) (before cosf sinf ++ AMeasure 0 :: after cosf sinf) =
    Ok (rs ++ ABit r :: rs', s) /\ length rs = length (before cosf sinf).
Proof.
  intros cosf sinf g.
  assert (V : avalid_run (mkBook [] true) (before cosf sinf ++ AMeasure 0 :: after cosf sinf)).
  { cbn. unfold targets_ok, incl. cbn. repeat split; auto; try lia; repeat constructor; cbn; intuition lia. }
  split; [exact V|]. split.
  { cbn. repeat split; auto; try lia; try (destruct j as [|[|[|j]]]; cbn in *; congruence). }
  destruct (@aexec_ok _ (Env53 cosf sinf) (fun l => Permutation_refl l) _ _ _ (new_abook g) V) as [[rs [s [E [R _]]]]|[_ X]].
  - do 6 (destruct rs as [|? rs]; [cbn in R; tauto|]). destruct rs as [|x rs]; [cbn in R; tauto|].
    assert (B : exists b, x = ABit b) by (cbn in R; tauto). destruct B as [b ->].
    eexists [_; _; _; _; _; _], b, rs, s. split; [exact E|reflexivity].
  - exfalso. cbn in X. repeat (inversion X as [? ? Y|? ? Y]; subst; clear X; [destruct Y|rename Y into X]). inversion X.
Qed.

(** Reading a settled qubit again.  If no sample is below zero, a qubit always reads 0 while its value is 0.  What is
    missing is the same for the value 1, which is false of binary64. *)
Theorem C71_repeat_partial : forall (A : Arith) (E : @Env A), any_order -> (forall g, plt (fst (draw g)) prb0 = false) ->
  forall g h c h' rs a rs' q r s, avalid_run (mkBook [] true) (h ++ c :: h') ->
  aexec (new_sim g) (h ++ c :: h') = Ok (rs ++ a :: rs', s) -> length rs = length h ->
  settles c a q r -> spares_all q h' -> zeros_read q r h' rs'.
Proof.
  intros A E O P g h c h' rs a rs' q r s V X L St Sp. eapply zero_reads; [exact P|].
  exact (settled_thm O g h c h' rs a rs' q r s V X L St Sp).
Qed.
Print Assumptions C71_repeat_partial.
(** Samples as the generator gives them are not below zero. *)
Example C71_samples : forall cosf sinf,
  (forall g, @plt (Arith64 cosf sinf) (fst (@draw _ (Env53 cosf sinf) g)) (@prb0 (Arith64 cosf sinf)) = false) /\
  forall m, is_finite (sample53 m) = true /\ (0 <= B2R (sample53 m) < 1)%R.
Proof. intros cosf sinf. split; [apply not_below|apply sample53_range]. Qed.

(** In binary64 a qubit measured twice in a row can read 1 and then 0, and the state is empty afterwards.  After H on
    two qubits, a controlled Z and the result 1 for the first, the computed probability of 1 is 1 - 2^-52; the
    largest sample that the generator gives is not below it. *)
Theorem C71_repeat_refuted : forall cosf sinf, exists g s,
  @aexec _ (Env53 cosf sinf) (new_sim g)
    [AAlloc; AAlloc; AGate AH 0; AGate AH 1; AMc AZ [0] 1; AMeasure 0; AMeasure 0; AState] =
  Ok ([AId 0; AId 1; AUnit; AUnit; AUnit; ABit true; ABit false; AListed [] 2], s).
Proof. intros cosf sinf. exists [0; 2 ^ 53 - 1]%N. exact (twice_run cosf sinf). Qed.
Print Assumptions C71_repeat_refuted.

(** The probability that [joint_probability] reports is the one that a measurement made next compares its sample
    with. *)
Theorem C71_probability : forall (A : Arith) (E : @Env A), any_order ->
  forall g h rs p b s qs c, avalid_run (mkBook [] true) (h ++ [AJointProb qs; c]) ->
  c = AJointMeasure qs \/ (exists q, qs = [q] /\ c = AMeasure q) ->
  aexec (new_sim g) (h ++ [AJointProb qs; c]) = Ok (rs ++ [AProb p; ABit b], s) ->
  b = plt (fst (draw (gen_after (mkBook [] true) g h))) p.
Proof. exact (fun A E O => told_thm O). Qed.
Print Assumptions C71_probability.
Example C71_probability_ex : forall cosf sinf g, exists rs p b s,
  avalid_run (mkBook [] true) (before cosf sinf ++ [AJointProb [2; 0]; AJointMeasure [2; 0]]) /\
  @aexec _ (Env53 cosf sinf) (new_sim g) (before cosf sinf ++ [AJointProb [2; 0]; AJointMeasure [2; 0]]) =
    Ok (rs ++ [AProb p; ABit b], s).
Proof.
  intros cosf sinf g.
  assert (V : avalid_run (mkBook [] true) (before cosf sinf ++ [AJointProb [2; 0]; AJointMeasure [2; 0]])).
  { cbn. unfold targets_ok, incl. cbn. repeat split; auto; try lia; repeat constructor; cbn; intuition lia. }
  destruct (@aexec_ok _ (Env53 cosf sinf) (fun l => Permutation_refl l) _ _ _ (new_abook g) V) as [[rs [s [E [R _]]]]|[_ X]].
  - do 6 (destruct rs as [|? rs]; [cbn in R; tauto|]). destruct rs as [|x [|x' [|? ?]]]; try (cbn in R; tauto).
    assert (B : (exists p, x = AProb p) /\ exists b, x' = ABit b) by (cbn in R; tauto). destruct B as [[p ->] [b ->]].
    eexists [_; _; _; _; _; _], p, b, s. split; [exact V|exact E].
  - exfalso. cbn in X. repeat (inversion X as [? ? Y|? ? Y]; subst; clear X; [destruct Y|rename Y into X]). inversion X.
Qed.
