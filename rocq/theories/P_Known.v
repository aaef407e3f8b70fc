(** * Known qubits over any arithmetic: C74

    As in C71 nothing is assumed about amplitudes, angles and probabilities; of the samples only that none is below zero.  What an
    observer knows about the qubits, and what replies tell, is in SpecKnown. *)
From Coq Require Import NArith ZArith List Bool Lia Permutation Reals.
From Flocq Require Import IEEE754.BinarySingleNaN.
From Verif Require Import Arith Math Binary64 Sim SimExp SpecRun SpecAny Any AnyRun SpecSettled SettledEx Text Backend Runner BackAny SpecKnown Known.
Import ListNotations.

(** C74: in every history of calls, for all qubits at once: a measurement of a qubit known to be 0 reads 0, a joint measurement of
    known qubits of which an even number is 1 reads 0 and the probability told is the number zero, and the states listed show the
    known values. *)
Theorem C74_calls : forall (A : Arith) (E : @Env A), any_order -> (forall g, plt (fst (draw g)) prb0 = false) ->
  forall g h rs s, avalid_run (mkBook [] true) h -> aexec (new_sim g) h = Ok (rs, s) -> all_tell nothing h rs.
Proof. exact (fun A E O P g h rs s V => known_calls O P h nothing _ rs s (new_knows g) V). Qed.
Print Assumptions C74_calls.

(** C74 for whole shots: every shot of every program ends in one of the ways in which it may end when each call is answered by what is
    known. *)
Theorem C74_shot : forall (A : Arith) (E : @Env A) (PH : Phases) (D : Doubles) (TG : ThreadGen),
  any_order -> (forall g, plt (fst (draw g)) prb0 = false) ->
  forall (p : aprogram) fuel mem g t, may nothing (shot_tree p fuel (astart p mem) desk0 t) (fst (shot p fuel mem g t)).
Proof. exact (fun A E PH D TG O P p fuel mem g t => known_play O P _ _ nothing _ (new_knows g)). Qed.
Print Assumptions C74_shot.

(** What follows a reset, or a measurement with reset, may end only as it does with the qubit known to be 0. *)
Theorem C74_reset : forall (A : Arith) (E : @Env A) X (f : W X) k d x q, (q < dmax d)%nat -> In q (live (kbook k)) ->
  may k (wbind (a_reset q) (fun _ => f) d) x -> exists k', kbook k' = kbook k /\ kval k' q = Some false /\ may k' (f d) x.
Proof. exact (fun A E => reset_known). Qed.
Print Assumptions C74_reset.
Theorem C74_mresetz : forall (A : Arith) (E : @Env A) X (f : W X) k d x q i, (q < dmax d)%nat -> In q (live (kbook k)) ->
  may k (wbind (a_mresetz q i) (fun _ => f) d) x -> exists k' r, kbook k' = kbook k /\ kval k' q = Some false /\
    (kval k q = Some false -> r = false) /\ may k' (f (mkDesk (set_res (grow_res (dres d) i) i r) (dmax d) (dout d))) x.
Proof. exact (fun A E => mresetz_known). Qed.
Print Assumptions C74_mresetz.
(** Measuring a qubit known to be 0 writes 0. *)
Theorem C74_mz : forall (A : Arith) (E : @Env A) X (f : W X) k d x q i, (q < dmax d)%nat -> In q (live (kbook k)) ->
  kval k q = Some false -> may k (wbind (a_mz q i) (fun _ => f) d) x -> exists k', kbook k' = kbook k /\ kval k' q = Some false /\
    may k' (f (mkDesk (set_res (grow_res (dres d) i) i false) (dmax d) (dout d))) x.
Proof. exact (fun A E => mz_known). Qed.
Print Assumptions C74_mz.

(** The hypotheses are met, and the results say something about programs: whatever the numbers, the seed and the order of the hash table
    are, a qubit that was entangled, reset, and used as a control, under diagonal gates and under a Hadamard gate
    with a fresh control, reads 0. *)
Definition one_by_one {A : Arith} {D : Doubles} (cs : list acallb) : aprogram :=
  {| amem := unit; aloc := list acallb; astart := fun _ => cs;
     astep := fun l => match l with [] => BDone tt | c :: l' => BCall c (fun _ => l') end |}.
Definition reused {A : Arith} {D : Doubles} (th : ang) : list acallb :=
  [UGate AH 0; UC1 AX 0 1; UGate (ARy th) 1; UReset 1; UGate AT 1; UC1 AH 1 0; URzz th 2 0; UC1 AH 3 1; UMz 1 0; UResult 0 None].
Ltac answered H := inversion H; subst; clear H;
  [match goal with T : tells _ _ _ |- _ => let R := fresh in destruct T as [R T]; cbn in R, T;
     lazymatch type of R with ex _ => let b := fresh "b" in destruct R as [b R] | _ => idtac end; subst; cbn in T end;
   match goal with H' : may _ _ _ |- _ => rename H' into H; cbn in H end
  |exfalso; match goal with V : ~ _ |- _ => apply V; cbn; unfold targets_ok, incl; cbn;
     repeat split; auto; try (repeat constructor; cbn; intuition lia); intuition lia end
  |match goal with V : is_apply _ |- _ => cbn in V; contradiction end].
Example C74_ex : forall (A : Arith) (E : @Env A) (PH : Phases) (D : Doubles) (TG : ThreadGen),
  any_order -> (forall g, plt (fst (draw g)) prb0 = false) -> forall th g t,
  fst (shot (one_by_one (reused th)) 11 tt g t) = Fine (SDone tt t) (mkDesk [false] 4 (render (RecResult false None))).
Proof.
  intros A E PH D TG O P th g t. pose proof (C74_shot A E PH D TG O P (one_by_one (reused th)) 11 tt g t) as H.
  revert H. generalize (fst (shot (one_by_one (reused th)) 11 tt g t)). intros x H. cbn in H.
  do 6 answered H. destruct b; cbn in H.
  - do 10 answered H. match goal with T : _ -> b = false |- _ => rewrite (T eq_refl) in H end. exact (may_end _ _ _ _ H).
  - do 9 answered H. match goal with T : _ -> b = false |- _ => rewrite (T eq_refl) in H end. exact (may_end _ _ _ _ H).
Qed.
(** In binary64, samples as the generator gives them: after X on one fresh qubit and Y on another, and rotations by any angle of a third
    controlled by them, their joint measurement reads 0; a fourth, inverted under the control of both, is then 1 too, and the probability
    told for odd parity of it and the first is zero. *)
Example C74_calls_ex : forall cosf sinf g th, exists s,
  @aexec _ (Env53 cosf sinf) (new_sim g)
    [AAlloc; AAlloc; AAlloc; AAlloc; AGate AH 0; AGate AX 1; AGate AY 2; AMc (@ARx (Arith64 cosf sinf) th) [1; 2] 0; AJointMeasure [1; 2];
     AMc AX [1; 2] 3; AGate AH 0; AJointProb [3; 1]] =
  Ok ([AId 0; AId 1; AId 2; AId 3; AUnit; AUnit; AUnit; AUnit; ABit false; AUnit; AUnit; @AProb (Arith64 cosf sinf) f0], s).
Proof.
  intros cosf sinf g th.
  match goal with |- exists s, @aexec _ _ _ ?h = _ =>
    assert (V : avalid_run (mkBook [] true) h) by (cbn; unfold targets_ok, incl; cbn; repeat split; auto; try lia; repeat constructor; cbn; intuition lia);
    destruct (@aexec_ok _ (Env53 cosf sinf) (fun l => Permutation_refl l) _ _ _ (new_abook g) V) as [[rs [s [E [R _]]]]|[_ X]];
    [|exfalso; cbn in X; repeat (inversion X as [? ? Y|? ? Y]; subst; clear X; [destruct Y|rename Y into X]); inversion X];
    pose proof (C74_calls _ (Env53 cosf sinf) (fun l => Permutation_refl l) (not_below cosf sinf) g h rs s V E) as T
  end.
  exists s. rewrite E. clear E V R.
  do 12 (destruct rs as [|? rs]; [solve [repeat (destruct T as [_ T]); contradiction]|]). destruct rs; [|repeat (destruct T as [_ T]); contradiction].
  cbn [all_tell] in T.
  repeat match type of T with _ /\ _ => let Y := fresh "Y" in let Z := fresh "Z" in destruct T as [[Y Z] T]; cbn in Y;
    lazymatch type of Y with ex _ => let b := fresh "b" in destruct Y as [b Y] | _ => idtac end; subst; cbn in Z end.
  repeat match goal with Z : Some false = Some false -> _ |- _ => rewrite (Z eq_refl); clear Z end. reflexivity.
Qed.
(** A rotation by any angle of a qubit known to be 1, and an exponential of X with it, leave it known while a control is 0. *)
Example C74_idle_ex : forall cosf sinf g th, exists s,
  @aexec _ (Env53 cosf sinf) (new_sim g)
    [AAlloc; AAlloc; AAlloc; AGate AH 0; AGate AX 1; AMc (@ARx (Arith64 cosf sinf) th) [0; 2] 1; @AMcExp (Arith64 cosf sinf) [2; 0] [PX_] th [1];
     AMc AX [1] 2; AJointMeasure [1; 2]] =
  Ok ([AId 0; AId 1; AId 2; AUnit; AUnit; AUnit; AUnit; AUnit; ABit false], s).
Proof.
  intros cosf sinf g th.
  match goal with |- exists s, @aexec _ _ _ ?h = _ =>
    assert (V : avalid_run (mkBook [] true) h) by (cbn; unfold targets_ok, incl; cbn; repeat split; auto; try lia; repeat constructor; cbn; intuition lia);
    destruct (@aexec_ok _ (Env53 cosf sinf) (fun l => Permutation_refl l) _ _ _ (new_abook g) V) as [[rs [s [E [R _]]]]|[_ X]];
    [|exfalso; cbn in X; repeat (inversion X as [? ? Y|? ? Y]; subst; clear X; [destruct Y|rename Y into X]); inversion X];
    pose proof (C74_calls _ (Env53 cosf sinf) (fun l => Permutation_refl l) (not_below cosf sinf) g h rs s V E) as T
  end.
  exists s. rewrite E. clear E V R.
  do 9 (destruct rs as [|? rs]; [solve [repeat (destruct T as [_ T]); contradiction]|]). destruct rs; [|repeat (destruct T as [_ T]); contradiction].
  cbn [all_tell] in T.
  repeat match type of T with _ /\ _ => let Y := fresh "Y" in let Z := fresh "Z" in destruct T as [[Y Z] T]; cbn in Y;
    lazymatch type of Y with ex _ => let b := fresh "b" in destruct Y as [b Y] | _ => idtac end; subst; cbn in Z end.
  repeat match goal with Z : Some false = Some false -> _ |- _ => rewrite (Z eq_refl); clear Z end. reflexivity.
Qed.
