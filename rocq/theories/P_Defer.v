(** * C81: measuring earlier or later *)
From Coq Require Import String Reals NArith ZArith List Bool Lia Lra.
From Verif Require Import Cx Bits Arith ArithR Sim SimExp Spec SpecExp SpecRun SimRun Text Backend SpecBackend Runner SpecRunner SpecIdeal IdealEx
  World SimEx BackEx RunnerThms RunnerEx SpecChance Chance ChanceEx P_Chance SpecIdle IdleThms SpecAlike AlikeThms SpecRewrite RewriteThms DeferEx P_Rewrite.
Import ListNotations.
Local Open Scope R_scope.
Local Open Scope list_scope.

(** From [l] a qubit is measured and, if the result is 1, the gates [cs] are made; from [l'] the same gates are made with the qubit as a
    further control, and the qubit is measured after them.  If what follows each result has the same chances, so has the whole. *)
Theorem C81_defer : forall (T : Tol) (EN : Env) (D : Doubles) (SW : Shows) (RN : Rand) p (E : ended (pmem p) -> bool) n n' m t q w cs cs' l l' f f' l1 l2,
  learns p q w l f -> making p cs (f true) l1 -> making p cs' l' l2 -> learns p q w l2 f' ->
  ready m (QM q) -> Forall (ready m) cs -> Forall (ready m) cs' -> Forall2 (controlled q) cs cs' ->
  supported (bb_live (h_book m)) (h_vec m) -> chance m <> 0 ->
  (let m1 := after (seen m q w true) cs in chance m1 <> 0 -> odds E (chances p n l1 m1 t) = odds E (chances p n' (f' true) m1 t)) ->
  (let m0 := seen m q w false in chance m0 <> 0 -> odds E (chances p (length cs + n) (f false) m0 t) = odds E (chances p n' (f' false) m0 t)) ->
  odds E (chances p (asking w + (length cs + n)) l m t) = odds E (chances p (length cs' + (asking w + n')) l' m t).
Proof. intros T EN D SW RN. exact defer_step. Qed.
Print Assumptions C81_defer.
(** Further steps make no difference to a program that has ended. *)
Theorem C81_more : forall (T : Tol) (EN : Env) (D : Doubles) (SW : Shows) (RN : Rand) p n j l m t, ends_within p n l m t ->
  chances p (j + n) l m t = chances p n l m t.
Proof.
  intros T EN D SW RN p n j l m t H. induction j as [|j IH]; [reflexivity|]. rewrite <- IH. apply more.
  clear IH. assert (U : forall k l m t, ends_within p k l m t -> ends_within p (S k) l m t).
  { induction k as [|k IHk]; intros l' m' t' H'; [destruct H'|]. remember (S k) as k1 eqn:Ek. cbn [ends_within]. rewrite Ek in H'. cbn [ends_within] in H'.
    destruct (pstep p l'); try exact I; subst k1; eauto. }
  induction j as [|j IHj]; [exact H|]. apply U, IHj.
Qed.
Print Assumptions C81_more.
(** A shot of a program that inverts a qubit if another was measured as 1, and of one that makes a controlled X before the measurement: the
    samples that lead to any set of endings have the same volume. *)
Example C81_ex : forall t, exists leaves leaves' : list (box * @ended T0 E0 RN0 unit),
  let f := fun b => @entry D0 "main" [] 0 true (tree (@late D0 b)) in
  partition (map fst leaves) /\ partition (map fst leaves') /\
  (forall g leaf, In leaf leaves -> inside (@samples_of T0 E0 g) (fst leaf) -> ending (@fresh_run T0 E0 D0 SW0 RN0 (f true) 9 tt g t) = snd leaf) /\
  (forall g leaf, In leaf leaves' -> inside (@samples_of T0 E0 g) (fst leaf) -> ending (@fresh_run T0 E0 D0 SW0 RN0 (f false) 9 tt g t) = snd leaf) /\
  forall E, bulk E leaves = bulk E leaves'.
Proof.
  intros t.
  exact (C80_shot T0 E0 D0 SW0 RN0 exact0 plain (tree (late true)) (fun _ => late true) (fun _ => late false) 9 9 tt t "main" "main" [] []
    plain_careful plain_lists (late_sound (late true) true 9 t) (late_sound (late false) false 9 t) (late_rewritten (late true) t)).
Qed.
