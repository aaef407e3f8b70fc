(** * Two circuits that do the same *)
From Coq Require Import String Reals NArith ZArith List Bool Lia Lra.
From Verif Require Import Cx Bits Arith ArithR Sim SimExp Spec SpecExp SpecRun SimRun Text Backend SpecBackend Runner SpecRunner SpecIdeal IdealEx
  SpecChance Chance ChanceEx SpecIdle SpecAlike AlikeEx SpecRewrite RewriteThms.
Import ListNotations.
Local Open Scope R_scope.
Local Open Scope list_scope.

Section Rewrite.
Context {T : Tol} {EN : Env} {D : Doubles} {SW : Shows} {RN : Rand}.
Definition read_both : code := Do (QMz 0 0) (fun _ => Do (QMz 1 1) (fun _ => told)).
(** An entangled pair, one half inverted; the controlled X and the Y are made of other gates in the second. *)
Definition recast (first : bool) : code :=
  Do (QGate GH 0) (fun _ =>
    if first then Do (QC1 GX 0 1) (fun _ => Do (QGate GY 0) (fun _ => read_both))
    else Do (QGate GH 1) (fun _ => Do (QC1 GZ 0 1) (fun _ => Do (QGate GH 1) (fun _ => Do (QGate GZ 0) (fun _ => Do (QGate GX 0) (fun _ => read_both)))))).
Ltac ok := first [exact I | split; [repeat constructor; simpl; intuition discriminate|intros ? ?; cbv; cbv in *; intuition auto]].
Ltac plain1 := repeat split; discriminate.
Ltac out := intros r m' H _; repeat destruct H as [H|H]; try contradiction; injection H as <- <-.
Ltac step := match goal with |- sound _ _ ?n _ _ _ => destruct n as [|n]; [exact I|] end; split; [plain1|]; split; [ok|]; out.
Lemma recast_sound : forall x b n t, sound plain (tree x) n (recast b) path0 t.
Proof.
  intros x b n t. step. destruct b.
  - step. step. step; step; (apply told_sound; plain1).
  - step. step. step. step. step. step; step; (apply told_sound; plain1).
Qed.
Lemma recast_rewritten : forall x n t, rewritten (tree x) (3 + n) (recast true) (6 + n) (recast false) path0 t.
Proof.
  intros x n t. cbn [Nat.add]. eapply (rw_call (tree x)); [reflexivity|reflexivity|ok|]. out.
  set (m := moved path0 _ _).
  apply (rw_back (tree x)).
  apply (rw_gates (tree x) (2 + n) (Do (QGate GZ 0) (fun _ => Do (QGate GX 0) (fun _ => read_both))) (1 + n) (Do (QGate GY 0) (fun _ => read_both)) m t
    [QGate GH 1; QC1 GZ 0 1; QGate GH 1] [QC1 GX 0 1]).
  - do 3 (eexists; split; [reflexivity|]). reflexivity.
  - eexists; split; reflexivity.
  - repeat (split; [discriminate|]; split; [ok|]). exact I.
  - repeat (split; [discriminate|]; split; [ok|]). exact I.
  - apply rules_thm; [apply ru_cx|repeat (split; [discriminate|]; split; [ok|]); exact I|repeat (split; [discriminate|]; split; [ok|]); exact I|reflexivity].
  - set (m1 := after m _). apply (rw_gates (tree x) n read_both n read_both m1 t [QGate GZ 0; QGate GX 0] [QGate GY 0]).
    + do 2 (eexists; split; [reflexivity|]). reflexivity.
    + eexists; split; reflexivity.
    + repeat (split; [discriminate|]; split; [ok|]). exact I.
    + repeat (split; [discriminate|]; split; [ok|]). exact I.
    + apply rules_thm; [apply ru_zx|repeat (split; [discriminate|]; split; [ok|]); exact I|repeat (split; [discriminate|]; split; [ok|]); exact I|reflexivity].
    + apply rw_alike, al_same.
Qed.
End Rewrite.
