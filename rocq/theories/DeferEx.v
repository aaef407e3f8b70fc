(** * A gate that depends on a measurement *)
From Coq Require Import String Reals NArith ZArith List Bool Lia Lra.
From Verif Require Import Cx Bits Arith ArithR Sim SimExp Spec SpecExp SpecRun SimRun Text Backend SpecBackend Runner SpecRunner SpecIdeal IdealEx
  SpecChance Chance ChanceEx SpecIdle SpecAlike AlikeEx SpecRewrite RewriteThms.
Import ListNotations.
Local Open Scope R_scope.
Local Open Scope list_scope.

Section Defer.
Context {T : Tol} {EN : Env} {D : Doubles} {SW : Shows} {RN : Rand}.
Definition tail1 : code := Do (QMz 1 1) (fun _ => told).
(** The second qubit is inverted if the first is measured as 1; or it is inverted under the control of the first, which is measured then. *)
Definition late (first : bool) : code :=
  Do (QGate GH 0) (fun _ => Do (QR PX_ 1 1) (fun _ =>
    if first then Do (QMz 0 0) (fun _ => Do (QReadResult 0) (fun r => match r with VBool true => Do (QGate GX 1) (fun _ => tail1) | _ => tail1 end))
    else Do (QC1 GX 0 1) (fun _ => Do (QMz 0 0) (fun _ => Do (QReadResult 0) (fun _ => tail1))))).
Ltac ok := first [exact I | split; [repeat constructor; simpl; intuition discriminate|intros ? ?; cbv; cbv in *; intuition auto]].
Ltac plain1 := repeat split; discriminate.
Ltac out := intros r m' H _; repeat destruct H as [H|H]; try contradiction; injection H as <- <-.
Ltac step := match goal with |- sound _ _ ?n _ _ _ => destruct n as [|n]; [exact I|] end; split; [plain1|]; split; [ok|]; out.
Lemma late_sound : forall x b n t, sound plain (tree x) n (late b) path0 t.
Proof.
  intros x b n t. step. step. destruct b.
  - step; step; cbn [noted h_res Nat.eqb]; [step|]; (step; apply told_sound; plain1).
  - step. step; step; (step; apply told_sound; plain1).
Qed.
Lemma tail_ends : forall x m t, ends_within (tree x) 4 tail1 m t.
Proof. intros x m t. cbn. intros. exact I. Qed.
Lemma late_rewritten : forall x t, rewritten (tree x) 9 (late true) 9 (late false) path0 t.
Proof.
  intros x t. eapply (rw_call (tree x)); [reflexivity|reflexivity|ok|]. out. eapply (rw_call (tree x)); [reflexivity|reflexivity|ok|]. out.
  set (m := moved _ _ _).
  apply (rw_defer (tree x) 4 4 m t 0 (Some 0%nat) [QGate GX 1] [QC1 GX 0 1] _ _
    (fun r : bool => if r then Do (QGate GX 1) (fun _ => tail1) else tail1) (fun _ => tail1) tail1
    (Do (QMz 0 0) (fun _ => Do (QReadResult 0) (fun _ => tail1)))).
  - do 2 eexists. split; [reflexivity|]. split; [reflexivity|]. intros []; reflexivity.
  - eexists. split; reflexivity.
  - eexists. split; reflexivity.
  - do 2 eexists. split; [reflexivity|]. split; [reflexivity|]. intros r. reflexivity.
  - split; [exact I|]. split; [ok|cbv; lia].
  - constructor; [|constructor]. split; [discriminate|]. split; [ok|cbv; lia].
  - constructor; [|constructor]. split; [discriminate|]. split; [ok|cbv; lia].
  - repeat constructor.
  - intros _. apply rw_alike, al_same.
  - intros _. apply (rw_more (tree x)). apply tail_ends.
Qed.
End Defer.
