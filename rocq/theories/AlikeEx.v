(** * The two qubits of a pair are measured in either order *)
From Coq Require Import String Reals NArith ZArith List Bool Lia Lra.
From Verif Require Import Cx Bits Arith ArithR Sim SimExp Spec SpecExp SpecRun SimRun Text Backend SpecBackend Runner SpecRunner SpecIdeal IdealEx
  SpecChance Chance ChanceEx SpecIdle SpecAlike.
Import ListNotations.
Local Open Scope R_scope.
Local Open Scope list_scope.

Section Pair.
Context {T : Tol} {EN : Env} {D : Doubles} {SW : Shows} {RN : Rand}.
Definition told : code := Do (QResult 0 None) (fun _ => Do (QResult 1 None) (fun _ => Ret)).
(** An entangled pair is made; the first is measured, the second is turned and measured. *)
Definition pair (first : bool) : code :=
  Do (QGate GH 0) (fun _ => Do (QC1 GX 0 1) (fun _ =>
    if first then Do (QMz 0 0) (fun _ => Do (QR PX_ 1 1) (fun _ => Do (QMz 1 1) (fun _ => told)))
    else Do (QR PX_ 1 1) (fun _ => Do (QMz 1 1) (fun _ => Do (QMz 0 0) (fun _ => told))))).
Ltac ok := first [exact I | split; [repeat constructor; simpl; intuition discriminate|intros ? ?; cbv; cbv in *; intuition auto]].
Ltac plain1 := repeat split; discriminate.
Ltac out := intros r m' H _; repeat destruct H as [H|H]; try contradiction; injection H as <- <-.
Lemma told_sound : forall (P : bcall -> Prop) x n m t, P (QResult 0 None) -> P (QResult 1 None) -> sound P (tree x) n told m t.
Proof.
  intros P x n m t P1 P2. destruct n as [|n]; [exact I|]. split; [exact P1|]. split; [ok|]. intros r m' _ _.
  destruct n as [|n]; [exact I|]. split; [exact P2|]. split; [ok|]. intros r' m2 _ _. destruct n; exact I.
Qed.
Lemma pair_sound : forall b n t, sound plain (tree (pair b)) n (pair b) path0 t.
Proof.
  intros b n t. destruct n as [|n]; [exact I|]. split; [plain1|]. split; [ok|]. out.
  destruct n as [|n]; [exact I|]. split; [plain1|]. split; [ok|]. out. destruct b.
  - destruct n as [|n]; [exact I|]. split; [plain1|]. split; [ok|]. out; (destruct n as [|n]; [exact I|]); (split; [plain1|]; split; [ok|]); out;
      (destruct n as [|n]; [exact I|]); (split; [plain1|]; split; [ok|]); out; (apply told_sound; plain1).
  - destruct n as [|n]; [exact I|]. split; [plain1|]. split; [ok|]. out. destruct n as [|n]; [exact I|]. split; [plain1|]. split; [ok|]. out;
      (destruct n as [|n]; [exact I|]); (split; [plain1|]; split; [ok|]); out; (apply told_sound; plain1).
Qed.
Lemma pair_alike : forall x n t, alike (tree x) (5 + n) (pair true) (5 + n) (pair false) path0 t.
Proof.
  intros x n t. cbn [Nat.add]. eapply (al_call (tree x)); [reflexivity|reflexivity|ok|]. out.
  eapply (al_call (tree x)); [reflexivity|reflexivity|ok|]. out.
  apply al_then with (n1 := S (S (S n))) (l1 := Do (QR PX_ 1 1) (fun _ => Do (QMz 0 0) (fun _ => Do (QMz 1 1) (fun _ => told))) : ploc (tree x)).
  - apply al_cross with (c := QMz 0 0) (c' := QR PX_ 1 1).
    exists (fun _ => Do (QR PX_ 1 1) (fun _ => Do (QMz 1 1) (fun _ => told))), (fun _ => Do (QMz 0 0) (fun _ => Do (QMz 1 1) (fun _ => told))),
      (fun _ _ => Do (QMz 1 1) (fun _ => told)).
    repeat (split; [reflexivity|]). split; [|split].
    + split; [exact I|]. split; [ok|cbv; lia].
    + split; [discriminate|]. split; [ok|cbv; lia].
    + split; [intros q H H'; cbv in H, H'; lia|intros i H H'; discriminate].
  - eapply (al_call (tree x)); [reflexivity|reflexivity|ok|]. out. apply al_cross with (c := QMz 0 0) (c' := QMz 1 1).
    exists (fun _ => Do (QMz 1 1) (fun _ => told)), (fun _ => Do (QMz 0 0) (fun _ => told)), (fun _ _ => told).
    repeat (split; [reflexivity|]). split; [|split].
    + split; [exact I|]. split; [ok|cbv; lia].
    + split; [exact I|]. split; [ok|cbv; lia].
    + split; [intros q H H'; cbv in H, H'; lia|intros i H H'; cbv in H, H'; congruence].
Qed.
End Pair.
