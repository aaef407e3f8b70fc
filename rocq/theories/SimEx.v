(** * Concrete instances of the hypotheses of the simulator theorems *)
From Coq Require Import Reals NArith List Bool Lia Lra Permutation.
From Verif Require Import Cx Bits Arith ArithR IndexMap Sim SimExp SimApply Spec SpecExp SpecApply SpecRun SimRun
  RunLemmas RunProps RunThms SimProps World.
Import ListNotations.
Local Open Scope R_scope.
Local Existing Instance T0.
Local Existing Instance E0.

(** A Bell pair is reached and shown. *)
Lemma bell_shown : exists rs s, exec (new_sim tt) bell_history = Ok (rs, s) /\
  reached s [0%nat; 1%nat] /\ shows s [0%nat; 1%nat] bell.
Proof.
  destruct (history_thm exact0 tt bell_history bell_proper) as [rs [s [h' [E [_ [C [_ Sh]]]]]]].
  rewrite (C bell_no_odd), bell_vec in Sh. exists rs, s. split; auto. split; auto.
  exists tt, bell_history, rs. split; [apply bell_proper|]. auto.
Qed.
(** One qubit that is certainly 1. *)
Lemma flipped_shown : reached flipped_sim [0%nat] /\ shows flipped_sim [0%nat] (gate1 mX 0 ket0).
Proof.
  destruct (history_thm exact0 tt flipped flipped_proper) as [rs [s [h' [E [_ [C [_ Sh]]]]]]].
  rewrite (C flipped_no_odd) in Sh. rewrite flipped_exec in E. inversion E; subst. split; auto.
  exists tt, flipped, [RId 0%nat; RUnit]. split; [apply flipped_proper|]. auto.
Qed.
Lemma bell_proper_snoc : forall c, (forall b, live b = [0%nat; 1%nat] -> valid b c) -> unit_call c -> proper (bell_history ++ [c]).
Proof.
  intros c V U. destruct bell_proper as [V0 U0]. split.
  - apply valid_run_app. split; auto. simpl. split; auto.
  - apply Forall_app. split; auto.
Qed.
Lemma bell_tidy : forall b, b = fold_left bstep bell_history (mkBook [] true) -> tidy b = true.
Proof. intros b ->. reflexivity. Qed.

(** The history with an observer between rx and ry gives the ideal answer, the one without does not. *)
Definition before_ry : list call := [CAlloc; CGate (GRx PI) 0].
Definition from_ry : list call := [CGate (GRy (PI / 2)) 0; CGate GH 0; CJointProb [0%nat]].
Lemma clash_split : clash_history = before_ry ++ from_ry. Proof. reflexivity. Qed.
Lemma clash_proper : proper clash_history.
Proof.
  split; [|repeat constructor]. simpl. split; auto. split; auto. split; auto. split; auto. split; auto.
  split; [repeat constructor; simpl; auto|]. intros x; simpl; auto.
Qed.
Lemma looked_proper : proper (before_ry ++ CIsZero 0 :: from_ry).
Proof.
  split; [|repeat constructor]. simpl. split; auto. split; auto. split; auto. split; auto. split; auto. split; auto.
  split; [repeat constructor; simpl; auto|]. intros x; simpl; auto.
Qed.
Lemma before_exec : exec (new_sim tt) before_ry = Ok ([RId 0%nat; RUnit], mkSim [(0%N, C1)] [Some 0%nat] tt 0%N [Some PI] [] []).
Proof. reflexivity. Qed.
Lemma looked_exec : exists rs s, exec (new_sim tt) (before_ry ++ CIsZero 0 :: from_ry) = Ok (rs, s) /\
  nth_error rs 5 = Some (RProb 1).
Proof.
  destruct (@exec_refines T0 E0 (ewo exact0) (ew0 exact0) (ews exact0) (before_ry ++ CIsZero 0 :: from_ry) (@new_sim (@RArith T0) E0 tt) (@initial (@RArith T0) E0 tt)
    (@new_refines T0 E0 tt) (proj1 looked_proper) (proj2 looked_proper)) as [rs [s [E [P _]]]].
  - unfold before_ry. cbn [app clash_free no_clash]. split; auto.
    assert (A : run1 (new_sim tt) CAlloc = Ok (RId 0%nat, mkSim [(0%N, C1)] [Some 0%nat] tt 0%N [] [] [])) by reflexivity.
    rewrite A. split; auto.
    assert (B : run1 (mkSim [(0%N, C1)] [Some 0%nat] tt 0%N [] [] []) (CGate (GRx PI) 0) =
     Ok (RUnit, mkSim [(0%N, C1)] [Some 0%nat] tt 0%N [Some PI] [] [])) by reflexivity.
    rewrite B. split; auto. destruct looked_rx as [r [s' [D F]]]. rewrite D. unfold from_ry. cbn [clash_free no_clash].
    split. { intros a Ha. rewrite F in Ha. discriminate. }
    destruct (run1 s' (CGate (GRy (PI / 2)) 0)) as [[r1 s1]|]; auto. split; auto.
    destruct (run1 s1 (CGate GH 0)) as [[r2 s2]|]; auto. split; auto.
    destruct (run1 s2 (CJointProb [0%nat])) as [[r3 s3]|]; auto.
  - exists rs, s. split; auto. unfold before_ry, from_ry in P. cbn [app] in P.
    destruct rs as [|r0 [|r1 [|r2 [|r3 [|r4 [|r5 rs]]]]]]; cbn [replies_ok] in P; try tauto.
    destruct P as [_ [_ [_ [_ [_ [P _]]]]]]. cbn [reply_ok] in P. cbn [nth_error]. f_equal. rewrite P. f_equal.
    exact clash_ideal.
Qed.

Lemma exec_length : forall h s rs s', exec s h = Ok (rs, s') -> length rs = length h.
Proof.
  induction h as [|c h IH]; simpl; intros s rs s' E; [inversion E; auto|].
  destruct (run1 s c) as [[r s1]|]; simpl in E; [|discriminate].
  destruct (exec s1 h) as [[rs1 s2]|] eqn:E1; simpl in E; inversion E; subst. simpl. f_equal. eauto.
Qed.
