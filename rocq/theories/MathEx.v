(** * Draws of doubles for the examples *)
From Coq Require Import String ZArith Reals List Bool Lra Lia.
From Flocq Require Import IEEE754.BinarySingleNaN.
From Verif Require Import Cx Bits Arith ArithR IndexMap Sim SimExp SimApply Spec SpecRun SimRun Text Backend BackEx World Runner SpecRunner RunnerEx
  Math SpecMath MathThms.
Import ListNotations.
Local Open Scope list_scope.

(** Doubles for the examples: [d m e] is [m * 2^e], rounded. *)
Definition d (m e : Z) : f64 := @binary_normalize 53 1024 prec53 prec53_1024 mode_NE m e false.
(** A generator that gives the lower bound. *)
Definition RD0 : @RandDouble T0 E0 RN0 :=
  {| draw_double := fun lo hi t => if fle lo hi && is_finite (fsub hi lo) then Some (lo, t) else None |}.
Lemma RD0_ok : @doubles_drawn_ok T0 E0 RN0 RD0.
Proof.
  intros lo hi t. cbn [draw_double RD0]. split.
  - intros L F. rewrite L, F. exists lo, t. split; [reflexivity|]. split; [|exact L]. unfold fle, Bleb, SpecFloat.SFleb in *.
    fold (Bcompare lo lo). fold (Bcompare lo hi) in L. destruct lo as [s|[]| |s m e B]; try reflexivity; [discriminate L|].
    rewrite Bcompare_correct by reflexivity. rewrite Raux.Rcompare_Eq; reflexivity.
  - intros [-> | ->]; [reflexivity|]. rewrite andb_false_r. reflexivity.
Qed.
