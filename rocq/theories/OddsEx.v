(** * A qubit measured and turned back in binary64 *)
From Coq Require Import Reals NArith ZArith List Bool Lia Lra Permutation.
From Flocq Require Import IEEE754.BinarySingleNaN.
From Verif Require Import Cx Bits Arith ArithR IndexMap Sim SimExp SimApply Spec SpecExp SpecRun SimRun SpecAny Any AnyRun
  SpecNear SpecRound SpecLedger RoundThms RoundLedger LedgerBound Math Binary64 SpecBinary64 Binary64Lemmas Binary64Prob
  SpecOdds Odds RoundEx LedgerEx.
From Verif Require SpecChance.
Import ListNotations.
Local Open Scope R_scope.

(** A qubit in superposition is measured and set back to 0 if the result was 1; it is measured again and released. *)
Definition EG : @Env (Arith64 cos52 sin52) :=
  @Build_Env (Arith64 cos52 sin52) (@rev _) (nat -> f64)
    (fun g => ((if is_finite (g 0%nat) then g 0%nat else f0) : @prb (Arith64 cos52 sin52), fun n => g (S n))).
Definition again : @plan (Arith64 cos52 sin52) :=
  Call (AMeasure 0) (CMeasure 0) (fun _ => Call (ARelease 0) (CRelease 0) (fun _ => Stop)).
Definition undo : @plan (Arith64 cos52 sin52) :=
  Call AAlloc CAlloc (fun _ => Call (AGate AH 0) (CGate GH 0) (fun _ =>
  Call (AMeasure 0) (CMeasure 0) (fun r => if r then Call (AGate AX 0) (CGate GX 0) (fun _ => again) else again))).

Lemma undo_branches : forall h h', branch undo h h' ->
  (h = [AAlloc; AGate AH 0; AMeasure 0; AGate AX 0; AMeasure 0; ARelease 0] /\
   h' = [CAlloc; CGate GH 0; CMeasure 0; CGate GX 0; CMeasure 0; CRelease 0]) \/
  (h = [AAlloc; AGate AH 0; AMeasure 0; AMeasure 0; ARelease 0] /\
   h' = [CAlloc; CGate GH 0; CMeasure 0; CMeasure 0; CRelease 0]).
Proof.
  intros h h' B. unfold undo, again in B.
  repeat match goal with
  | B : branch Stop _ _ |- _ => inversion B; subst; clear B
  | B : branch (Call _ _ _) _ _ |- _ => inversion B; subst; clear B
  | B : branch (go_on _ _ ?r) _ _ |- _ => cbn [go_on] in B
  | B : branch (if ?r then _ else _) _ _ |- _ => destruct r
  end; [left|right]; auto.
Qed.
Definition plus : qstate := gate1 (gmat GH) 0 ket0.
Definition flipped : qstate := gate1 (gmat GX) 0 (collapsed [0%nat] [0%nat] true plus).
Definition zero : qstate := collapsed [0%nat] [0%nat] false plus.
Lemma born_one : forall phi, born (width [0%nat]) [0%nat] phi = Cn2 (phi 1%N).
Proof. intros. unfold born, qsum, Rsum. simpl. ring. Qed.
Lemma plus_born : born (width [0%nat]) [0%nat] plus = 1 / 2.
Proof.
  rewrite born_one. assert (E : plus 1%N = rsqrt2) by (cbv -[C rsqrt2 C0 C1 Cmul Cadd Copp]; ring). rewrite E. apply half.
Qed.
Lemma flipped_born : born (width [0%nat]) [0%nat] flipped = 0.
Proof.
  rewrite born_one. assert (E : flipped 1%N = C0).
  { unfold flipped, collapsed. rewrite plus_born. cbv -[C rsqrt2 C0 C1 Cmul Cadd Copp RtoC Rdiv sqrt]. ring. }
  rewrite E. unfold Cn2, C0. simpl. ring.
Qed.
Lemma zero_born : born (width [0%nat]) [0%nat] zero = 0.
Proof.
  rewrite born_one. assert (E : zero 1%N = C0).
  { unfold zero, collapsed. rewrite plus_born. cbv -[C rsqrt2 C0 C1 Cmul Cadd Copp RtoC Rdiv Rminus sqrt]. ring. }
  rewrite E. unfold Cn2, C0. simpl. ring.
Qed.
Lemma again_ways : forall t psi, born (width [0%nat]) [0%nat] psi = 0 ->
  ways (1 / 4) t (mkBook [0%nat] true) psi again = [mkWay [false] 1 [(t, 1)]].
Proof.
  intros t psi B. unfold again. cbn [ways asks live bstep told go_on flat_map app].
  unfold chance. rewrite B. destruct (Rlt_dec (1 / 4) 0) as [F|_]; [lra|]. destruct (Rlt_dec (1 / 4) (1 - 0)) as [_|F]; [|lra].
  cbn [map app side remove_id filter Nat.eqb negb ways results weight ranges]. do 2 f_equal; [lra|]. f_equal. f_equal. lra.
Qed.
Lemma undo_ways : forall t, ways (1 / 4) t (mkBook [] true) ket0 undo =
  [mkWay [true; false] (1 / 2) [(0, 1 / 2 - t); (t, 1)]; mkWay [false; false] (1 / 2) [(1 / 2 + t, 1); (t, 1)]].
Proof.
  intros t. unfold undo. cbn [ways asks live bstep told go_on flat_map app vstep insert_id fresh_id gap_from Nat.eqb tidy]. fold plus.
  fold zero. fold flipped. rewrite (again_ways t flipped flipped_born), (again_ways t zero zero_born).
  unfold chance. rewrite plus_born. destruct (Rlt_dec (1 / 4) (1 / 2)) as [_|F]; [|lra].
  destruct (Rlt_dec (1 / 4) (1 - 1 / 2)) as [_|F]; [|lra]. cbn [map app side results weight ranges].
  f_equal; [|f_equal]; f_equal; lra.
Qed.
