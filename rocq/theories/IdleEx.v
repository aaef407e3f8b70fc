(** * Programs with and without calls that have no consequences *)
From Coq Require Import String Reals NArith ZArith List Bool Lia Lra.
From Verif Require Import Cx Bits Arith ArithR Sim SimExp Spec SpecExp SpecRun SimRun Text Backend SpecBackend Runner SpecRunner SpecIdeal IdealEx
  SpecChance Chance ChanceEx SpecIdle.
Import ListNotations.
Local Open Scope R_scope.
Local Open Scope list_scope.

(** Two entangled qubits: whether or not the first is turned and measured, the second is measured and the result recorded. *)
Section Half.
Context {T : Tol} {EN : Env} {D : Doubles} {SW : Shows} {RN : Rand}.
Definition second : code := Do (QMz 1 0) (fun _ => Do (QResult 0 None) (fun _ => Ret)).
Definition half (meddle : bool) : code :=
  Do (QGate GH 0) (fun _ => Do (QC1 GX 0 1) (fun _ => if meddle then Do (QGate (GRz 1) 0) (fun _ => Do (QM 0) (fun _ => second)) else second)).
Ltac ok := first [exact I | split; [repeat constructor; simpl; intuition discriminate|intros ? ?; cbv; cbv in *; intuition auto]].
Ltac plain1 := repeat split; discriminate.
Ltac away := split; [intros q [<-|[]] H; cbv in H; intuition discriminate|exact I].
Lemma second_sound : forall (P : bcall -> Prop) x n m t, P (QMz 1 0) -> P (QResult 0 None) -> h_book m = pair01 -> sound P (tree x) n second m t.
Proof.
  intros P x n m t P1 P2 B. destruct n as [|n]; [exact I|]. split; [exact P1|]. split; [unfold hvalid; rewrite B; ok|]. intros r m' Hs _.
  destruct n as [|n]; [exact I|]. split; [exact P2|]. split; [ok|]. intros r' m2 _ _. destruct n; exact I.
Qed.
Lemma half_sound : forall b n t, sound plain (tree (half b)) n (half b) path0 t.
Proof.
  intros b n t. destruct n as [|n]; [exact I|]. split; [plain1|]. split; [ok|]. intros r m' [H|[]] _. injection H as <- <-.
  destruct n as [|n]; [exact I|]. split; [plain1|]. split; [ok|]. intros r m' [H|[]] _. injection H as <- <-.
  destruct b; [|apply second_sound; [plain1|plain1|reflexivity]].
  destruct n as [|n]; [exact I|]. split; [plain1|]. split; [ok|]. intros r m' [H|[]] _. injection H as <- <-.
  destruct n as [|n]; [exact I|]. split; [plain1|]. split; [ok|].
  intros r m' [H|[H|[]]] _; injection H as <- <-; (apply second_sound; [plain1|plain1|reflexivity]).
Qed.
Lemma half_trims : forall x n t, trims (tree x) (S (S (S (S n)))) (half true) (S (S n)) (half false) path0 t.
Proof.
  intros x n t. eapply (tr_call (tree x)); [reflexivity|reflexivity|ok|]. intros r m' [H|[]] _. injection H as <- <-.
  eapply (tr_call (tree x)); [reflexivity|reflexivity|ok|]. intros r m' [H|[]] _. injection H as <- <-.
  apply (tr_idle (tree x)) with (c := QGate (GRz 1) 0) (k := fun _ => Do (QM 0) (fun _ => second)); [reflexivity| |apply second_sound; [away|away|reflexivity]|].
  { split; [discriminate|]. split; [discriminate|]. split; [ok|cbv; lia]. }
  intros r m' [H|[]] _. injection H as <- <-.
  apply (tr_idle (tree x)) with (c := QM 0) (k := fun _ => second); [reflexivity| |apply second_sound; [away|away|reflexivity]|].
  { split; [exact I|]. split; [discriminate|]. split; [ok|cbv; lia]. }
  intros r m' _ _. apply tr_same.
Qed.
(** The same, but the question is asked whether the second qubit is certainly zero. *)
Definition look : code := Do (QIsZero 1) (fun r => match r with VBool true => Do (QRecord (RecResult true None)) (fun _ => Ret) | _ => Ret end).
Definition peek (meddle : bool) : code :=
  Do (QGate GH 0) (fun _ => Do (QC1 GX 0 1) (fun _ => if meddle then Do (QM 0) (fun _ => look) else look)).
Lemma peek_calc : forall n t,
  calc (peek false) (5 + n) (peek false) path0 t [(1, EDone tt [] t)] /\
  calc (peek true) (6 + n) (peek true) path0 t [(1 / 2, EDone tt [] t); (1 / 2, EDone tt (render (RecResult true None)) t)].
Proof.
  intros n t. set (v := v3 (fun x y z => if xorb x y || z then C0 else rsqrt2)). set (u := v3 (fun x y z => if y || z then C0 else rsqrt2)).
  assert (E0 : forall o a re, chance (mkPath pair01 v a re o) = 1).
  { intros. unfold chance, size2, v. cbn [h_book h_vec pair01 bb_live]. change (width [0%nat; 1%nat]) with 2%nat. rewrite n2_2. cbn [orb xorb]. rewrite rs_n2, Cn2_C0. lra. }
  assert (E1 : forall r o a re, chance (mkPath pair01 (proj [0%nat] r v) a re o) = 1 / 2).
  { intros r o a re. unfold chance, size2, v. cbn [h_book h_vec pair01 bb_live]. change (width [0%nat; 1%nat]) with 2%nat. rewrite v3_p0, n2_2. cbn [orb xorb Bool.eqb].
    destruct r; cbn [Bool.eqb]; rewrite rs_n2, Cn2_C0; lra. }
  assert (B0 : born 2 [1%nat] v = 1 / 2).
  { assert (X := size2_proj [0%nat; 1%nat] 1 true v). unfold size2 in X. change (width [0%nat; 1%nat]) with 2%nat in X. rewrite <- X. unfold v. rewrite v3_p1, n2_2. cbn [orb xorb Bool.eqb].
    rewrite rs_n2, Cn2_C0. lra. }
  assert (B1 : forall r, born 2 [1%nat] (proj [0%nat] r v) = if r then 1 / 2 else 0).
  { intros r. assert (X := size2_proj [0%nat; 1%nat] 1 true (proj [0%nat] r v)). unfold size2 in X. change (width [0%nat; 1%nat]) with 2%nat in X. rewrite <- X. unfold v. rewrite v3_p0, v3_p1, n2_2. cbn [orb xorb Bool.eqb].
    destruct r; cbn [Bool.eqb]; rewrite ?rs_n2, Cn2_C0; lra. }
  assert (U : chance (mkPath one0 u 0 (fun _ => false) []) <> 0).
  { unfold chance, size2, u. cbn [h_book h_vec one0 bb_live]. change (width [0%nat]) with 1%nat. rewrite n2_1. cbn [orb]. rewrite rs_n2. lra. }
  split.
  - apply calc_one with VUnit (mkPath one0 u 0 (fun _ => false) []); [rewrite <- (plus_sat : _ = u); reflexivity|plain1|ok|exact U|].
    apply calc_one with VUnit (mkPath pair01 v 0 (fun _ => false) []); [rewrite <- (bell_sat : _ = v); reflexivity|plain1|ok|rewrite E0; lra|].
    apply calc_one with (VBool false) (mkPath pair01 v 0 (fun _ => false) []); [|plain1|ok|rewrite E0; lra|].
    { unfold sides. cbn [bop]. change (width _) with 2%nat. cbn [h_vec]. rewrite B0. unfold truly. destruct (Req_EM_T (1 / 2) 0); [lra|reflexivity]. }
    apply calc_ret; [apply E0|reflexivity].
  - apply calc_one with VUnit (mkPath one0 u 0 (fun _ => false) []); [rewrite <- (plus_sat : _ = u); reflexivity|plain1|ok|exact U|].
    apply calc_one with VUnit (mkPath pair01 v 0 (fun _ => false) []); [rewrite <- (bell_sat : _ = v); reflexivity|plain1|ok|rewrite E0; lra|].
    apply (calc_two _ _ _ _ _ _ (as_result true) (mkPath pair01 (proj [0%nat] true v) 0 (fun _ => false) []) (as_result false) (mkPath pair01 (proj [0%nat] false v) 0 (fun _ => false) []) [_] [_]); [reflexivity|plain1|ok| |].
    + apply branch_go; [rewrite E1; lra|]. apply calc_one with (VBool false) (mkPath pair01 (proj [0%nat] true v) 0 (fun _ => false) []); [|plain1|ok|rewrite E1; lra|].
      { unfold sides. cbn [bop]. change (width _) with 2%nat. cbn [h_vec]. rewrite B1. unfold truly. destruct (Req_EM_T (1 / 2) 0); [lra|reflexivity]. }
      apply calc_ret; [apply E1|reflexivity].
    + apply branch_go; [rewrite E1; lra|]. apply calc_one with (VBool true) (mkPath pair01 (proj [0%nat] false v) 0 (fun _ => false) []); [|plain1|ok|rewrite E1; lra|].
      { unfold sides. cbn [bop]. change (width _) with 2%nat. cbn [h_vec]. rewrite B1. unfold truly. destruct (Req_EM_T 0 0); [reflexivity|lra]. }
      apply calc_one with VUnit (mkPath pair01 (proj [0%nat] false v) 0 (fun _ => false) (render (RecResult true None))); [reflexivity|plain1|ok|rewrite E1; lra|].
      apply calc_ret; [apply E1|reflexivity].
Qed.
End Half.
