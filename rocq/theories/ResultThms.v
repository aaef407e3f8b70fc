(** * Result values: proofs *)
From Coq Require Import String Reals NArith ZArith List Bool Lia Lra.
From Verif Require Import Cx Bits Arith ArithR Sim SimExp Spec SpecExp SpecRun SimRun Text Backend SpecBackend BackThms BackStore
  Heap SpecHeap HeapLemmas HeapThms SpecString Strings StringThms ResultBool.
Import ListNotations.
Local Open Scope list_scope.

Section Results.
Context {T : Tol} {EN : Env} {D : Doubles} {SW : Shows}.
Lemma result_values : forall c b r b', bcall1 c b = BOk (VResult r) b' -> r = result_get_zero \/ r = result_get_one.
Proof.
  intros c b r b' E. unfold result_get_zero, result_get_one.
  destruct c; cbn [bcall1] in E; unfold vunit in E;
    try (unfold bbind in E; match type of E with match ?m with _ => _ end = _ => destruct m; discriminate E end);
    try (unfold rt_fail in E; discriminate E); try (unfold bret in E; discriminate E).
  - unfold qis_m, bbind in E. destruct (ensure q b) as [x b1|]; [|discriminate]. destruct (simbit (CMeasure q) b1) as [v b2|]; [|discriminate].
    unfold bret in E. injection E as <- _. destruct v; auto.
  - unfold qis_measure, bbind in E. destruct (map_to_z_basis ps qs b) as [x b1|]; [|discriminate].
    destruct (simbit _ b1) as [v b2|]; [|discriminate]. destruct (bfor x from_z b2) as [y b3|]; [|discriminate].
    unfold bret in E. injection E as <- _. destruct v; auto.
Qed.
Lemma run_results : forall h b rs b' r, bexec h b = BOk rs b' -> In (VResult r) rs -> r = result_get_zero \/ r = result_get_one.
Proof.
  induction h as [|c h IH]; intros b rs b' r E I.
  - cbn in E. injection E as <- _. destruct I.
  - cbn [bexec] in E. unfold bbind in E. destruct (bcall1 c b) as [x b1|] eqn:E1; [|discriminate]. destruct (bexec h b1) as [xs b2|] eqn:E2; [|discriminate].
    unfold bret in E. injection E as <- <-. destruct I as [->|I]; [exact (result_values _ _ _ _ E1)|exact (IH _ _ _ _ E2 I)].
Qed.
Lemma result_text : forall h r, r = result_get_zero \/ r = result_get_one ->
  gives (rt_result_to_string (N.of_nat r)) h (lit (if result_equal r result_get_one then "One" else "Zero")).
Proof. intros h r [-> | ->]; apply convert_plain, plainb_all; reflexivity. Qed.
End Results.
