(** * A callable for a gate, for examples *)
From Coq Require Import Reals NArith ZArith List Bool Arith Lia.
From Verif Require Import Cx Arith ArithR Sim SimExp Spec SpecRun SimRun Text Backend Heap SpecHeap HeapLemmas HeapThms HeapCalls
  QubitArray Args SpecArgs ArgsThms Invoke SpecInvoke InvokeThms.
Import ListNotations.
Local Open Scope args_scope.

Section Code.
Context {T : Tol} {EN : Env} {D : Doubles} {SW : Shows} {M : Mode}.
(** What a compiler emits for a gate: without controls the qubit is the first word of the arguments, with controls the second. *)
Definition gate_code (g g' : gname) : code := fun _ i _ args =>
  match args with
  | None => mem hub
  | Some a =>
      let g1 := if Nat.odd i then g' else g in
      if Nat.ltb i 2 then w <- mem (tuple_read a 0 8) ;; q <- known (word_qubit w) ;; dev (qis_gate g1 q)
      else ctls <- mem (tuple_ptr a 0) ;; w <- mem (tuple_read a 0 16) ;; q <- known (word_qubit (skipn 8 w)) ;; q_unit (p_ctl g1 ctls q) ;;; qret tt
  end.
Lemma runs_dev : forall (m : B unit) h b, runs (dev m h b) h (m b).
Proof.
  intros m h b. unfold runs, dev. destruct (m b) as [[] b'|e o]; [|reflexivity]. exists h. split; [reflexivity|].
  split; [reflexivity|]. intros; lia.
Qed.
Lemma unit_runs : forall (m : B unit) (b : back), match vunit m b with BOk _ b' => BOk tt b' | BErr e o => BErr e o end = m b.
Proof. intros m b. unfold vunit, bbind. destruct (m b) as [[] b'|e o]; reflexivity. Qed.
Lemma gate_code_ok : forall g g' t cap, implements (gate_code g g') t cap one_qubit one_qubit (gate_op g g').
Proof.
  intros g g' t cap. split.
  - intros adj a n al d q h b Aa (w & rest & -> & Q).
    assert (R : tuple_read a 0 8 h = HOk w h).
    { replace 8 with (length w) by (exact (word_len _ _ Q)). apply tuple_ok. exists n, al, rest. exact Aa. }
    assert (E : gate_code g g' t (if adj then 1 else 0) cap (Some a) h b = dev (qis_gate (if adj then g' else g) q) h b).
    { unfold gate_code. replace (Nat.ltb (if adj then 1 else 0) 2) with true by (destruct adj; reflexivity).
      unfold qbind at 1, mem. rewrite R. rewrite (word_qubit_ok _ _ Q). destruct adj; reflexivity. }
    rewrite E. unfold gate_op, gate_call. cbn [bcall1]. rewrite unit_runs. apply runs_dev.
  - intros adj a n al c d cs q h b Aa Hq (w & rest & -> & Q). pose proof Aa as Aa'. apply alive_iff in Aa'. destruct Aa' as [_ C].
    assert (R : tuple_read a 0 16 h = HOk (ptr_bytes (PObj c) ++ w) h).
    { replace 16 with (length (ptr_bytes (PObj c) ++ w)) by (rewrite app_length, ptr_bytes_len, (word_len _ _ Q); reflexivity).
      apply tuple_ok. exists n, al, rest. rewrite <- app_assoc. exact Aa. }
    assert (E : gate_code g g' t (if adj then 3 else 2) cap (Some a) h b = dev (qis_ctl (if adj then g' else g) cs q) h b).
    { unfold gate_code. replace (Nat.ltb (if adj then 3 else 2) 2) with false by (destruct adj; reflexivity).
      unfold qbind at 1. unfold mem at 1. rewrite (tuple_first _ _ _ _ _ _ C). unfold qbind at 1. unfold mem at 1. rewrite R.
      rewrite (proj2 (app8 (ptr_bytes (PObj c)) w (ptr_bytes_len _))). rewrite (word_qubit_ok _ _ Q).
      replace (if Nat.odd (if adj then 3 else 2) then g' else g) with (if adj then g' else g) by (destruct adj; reflexivity).
      cbn [known]. unfold qret at 1. unfold qbind at 1. unfold q_unit, qbind. rewrite (ctl_ok _ (if adj then g' else g) _ _ q Hq b).
      unfold dev. destruct (qis_ctl (if adj then g' else g) cs q b) as [[] b'|e o]; reflexivity. }
    rewrite E. unfold gate_op, gate_call. cbn [bcall1]. rewrite unit_runs. apply runs_dev.
Qed.
End Code.

(** Memory with a callable, controlled twice and made adjoint, and its arguments: controls 0 and 1 in an array, control 2 in another, the
    qubit 3. *)
Definition array_cell (qs : list nat) : cell := live 1 0 (VArr 8 (concat (map (fun q => ptr_bytes (PQubit q)) qs))).
Definition call_heap (ctls : nat) (adj : bool) : heap :=
  [live 1 0 (VCall (mkCallable 7 None None adj ctls)); array_cell [0; 1]; array_cell [2];
   live 1 0 (VTup (ptr_bytes (PObj 2) ++ ptr_bytes (PQubit 3)));
   live 1 0 (VTup (ptr_bytes (PObj 1) ++ ptr_bytes (PObj 3)))].
Lemma call_given : forall ctls adj, given one_qubit one_qubit (call_heap ctls adj) 4 [[0; 1]; [2]] 3.
Proof.
  assert (Q : forall h i qs, nth_error h i = Some (array_cell qs) -> (8 * Z.of_nat (length qs) < 2 ^ 63)%Z -> holds_qubits h i qs).
  { intros h i qs E B. exists 1, 0, (map (fun q => ptr_bytes (PQubit q)) qs). rewrite map_length. split; [split|split; [|exact B]].
    - apply alive_iff. split; [lia|exact E].
    - apply Forall_forall. intros x Hx. apply in_map_iff in Hx. destruct Hx as (q & <- & _). now rewrite ptr_bytes_len.
    - clear. induction qs; constructor; [now left|assumption]. }
  intros ctls adj. exists 1, 0, 1, (ptr_bytes (PObj 3)). split; [apply alive_iff; split; [lia|reflexivity]|]. split; [apply Q; [reflexivity|cbn; lia]|].
  exists 3, []. split; [rewrite app_nil_r; reflexivity|].
  exists 1, 0, 2, (ptr_bytes (PQubit 3)). split; [apply alive_iff; split; [lia|reflexivity]|]. split; [apply Q; [reflexivity|cbn; lia]|].
  exists (ptr_bytes (PQubit 3)), []. split; [rewrite app_nil_r; reflexivity|now left].
Qed.
Lemma call_functors : forall {M : Mode}, exists rs, hexec (functors 0 [false; true; false]) (call_heap 0 false) = HOk rs (call_heap 2 true).
Proof. intros M. eexists. reflexivity. Qed.
