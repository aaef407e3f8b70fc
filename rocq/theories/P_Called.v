(** * Properties of programs whose functions the runtime calls (C70) *)
From Coq Require Import Reals NArith ZArith List Bool Arith Lia.
From Verif Require Import Cx Arith ArithR Sim SimExp Spec SpecRun SimRun Text Backend SpecBackend Heap SpecHeap HeapLemmas QubitArray Args SpecArgs
  Runner World SimEx BackEx RunnerEx BackThms Mixed SpecMixed MixedEx Captures Invoke SpecInvoke InvokeThms InvokeEx SpecCalled CalledThms CalledEx.
Import ListNotations.

(** ** C70: inside a program, invoking a callable does its operation and the program goes on *)
(** If the functions in the table of a callable, run on their own, carry out an operation, then a program that invokes the callable
    goes on after it, as if it had done the operation itself with all controls: whatever other calls have not returned, memory is as
    before, and if what follows uses memory correctly, so does the whole.  If the operation fails the program stops with its error. *)
Theorem C70_invoke : forall (T : Tol) (EN : Env) (D : Doubles) (SW : Shows) (RN : Rand) (M : Mode) (p : mprog)
  (A : Type) (plain ctld : layout A) (op : operation A), lasting plain -> lasting ctld ->
  forall l cal cn cl c a res g k h w css x, gstep p l = MInvoke _ _ cal (Some a) res g k ->
  alive h cal cn cl (VCall c) -> carries_out p (c_table c) (c_capture c) plain ctld op ->
  c_ctls c = length css -> given plain ctld h a css x -> fits css ->
  match op (c_adj c) (all_controls css) x (wback w) with
  | BOk tt b' => exists h', goes_on p l h w (k g) h' (mkWorld b' (wtgen w)) /\ undisturbed h h'
  | BErr e o => stops p l h w (StopErr e) o
  end.
Proof. intros T EN D SW RN M p. exact (called_thm p). Qed.
Print Assumptions C70_invoke.
(** A program that invokes an adjoint, twice controlled S. *)
Example C70_invoke_ex : forall (T : Tol) (EN : Env) (D : Doubles) (SW : Shows) (RN : Rand) (M : Mode), let p := called_prog GS GSadj in
  lasting one_qubit /\ gstep p Go = MInvoke _ _ 0 (Some 4) None tt (fun _ => Finished) /\
  alive (call_heap 2 true) 0 1 0 (VCall (mkCallable 7 None None true 2)) /\
  carries_out p 7 None one_qubit one_qubit (gate_op GS GSadj) /\
  given one_qubit one_qubit (call_heap 2 true) 4 [[0; 1]; [2]] 3 /\ fits [[0; 1]; [2]].
Proof.
  intros T EN D SW RN M p. split; [exact one_qubit_lasting|]. split; [reflexivity|].
  split; [apply alive_iff; split; [lia|reflexivity]|]. split; [apply called_ok|]. split; [apply call_given|]. unfold fits; cbn; lia.
Qed.

(** The same for gates, with the quantum state: afterwards it is that of the matrix, or its conjugate transpose, controlled by all
    controls. *)
Theorem C70_gates : forall (T : Tol) (EN : Env) (D : Doubles) (SW : Shows) (RN : Rand) (M : Mode) (p : mprog), exact_world ->
  forall t m cap g g', adjoint_of g = Some g' -> carries_out p t cap one_qubit one_qubit (gate_op g g') ->
  forall l cal cn cl adj a res gm k h w css q lv psi, let lv' := opened (bmax (wback w)) lv (q :: concat css) in
  gstep p l = MInvoke _ _ cal (Some a) res gm k -> alive h cal cn cl (VCall (mkCallable t m cap adj (length css))) ->
  given one_qubit one_qubit h a css q -> fits css ->
  breached (wback w) lv -> bshows (wback w) lv psi -> NoDup (q :: concat css) -> incl (q :: concat css) lv' ->
  exists h' b', goes_on p l h w (k gm) h' (mkWorld b' (wtgen w)) /\ undisturbed h h' /\ breached b' lv' /\
    bshows b' lv' (cgate (concat css) (if adj then dagger (gmat g) else gmat g) q psi) /\ same_rest (wback w) b'.
Proof. intros T EN D SW RN M p. exact (called_gates p). Qed.
Print Assumptions C70_gates.
(** A whole run: the program ends, its use of memory is correct, and the state shows the adjoint of S on qubit 3 controlled by 0, 1, 2. *)
Example C70_gates_ex : forall (M : Mode) t, let p := @called_prog D0 GS GSadj in
  exists h' b', (exists n, forall fuel, @mrun T0 E0 D0 SW0 RN0 M p (n + S fuel) Go [] (call_heap 2 true) (mkWorld (back_default g0) t) = MEnd tt h' (mkWorld b' t)) /\
    (forall fuel, @sound T0 E0 D0 SW0 RN0 M p fuel Go [] (call_heap 2 true) (mkWorld (back_default g0) t)) /\ undisturbed (call_heap 2 true) h' /\
    bshows b' (opened 0 [] [3; 0; 1; 2]) (cgate [0; 1; 2] (dagger (gmat GS)) 3 ket0).
Proof.
  intros M t p.
  destruct (C70_gates T0 E0 D0 SW0 RN0 M p exact0 7 None None GS GSadj eq_refl (called_ok _ _ _ _) Go 0 1 0 true 4 None tt (fun _ => Finished)
    (call_heap 2 true) (mkWorld (back_default g0) t) [[0; 1]; [2]] 3 [] ket0 eq_refl) as (h' & b' & [n K] & U & _ & Sh & _).
  - apply alive_iff; split; [lia|reflexivity].
  - apply call_given.
  - unfold fits; cbn; lia.
  - cbn [wback]. apply start_breached.
  - cbn [wback]. apply start_shows.
  - repeat constructor; cbn; intuition discriminate.
  - intros x. cbn. intuition.
  - destruct (K []) as [K1 K2]. exists h', b'. split; [|split; [|split; [exact U|exact Sh]]].
    + exists n. intros fuel. rewrite K1. reflexivity.
    + apply K2. intros fuel. apply finished_sound.
Qed.

(** Updating the counts of captured values: if the memory functions of the program, run on their own, do to the memory what [mf] says,
    then so does the update in a program (see C62 for which function is called), and the program goes on. *)
Theorem C70_captures : forall (T : Tol) (EN : Env) (D : Doubles) (SW : Shows) (RN : Rand) (M : Mode) (p : mprog) mf, keeps_captures p mf ->
  forall l cal by_ is_alias g k h w h', gstep p l = MCapture _ _ cal by_ is_alias g k -> capture_update mf cal by_ is_alias h = HOk tt h' ->
  goes_on p l h w (k g) h' w.
Proof. intros T EN D SW RN M p. exact (captures_thm p). Qed.
Print Assumptions C70_captures.
Example C70_captures_ex : forall (T : Tol) (EN : Env) (D : Doubles) (SW : Shows) (RN : Rand) (M : Mode), let p := called_prog GS GSadj in
  keeps_captures p counts /\ gstep p Update = MCapture _ _ 1 2 false tt (fun _ => Finished) /\
  exists h', capture_update counts 1 2 false captured = HOk tt h' /\ alive h' 0 3 0 (VTup (ptr_bytes (PQubit 5))).
Proof.
  intros T EN D SW RN M p. split; [apply counts_ok|]. split; [reflexivity|].
  eexists. split; [reflexivity|]. apply alive_iff; split; [lia|reflexivity].
Qed.
