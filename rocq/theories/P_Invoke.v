(** * Properties of callables that stand for quantum operations (C69) *)
From Coq Require Import Reals NArith ZArith List Bool Arith Lia.
From Verif Require Import Cx Arith ArithR Sim SimExp Spec SpecRun SimRun Text Backend SpecBackend Heap SpecHeap HeapLemmas QubitArray Args SpecArgs
  World BackEx BackThms Invoke SpecInvoke InvokeThms InvokeEx.
Import ListNotations.

(** ** C69: invoking a callable does its operation, with all controls *)
(** If the four functions of the callable do an operation, its adjoint and their controlled forms, then invoking it does the one its
    functors ask for, controlled by all qubits of all arrays of controls from the outermost to the innermost, and leaves no trace in
    memory. *)
Theorem C69_invoke : forall (T : Tol) (EN : Env) (D : Doubles) (SW : Shows) (M : Mode) (A : Type) (callee : code) (plain ctld : layout A) (op : operation A),
  lasting plain -> lasting ctld -> forall h cal cn cl c a css x b,
  alive h cal cn cl (VCall c) -> implements callee (c_table c) (c_capture c) plain ctld op ->
  c_ctls c = length css -> given plain ctld h a css x -> fits css ->
  runs (invoke callee cal (Some a) h b) h (op (c_adj c) (all_controls css) x b).
Proof. intros T EN D SW M A. exact invoke_thm. Qed.
Print Assumptions C69_invoke.
(** A callable made adjoint and controlled twice; its functions are those of the gate S. *)
Example C69_invoke_ex : forall (T : Tol) (EN : Env) (D : Doubles) (SW : Shows) (M : Mode),
  lasting one_qubit /\ alive (call_heap 2 true) 0 1 0 (VCall (mkCallable 7 None None true 2)) /\
  implements (gate_code GS GSadj) 7 None one_qubit one_qubit (gate_op GS GSadj) /\
  given one_qubit one_qubit (call_heap 2 true) 4 [[0; 1]; [2]] 3 /\ fits [[0; 1]; [2]] /\
  forall b, runs (invoke (gate_code GS GSadj) 0 (Some 4) (call_heap 2 true) b) (call_heap 2 true)
              (gate_op GS GSadj true (Some [0; 1; 2]) 3 b).
Proof.
  intros. assert (Al : alive (call_heap 2 true) 0 1 0 (VCall (mkCallable 7 None None true 2))) by (apply alive_iff; split; [lia|reflexivity]).
  split; [exact one_qubit_lasting|]. split; [exact Al|]. split; [apply gate_code_ok|]. split; [apply call_given|]. split; [unfold fits; cbn; lia|].
  intros b. apply (invoke_thm (gate_code GS GSadj) one_qubit one_qubit (gate_op GS GSadj) one_qubit_lasting one_qubit_lasting
    (call_heap 2 true) 0 1 0 _ 4 [[0; 1]; [2]] 3 b Al (gate_code_ok _ _ _ _) eq_refl (call_given _ _)). unfold fits; cbn; lia.
Qed.

(** Functors in any order and number: adjoint counts modulo two, each controlled adds one array of controls. *)
Theorem C69_functors : forall (T : Tol) (EN : Env) (D : Doubles) (SW : Shows) (M : Mode) (A : Type) (callee : code) (plain ctld : layout A) (op : operation A),
  lasting plain -> lasting ctld -> forall t m cap, implements callee t cap plain ctld op ->
  forall fs h cal cn cl, alive h cal cn cl (VCall (mkCallable t m cap false 0)) ->
  exists rs h', hexec (functors cal fs) h = HOk rs h' /\ others_same h h' cal /\
    forall a css x b, length css = count_occ bool_dec fs false -> given plain ctld h' a css x -> fits css ->
      runs (invoke callee cal (Some a) h' b) h' (op (Nat.odd (count_occ bool_dec fs true)) (all_controls css) x b).
Proof. intros T EN D SW M A. exact functors_invoke. Qed.
Print Assumptions C69_functors.
Example C69_functors_ex : forall (M : Mode), alive (call_heap 0 false) 0 1 0 (VCall (mkCallable 7 None None false 0)) /\
  (exists rs, hexec (functors 0 [false; true; false]) (call_heap 0 false) = HOk rs (call_heap 2 true)) /\
  given one_qubit one_qubit (call_heap 2 true) 4 [[0; 1]; [2]] 3 /\ length [[0; 1]; [2]] = count_occ bool_dec [false; true; false] false.
Proof.
  intros. split; [apply alive_iff; split; [lia|reflexivity]|]. split; [apply call_functors|]. split; [apply call_given|reflexivity].
Qed.

(** For gates on one qubit: the quantum state afterwards is that of the matrix, or its conjugate transpose, controlled by all controls. *)
Theorem C69_gates : forall (T : Tol) (EN : Env) (D : Doubles) (SW : Shows) (M : Mode), exact_world ->
  forall callee t m cap g g', adjoint_of g = Some g' -> implements callee t cap one_qubit one_qubit (gate_op g g') ->
  forall fs h cal cn cl, alive h cal cn cl (VCall (mkCallable t m cap false 0)) ->
  exists rs h', hexec (functors cal fs) h = HOk rs h' /\ others_same h h' cal /\
    forall a css q b l psi, let l' := opened (bmax b) l (q :: concat css) in
    length css = count_occ bool_dec fs false -> given one_qubit one_qubit h' a css q -> fits css ->
    breached b l -> bshows b l psi -> NoDup (q :: concat css) -> incl (q :: concat css) l' ->
    exists h2 b', invoke callee cal (Some a) h' b = QOk tt h2 b' /\ undisturbed h' h2 /\ breached b' l' /\
      bshows b' l' (cgate (concat css) (if Nat.odd (count_occ bool_dec fs true) then dagger (gmat g) else gmat g) q psi) /\ same_rest b b'.
Proof. intros T EN D SW M. exact gates_thm. Qed.
Print Assumptions C69_gates.
(** The qubits 0 to 3 come into being when they are named. *)
Example C69_gates_ex : @exact_world T0 E0 /\ @breached T0 E0 D0 SW0 (back_default g0) [] /\ bshows (back_default g0) [] ket0 /\
  NoDup [3; 0; 1; 2] /\ incl [3; 0; 1; 2] (opened 0 [] [3; 0; 1; 2]).
Proof.
  split; [exact exact0|]. split; [apply start_breached|]. split; [apply start_shows|]. split.
  - repeat constructor; cbn; intuition discriminate.
  - intros x. cbn. intuition.
Qed.
