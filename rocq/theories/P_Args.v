(** * Properties of calls whose arguments are in memory (C67) *)
From Coq Require Import String Ascii Reals NArith ZArith List Bool Arith Lia.
From Coq.Strings Require Import Byte.
From Verif Require Import Arith ArithR Sim SimExp SimRun SpecRun Text Backend BackEx World Heap SpecHeap HeapLemmas SpecString QubitArray
  Args SpecArgs ArgsThms ArgsEx SimEx.
Import ListNotations.

(** ** C67: a call on arrays and tuples does what the call on the values in them does, and gives its own memory back *)
Theorem C67_args : forall (T : Tol) (EN : Env) (D : Doubles) (SW : Shows) (M : Mode) h c c', denotes h c c' -> forall b,
  match bcall1 c' b with
  | BOk r b' => exists h', pcall1 c h b = QOk r h' b' /\ undisturbed h h'
  | BErr e out => pcall1 c h b = QBErr e out
  end.
Proof. exact @args_main. Qed.
Print Assumptions C67_args.
(** All kinds of calls; qubits by pointer and by number, Paulis of two bytes. *)
Example C67_args_ex : forall D : Doubles,
  denotes args_heap (PCtl GX 0 2) (QCtl GX [0; 1] 2) /\
  denotes args_heap (PRotCtl PX_ 0 1) (QCtl (GRx 1) [0; 1] 2) /\
  denotes args_heap (PRCtl 0 2) (QRCtl [0; 1] PY_ 1 2) /\ denotes args_heap (PRCtlAdj 0 2) (QRCtlAdj [0; 1] PY_ 1 2) /\
  denotes args_heap (PExp 3 1 0) (QExp [PZ_; PX_] 1 [0; 1]) /\ denotes args_heap (PExpAdj 3 1 0) (QExpAdj [PZ_; PX_] 1 [0; 1]) /\
  denotes args_heap (PExpCtl 0 5) (QExpCtl [0; 1] [PZ_; PX_] 1 [0; 1]) /\
  denotes args_heap (PExpCtlAdj 0 5) (QExpCtlAdj [0; 1] [PZ_; PX_] 1 [0; 1]) /\
  denotes args_heap (PMeasure 3 0) (QMeasure [PZ_; PX_] [0; 1]) /\
  denotes args_heap (PAssert 3 0 0 1 4 1) (QAssert [PZ_; PX_] [0; 1] 0 1 (codes "no") 1) /\
  denotes args_heap (PAssertCtl 0 6) (QAssert [PZ_; PX_] [0; 1] 0 1 (codes "no") 1).
Proof. exact ex_denotes. Qed.

(** What a call means is determined by the memory. *)
Theorem C67_meaning : forall (D : Doubles) h c x y, denotes h c x -> denotes h c y -> x = y.
Proof. exact denotes_fun. Qed.
Print Assumptions C67_meaning.

(** An array of qubits that was allocated holds these qubits, and can be used as such. *)
Theorem C67_allocated : forall (T : Tol) (EN : Env) (D : Doubles) (SW : Shows) (M : Mode) n h b qs b', (8 * Z.of_nat n < 2 ^ 63)%Z ->
  bcall1 (QAllocArray n) b = BOk (VQubits qs) b' ->
  exists a h', qubit_allocate_array n h b = QOk a h' b' /\ holds_qubits h' a qs /\ nth_error h a = None /\
    forall x, x < length h -> nth_error h' x = nth_error h x.
Proof. exact @allocated_thm. Qed.
Print Assumptions C67_allocated.
Example C67_allocated_ex : (8 * Z.of_nat 2 < 2 ^ 63)%Z /\
  exists b', @bcall1 T0 E0 D0 SW0 (QAllocArray 2) (@back_default T0 E0 g0) = BOk (VQubits [0; 1]) b'.
Proof. split; [lia|]. eexists. reflexivity. Qed.

(** Unequal numbers of Paulis and qubits: the program fails with a message, before any gate. *)
Theorem C67_sizes : forall (T : Tol) (EN : Env) (D : Doubles) (SW : Shows) (M : Mode) h a ps b qs s,
  holds_paulis h a ps -> holds_qubits h b qs -> length ps <> length qs ->
  pcall1 (PMeasure a b) h s = QBErr (EFail (codes "Pauli array and Qubit array must be the same size."))
    (bout s ++ render (RecMessage (codes "Pauli array and Qubit array must be the same size."))).
Proof. exact @sizes_thm. Qed.
Print Assumptions C67_sizes.
Example C67_sizes_ex : let h := [live 1 0 (VArr 1 [Raw x01]); live 1 0 (VArr 8 [])] in
  holds_paulis h 0 [PX_] /\ holds_qubits h 1 [] /\ length [PX_] <> @length nat [].
Proof.
  split; [|split; [|discriminate]].
  - exists 1, 0, 1%Z, [[Raw x01]]. split; [split; [apply alive_iff; split; [lia|reflexivity]|repeat constructor]|].
    split; [lia|]. split; [reflexivity|]. constructor; [now exists []|constructor].
  - exists 1, 0, []. split; [split; [apply alive_iff; split; [lia|reflexivity]|constructor]|]. split; [constructor|reflexivity].
Qed.
