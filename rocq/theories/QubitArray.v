(** * Arrays of qubits: the two backend functions that use both the simulator and the reference-counted memory *)
From Coq Require Import String Ascii Reals NArith ZArith List Bool Arith Lia.
From Coq.Strings Require Import Byte.
From Verif Require Import Arith ArithR Sim SimRun Text Backend Heap.
Import ListNotations.

Section QubitArray.
Context {T : Tol} {EN : Env} {D : Doubles} {SW : Shows} {M : Mode}.

(** The memory and the backend state, and how a call can end: as in [hres] and [bresult]. *)
(** Not in the source: how the functions of backend/src/lib.rs on arrays of qubits can end. *)
Inductive qres (X : Type) := QOk (x : X) (h : heap) (b : back) | QHFail (m : text) | QHPanic | QHUB | QBErr (e : berr) (out : text).
Arguments QOk {X} x h b. Arguments QHFail {X} m. Arguments QHPanic {X}. Arguments QHUB {X}. Arguments QBErr {X} e out.
Definition QM (X : Type) := heap -> back -> qres X.
Definition qret {X} (x : X) : QM X := fun h b => QOk x h b.
Definition qbind {X Y} (m : QM X) (f : X -> QM Y) : QM Y := fun h b =>
  match m h b with
  | QOk x h' b' => f x h' b' | QHFail t => QHFail t | QHPanic => QHPanic | QHUB => QHUB | QBErr e o => QBErr e o
  end.
(** Calls of stdlib/src/arrays.rs. *)
Definition mem {X} (m : Hp X) : QM X := fun h b =>
  match m h with HOk x h' => QOk x h' b | HFail t => QHFail t | HPanic => QHPanic | HUB => QHUB end.
(** Calls of backend/src/lib.rs. *)
Definition dev {X} (m : B X) : QM X := fun h b => match m b with BOk x b' => QOk x h b' | BErr e o => QBErr e o end.

(** Eight bytes used as a qubit: the pointer of a qubit, or plain bytes, which are the number itself (null is qubit 0); the
    address of an object is a number too, but not one that is known here. *)
(** Not in the source: [*elem as usize], backend/src/lib.rs:318-319, 980. *)
Fixpoint raws (l : list mval) : option (list byte) :=
  match l with
  | [] => Some []
  | Raw b :: l' => match raws l' with Some bs => Some (b :: bs) | None => None end
  | Frag _ _ :: _ => None
  end.
(** backend/src/lib.rs:318-319, 980. *)
Definition word_qubit (l : list mval) : option nat :=
  match ptr_of l with
  | Some (PQubit q) => Some q
  | Some (PObj _) => None
  | None => match raws l with Some bs => Some (Z.to_nat (unsigned_le bs)) | None => None end
  end.

(** lib.rs:959-965: the loop of [qubit_allocate_array] from index [i] on. *)
Fixpoint fill_qubits (a i n : nat) : QM unit :=
  match n with
  | O => qret tt
  | S n' =>
      qbind (mem (array_get_element_ptr_1d a (Z.of_nat i))) (fun p =>
      qbind (dev rt_qubit_allocate) (fun q =>
      qbind (mem (ptr_write p (ptr_bytes (PQubit q)))) (fun _ => fill_qubits a (S i) n')))
  end.
(** lib.rs:948-967 [qubit_allocate_array]; pointers are eight bytes. *)
Definition qubit_allocate_array (n : nat) : QM nat :=
  qbind (mem (array_create_1d 8 (Z.of_nat n))) (fun a => qbind (fill_qubits a 0 n) (fun _ => qret a)).
(** lib.rs:974-978: the loop of [qubit_release_array] from index [i] on. *)
Fixpoint release_qubits (a i n : nat) : QM unit :=
  match n with
  | O => qret tt
  | S n' =>
      qbind (mem (array_get_element_ptr_1d a (Z.of_nat i))) (fun p =>
      qbind (mem (ptr_read p 8)) (fun w =>
      match word_qubit w with
      | Some q => qbind (dev (rt_qubit_release q)) (fun _ => release_qubits a (S i) n')
      | None => mem hub
      end))
  end.
(** lib.rs:969-983 [qubit_release_array]. *)
Definition qubit_release_array (a : nat) : QM unit :=
  qbind (mem (array_get_size_1d a)) (fun n =>
  qbind (release_qubits a 0 (Z.to_nat n)) (fun _ => mem (update_counts a (-1) true))).
End QubitArray.
Arguments QOk {T EN X} x h b. Arguments QHFail {T EN X} m. Arguments QHPanic {T EN X}. Arguments QHUB {T EN X}.
Arguments QBErr {T EN X} e out.
