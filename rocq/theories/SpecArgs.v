(** * Specification: calls whose arguments are in memory *)
From Coq Require Import Reals NArith ZArith List Bool Arith.
From Coq.Strings Require Import Byte.
From Flocq Require Import IEEE754.Binary IEEE754.Bits.
From Verif Require Import Cx Arith ArithR Sim SimExp SimRun SpecRun Text Backend Heap SpecHeap SpecString QubitArray Args.
Import ListNotations.

(** Eight bytes that stand for qubit [q]: its pointer, or the number, least significant byte first. *)
Definition qubit_bytes (w : list mval) (q : nat) : Prop :=
  w = ptr_bytes (PQubit q) \/ ((Z.of_nat q < 2 ^ 64)%Z /\ w = map Raw (bytes_le 8 (Z.of_nat q))).
(** Eight bytes that stand for the finite double with value [x]. *)
Definition double_bytes (w : list mval) (x : R) : Prop :=
  exists f : binary64, is_finite 53 1024 f = true /\ B2R 53 1024 f = x /\ w = map Raw (bytes_le 8 (bits_of_b64 f)).
Definition pauli_byte (p : pauli) : byte := match p with PI_ => x00 | PX_ => x01 | PZ_ => x02 | PY_ => x03 end.

(** The array [a] holds these qubits, these Paulis (elements may be wider than a byte); the tuple [t] begins with these bytes. *)
Definition holds_qubits (h : heap) (a : nat) (qs : list nat) : Prop :=
  exists n al els, array_is h a n al 8 els /\ Forall2 qubit_bytes els qs /\ (8 * Z.of_nat (length els) < 2 ^ 63)%Z.
Definition holds_paulis (h : heap) (a : nat) (ps : list pauli) : Prop :=
  exists n al sz els, array_is h a n al sz els /\ (0 < sz)%Z /\ (sz * Z.of_nat (length els) < 2 ^ 63)%Z /\
    Forall2 (fun e p => exists rest, e = Raw (pauli_byte p) :: rest) els ps.
Definition holds_tuple (h : heap) (t : nat) (d : list mval) : Prop :=
  exists n al rest, alive h t n al (VTup (d ++ rest)).

Section Denotes.
Context {D : Doubles}.
(** The call on pointers means the call on values. *)
Inductive denotes (h : heap) : pcall -> bcall -> Prop :=
| D_ctl g ctls cs q : holds_qubits h ctls cs -> denotes h (PCtl g ctls q) (QCtl g cs q)
| D_rx ctls cs t th q wth wq : holds_qubits h ctls cs -> holds_tuple h t (wth ++ wq) -> double_bytes wth th -> qubit_bytes wq q ->
    denotes h (PRotCtl PX_ ctls t) (QCtl (GRx th) cs q)
| D_ry ctls cs t th q wth wq : holds_qubits h ctls cs -> holds_tuple h t (wth ++ wq) -> double_bytes wth th -> qubit_bytes wq q ->
    denotes h (PRotCtl PY_ ctls t) (QCtl (GRy th) cs q)
| D_rz ctls cs t th q wth wq : holds_qubits h ctls cs -> holds_tuple h t (wth ++ wq) -> double_bytes wth th -> qubit_bytes wq q ->
    denotes h (PRotCtl PZ_ ctls t) (QCtl (GRz th) cs q)
| D_r ctls cs t p pad th q wth wq : holds_qubits h ctls cs ->
    holds_tuple h t (Raw (pauli_byte p) :: pad ++ wth ++ wq) -> length pad = 7 -> double_bytes wth th -> qubit_bytes wq q ->
    denotes h (PRCtl ctls t) (QRCtl cs p th q)
| D_radj ctls cs t p pad th q wth wq : holds_qubits h ctls cs ->
    holds_tuple h t (Raw (pauli_byte p) :: pad ++ wth ++ wq) -> length pad = 7 -> double_bytes wth th -> qubit_bytes wq q ->
    denotes h (PRCtlAdj ctls t) (QRCtlAdj cs p th q)
| D_exp a ps th b qs : holds_paulis h a ps -> holds_qubits h b qs -> denotes h (PExp a th b) (QExp ps th qs)
| D_expadj a ps th b qs : holds_paulis h a ps -> holds_qubits h b qs -> denotes h (PExpAdj a th b) (QExpAdj ps th qs)
| D_expctl ctls cs t a ps wth th b qs : holds_qubits h ctls cs ->
    holds_tuple h t (ptr_bytes (PObj a) ++ wth ++ ptr_bytes (PObj b)) -> double_bytes wth th ->
    holds_paulis h a ps -> holds_qubits h b qs -> denotes h (PExpCtl ctls t) (QExpCtl cs ps th qs)
| D_expctladj ctls cs t a ps wth th b qs : holds_qubits h ctls cs ->
    holds_tuple h t (ptr_bytes (PObj a) ++ wth ++ ptr_bytes (PObj b)) -> double_bytes wth th ->
    holds_paulis h a ps -> holds_qubits h b qs -> denotes h (PExpCtlAdj ctls t) (QExpCtlAdj cs ps th qs)
| D_measure a ps b qs : holds_paulis h a ps -> holds_qubits h b qs -> denotes h (PMeasure a b) (QMeasure ps qs)
| D_assert a ps b qs r prob s msg m tl : holds_paulis h a ps -> holds_qubits h b qs -> str_is h msg s -> is_text s m ->
    denotes h (PAssert a b r prob msg tl) (QAssert ps qs r prob m tl)
| D_assertctl ctls t a ps b qs wr r wprob prob s msg m wtl tl :
    holds_tuple h t (ptr_bytes (PObj a) ++ ptr_bytes (PObj b) ++ wr ++ wprob ++ ptr_bytes (PObj msg) ++ wtl) ->
    holds_paulis h a ps -> holds_qubits h b qs -> qubit_bytes wr r -> double_bytes wprob prob -> double_bytes wtl tl ->
    str_is h msg s -> is_text s m ->
    denotes h (PAssertCtl ctls t) (QAssert ps qs r prob m tl).
End Denotes.

(** What was there is as it was, and what was made has been given back. *)
Definition undisturbed (h h' : heap) : Prop :=
  (forall a, a < length h -> nth_error h' a = nth_error h a) /\
  (forall a, length h <= a -> a < length h' -> dropped h' a /\ freed h' a).
