(** * A concrete memory with arguments, for examples *)
From Coq Require Import String Ascii Reals NArith ZArith List Bool Arith Lia Lra.
From Coq.Strings Require Import Byte.
From Flocq Require Import Core IEEE754.Binary IEEE754.Bits.
From Verif Require Import Arith ArithR Sim SimExp SimRun SpecRun Text Backend Heap SpecHeap HeapLemmas HeapThms SpecString Utf8 Strings QubitArray Args SpecArgs.
Import ListNotations.
Local Open Scope list_scope.

(** The double 1.0, and the qubits 0 and 1 by pointer and by number. *)
Definition one_bytes : list mval := map Raw [x00; x00; x00; x00; x00; x00; xf0; x3f].
Lemma one_double : double_bytes one_bytes 1.
Proof.
  exists (B754_finite 53 1024 false 4503599627370496 (-52) eq_refl). split; [reflexivity|]. split; [|reflexivity].
  unfold B2R, F2R. cbn [Fnum Fexp cond_Zopp]. change (bpow radix2 (-52)) with (/ IZR (Zpower_pos 2 52))%R.
  change (Zpower_pos 2 52) with 4503599627370496%Z. field.
Qed.
Definition zeros (n : nat) : list mval := repeat (Raw x00) n.
Definition q1_bytes : list mval := map Raw [x01; x00; x00; x00; x00; x00; x00; x00].
(** 0: the controls 0 and 1; 1: an angle and qubit 2; 2: the Pauli Y, an angle and qubit 2; 3: the Paulis Z and X, two bytes each;
    4: a message; 5: the arguments of a controlled exponential; 6: those of a controlled assertion. *)
Definition args_heap : heap :=
  [live 1 0 (VArr 8 (concat [ptr_bytes (PQubit 0); q1_bytes]));
   live 1 0 (VTup (one_bytes ++ ptr_bytes (PQubit 2)));
   live 1 0 (VTup (Raw x03 :: zeros 7 ++ one_bytes ++ ptr_bytes (PQubit 2)));
   live 2 0 (VArr 2 (concat [[Raw x02; Raw x07]; [Raw x01; Raw x00]]));
   live 1 0 (VStr (lit "no"));
   live 1 0 (VTup (ptr_bytes (PObj 3) ++ one_bytes ++ ptr_bytes (PObj 0)));
   live 1 0 (VTup (ptr_bytes (PObj 3) ++ ptr_bytes (PObj 0) ++ zeros 8 ++ one_bytes ++ ptr_bytes (PObj 4) ++ one_bytes))].
Lemma live_here : forall a n al v, n <> 0 -> nth_error args_heap a = Some (live n al v) -> alive args_heap a n al v.
Proof. intros a n al v N E. apply alive_iff. split; assumption. Qed.
Lemma ex_controls : holds_qubits args_heap 0 [0; 1].
Proof.
  exists 1, 0, [ptr_bytes (PQubit 0); q1_bytes]. split; [split|].
  - apply live_here; [lia|reflexivity].
  - repeat constructor.
  - split; [|reflexivity]. constructor; [now left|]. constructor; [|constructor]. right. split; [lia|reflexivity].
Qed.
Lemma ex_paulis : holds_paulis args_heap 3 [PZ_; PX_].
Proof.
  exists 2, 0, 2%Z, [[Raw x02; Raw x07]; [Raw x01; Raw x00]]. split; [split|].
  - apply live_here; [lia|reflexivity].
  - repeat constructor.
  - split; [lia|]. split; [reflexivity|]. constructor; [now exists [Raw x07]|]. constructor; [now exists [Raw x00]|constructor].
Qed.
Lemma ex_tuple : forall t d, nth_error args_heap t = Some (live 1 0 (VTup d)) -> holds_tuple args_heap t d.
Proof. intros t d E. exists 1, 0, []. rewrite app_nil_r. apply live_here; [lia|exact E]. Qed.
Lemma ex_message : str_is args_heap 4 (lit "no") /\ is_text (lit "no") (codes "no").
Proof. split; [exists 1, 0; apply live_here; [lia|reflexivity]|]. apply to_str_thm. reflexivity. Qed.
Lemma zero_qubit : qubit_bytes (zeros 8) 0.
Proof. right. split; [lia|reflexivity]. Qed.
Lemma two_qubit : qubit_bytes (ptr_bytes (PQubit 2)) 2. Proof. now left. Qed.
Local Open Scope R_scope.
Lemma ex_denotes : forall D : Doubles,
  denotes args_heap (PCtl GX 0 2) (QCtl GX [0; 1] 2)%nat /\
  denotes args_heap (PRotCtl PX_ 0 1) (QCtl (GRx 1) [0; 1] 2)%nat /\
  denotes args_heap (PRCtl 0 2) (QRCtl [0; 1] PY_ 1 2)%nat /\ denotes args_heap (PRCtlAdj 0 2) (QRCtlAdj [0; 1] PY_ 1 2)%nat /\
  denotes args_heap (PExp 3 1 0) (QExp [PZ_; PX_] 1 [0; 1])%nat /\ denotes args_heap (PExpAdj 3 1 0) (QExpAdj [PZ_; PX_] 1 [0; 1])%nat /\
  denotes args_heap (PExpCtl 0 5) (QExpCtl [0; 1] [PZ_; PX_] 1 [0; 1])%nat /\
  denotes args_heap (PExpCtlAdj 0 5) (QExpCtlAdj [0; 1] [PZ_; PX_] 1 [0; 1])%nat /\
  denotes args_heap (PMeasure 3 0) (QMeasure [PZ_; PX_] [0; 1])%nat /\
  denotes args_heap (PAssert 3 0 0 1 4 1) (QAssert [PZ_; PX_] [0; 1] 0 1 (codes "no") 1)%nat /\
  denotes args_heap (PAssertCtl 0 6) (QAssert [PZ_; PX_] [0; 1] 0 1 (codes "no") 1)%nat.
Proof.
  intros D. assert (C := ex_controls). assert (P := ex_paulis). destruct ex_message as [S4 T4]. assert (W := one_double).
  assert (Z := zero_qubit). assert (Q := two_qubit).
  split; [now apply D_ctl|]. split; [now apply (D_rx _ _ _ _ _ _ one_bytes (ptr_bytes (PQubit 2))); [|apply ex_tuple| |]|].
  split; [now apply (D_r _ _ _ _ PY_ (zeros 7) 1 _ one_bytes (ptr_bytes (PQubit 2))); [|apply ex_tuple| | |]|].
  split; [now apply (D_radj _ _ _ _ PY_ (zeros 7) 1 _ one_bytes (ptr_bytes (PQubit 2))); [|apply ex_tuple| | |]|].
  split; [now apply D_exp|]. split; [now apply D_expadj|].
  split; [now apply (D_expctl _ _ _ _ 3 _ one_bytes 1 0); [|apply ex_tuple| | |]|].
  split; [now apply (D_expctladj _ _ _ _ 3 _ one_bytes 1 0); [|apply ex_tuple| | |]|].
  split; [now apply D_measure|]. split; [now apply (D_assert _ _ _ _ _ _ _ (lit "no"))|].
  apply (D_assertctl _ _ _ 3 _ 0 _ (zeros 8) _ one_bytes 1 (lit "no") 4 _ one_bytes 1); auto. apply ex_tuple. reflexivity.
Qed.
