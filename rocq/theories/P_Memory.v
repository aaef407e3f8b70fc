(** * C77: every object and every block of memory is its own *)
From Coq Require Import String ZArith List Bool Arith Lia.
From Coq.Strings Require Import Byte.
From Verif Require Import Text Heap SpecHeap HeapLemmas Memory SpecMemory MemoryThms.
Import ListNotations.
Local Open Scope list_scope.
Definition debug : Mode := {| overflow_checks := true |}.

(** Whatever calls are made, objects and blocks that no call names as one it changes are afterwards exactly as before. *)
Theorem C77_frame : forall (M : Mode) cs h m rs h' m', wexec cs (h, m) = WOk rs (h', m') ->
  length h <= length h' /\ length m <= length m' /\
  (forall x, x < length h -> (forall c, In c cs -> ~ In x (touches c)) -> nth_error h' x = nth_error h x) /\
  (forall b, b < length m -> (forall c, In c cs -> ~ In b (touches_block c)) -> nth_error m' b = nth_error m b).
Proof. exact @frame_thm. Qed.
Print Assumptions C77_frame.

(** As long as an object lives, its value is what was last written into it: for arrays and tuples byte by byte, for
    callables the functors applied, and strings and big integers never change. *)
Theorem C77_values : forall (M : Mode) cs h m rs h' m' a n al v n' al' v', wexec cs (h, m) = WOk rs (h', m') ->
  alive h a n al v -> alive h' a n' al' v' ->
  match v with
  | VArr sz d => exists d', v' = VArr sz d' /\ written d (writes (to_array a sz) cs) d'
  | VTup d => exists d', v' = VTup d' /\ written d (writes (to_tuple a) cs) d'
  | VCall k => v' = VCall (mkCallable (c_table k) (c_mem k) (c_capture k) (xorb (c_adj k) (Nat.odd (adjoints a cs))) (c_ctls k + controls a cs))
  | VStr _ | VBig _ => v' = v
  end.
Proof. exact @values_thm. Qed.
Print Assumptions C77_values.

(** A block is new, and every byte of it zero; one that does not fit in the address space is refused. *)
Theorem C77_allocate : forall (M : Mode) h m size,
  ((0 <= size < 2 ^ 63)%Z -> exists b m', wcall1 (WAlloc size) (h, m) = WOk (WBlock b) (h, m') /\ nth_error m b = None /\
     nth_error m' b = Some (repeat (Raw x00) (Z.to_nat size)) /\ forall x, x < length m -> nth_error m' x = nth_error m x) /\
  ((2 ^ 63 <= size < 2 ^ 64)%Z -> wcall1 (WAlloc size) (h, m) = WPanic).
Proof. exact @allocate_thm. Qed.
Print Assumptions C77_allocate.

(** It stays: after any calls whatsoever its [size] bytes can be read, and each is the one last stored there, or zero. *)
Theorem C77_block : forall (M : Mode) h m size b w1 cs rs h' m',
  wcall1 (WAlloc size) (h, m) = WOk (WBlock b) w1 -> wexec cs w1 = WOk rs (h', m') -> forall off n,
  ((Z.of_nat (off + n) <= size)%Z -> exists l, wcall1 (WLoad b off n) (h', m') = WOk (WBytes l) (h', m') /\ length l = n /\
     forall k x, nth_error l k = Some x -> leaves (off + k) (Raw x00) (writes (to_block b) cs) x) /\
  ((size < Z.of_nat (off + n))%Z -> wcall1 (WLoad b off n) (h', m') = WUB).
Proof. exact @block_thm. Qed.
Print Assumptions C77_block.

(** Two arrays, a callable, a string and two blocks, used in turn; the second array is given back. *)
Definition turns : list wcall :=
  [WObj (HStore 0 1 [Raw x07; Raw x09]); WStore 1 2 [Raw x01]; WObj (HArrayCopy 0 true); WObj (HAdjoint 2); WObj (HRef 1 (-1));
   WObj (HStore 4 1 [Raw x05; Raw x05]); WAlloc 3; WStore 0 0 [Raw x02; Raw x03]; WObj (HStrConcat 3 3); WObj (HControlled 2);
   WObj (HRef 0 4); WObj (HAlias 0 1); WObj (HStore 0 1 [Raw x08; Raw x0b]); WObj (HAdjoint 2); WStore 0 1 [Raw x04]; WStore 2 0 [Raw xff]].
Definition start : heap :=
  [live 1 0 (VArr 2 (repeat zero 6)); live 1 0 (VArr 1 [Raw x05]); live 1 0 (VCall (mkCallable 3 None None true 1)); live 1 0 (VStr (lit "ab"))].
Definition run := @wexec debug turns (start, [repeat zero 4; repeat zero 5]).
Definition kept : heap :=
  [live 5 1 (VArr 2 [Raw x00; Raw x00; Raw x08; Raw x0b; Raw x00; Raw x00]); gone 0;
   live 1 0 (VCall (mkCallable 3 None None true 2)); live 1 0 (VStr (lit "ab"));
   live 1 0 (VArr 2 [Raw x00; Raw x00; Raw x05; Raw x05; Raw x00; Raw x00]); live 1 0 (VStr (lit "abab"))].
Definition stored : blocks :=
  [[Raw x02; Raw x04; Raw x00; Raw x00]; [Raw x00; Raw x00; Raw x01; Raw x00; Raw x00]; [Raw xff; Raw x00; Raw x00]].
Example C77_ex : (exists rs, run = WOk rs (kept, stored)) /\
  (forall c, In c turns -> ~ In 3 (touches c)) /\
  alive start 0 1 0 (VArr 2 (repeat zero 6)) /\ alive kept 0 5 1 (VArr 2 [Raw x00; Raw x00; Raw x08; Raw x0b; Raw x00; Raw x00]) /\
  alive start 2 1 0 (VCall (mkCallable 3 None None true 1)) /\ alive kept 2 1 0 (VCall (mkCallable 3 None None true 2)) /\
  exists w1 rs w2, @wcall1 debug (WAlloc 4) (start, []) = WOk (WBlock 0) w1 /\
    @wexec debug [WStore 0 1 [Raw x09]; WObj (HRef 0 (-1)); WAlloc 7] w1 = WOk rs w2.
Proof.
  split; [eexists; vm_compute; reflexivity|]. split.
  { intros c H. unfold turns in H. cbn [In] in H. repeat (destruct H as [<-|H]; [cbn; lia|]). destruct H. }
  repeat (split; [apply alive_iff; split; [lia|reflexivity]|]).
  eexists. eexists. eexists. split; vm_compute; reflexivity.
Qed.
