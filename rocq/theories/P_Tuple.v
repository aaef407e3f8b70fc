(** * Properties of tuples and captured values (C62) *)
From Coq Require Import ZArith List Bool Arith Lia.
From Coq.Strings Require Import Byte.
From Verif Require Import Text Heap SpecHeap HeapLemmas HeapThms HeapCalls Captures HeapTuples P_Heap.
Import ListNotations.

(** ** C62: a tuple has the size asked for, keeps what is written, and a callable's captured values are counted by the
    functions it was given *)
Theorem C62_create : forall (M : Mode) h size, (0 <= size < 2 ^ 63 - 8)%Z ->
  makes_object (hcall1 (HTupleCreate size)) h (VTup (repeat (Raw x00) (Z.to_nat size))).
Proof. exact tuple_create_thm. Qed.
Print Assumptions C62_create.
Example C62_create_ex : (0 <= 24 < 2 ^ 63 - 8)%Z.
Proof. lia. Qed.

(** Writing a pointer to slot [i]: these eight bytes become the pointer, all other bytes, the counts of the tuple and all
    other objects stay as they were. *)
Theorem C62_set : forall (M : Mode) h a n al d i p, alive h a n al (VTup d) -> 8 * i + 8 <= length d ->
  exists h' d', hcall1 (HTupleSet a i p) h = HOk RUnit h' /\ alive h' a n al (VTup d') /\ length d' = length d /\
    (forall k, k < 8 -> nth_error d' (8 * i + k) = nth_error (ptr_bytes (PObj p)) k) /\
    (forall j, j < 8 * i \/ 8 * i + 8 <= j -> nth_error d' j = nth_error d j) /\
    others_same h h' a /\ length h' = length h.
Proof. exact tuple_set_thm. Qed.
Print Assumptions C62_set.
(** The pointer of the second slot of a tuple of three. *)
Example C62_set_ex : alive two_levels 3 1 0 (VTup (ptr_bytes (PObj 0) ++ ptr_bytes (PObj 2))) /\
  8 * 1 + 8 <= length (ptr_bytes (PObj 0) ++ ptr_bytes (PObj 2)).
Proof. split; [apply alive_iff; split; [lia|reflexivity]|cbn; lia]. Qed.
(** There is no slot beyond the size asked for: a pointer that does not fit is a write outside of the memory. *)
Theorem C62_outside : forall (M : Mode) h a n al d i p, alive h a n al (VTup d) -> length d < 8 * i + 8 ->
  hcall1 (HTupleSet a i p) h = HUB.
Proof. exact set_outside_thm. Qed.
Print Assumptions C62_outside.

(** The counts of captured values are left alone if there is no function for them, *)
Theorem C62_no_function : forall mf h cal n al c k (is_alias : bool), alive h cal n al (VCall c) ->
  (forall t, c_mem c = Some t -> entry mf t (if is_alias then 1 else 0) = None) ->
  capture_update mf cal k is_alias h = HOk tt h.
Proof.
  intros mf h cal n al c k is_alias A N. rewrite (capture_thm mf h cal n al c k is_alias A).
  destruct (c_mem c) as [t|]; auto. now rewrite (N t eq_refl).
Qed.
Print Assumptions C62_no_function.
(** and otherwise updated by it: after any functors, it is called once, with the captured tuple the callable was created
    with and the update asked for. *)
Theorem C62_captures : forall (M : Mode) mf fs h a n al c k (is_alias : bool) t f, alive h a n al (VCall c) ->
  c_mem c = Some t -> entry mf t (if is_alias then 1 else 0) = Some f ->
  exists rs h', hexec (map (fun f : bool => if f then HAdjoint a else HControlled a) fs) h = HOk rs h' /\
    capture_update mf a k is_alias h' = run mf f (c_capture c) k h'.
Proof.
  intros M mf fs h a n al c k is_alias t f A Em En.
  destruct (C35_functors M fs h a n al c A) as (rs & h' & E & _ & _ & A'). exists rs, h'. split; [exact E|].
  rewrite (capture_thm mf h' a n al _ k is_alias A'). cbn [c_mem c_capture]. now rewrite Em, En.
Qed.
Print Assumptions C62_captures.
(** So are those of a copy. *)
Theorem C62_captures_copy : forall (M : Mode) mf h a n al c k force (is_alias : bool) t f, alive h a n al (VCall c) ->
  c_mem c = Some t -> entry mf t (if is_alias then 1 else 0) = Some f ->
  exists b h', hcall1 (HCallCopy a force) h = HOk (RObj b) h' /\
    capture_update mf b k is_alias h' = run mf f (c_capture c) k h'.
Proof.
  intros M mf h a n al c k force is_alias t f A Em En.
  destruct (C31_copy M h a n al (VCall c) force (HCallCopy a force) A ltac:(cbn; tauto)) as (b & h' & E & H). exists b, h'. split; [exact E|].
  assert (X : exists n' al', alive h' b n' al' (VCall c)).
  { destruct (force || Nat.ltb 0 al).
    - exists 1, 0. apply H.
    - destruct H as [-> H]. exists (S n), al. apply H. }
  destruct X as (n' & al' & A'). rewrite (capture_thm mf h' b n' al' _ k is_alias A'). now rewrite Em, En.
Qed.
Print Assumptions C62_captures_copy.
(** A callable that captures the tuple 0; its functions update the counts of that tuple. *)
Definition counting : memory_functions :=
  mkMem (fun _ i => Some i) (fun i cap k => match cap with Some (PObj t) => update_counts t k (Nat.eqb i 1) | _ => hub end).
Definition captured : heap :=
  [live 1 0 (VTup (ptr_bytes (PQubit 5))); live 1 0 (VCall (mkCallable 9 (Some 4) (Some (PObj 0)) false 0))].
Example C62_ex : alive captured 1 1 0 (VCall (mkCallable 9 (Some 4) (Some (PObj 0)) false 0)) /\
  (exists h', capture_update counting 1 2 false captured = HOk tt h' /\ alive h' 0 3 0 (VTup (ptr_bytes (PQubit 5)))) /\
  (exists h', capture_update counting 1 2 true captured = HOk tt h' /\ alive h' 0 1 2 (VTup (ptr_bytes (PQubit 5)))).
Proof.
  split; [apply alive_iff; split; [lia|reflexivity]|].
  split; eexists; (split; [vm_compute; reflexivity|]); apply alive_iff; (split; [lia|reflexivity]).
Qed.
