(** * backend/src/lib.rs, exp.rs: the functions that take arrays and tuples *)
From Coq Require Import String Ascii Reals NArith ZArith List Bool Arith Lia.
From Coq.Strings Require Import Byte.
From Flocq Require Import IEEE754.Binary IEEE754.Bits.
From Verif Require Import Cx Arith ArithR Sim SimExp SimRun SpecRun Text Backend Heap Strings QubitArray.
Import ListNotations.

Declare Scope args_scope.
Notation "x <- m ;; k" := (qbind m (fun x => k)) (at level 100, m at next level, right associativity) : args_scope.
Notation "m ;;; k" := (qbind m (fun _ => k)) (at level 100, k at level 200, right associativity) : args_scope.
Local Open Scope args_scope.

(** Eight bytes used as an angle or a probability: the exact value of the double.  Infinities, NaNs and the bytes of
    pointers are not modelled (the model says undefined behaviour). *)
(** [c_double], backend/src/lib.rs:375-379, 517-523. *)
Definition word_double (l : list mval) : option R :=
  match raws l with
  | Some bs => let f := b64_of_bits (unsigned_le bs) in if is_finite 53 1024 f then Some (B2R 53 1024 f) else None
  | None => None
  end.
(** The negation of a double changes its sign bit. *)
(** [-args.theta], backend/src/lib.rs:603, backend/src/exp.rs:156. *)
Definition neg_val (v : mval) : mval := match v with Raw b => Raw (Z_byte (byte_Z b + 128)) | Frag _ _ => v end.
Definition neg_word (l : list mval) : list mval := firstn 7 l ++ map neg_val (skipn 7 l).
(** The discriminants of [Pauli]; any other byte is undefined behaviour. *)
(** stdlib/src/lib.rs:62-69. *)
Definition byte_pauli (l : list mval) : option pauli :=
  match l with
  | [Raw x00] => Some PI_ | [Raw x01] => Some PX_ | [Raw x02] => Some PZ_ | [Raw x03] => Some PY_
  | _ => None
  end.

Section Args.
Context {T : Tol} {EN : Env} {D : Doubles} {SW : Shows} {M : Mode}.

(** What the memory must hold for the code to be defined. *)
(** Not in the source: loads from memory in backend/src/lib.rs and backend/src/exp.rs. *)
Definition known {X} (o : option X) : QM X := match o with Some x => qret x | None => mem hub end.
(** Bytes of a tuple. *)
(** [*arg_tuple.cast::<..>()], backend/src/lib.rs:397, 537, 598; [*rot_arg_tuple.cast::<..>() = ..], 543, 607. *)
Definition tuple_read (t off n : nat) : Hp (list mval) :=
  hbind (get_tup t) (fun d => if Nat.leb (off + n) (length d) then hret (firstn n (skipn off d)) else hub).
Definition tuple_write (t off : nat) (bs : list mval) : Hp unit :=
  hbind (get_tup t) (fun d =>
    if Nat.leb (off + length bs) (length d) then set_val t (VTup (splice d off bs)) else hub).
(** [n] bytes of element [i] of an array. *)
(** lib.rs:102-106, 318-319, exp.rs:46-60. *)
Definition element (a i n : nat) : QM (list mval) :=
  p <- mem (array_get_element_ptr_1d a (Z.of_nat i)) ;; mem (ptr_read p n).

(** lib.rs:316-323 (and 404-411, 560-575, exp.rs:51-64, 106-115, 126-137): the qubits of an array, from element [i] on,
    each allocated if it is not yet. *)
Fixpoint ensured_from (a i n : nat) : QM (list nat) :=
  match n with
  | O => qret []
  | S n' =>
      w <- element a i 8 ;; q <- known (word_qubit w) ;; dev (ensure q) ;;;
      l <- ensured_from a (S i) n' ;; qret (q :: l)
  end.
Definition ensured (a : nat) : QM (list nat) :=
  n <- mem (array_get_size_1d a) ;; ensured_from a 0 (Z.to_nat n).
(** exp.rs:43-49, 117-124: the Paulis of an array. *)
Fixpoint paulis_from (a i n : nat) : QM (list pauli) :=
  match n with
  | O => qret []
  | S n' => w <- element a i 1 ;; p <- known (byte_pauli w) ;; l <- paulis_from a (S i) n' ;; qret (p :: l)
  end.
Definition paulis_of (a : nat) : QM (list pauli) :=
  n <- mem (array_get_size_1d a) ;; paulis_from a 0 (Z.to_nat n).

(** lib.rs:303-328: [h__ctl] and the others. *)
Definition p_ctl (g : gname) (ctls q : nat) : QM unit :=
  dev (ensure q) ;;; cs <- ensured ctls ;; dev (simdo (CMc g cs q)).
(** lib.rs:375-379 [RotationArgs], 381-420: [rx__ctl], [ry__ctl], [rz__ctl]. *)
Definition p_rot_ctl (g : R -> gname) (ctls t : nat) : QM unit :=
  w <- mem (tuple_read t 0 16) ;;
  th <- known (word_double (firstn 8 w)) ;; q <- known (word_qubit (skipn 8 w)) ;;
  dev (ensure q) ;;; cs <- ensured ctls ;; dev (simdo (CMc (g th) cs q)).
(** lib.rs:517-523 [PauliRotationArgs]: a byte, the angle from byte 8 on, the qubit from byte 16 on.  531-587 [r__ctl]. *)
Definition p_r_ctl (ctls t : nat) : QM unit :=
  w <- mem (tuple_read t 0 24) ;;
  p <- known (byte_pauli (firstn 1 w)) ;;
  tmp <- mem (tuple_create 16) ;;
  mem (tuple_write tmp 0 (skipn 8 w)) ;;;
  match p with
  | PX_ => p_rot_ctl GRx ctls tmp | PY_ => p_rot_ctl GRy ctls tmp | PZ_ => p_rot_ctl GRz ctls tmp
  | PI_ =>
      n <- mem (array_get_size_1d ctls) ;;
      if Z.ltb 0 n then
        th <- known (word_double (firstn 8 (skipn 8 w))) ;; q <- known (word_qubit (skipn 16 w)) ;;
        dev (ensure q) ;;; cs <- ensured ctls ;;
        match cs with [] => qret tt | head :: rest => dev (simdo (CPhase rest (Cis (- th / 2)) head)) end
      else qret tt
  end ;;;
  mem (update_counts tmp (-1) false).
(** lib.rs:589-610 [r__ctladj]; the padding of the new tuple is left as created. *)
Definition p_r_ctladj (ctls t : nat) : QM unit :=
  w <- mem (tuple_read t 0 24) ;;
  p <- known (byte_pauli (firstn 1 w)) ;;
  tmp <- mem (tuple_create 24) ;;
  mem (tuple_write tmp 0 (firstn 1 w)) ;;;
  mem (tuple_write tmp 8 (neg_word (firstn 8 (skipn 8 w)) ++ skipn 16 w)) ;;;
  p_r_ctl ctls tmp ;;;
  mem (update_counts tmp (-1) false).

(** exp.rs:36-68 [exp__body], 70-83 [exp__adj]. *)
Definition p_exp (ps : nat) (th : R) (qs : nat) : QM unit :=
  l <- paulis_of ps ;; ts <- ensured qs ;; dev (simdo (CExp l th ts)).
Definition p_exp_adj (ps : nat) (th : R) (qs : nat) : QM unit := p_exp ps (- th) qs.
(** Eight bytes used as the pointer to an object. *)
(** Not in the source: loads of pointers, backend/src/exp.rs:85-91, backend/src/lib.rs:833-842. *)
Definition word_object (l : list mval) : option nat := match ptr_of l with Some (PObj a) => Some a | _ => None end.
(** exp.rs:85-91 [ExpArgs], 93-141 [exp__ctl]. *)
Definition p_exp_ctl (ctls t : nat) : QM unit :=
  w <- mem (tuple_read t 0 24) ;;
  cs <- ensured ctls ;;
  ps <- known (word_object (firstn 8 w)) ;; l <- paulis_of ps ;;
  qs <- known (word_object (skipn 16 w)) ;; ts <- ensured qs ;;
  th <- known (word_double (firstn 8 (skipn 8 w))) ;;
  dev (simdo (CMcExp cs l th ts)).
(** exp.rs:143-165 [exp__ctladj]. *)
Definition p_exp_ctladj (ctls t : nat) : QM unit :=
  w <- mem (tuple_read t 0 24) ;;
  tmp <- mem (tuple_create 24) ;;
  mem (tuple_write tmp 0 (firstn 8 w ++ neg_word (firstn 8 (skipn 8 w)) ++ skipn 16 w)) ;;;
  p_exp_ctl ctls tmp ;;;
  mem (update_counts tmp (-1) false).

(** lib.rs:100-115: Paulis and qubits from element [i] on; qubits under [Pauli::I] are left out. *)
Fixpoint combined_from (ps qs i n : nat) : QM (list (pauli * nat)) :=
  match n with
  | O => qret []
  | S n' =>
      wp <- element ps i 1 ;; p <- known (byte_pauli wp) ;; wq <- element qs i 8 ;;
      match p with
      | PI_ => combined_from ps qs (S i) n'
      | _ => q <- known (word_qubit wq) ;; dev (ensure q) ;;; l <- combined_from ps qs (S i) n' ;; qret ((p, q) :: l)
      end
  end.
(** lib.rs:79-128 [map_to_z_basis]; the string for the message is made and not given back, but the process ends. *)
Definition p_map_to_z (ps qs : nat) : QM (list (pauli * nat)) :=
  np <- mem (array_get_size_1d ps) ;; nq <- mem (array_get_size_1d qs) ;;
  if Z.eqb np nq then
    cl <- combined_from ps qs 0 (Z.to_nat np) ;; dev (bfor cl to_z) ;;; qret cl
  else dev (Backend.rt_fail (codes "Pauli array and Qubit array must be the same size.")).
(** lib.rs:746-781 [measure]. *)
Definition p_measure (ps qs : nat) : QM nat :=
  cl <- p_map_to_z ps qs ;; r <- dev (simbit (CJointMeasure (map snd cl))) ;;
  dev (bfor cl from_z) ;;; qret (if r : bool then 1 else 0).
(** stdlib/src/lib.rs:83-90 [fail] on the string [msg]: text that is not UTF-8 panics. *)
Definition p_fail (msg : nat) : QM unit :=
  t <- mem (get_str msg) ;; match to_str t with Some m => dev (Backend.rt_fail m) | None => mem hpanic end.
(** lib.rs:793-831 [assertmeasurementprobability]. *)
Definition p_assert (ps qs result : nat) (prob : R) (msg : nat) (tolerance : R) : QM unit :=
  cl <- p_map_to_z ps qs ;; r <- dev (simcall (CJointProb (map snd cl))) ;;
  let p := match r with RProb p => p | _ => 0%R end in
  let actual := if Nat.eqb result 0 then (1 - p)%R else p in
  (if Rltb tolerance (Rabs (actual - prob)) then p_fail msg else qret tt) ;;;
  dev (bfor cl from_z).
(** lib.rs:833-842 [AssertMeasurementProbabilityArgs], 844-866. *)
Definition p_assert_ctl (ctls t : nat) : QM unit :=
  w <- mem (tuple_read t 0 48) ;;
  ps <- known (word_object (firstn 8 w)) ;; qs <- known (word_object (firstn 8 (skipn 8 w))) ;;
  r <- known (word_qubit (firstn 8 (skipn 16 w))) ;; prob <- known (word_double (firstn 8 (skipn 24 w))) ;;
  msg <- known (word_object (firstn 8 (skipn 32 w))) ;; tl <- known (word_double (skipn 40 w)) ;;
  p_assert ps qs r prob msg tl.

(** ** Calls of a program *)
(** One constructor for each exported function of backend/src/lib.rs and backend/src/exp.rs that takes arrays or tuples (those
    of the qubit arrays are in QubitArray.v); arrays, tuples and strings are given by their pointers. *)
Inductive pcall :=
| PCtl (g : gname) (ctls q : nat)                   (* the gates without angle *)
| PRotCtl (axis : pauli) (ctls t : nat)             (* rx, ry, rz *)
| PRCtl (ctls t : nat) | PRCtlAdj (ctls t : nat)
| PExp (ps : nat) (th : R) (qs : nat) | PExpAdj (ps : nat) (th : R) (qs : nat)
| PExpCtl (ctls t : nat) | PExpCtlAdj (ctls t : nat)
| PMeasure (ps qs : nat)
| PAssert (ps qs result : nat) (prob : R) (msg : nat) (tolerance : R) | PAssertCtl (ctls t : nat).
(** Not in the source: the function of backend/src/lib.rs or backend/src/exp.rs that a call names. *)
Definition q_unit (m : QM unit) : QM breply := m ;;; qret VUnit.
Definition pcall1 (c : pcall) : QM breply :=
  match c with
  | PCtl g ctls q => q_unit (p_ctl g ctls q)
  | PRotCtl axis ctls t =>
      q_unit (match axis with
              | PX_ => p_rot_ctl GRx ctls t | PY_ => p_rot_ctl GRy ctls t | PZ_ => p_rot_ctl GRz ctls t
              | PI_ => mem hub                       (* there is no such function *)
              end)
  | PRCtl ctls t => q_unit (p_r_ctl ctls t) | PRCtlAdj ctls t => q_unit (p_r_ctladj ctls t)
  | PExp ps th qs => q_unit (p_exp ps th qs) | PExpAdj ps th qs => q_unit (p_exp_adj ps th qs)
  | PExpCtl ctls t => q_unit (p_exp_ctl ctls t) | PExpCtlAdj ctls t => q_unit (p_exp_ctladj ctls t)
  | PMeasure ps qs => r <- p_measure ps qs ;; qret (VResult r)
  | PAssert ps qs r prob msg tl => q_unit (p_assert ps qs r prob msg tl)
  | PAssertCtl ctls t => q_unit (p_assert_ctl ctls t)
  end.
End Args.
