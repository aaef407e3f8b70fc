(** * stdlib: reference-counted arrays, tuples, callables, strings and big integers *)
From Coq Require Import String Ascii ZArith List Bool Arith.
From Coq.Strings Require Import Byte.
From Verif Require Import Text.
Import ListNotations.
Local Open Scope list_scope.

(** Build profile: with overflow checks (debug) arithmetic overflow panics, without (release) it wraps. *)
(** The cargo profile; it decides what +, - and * do at e.g. stdlib/src/arrays.rs:30, stdlib/src/range_support.rs:42-48. *)
Class Mode := { overflow_checks : bool }.

(** ** Memory *)

(** Pointers stored in memory: an object of the heap below, or a qubit or result identifier used as a pointer. *)
(** The pointers returned by [Rc::into_raw], e.g. stdlib/src/arrays.rs:31. *)
Inductive ptr := PObj (a : nat) | PQubit (q : nat).
(** One byte of memory: a plain byte, or the i-th byte of a pointer. *)
(** [Vec<u8>], stdlib/src/arrays.rs:18, stdlib/src/tuples.rs:18-23. *)
Inductive mval := Raw (b : byte) | Frag (p : ptr) (i : nat).
Definition zero : mval := Raw x00.
(** The eight bytes of a pointer on a 64-bit platform. *)
(** Pointers stored in [Vec<u8>] by the program and at stdlib/src/callables.rs:60-107. *)
Definition ptr_bytes (p : ptr) : list mval := map (Frag p) (seq 0 8).
Definition ptr_eqb (p q : ptr) : bool :=
  match p, q with PObj a, PObj b | PQubit a, PQubit b => Nat.eqb a b | _, _ => false end.
Definition is_frag (p : ptr) (i : nat) (v : mval) : bool :=
  match v with Frag p' i' => ptr_eqb p p' && Nat.eqb i i' | Raw _ => false end.
(** Reading eight bytes as a pointer; anything but the bytes of one pointer is no pointer. *)
(** Not in the source: loads of pointers from [Vec<u8>], e.g. stdlib/src/callables.rs:60-107. *)
Definition ptr_of (l : list mval) : option ptr :=
  match l with
  | [a; b; c; d; e; f; g; h] =>
      match a with
      | Frag p _ => if is_frag p 0 a && is_frag p 1 b && is_frag p 2 c && is_frag p 3 d && is_frag p 4 e
                       && is_frag p 5 f && is_frag p 6 g && is_frag p 7 h
                    then Some p else None
      | Raw _ => None
      end
  | _ => None
  end.

(** callables.rs:13-20 [Callable]; the tables are opaque, [ctls_count] is a [u32] whose overflow is not modelled. *)
Record callable := mkCallable {
  c_table : nat; c_mem : option nat; c_capture : option ptr; c_adj : bool; c_ctls : nat
}.
(** What an [Rc] holds: arrays.rs:16-20 [QirArray]; the [Vec] of a tuple without its header word (tuples.rs:12-25: the
    header is the address of the [Rc] itself, which is how a tuple is identified here); a callable; a [CString]; a [BigInt]. *)
Inductive hval :=
| VArr (elem_size : Z) (data : list mval)
| VTup (data : list mval)
| VCall (c : callable)
| VStr (s : text)
| VBig (z : Z).

(** std's [RcBox].  [weak] counts the weak references plus one for all the strong ones; [held] tells whether the memory
    of the box is still allocated, and [val] is [None] once the value has been dropped.  Counters are unbounded. *)
(** Used at stdlib/src/lib.rs:32-61. *)
Record cell := mkCell { strong : nat; weak : nat; held : bool; val : option hval }.
(** Addresses are positions; the memory of a freed box is not used again (in reality it may be). *)
(** Not in the source: all boxes made with [Rc::new] in stdlib/src/arrays.rs and the others. *)
Definition heap := list cell.

(** A call returns, reports failure through [__quantum__rt__fail], panics, or has undefined behaviour. *)
(** Not in the source: how the functions of stdlib/src/arrays.rs and the others can end. *)
Inductive hres (X : Type) := HOk (x : X) (h : heap) | HFail (m : text) | HPanic | HUB.
Arguments HOk {X} x h. Arguments HFail {X} m. Arguments HPanic {X}. Arguments HUB {X}.
Definition Hp (X : Type) := heap -> hres X.
Definition hret {X} (x : X) : Hp X := fun h => HOk x h.
Definition hbind {X Y} (m : Hp X) (f : X -> Hp Y) : Hp Y := fun h =>
  match m h with HOk x h' => f x h' | HFail t => HFail t | HPanic => HPanic | HUB => HUB end.
Definition hpanic {X} : Hp X := fun _ => HPanic.
Definition hub {X} : Hp X := fun _ => HUB.
Definition hfail {X} (m : text) : Hp X := fun _ => HFail m.
Declare Scope heap_scope.
Notation "x <- m ;; k" := (hbind m (fun x => k)) (at level 100, m at next level, right associativity) : heap_scope.
Notation "m ;;; k" := (hbind m (fun _ => k)) (at level 100, k at level 200, right associativity) : heap_scope.
Local Open Scope heap_scope.

(** Not in the source: assignment to a position, for the boxes of stdlib/src/arrays.rs and the others. *)
Fixpoint list_put {A} (l : list A) (i : nat) (x : A) : list A :=
  match l, i with [], _ => [] | _ :: l', O => x :: l' | y :: l', S i' => y :: list_put l' i' x end.

(** Access to the memory of a box. *)
(** Not in the source: the access that [Rc] makes at stdlib/src/lib.rs:35-54. *)
Definition box (a : nat) : Hp cell := fun h =>
  match nth_error h a with Some c => if held c then HOk c h else HUB | None => HUB end.
Definition set_box (a : nat) (c : cell) : Hp unit := fun h => HOk tt (list_put h a c).

(** std's [Rc::new], [into_raw]. *)
(** stdlib/src/arrays.rs:31, 45, 79, tuples.rs:22, 38, callables.rs:28, 118, strings.rs:18, 57, bigints.rs:10-144, range_support.rs:59. *)
Definition rc_new (v : hval) : Hp nat := fun h => HOk (length h) (h ++ [mkCell 1 1 true (Some v)]).
(** std's [Rc::increment_strong_count], [clone]: a count of zero is undefined behaviour. *)
(** stdlib/src/lib.rs:41, arrays.rs:47, tuples.rs:41, callables.rs:120. *)
Definition inc_strong (a : nat) : Hp unit :=
  c <- box a ;;
  match strong c with
  | O => hub
  | S _ => set_box a (mkCell (S (strong c)) (weak c) (held c) (val c))
  end.
(** std's [Rc::decrement_strong_count], [drop]: at zero the value is dropped and the common weak reference given up. *)
(** stdlib/src/lib.rs:54. *)
Definition dec_strong (a : nat) : Hp unit :=
  c <- box a ;;
  match strong c, weak c with
  | O, _ | _, O => hub
  | S O, S w => set_box a (mkCell 0 w (negb (Nat.eqb w 0)) None)
  | S s, _ => set_box a (mkCell s (weak c) (held c) (val c))
  end.
(** std's [Rc::downgrade]. *)
(** stdlib/src/lib.rs:39, 48. *)
Definition inc_weak (a : nat) : Hp unit :=
  c <- box a ;;
  match weak c with
  | O => hub
  | S _ => set_box a (mkCell (strong c) (S (weak c)) (held c) (val c))
  end.
(** std's drop of [Weak]: at zero the box is freed, whatever it holds. *)
(** stdlib/src/lib.rs:51-52. *)
Definition drop_weak (a : nat) : Hp unit :=
  c <- box a ;;
  match weak c with
  | O => hub
  | S w => set_box a (mkCell (strong c) w (negb (Nat.eqb w 0)) (val c))
  end.
(** std's [Rc::weak_count]. *)
(** stdlib/src/arrays.rs:43, tuples.rs:35, callables.rs:116. *)
Definition weak_count (c : cell) : nat := weak c - 1.

(** lib.rs:31-59 [update_counts]; one iteration of the loop for each unit of the update. *)
Definition count_step (a : nat) (up is_alias : bool) : Hp unit :=
  match up, is_alias with
  | true, true => inc_weak a
  | true, false => inc_strong a
  | false, true => inc_weak a ;;; drop_weak a ;;; drop_weak a
  | false, false => dec_strong a
  end.
Fixpoint hrepeat (n : nat) (m : Hp unit) : Hp unit :=
  match n with O => hret tt | S n' => m ;;; hrepeat n' m end.
Definition update_counts (a : nat) (update : Z) (is_alias : bool) : Hp unit :=
  hrepeat (Z.abs_nat update) (count_step a (Z.ltb 0 update) is_alias).

(** Dereferencing the pointer to the value. *)
(** stdlib/src/arrays.rs:59-60, 86, 99 and the like. *)
Definition get_val (a : nat) : Hp hval := fun h =>
  match nth_error h a with
  | Some c => match held c, val c with true, Some v => HOk v h | _, _ => HUB end
  | None => HUB
  end.
Definition set_val (a : nat) (v : hval) : Hp unit :=
  c <- box a ;; set_box a (mkCell (strong c) (weak c) (held c) (Some v)).
Definition get_arr (a : nat) : Hp (Z * list mval) := v <- get_val a ;; match v with VArr sz d => hret (sz, d) | _ => hub end.
Definition get_tup (a : nat) : Hp (list mval) := v <- get_val a ;; match v with VTup d => hret d | _ => hub end.
Definition get_call (a : nat) : Hp callable := v <- get_val a ;; match v with VCall c => hret c | _ => hub end.
Definition get_str (a : nat) : Hp text := v <- get_val a ;; match v with VStr t => hret t | _ => hub end.
Definition get_big (a : nat) : Hp Z := v <- get_val a ;; match v with VBig z => hret z | _ => hub end.

(** arrays.rs:34-52 [array_copy], tuples.rs:27-44 [tuple_copy], callables.rs:111-126 [callable_copy]. *)
Definition rc_copy (a : nat) (force : bool) : Hp nat :=
  c <- box a ;;
  if force || Nat.ltb 0 (weak_count c) then v <- get_val a ;; rc_new v
  else inc_strong a ;;; hret a.

(** ** Machine integers *)
(** The integer types of Rust on a 64-bit platform, used at stdlib/src/range_support.rs:33-58. *)
Definition i64_ok (z : Z) : bool := Z.leb (- 2 ^ 63) z && Z.ltb z (2 ^ 63).
Definition wrap_i64 (z : Z) : Z := ((z + 2 ^ 63) mod 2 ^ 64 - 2 ^ 63)%Z.
Definition usize_ok (z : Z) : bool := Z.leb 0 z && Z.ltb z (2 ^ 64).

Section Heap.
Context {M : Mode}.
(** stdlib/src/range_support.rs:42-48. *)
Definition i64 (z : Z) : Hp Z := if i64_ok z then hret z else if overflow_checks then hpanic else hret (wrap_i64 z).
Definition usize (z : Z) : Hp Z := if usize_ok z then hret z else if overflow_checks then hpanic else hret (z mod 2 ^ 64)%Z.

(** ** Arrays *)

(** arrays.rs:22-32 [array_create_1d] ([elem_size] is a [u32], [count] a [u64]).  A [Vec] cannot be larger than
    [isize::MAX]; running out of memory is not modelled. *)
Definition array_create_1d (elem_size count : Z) : Hp nat :=
  n <- usize (elem_size * count) ;;
  if Z.ltb n (2 ^ 63) then rc_new (VArr elem_size (repeat zero (Z.to_nat n))) else hpanic.
(** arrays.rs:54-81 [array_concatenate]. *)
Definition array_concatenate (a b : nat) : Hp nat :=
  x <- get_arr a ;; y <- get_arr b ;;
  let (s1, d1) := (x : Z * list mval) in let (s2, d2) := (y : Z * list mval) in
  if Z.eqb s1 s2 then rc_new (VArr s1 (d1 ++ d2))
  else hfail (lit "Cannot concatenate arrays with differing element sizes: " ++ show_Z s1 ++ lit " vs " ++ show_Z s2).
(** arrays.rs:83-91 [array_get_size_1d]: division by zero panics. *)
Definition array_get_size_1d (a : nat) : Hp Z :=
  x <- get_arr a ;; let (sz, d) := (x : Z * list mval) in
  if Z.eqb sz 0 then hpanic else hret (Z.of_nat (length d) / sz)%Z.
(** arrays.rs:93-105 [array_get_element_ptr_1d]: object and byte offset.  Leaving the array is undefined behaviour
    ([pointer::add]). *)
Definition array_get_element_ptr_1d (a : nat) (index : Z) : Hp (nat * nat) :=
  x <- get_arr a ;; let (sz, d) := (x : Z * list mval) in
  off <- usize (sz * index) ;;
  if Z.leb off (Z.of_nat (length d)) then hret (a, Z.to_nat off) else hub.
(** Reading and writing through such a pointer. *)
(** Loads and stores of the program through the pointers of stdlib/src/arrays.rs:94-106. *)
Definition splice (d : list mval) (off : nat) (bs : list mval) : list mval := firstn off d ++ bs ++ skipn (off + length bs) d.
Definition ptr_read (p : nat * nat) (n : nat) : Hp (list mval) :=
  x <- get_arr (fst p) ;;
  if Nat.leb (snd p + n) (length (snd x)) then hret (firstn n (skipn (snd p) (snd x))) else hub.
Definition ptr_write (p : nat * nat) (bs : list mval) : Hp unit :=
  x <- get_arr (fst p) ;;
  if Nat.leb (snd p + length bs) (length (snd x)) then set_val (fst p) (VArr (fst x) (splice (snd x) (snd p) bs)) else hub.

(** range_support.rs:46-60: the numbers [s], [s + st], ... up to [e], or down to it. *)
Definition steps_up (s e st : Z) : list Z :=
  if Z.leb s e then map (fun k => s + Z.of_nat k * st)%Z (seq 0 (S (Z.to_nat ((e - s) / st)))) else [].
Definition steps_down (s e st : Z) : list Z :=
  if Z.leb e s then map (fun k => s - Z.of_nat k * st)%Z (seq 0 (S (Z.to_nat ((s - e) / st)))) else [].
(** range_support.rs:53-58: one element, at byte [i]. *)
Definition slice_at (sz : Z) (d : list mval) (i : Z) : Hp (list mval) :=
  if Z.ltb i 0 then hpanic
  else if Z.leb (i + sz) (Z.of_nat (length d)) then hret (firstn (Z.to_nat sz) (skipn (Z.to_nat i) d)) else hpanic.
Fixpoint slice_loop (sz : Z) (d : list mval) (is : list Z) : Hp (list mval) :=
  match is with [] => hret [] | i :: is' => x <- slice_at sz d i ;; xs <- slice_loop sz d is' ;; hret (x ++ xs) end.
(** range_support.rs:28-63 [array_slice_1d]. *)
Definition array_slice_1d (a : nat) (r : range) : Hp nat :=
  x <- get_arr a ;; let (sz, d) := (x : Z * list mval) in
  s <- i64 (r_start r * sz) ;; e <- i64 (r_end r * sz) ;;
  k <- i64 (Z.abs (r_step r)) ;; st <- i64 (k * sz) ;;
  if Z.leb st 0 then hpanic
  else
    data <- slice_loop sz d (if Z.ltb 0 (r_step r) then steps_up s e st else steps_down s e st) ;;
    rc_new (VArr sz data).

(** ** Tuples *)

(** tuples.rs:10-25 [tuple_create].  The header is written whatever the size of the block. *)
Definition tuple_create (size : Z) : Hp nat :=
  n <- usize (size + 8) ;;
  if Z.ltb n 8 then hub
  else if Z.ltb n (2 ^ 63) then rc_new (VTup (repeat zero (Z.to_nat (n - 8)))) else hpanic.
(** Reading and writing the i-th pointer of a tuple (callables.rs:57-78). *)
Definition tuple_ptr (a i : nat) : Hp nat :=
  d <- get_tup a ;;
  match ptr_of (firstn 8 (skipn (8 * i) d)) with Some (PObj p) => hret p | _ => hub end.
Definition set_tuple_ptr (a i p : nat) : Hp unit :=
  d <- get_tup a ;;
  if Nat.leb (8 * i + 8) (length d) then set_val a (VTup (splice d (8 * i) (ptr_bytes (PObj p)))) else hub.

(** ** Callables *)

(** callables.rs:22-35 [callable_create]. *)
Definition callable_create (t : nat) (m : option nat) (cap : option ptr) : Hp nat :=
  rc_new (VCall (mkCallable t m cap false 0)).
(** callables.rs:128-134 [callable_make_adjoint], 136-142 [callable_make_controlled]. *)
Definition callable_make_adjoint (a : nat) : Hp unit :=
  c <- get_call a ;; set_val a (VCall (mkCallable (c_table c) (c_mem c) (c_capture c) (negb (c_adj c)) (c_ctls c))).
Definition callable_make_controlled (a : nat) : Hp unit :=
  c <- get_call a ;; set_val a (VCall (mkCallable (c_table c) (c_mem c) (c_capture c) (c_adj c) (S (c_ctls c)))).
(** callables.rs:68-90: [n] more levels of controls to merge. *)
Fixpoint merge_controls (n : nat) (args : nat) : Hp nat :=
  match n with
  | O => hret args
  | S n' =>
      ctls <- tuple_ptr args 0 ;;
      inner <- tuple_ptr args 1 ;;
      inner_ctls <- tuple_ptr inner 0 ;;
      new_ctls <- array_concatenate ctls inner_ctls ;;
      new_args <- rc_copy inner true ;;
      set_tuple_ptr new_args 0 new_ctls ;;;
      old <- tuple_ptr args 0 ;;
      update_counts old (-1) false ;;;
      update_counts args (-1) false ;;;
      merge_controls n' new_args
  end.
(** callables.rs:46-92: which entry of the function table is called, and with which arguments. *)
Definition invoke_prepare (cal : nat) (args : option nat) : Hp (nat * option nat) :=
  c <- get_call cal ;;
  let index := (if c_adj c then 1 else 0) + (if Nat.ltb 0 (c_ctls c) then 2 else 0) in
  match args with
  | None => hret (index, None)
  | Some a =>
      copy <- rc_copy a true ;;
      match c_ctls c with
      | O => hret (index, Some copy)
      | S n => ctls <- tuple_ptr copy 0 ;; update_counts ctls 1 false ;;; copy' <- merge_controls n copy ;; hret (index, Some copy')
      end
  end.
(** callables.rs:101-107. *)
Definition invoke_cleanup (cal : nat) (args : option nat) : Hp unit :=
  c <- get_call cal ;;
  (if Nat.ltb 0 (c_ctls c) then
     match args with None => hub | Some a => ctls <- tuple_ptr a 0 ;; update_counts ctls (-1) false end
   else hret tt) ;;;
  match args with None => hret tt | Some a => update_counts a (-1) false end.
(** callables.rs:37-109 [callable_invoke].  [callee table index capture args] is the function called; the result tuple is
    passed on untouched and left out. *)
Definition callable_invoke (callee : nat -> nat -> option ptr -> option nat -> Hp unit) (cal : nat) (args : option nat) : Hp unit :=
  p <- invoke_prepare cal args ;;
  c <- get_call cal ;;
  callee (c_table c) (fst p) (c_capture c) (snd p) ;;;
  invoke_cleanup cal (snd p).

(** ** Strings (strings.rs) and big integers (bigints.rs) *)

(** strings.rs:13-20 [string_create]: the bytes before the first NUL. *)
Fixpoint to_nul (t : text) : text :=
  match t with [] => [] | c :: t' => if Ascii.eqb c "000"%char then [] else c :: to_nul t' end.
Definition string_create (t : text) : Hp nat := rc_new (VStr (to_nul t)).
(** strings.rs:27-36 [string_get_length]: longer than a [u32] panics. *)
Definition string_get_length (a : nat) : Hp Z :=
  t <- get_str a ;; let n := Z.of_nat (length t) in if Z.ltb n (2 ^ 32) then hret n else hpanic.
(** strings.rs:48-61 [string_concatenate]. *)
Definition string_concatenate (a b : nat) : Hp nat := s <- get_str a ;; t <- get_str b ;; rc_new (VStr (s ++ t)).
(** strings.rs:63-69 [string_equal]. *)
Definition text_eqb (s t : text) : bool := if list_eq_dec Ascii.ascii_dec s t then true else false.
Definition string_equal (a b : nat) : Hp bool := s <- get_str a ;; t <- get_str b ;; hret (text_eqb s t).

(** The operators of the num-bigint crate. *)
(** stdlib/src/bigints.rs:54-123. *)
Inductive bigop := BAdd | BSub | BMul | BDiv | BMod | BAnd | BOr | BXor.
(** bigints.rs:56-97, 107-129: division by zero panics; division truncates. *)
Definition bigint_op (op : bigop) (x y : Z) : option Z :=
  match op with
  | BAdd => Some (x + y)%Z | BSub => Some (x - y)%Z | BMul => Some (x * y)%Z
  | BDiv => if Z.eqb y 0 then None else Some (Z.quot x y)
  | BMod => if Z.eqb y 0 then None else Some (Z.rem x y)
  | BAnd => Some (Z.land x y) | BOr => Some (Z.lor x y) | BXor => Some (Z.lxor x y)
  end.
Definition bigint_binary (op : bigop) (a b : nat) : Hp nat :=
  x <- get_big a ;; y <- get_big b ;; match bigint_op op x y with Some z => rc_new (VBig z) | None => hpanic end.
(** bigints.rs:50-54 [negate], 131-134 [bitnot]. *)
Inductive bigun := BNeg | BNot.
Definition bigint_unary (op : bigun) (a : nat) : Hp nat :=
  x <- get_big a ;; rc_new (VBig (match op with BNeg => x * -1 | BNot => Z.lnot x end)%Z).
(** bigints.rs:99-105 [power]. *)
Definition bigint_power (a : nat) (k : Z) : Hp nat := x <- get_big a ;; rc_new (VBig (x ^ k)%Z).
(** bigints.rs:136-150 [shiftleft], [shiftright]. *)
Definition bigint_shift (a : nat) (k : Z) (left : bool) : Hp nat :=
  x <- get_big a ;; rc_new (VBig (if left then Z.shiftl x k else Z.shiftr x k)).
(** bigints.rs:152-174. *)
Inductive bigcmp := BEq | BGt | BGe.
Definition bigint_compare (op : bigcmp) (a b : nat) : Hp bool :=
  x <- get_big a ;; y <- get_big b ;;
  hret (match op with BEq => Z.eqb x y | BGt => Z.gtb x y | BGe => Z.geb x y end).
(** num-bigint's [from_signed_bytes_le]: two's complement, least significant byte first. *)
(** stdlib/src/bigints.rs:19. *)
Definition byte_Z (b : byte) : Z := Z.of_N (Byte.to_N b).
Fixpoint unsigned_le (l : list byte) : Z := match l with [] => 0%Z | b :: l' => (byte_Z b + 256 * unsigned_le l')%Z end.
(** stdlib/src/bigints.rs:19. *)
Definition signed_le (l : list byte) : Z :=
  let n := (8 * Z.of_nat (length l))%Z in
  let u := unsigned_le l in
  if Z.eqb n 0 then 0%Z else if Z.leb (2 ^ (n - 1)) u then (u - 2 ^ n)%Z else u.
(** num-bigint's [to_signed_bytes_le]: the shortest such list (one byte for 0). *)
(** stdlib/src/bigints.rs:27, 33. *)
Definition Z_byte (z : Z) : byte := match Byte.of_N (Z.to_N (z mod 256)) with Some b => b | None => x00 end.
Fixpoint bytes_le (n : nat) (z : Z) : list byte :=
  match n with O => [] | S n' => Z_byte z :: bytes_le n' (z / 256) end.
Definition byte_count (z : Z) : nat :=
  S (Z.to_nat ((Z.log2 (if Z.ltb z 0 then - z - 1 else z) + (if Z.eqb z 0 || Z.eqb z (-1) then 0 else 1)) / 8)).
Definition to_signed_le (z : Z) : list byte := bytes_le (byte_count z) z.
(** bigints.rs:8-11 [create_i64], 13-23 [create_array], 25-28 [get_data], 30-37 [get_length]. *)
Definition bigint_create_i64 (z : Z) : Hp nat := rc_new (VBig z).
Definition bigint_create_array (l : list byte) : Hp nat := rc_new (VBig (signed_le l)).
Definition bigint_get_data (a : nat) : Hp (list byte) := x <- get_big a ;; hret (to_signed_le x).
Definition bigint_get_length (a : nat) : Hp Z :=
  x <- get_big a ;; let n := Z.of_nat (length (to_signed_le x)) in if Z.ltb n (2 ^ 32) then hret n else hpanic.

(** ** Calls of a program *)
(** One constructor for each exported function of stdlib/src/arrays.rs, tuples.rs, callables.rs, strings.rs, bigints.rs, range_support.rs. *)
Inductive hcall :=
| HArrayCreate (sz n : Z) | HArrayCopy (a : nat) (force : bool) | HConcat (a b : nat) | HSlice (a : nat) (r : range)
| HSize (a : nat) | HLoad (a : nat) (i : Z) (n : nat) | HStore (a : nat) (i : Z) (bs : list mval)
| HTupleCreate (size : Z) | HTupleCopy (a : nat) (force : bool) | HTupleSet (a i p : nat)
| HCallCreate (t : nat) (m : option nat) (cap : option ptr) | HCallCopy (a : nat) (force : bool)
| HAdjoint (a : nat) | HControlled (a : nat)
| HStrCreate (t : text) | HStrConcat (a b : nat) | HStrEqual (a b : nat) | HStrLength (a : nat)
| HBigCreate (z : Z) | HBigBytes (l : list byte) | HBig2 (op : bigop) (a b : nat) | HBig1 (op : bigun) (a : nat)
| HBigPow (a : nat) (k : Z) | HBigShift (a : nat) (k : Z) (left : bool) | HBigCmp (op : bigcmp) (a b : nat)
| HBigData (a : nat) | HBigLength (a : nat)
| HRef (a : nat) (update : Z)        (* the five update_reference_count functions *)
| HAlias (a : nat) (update : Z).     (* the update_alias_count functions of arrays, tuples and callables *)
(** What the exported functions of stdlib/src/arrays.rs and the others return. *)
Inductive hreply := RUnit | RObj (a : nat) | RInt (z : Z) | RTruth (b : bool) | RBytes (l : list byte) | RMem (l : list mval).
Definition robj (m : Hp nat) : Hp hreply := a <- m ;; hret (RObj a).
Definition runit (m : Hp unit) : Hp hreply := _ <- m ;; hret RUnit.
(** Not in the source: the function of stdlib/src/arrays.rs and the others that a call names. *)
Definition hcall1 (c : hcall) : Hp hreply :=
  match c with
  | HArrayCreate sz n => robj (array_create_1d sz n)
  | HArrayCopy a f => robj (rc_copy a f) | HTupleCopy a f => robj (rc_copy a f) | HCallCopy a f => robj (rc_copy a f)
  | HConcat a b => robj (array_concatenate a b) | HSlice a r => robj (array_slice_1d a r)
  | HSize a => n <- array_get_size_1d a ;; hret (RInt n)
  | HLoad a i n => p <- array_get_element_ptr_1d a i ;; l <- ptr_read p n ;; hret (RMem l)
  | HStore a i bs => p <- array_get_element_ptr_1d a i ;; runit (ptr_write p bs)
  | HTupleCreate size => robj (tuple_create size) | HTupleSet a i p => runit (set_tuple_ptr a i p)
  | HCallCreate t m cap => robj (callable_create t m cap)
  | HAdjoint a => runit (callable_make_adjoint a) | HControlled a => runit (callable_make_controlled a)
  | HStrCreate t => robj (string_create t) | HStrConcat a b => robj (string_concatenate a b)
  | HStrEqual a b => v <- string_equal a b ;; hret (RTruth v) | HStrLength a => n <- string_get_length a ;; hret (RInt n)
  | HBigCreate z => robj (bigint_create_i64 z) | HBigBytes l => robj (bigint_create_array l)
  | HBig2 op a b => robj (bigint_binary op a b) | HBig1 op a => robj (bigint_unary op a)
  | HBigPow a k => robj (bigint_power a k) | HBigShift a k l => robj (bigint_shift a k l)
  | HBigCmp op a b => v <- bigint_compare op a b ;; hret (RTruth v)
  | HBigData a => l <- bigint_get_data a ;; hret (RBytes l) | HBigLength a => n <- bigint_get_length a ;; hret (RInt n)
  | HRef a k => runit (update_counts a k false) | HAlias a k => runit (update_counts a k true)
  end.
Fixpoint hexec (cs : list hcall) : Hp (list hreply) :=
  match cs with [] => hret [] | c :: cs' => r <- hcall1 c ;; rs <- hexec cs' ;; hret (r :: rs) end.
End Heap.
