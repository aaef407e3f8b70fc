(** * stdlib: blocks of memory, beside the objects *)
From Coq Require Import ZArith List Bool Arith.
From Verif Require Import Text Heap.
Import ListNotations.

(** The blocks handed out so far, addressed by position.  [Vec::leak] gives up the only owner: no function of the library
    can free a block, so there is nothing to record but its bytes. *)
(** stdlib/src/lib.rs:73-81. *)
Definition blocks := list (list mval).
(** The objects of Heap.v and the blocks: Rust's allocator gives every [Rc] and every [Vec] memory of its own. *)
(** Not in the source: what is allocated in stdlib/src/lib.rs:73-81, arrays.rs and the others. *)
Definition world := (heap * blocks)%type.
(** How calls can end; as in Heap.v. *)
(** Not in the source: stdlib/src/lib.rs:73-81, arrays.rs and the others. *)
Inductive wres (X : Type) := WOk (x : X) (w : world) | WFail (m : text) | WPanic | WUB.
Arguments WOk {X} x w. Arguments WFail {X} m. Arguments WPanic {X}. Arguments WUB {X}.

(** lib.rs:73-81 [memory_allocate]: a zeroed [Vec] of [size] bytes, leaked.  On a 64-bit platform the conversion to
    [usize] cannot fail; a [Vec] cannot be larger than [isize::MAX].  Running out of memory is not modelled. *)
Definition memory_allocate (size : Z) (w : world) : wres nat :=
  let (h, m) := w in
  if (Z.leb 0 size && Z.ltb size (2 ^ 63))%bool
  then WOk (length m) (h, m ++ [repeat zero (Z.to_nat size)]) else WPanic.
(** Loads and stores of the program through the pointer returned; leaving the block is undefined behaviour. *)
(** Not in the source: the program's own access to the memory of stdlib/src/lib.rs:73-81. *)
Definition block_read (b off n : nat) (w : world) : wres (list mval) :=
  let (h, m) := w in
  match nth_error m b with
  | Some d => if Nat.leb (off + n) (length d) then WOk (firstn n (skipn off d)) w else WUB
  | None => WUB
  end.
Definition block_write (b off : nat) (bs : list mval) (w : world) : wres unit :=
  let (h, m) := w in
  match nth_error m b with
  | Some d => if Nat.leb (off + length bs) (length d) then WOk tt (h, list_put m b (splice d off bs)) else WUB
  | None => WUB
  end.

Section Memory.
Context {M : Mode}.
(** A call of the library, or a load or store of the program. *)
(** Not in the source: the functions of Heap.v, and stdlib/src/lib.rs:73-81. *)
Inductive wcall := WObj (c : hcall) | WAlloc (size : Z) | WLoad (b off n : nat) | WStore (b off : nat) (bs : list mval).
Inductive wreply := WRet (r : hreply) | WBlock (b : nat) | WBytes (l : list mval) | WDone.
Definition wcall1 (c : wcall) (w : world) : wres wreply :=
  match c with
  | WObj c =>
      match hcall1 c (fst w) with
      | HOk r h => WOk (WRet r) (h, snd w) | HFail t => WFail t | HPanic => WPanic | HUB => WUB
      end
  | WAlloc size =>
      match memory_allocate size w with
      | WOk b w' => WOk (WBlock b) w' | WFail t => WFail t | WPanic => WPanic | WUB => WUB
      end
  | WLoad b off n =>
      match block_read b off n w with
      | WOk l w' => WOk (WBytes l) w' | WFail t => WFail t | WPanic => WPanic | WUB => WUB
      end
  | WStore b off bs =>
      match block_write b off bs w with
      | WOk _ w' => WOk WDone w' | WFail t => WFail t | WPanic => WPanic | WUB => WUB
      end
  end.
Fixpoint wexec (cs : list wcall) (w : world) : wres (list wreply) :=
  match cs with
  | [] => WOk [] w
  | c :: cs' =>
      match wcall1 c w with
      | WOk r w1 =>
          match wexec cs' w1 with
          | WOk rs w2 => WOk (r :: rs) w2 | WFail t => WFail t | WPanic => WPanic | WUB => WUB
          end
      | WFail t => WFail t | WPanic => WPanic | WUB => WUB
      end
  end.
End Memory.
