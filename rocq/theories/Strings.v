(** * stdlib/src/strings.rs, lib.rs: strings made from values, and strings printed *)
From Coq Require Import String Ascii List NArith ZArith Bool.
From Verif Require Import SimExp Text Heap.
From Verif Require Front.
Import ListNotations.
Local Open Scope heap_scope.

Definition NUL : ascii := "000"%char.
(** strings.rs:22-25 [string_get_data]: the memory at the pointer returned, the final NUL included. *)
Definition string_get_data (a : nat) : Hp text := t <- get_str a ;; hret (t ++ [NUL])%list.

(** strings.rs:71-83 [convert]: a NUL in the text panics, the text is then copied. *)
Definition convert (t : text) : Hp nat :=
  if existsb (Ascii.eqb NUL) t then hpanic else string_create (t ++ [NUL])%list.
(** strings.rs:85-88 [int_to_string]. *)
Definition rt_int_to_string (z : Z) : Hp nat := convert (show_Z z).
(** strings.rs:100-103 [double_to_string]. *)
Definition rt_double_to_string {D : Doubles} (d : dbl) : Hp nat := convert (double_to_string d).
(** strings.rs:105-108 [bool_to_string]. *)
Definition rt_bool_to_string (b : bool) : Hp nat := convert (show_bool b).
(** strings.rs:110-118 [pauli_to_string]. *)
Definition rt_pauli_to_string (p : pauli) : Hp nat := convert (pauli_to_string p).
(** strings.rs:120-123 [bigint_to_string]. *)
Definition rt_bigint_to_string (a : nat) : Hp nat := z <- get_big a ;; convert (show_Z z).
(** range_support.rs:16-25 [range_to_string]. *)
Definition rt_range_to_string (r : range) : Hp nat := convert (range_to_string r).
(** backend/src/result_bool.rs:31-47 [result_to_string]. *)
Definition rt_result_to_string (r : N) : Hp nat := convert (result_to_string r).
(** backend/src/lib.rs:994-1007 [qubit_to_string]. *)
Definition rt_qubit_to_string (q : N) : Hp nat := convert (show_Z (Z.of_N q)).

(** core's [str::chars] on bytes that are well-formed; shifts and masks are written as products and remainders. *)
(** stdlib/src/lib.rs:99-101, stdlib/src/output_recording.rs:165-167. *)
Fixpoint chars (t : text) : list N :=
  match t with
  | [] => []
  | a :: t1 =>
    let x := N_of_ascii a in
    if N.ltb x 128 then x :: chars t1 else
    match t1 with
    | [] => []
    | b :: t2 =>
      let y := N_of_ascii b in
      if N.ltb x 224 then (64 * (x mod 32) + y mod 64)%N :: chars t2 else
      match t2 with
      | [] => []
      | c :: t3 =>
        let yz := (64 * (y mod 64) + N_of_ascii c mod 64)%N in
        if N.ltb x 240 then (4096 * (x mod 32) + yz)%N :: chars t3 else
        match t3 with
        | [] => []
        | d :: t4 => (262144 * (x mod 8) + 64 * yz + N_of_ascii d mod 64)%N :: chars t4
        end
      end
    end
  end.
(** [CStr::to_str]. *)
(** stdlib/src/lib.rs:99-100, stdlib/src/output_recording.rs:165-166. *)
Definition to_str (t : text) : option (list N) := if Front.utf8 t then Some (chars t) else None.

(** A call returns with the output so far, stops the program with a message or a panic, or has undefined behaviour. *)
(** Not in the source: how the functions of stdlib/src/lib.rs:70-105 can end. *)
Inductive mresult := MOk (out : text) | MFail (m : list N) (out : text) | MPanic (out : text) | MUB.
Section Messages.
Context {D : Doubles}.
(** stdlib/src/lib.rs:92-105 [message], output_recording.rs:159-171 [message_record_output]. *)
Definition rt_message (a : nat) (h : heap) (out : text) : mresult :=
  match get_str a h with
  | HOk t _ => match to_str t with Some m => MOk (out ++ render (RecMessage m))%list | None => MPanic out end
  | _ => MUB
  end.
(** stdlib/src/lib.rs:83-90 [fail]. *)
Definition rt_fail (a : nat) (h : heap) (out : text) : mresult :=
  match rt_message a h out with
  | MOk out' =>
      match get_str a h with
      | HOk t _ => match to_str t with Some m => MFail m out' | None => MPanic out' end
      | _ => MUB
      end
  | r => r
  end.
End Messages.
