(** * Specification of text: reading back what was printed *)
From Coq Require Import String Ascii List NArith ZArith Bool.
Import ListNotations.
Local Open Scope N_scope.

(** Value of a digit. *)
Definition digit (c : ascii) : option N :=
  let n := N_of_ascii c in if (48 <=? n) && (n <=? 57) then Some (n - 48) else None.
Definition hex_digit (c : ascii) : option N :=
  let n := N_of_ascii c in
  if (48 <=? n) && (n <=? 57) then Some (n - 48)
  else if (97 <=? n) && (n <=? 102) then Some (n - 87) else None.
(** Positional value in base [b] of a text of digits. *)
Fixpoint digits (b : N) (dv : ascii -> option N) (acc : N) (t : list ascii) : option N :=
  match t with
  | [] => Some acc
  | c :: t' => match dv c with Some d => digits b dv (b * acc + d) t' | None => None end
  end.
Definition read_nat (t : list ascii) : option N := match t with [] => None | _ => digits 10 digit 0 t end.
(** A decimal integer: digits, possibly after a minus sign. *)
Definition read_Z (t : list ascii) : option Z :=
  match t with
  | "-"%char :: t' => option_map (fun n => Z.opp (Z.of_N n)) (read_nat t')
  | _ => option_map Z.of_N (read_nat t)
  end.

(** Pieces of a text between occurrences of a separator character. *)
Fixpoint split (sep : ascii) (t : list ascii) : list (list ascii) :=
  match t with
  | [] => [[]]
  | c :: t' => if Ascii.eqb c sep then [] :: split sep t'
               else match split sep t' with p :: ps => (c :: p) :: ps | [] => [[c]] end
  end.
(** A range: start..end or start..step..end. *)
Definition read_range (t : list ascii) : option (Z * Z * Z) :=
  match split "."%char t with
  | [a; []; b] => match read_Z a, read_Z b with Some x, Some y => Some (x, 1%Z, y) | _, _ => None end
  | [a; []; s; []; b] =>
      match read_Z a, read_Z s, read_Z b with Some x, Some st, Some y => Some (x, st, y) | _, _, _ => None end
  | _ => None
  end.

(** Undoing the escapes: tab, return, newline, escaped quotes and backslash, and the hexadecimal form. *)
Fixpoint take_until (sep : ascii) (t : list ascii) : option (list ascii * list ascii) :=
  match t with
  | [] => None
  | c :: t' => if Ascii.eqb c sep then Some ([], t')
               else match take_until sep t' with Some (a, b) => Some (c :: a, b) | None => None end
  end.
Fixpoint unescape (fuel : nat) (t : list ascii) : option (list N) :=
  match fuel with
  | O => match t with [] => Some [] | _ => None end
  | S f =>
      match t with
      | [] => Some []
      | c :: t1 =>
          if Ascii.eqb c "\"%char then
            match t1 with
            | "t"%char :: t2 => option_map (cons 9) (unescape f t2)
            | "r"%char :: t2 => option_map (cons 13) (unescape f t2)
            | "n"%char :: t2 => option_map (cons 10) (unescape f t2)
            | "u"%char :: "{"%char :: t2 =>
                match take_until "}"%char t2 with
                | Some (h, t3) =>
                    match digits 16 hex_digit 0 h with
                    | Some n => option_map (cons n) (unescape f t3)
                    | None => None
                    end
                | None => None
                end
            | c' :: t2 => option_map (cons (N_of_ascii c')) (unescape f t2)
            | [] => None
            end
          else option_map (cons (N_of_ascii c)) (unescape f t1)
      end
  end.
Definition read_message (t : list ascii) : option (list N) := unescape (length t) t.
