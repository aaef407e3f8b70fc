(** * Specification: callbacks that may raise *)
From Coq Require Import String Ascii List NArith ZArith Reals Bool.
From Verif Require Import Cx Arith ArithR Text Backend Runner SpecRunner Front SpecFront Listen.
Import ListNotations.
Local Open Scope list_scope.

(** The callback returned for each of these texts. *)
Definition took (f : listener) (told : list text) : Prop := forall a t b, told = a ++ t :: b -> f a t = true.
(** It raised for the last of these texts and returned for the others. *)
Definition raised (f : listener) (told : list text) : Prop := exists a t, told = a ++ [t] /\ took f a /\ f a t = false.

Section Asks.
Context {T : Tol} {EN : Env} {D : Doubles} {SW : Shows} {RN : Rand} {LL : Llvm}.
(** What a call with a callback asks for. *)
Definition wants (c : lcall) : task :=
  match c with
  | LFile path e n g _ => mkTask (SFile path) e (or_one n) g
  | LBytes bytes e n g _ => mkTask (SBytes bytes) e (or_one n) g
  end.
Definition ear (c : lcall) : listener := match c with LFile _ _ _ _ f | LBytes _ _ _ _ f => f end.
(** A process that has just started. *)
Definition started (p : proc) : Prop := exists g t std, p = mkProc (mkWorld (back_default g) t) std.
End Asks.
