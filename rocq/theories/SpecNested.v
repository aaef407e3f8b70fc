(** * Specification: callbacks that call the runner *)
From Coq Require Import String Ascii List NArith ZArith Reals Bool.
From Verif Require Import Cx Arith ArithR Text Backend Runner SpecRunner Front SpecFront Listen Nested.
Import ListNotations.
Local Open Scope list_scope.

(** All calls that the callback makes, and that their callbacks make, have a callback. *)
Inductive polite : plan -> Prop :=
| polite_done : forall ok, polite (Done ok)
| polite_ask : forall c g k, (forall told t, polite (g told t)) -> (forall r, polite (k r)) -> polite (Ask c (Some g) k).
(** It can return, or raise, with suitable replies to its calls. *)
Inductive can_end : plan -> bool -> Prop :=
| end_done : forall ok, can_end (Done ok) ok
| end_ask : forall c g k r ok, can_end (k r) ok -> can_end (Ask c g k) ok.
Definition heeded (f : hearer) (told : list text) : Prop := forall a t b, told = a ++ t :: b -> can_end (f a t) true.
Definition refused (f : hearer) (told : list text) : Prop := exists a t, told = a ++ [t] /\ can_end (f a t) false.

(** How it ends if every call panics. *)
Fixpoint deaf (x : plan) : bool := match x with Done ok => ok | Ask _ _ k => deaf (k BackPanic) end.
(** The texts that begin as records do: with OUTPUT or INFO. *)
Definition like_record (t : text) : Prop := exists r, t = "O"%char :: r \/ t = "I"%char :: r.

Section SpecNested.
Context {T : Tol} {EN : Env} {D : Doubles} {SW : Shows} {RN : Rand} {LL : Llvm}.
(** Shots in order, each in a fresh simulator, with the memory of the program going on from shot to shot and whatever generators. *)
Inductive shots_anyhow (f : func) (fuel : nat) : pmem (fprog f) -> list text -> pmem (fprog f) -> Prop :=
| anyhow_none : forall m, shots_anyhow f fuel m [] m
| anyhow_more : forall m g t m1 w recs m', fresh_run f fuel m g t = PDone m1 w -> shots_anyhow f fuel m1 recs m' ->
    shots_anyhow f fuel m (bout (wback w) :: recs) m'.
(** The entry point that a call asks for. *)
Definition module_of (a : aim) : parsed :=
  match a with
  | AFile path => load_file path
  | ABytes bytes => create_module_from_ir bytes (negb (is_bitcode bytes))
  end.
Definition entry_of (c : request) (e : func) : Prop :=
  exists fs fs', module_of (q_aim c) = Parsed fs /\ prepare fs = inl fs' /\ only_one (wanted (q_name c)) fs' e.
Definition blocks (e : func) (recs : list text) : text := concat (map (block (fattrs e)) recs).
(** Text of up to n shots that ends with a shot or with the head of a shot. *)
Definition up_to (e : func) (fuel n : nat) (text : Text.text) : Prop :=
  exists recs m, shots_anyhow e fuel (pinit (fprog e)) recs m /\
    (text = blocks e recs /\ length recs <= n \/ text = blocks e recs ++ preamble (fattrs e) /\ length recs < n).
(** What the program prints in a shot does not depend on the generators. *)
Definition settled_text (e : func) (fuel : nat) : Prop :=
  forall m g t g' t' m1 w1 m2 w2, fresh_run e fuel m g t = PDone m1 w1 -> fresh_run e fuel m g' t' = PDone m2 w2 ->
  m1 = m2 /\ bout (wback w1) = bout (wback w2).
End SpecNested.
