(** * Specification: programs that use memory correctly *)
From Coq Require Import String Ascii Reals NArith ZArith List Bool Arith.
From Verif Require Import Cx Arith ArithR Sim SimExp SimRun Text Backend Heap SpecHeap QubitArray Args SpecArgs Runner Mixed.
From Verif Require Strings.
Import ListNotations.

Section Sound.
Context {T : Tol} {EN : Env} {D : Doubles} {SW : Shows} {RN : Rand} {M : Mode}.

(** What comes after a call that returns; undefined behaviour is ruled out. *)
Definition onward {X} (w : world) (r : qres X) (k : X -> heap -> world -> Prop) : Prop :=
  match r with QOk x h b => k x h (mkWorld b (wtgen w)) | QHUB => False | _ => True end.
(** A run that gives every function memory of the right kind: controls and targets in arrays of qubits, Paulis in arrays of Paulis,
    argument tuples with their fields, strings; other uses of memory must only be defined.  Failures and panics are allowed. *)
Fixpoint sound (p : mprog) (fuel : nat) (l : gloc p) (st : stack p) (h : heap) (w : world) : Prop :=
  match fuel with
  | O => True
  | S fuel' =>
    match gstep p l with
    | MDone _ _ g =>
      match st with
      | [] => True
      | FInvoke _ _ cal args k :: st' => onward w (mem (invoke_cleanup cal args) h (wback w)) (fun _ => sound p fuel' (k g) st')
      | FCapture _ _ k :: st' => sound p fuel' (k g) st' h w
      end
    | MBack _ _ c k => onward w (dev (bcall1 c) h (wback w)) (fun r => sound p fuel' (k r) st)
    | MArgs _ _ c k => (exists c', denotes h c c') /\ onward w (pcall1 c h (wback w)) (fun r => sound p fuel' (k r) st)
    | MAllocArray _ _ n k => (8 * Z.of_nat n < 2 ^ 63)%Z /\ onward w (qubit_allocate_array n h (wback w)) (fun a => sound p fuel' (k a) st)
    | MReleaseArray _ _ a k => (exists qs, holds_qubits h a qs) /\ onward w (qubit_release_array a h (wback w)) (fun _ => sound p fuel' k st)
    | MHeap _ _ c k => onward w (mem (hcall1 c) h (wback w)) (fun r => sound p fuel' (k r) st)
    | MLoad _ _ t off n k => onward w (mem (tuple_read t off n) h (wback w)) (fun bs => sound p fuel' (k bs) st)
    | MStore _ _ t off bs k => onward w (mem (tuple_write t off bs) h (wback w)) (fun _ => sound p fuel' k st)
    | MText _ _ c k => onward w (mem (tcall1 c) h (wback w)) (fun a => sound p fuel' (k a) st)
    | MMessage _ _ a k =>
      exists t, str_is h a t /\ forall o, Strings.rt_message a h (bout (wback w)) = Strings.MOk o -> sound p fuel' k st h (with_wout w o)
    | MFail _ _ a => exists t, str_is h a t
    | MInvoke _ _ cal args res g k =>
      onward w (mem (enter cal args) h (wback w)) (fun x =>
        sound p fuel' (gcode p (c_table (snd x)) (fst (fst x)) (c_capture (snd x)) (snd (fst x)) res g) (FInvoke _ _ cal (snd (fst x)) k :: st))
    | MCapture _ _ cal by_ is_alias g k =>
      onward w (mem (get_call cal) h (wback w)) (fun c =>
        match match c_mem c with Some t => gcapt p t (if is_alias then 1 else 0) | None => None end with
        | Some f => sound p fuel' (f (c_capture c) by_ g) (FCapture _ _ k :: st)
        | None => sound p fuel' (k g) st
        end)
    | MRandom _ _ lo hi k => match draw_int lo hi w with inl (z, w') => sound p fuel' (k z) st h w' | inr _ => True end
    | MTrap _ _ => True
    end
  end.
(** A program of Runner.v, with memory and the calls that have not returned counted as part of the program. *)
Definition local (p : mprog) : Type := gloc p * stack p * heap.
Definition with_memory (p : mprog) (step : local p -> action (gmem p * heap) (local p)) : program :=
  {| pmem := gmem p * heap; ploc := local p; pinit := (ginit p, []); pstart := fun m => (gstart p (fst m), [], snd m); pstep := step |}.
Definition ending {G} (r : prun (G * heap)) : mend G :=
  match r with PDone m w => MEnd (fst m) (snd m) w | PStop e o => MStopped e o | PMore o => MGoing o end.
Definition asks_no_random (p : mprog) : Prop := forall l lo hi k, gstep p l <> MRandom _ _ lo hi k.
(** Shots one after the other, each with a new simulator, the globals and the memory going on; what each prints. *)
Inductive mshots (p : mprog) (fuel : nat) : nat -> gmem p -> heap -> gen -> tgen -> list text -> gmem p -> heap -> gen -> tgen -> Prop :=
| mshots_none : forall m h g t, mshots p fuel 0 m h g t [] m h g t
| mshots_more : forall n m h g t m1 h1 w recs m' h' g' t',
    sound p fuel (gstart p m) [] h (mkWorld (back_default g) t) ->
    mrun p fuel (gstart p m) [] h (mkWorld (back_default g) t) = MEnd m1 h1 w ->
    mshots p fuel n m1 h1 (rng (bsim (wback w))) (wtgen w) recs m' h' g' t' ->
    mshots p fuel (S n) m h g t (bout (wback w) :: recs) m' h' g' t'.
(** An entry point whose code is [q]. *)
Definition entry_of (name : string) (attrs : list (string * string)) (void : bool) (q : program) : func :=
  {| fname := name; fparams := 0; fvoid := void; fbody := true; fattrs := attrs; fprog := q |}.
End Sound.

(** The value that a call turns into a string, read from the text. *)
From Verif Require Import SpecText DoubleText SpecDouble.
Definition stands_for (h : heap) (c : @tcall D64) (t : text) : Prop :=
  match c with
  | TInt z => read_Z t = Some z
  | TDouble x => reads t x
  | TBool b => t = lit (if b then "true" else "false")
  | TPauli p => t = lit (match p with PI_ => "PauliI" | PX_ => "PauliX" | PY_ => "PauliY" | PZ_ => "PauliZ" end)
  | TBig a => exists z, big_is h a z /\ read_Z t = Some z
  | TRange r => read_range t = Some (r_start r, r_step r, r_end r)
  | TResult r => t = lit (if N.eqb r 1 then "One" else "Zero")
  | TQubit q => read_Z t = Some (Z.of_N q)
  end.
