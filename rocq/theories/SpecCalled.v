(** * Specification: functions of a program that the runtime calls *)
From Coq Require Import Reals NArith ZArith List Bool Arith.
From Verif Require Import Cx Arith ArithR Sim SimExp Spec SpecRun SimRun Text Backend Heap SpecHeap QubitArray Args SpecArgs Runner Mixed SpecMixed
  Captures SpecInvoke.
Import ListNotations.

Section Called.
Context {T : Tol} {EN : Env} {D : Doubles} {SW : Shows} {RN : Rand} {M : Mode}.

(** A function of the program, started at [l], that uses memory correctly, does to the backend what [m] does, leaves the memory and the
    globals [g] as they were and gives back what it took. *)
Definition does (p : mprog) (l : gloc p) (g : gmem p) (h : heap) (w : world) (m : bresult unit) : Prop :=
  (forall n, sound p n l [] h w) /\
  match m with
  | BOk tt b' => exists n h', mrun p n l [] h w = MEnd g h' (mkWorld b' (wtgen w)) /\ undisturbed h h'
  | BErr e o => exists n, mrun p n l [] h w = MStopped (StopErr e) o
  end.
(** As [implements] in SpecInvoke, for the functions of a program. *)
Definition carries_out {A} (p : mprog) (t : nat) (cap : option ptr) (plain ctld : layout A) (op : operation A) : Prop :=
  (forall (adj : bool) a n al d x h w res g, alive h a n al (VTup d) -> plain h d x ->
     does p (gcode p t (if adj then 1 else 0) cap (Some a) res g) g h w (op adj None x (wback w))) /\
  (forall (adj : bool) a n al c d cs x h w res g, alive h a n al (VTup (ptr_bytes (PObj c) ++ d)) -> holds_qubits h c cs -> ctld h d x ->
     does p (gcode p t (if adj then 3 else 2) cap (Some a) res g) g h w (op adj (Some cs) x (wback w))).
(** From [l] the program goes on at [l'] after some steps, whatever calls have not returned, and its use of memory up to there is correct. *)
Definition goes_on (p : mprog) (l : gloc p) (h : heap) (w : world) (l' : gloc p) (h' : heap) (w' : world) : Prop :=
  exists n, forall st,
    (forall fuel, mrun p (n + fuel) l st h w = mrun p fuel l' st h' w') /\
    ((forall fuel, sound p fuel l' st h' w') -> forall fuel, sound p fuel l st h w).
Definition stops (p : mprog) (l : gloc p) (h : heap) (w : world) (e : stop) (o : text) : Prop :=
  exists n, forall st, (forall fuel, mrun p (n + fuel) l st h w = MStopped e o) /\ forall fuel, sound p fuel l st h w.

(** The program's memory functions are those of [mf]: null where they are, and doing to the memory what they do. *)
Definition keeps_captures (p : mprog) (mf : memory_functions) : Prop := forall t i,
  match entry mf t i with
  | None => gcapt p t i = None
  | Some f => exists start, gcapt p t i = Some start /\
      forall cap by_ g h w h', run mf f cap by_ h = HOk tt h' ->
        (forall n, sound p n (start cap by_ g) [] h w) /\ exists n, mrun p n (start cap by_ g) [] h w = MEnd g h' w
  end.
End Called.
