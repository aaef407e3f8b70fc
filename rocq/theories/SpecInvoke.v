(** * Specification: operations behind callables *)
From Coq Require Import Reals NArith ZArith List Bool Arith.
From Verif Require Import Cx Arith ArithR Sim SimExp Spec SpecRun SimRun Text Backend Heap SpecHeap QubitArray Args SpecArgs Invoke.
Import ListNotations.

Section Operations.
Context {T : Tol} {EN : Env} {D : Doubles} {SW : Shows} {M : Mode}.
(** The type of the arguments. *)
Context {A : Type}.

(** An operation: adjoint or not, without controls or controlled by these qubits, on these arguments. *)
Definition operation := bool -> option (list nat) -> A -> B unit.
(** How arguments lie in memory: these bytes stand for this value.  Living objects may be looked at, their counts may not. *)
Definition layout := heap -> list mval -> A -> Prop.
Definition keeps_values (h h1 : heap) : Prop := forall a n al v, alive h a n al v -> exists n', alive h1 a n' al v.
Definition lasting (P : layout) : Prop := forall h h1 d x, keeps_values h h1 -> P h d x -> P h1 d x.

(** A run that does to the backend what [m] does, leaves the memory as it was and gives back what it took. *)
Definition runs (r : qres unit) (h : heap) (m : bresult unit) : Prop :=
  match m with
  | BOk tt b' => exists h', r = QOk tt h' b' /\ undisturbed h h'
  | BErr e o => r = QBErr e o
  end.
(** The four functions of table [t] with captured values [cap] do the operation: the arguments are in a tuple, after the array of
    controls if it is controlled. *)
Definition implements (callee : code) (t : nat) (cap : option ptr) (plain ctld : layout) (op : operation) : Prop :=
  (forall (adj : bool) a n al d x h b, alive h a n al (VTup d) -> plain h d x ->
     runs (callee t (if adj then 1 else 0) cap (Some a) h b) h (op adj None x b)) /\
  (forall (adj : bool) a n al c d cs x h b, alive h a n al (VTup (ptr_bytes (PObj c) ++ d)) -> holds_qubits h c cs -> ctld h d x ->
     runs (callee t (if adj then 3 else 2) cap (Some a) h b) h (op adj (Some cs) x b)).

(** Arguments given to a callable that was controlled as often as the list is long: nested pairs of an array of controls and the rest,
    the outermost first. *)
Fixpoint nested (ctld : layout) (h : heap) (a : nat) (cs : list nat) (css : list (list nat)) (x : A) : Prop :=
  exists n al c tail, alive h a n al (VTup (ptr_bytes (PObj c) ++ tail)) /\ holds_qubits h c cs /\
    match css with
    | [] => ctld h tail x
    | cs' :: css' => exists inner more, tail = ptr_bytes (PObj inner) ++ more /\ nested ctld h inner cs' css' x
    end.
Definition given (plain ctld : layout) (h : heap) (a : nat) (css : list (list nat)) (x : A) : Prop :=
  match css with
  | [] => exists n al d, alive h a n al (VTup d) /\ plain h d x
  | cs :: css' => nested ctld h a cs css' x
  end.
Definition all_controls (css : list (list nat)) : option (list nat) := match css with [] => None | _ => Some (concat css) end.
Definition fits (css : list (list nat)) : Prop := (8 * Z.of_nat (length (concat css)) < 2 ^ 63)%Z.
(** Applying functors: true is Adjoint, false is Controlled. *)
Definition functors (cal : nat) (fs : list bool) : list hcall := map (fun f : bool => if f then HAdjoint cal else HControlled cal) fs.
End Operations.
Arguments operation {T EN} A. Arguments layout A : clear implicits.

(** The conjugate transpose of a matrix. *)
Definition dagger (U : mat) : mat := fun r c => let z := U c r in (fst z, (- snd z)%R).
(** Gates without angles and their adjoints. *)
Definition adjoint_of (g : gname) : option gname :=
  match g with
  | GX => Some GX | GY => Some GY | GZ => Some GZ | GH => Some GH
  | GS => Some GSadj | GSadj => Some GS | GT => Some GTadj | GTadj => Some GT
  | _ => None
  end.
Section Gates.
Context {T : Tol} {EN : Env} {D : Doubles} {SW : Shows}.
(** The operation on one qubit given by the gates [g] and [g'], its adjoint. *)
Definition gate_call (g : gname) (ctl : option (list nat)) (q : nat) : bcall :=
  match ctl with None => QGate g q | Some cs => QCtl g cs q end.
Definition gate_op (g g' : gname) : operation nat := fun adj ctl q b =>
  match bcall1 (gate_call (if adj then g' else g) ctl q) b with BOk _ b' => BOk tt b' | BErr e o => BErr e o end.
(** Arguments that begin with a qubit. *)
Definition one_qubit : layout nat := fun _ d q => exists w rest, d = w ++ rest /\ qubit_bytes w q.
End Gates.
