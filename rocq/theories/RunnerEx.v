(** * Concrete modules, for examples and counterexamples *)
From Coq Require Import String Ascii List NArith ZArith Reals Bool Lia.
From Verif Require Import Cx Bits Arith ArithR IndexMap Sim SimExp SimApply Spec SpecRun SimRun Text Backend World SimEx BackEx Runner SpecRunner RunnerThms RunnerLink.
Import ListNotations.
Section Generic.
Context {D : Doubles}.
(** Straight-line programs. *)
Definition straight (cs : list bcall) : program :=
  {| pmem := unit; ploc := list bcall; pinit := tt; pstart := fun _ => cs;
     pstep := fun l => match l with [] => ADone tt | c :: l' => ACall c (fun _ => l') end |}.
Lemma straight_draws : forall cs, draws_nothing (straight cs).
Proof. intros cs l lo hi k. destruct l; discriminate. Qed.
Lemma straight_keeps : forall cs, keeps_nothing (straight cs).
Proof. intros cs [] []. reflexivity. Qed.
Definition entry (name : string) (attrs : list (string * string)) (params : nat) (void : bool) (p : program) : func :=
  {| fname := name; fparams := params; fvoid := void; fbody := true; fattrs := attrs; fprog := p |}.
Definition declare (name : string) (params : nat) : func :=
  {| fname := name; fparams := params; fvoid := true; fbody := false; fattrs := []; fprog := straight [] |}.
End Generic.
Local Existing Instance T0.
Local Existing Instance E0.
Local Existing Instance D0.
Local Existing Instance SW0.
(** A thread generator that always draws one end of the range. *)
Definition RN0 : Rand := {| seeded := fun _ => g0; tgen := bool; draw_range := fun lo hi t => (if t then hi else lo, t) |}.
Local Existing Instance RN0.

(** A program with a counter that outlives the shot: it prints how often it has run. *)
Definition counting : program :=
  {| pmem := Z; ploc := Z * bool; pinit := 0%Z; pstart := fun m => (m, true);
     pstep := fun l => let '(m, first) := l in
       if first : bool then ACall (QRecord (RecInt m None)) (fun _ => ((m + 1)%Z, false)) else ADone m |}.
(** A program that prints a drawn bit. *)
Definition coin : program :=
  {| pmem := unit; ploc := option Z * bool; pinit := tt; pstart := fun _ => (None, true);
     pstep := fun l => match l with
       | (None, _) => ARandom 0 1 (fun z => (Some z, true))
       | (Some z, true) => ACall (QRecord (RecInt z None)) (fun _ => (Some z, false))
       | (Some _, false) => ADone tt
       end |}.

Definition LL0 (fs : list func) : Llvm :=
  {| parse_bitcode := fun _ => inl fs; parse_text := fun _ => inl fs; prepare := fun x => inl x; read_file := fun _ => inl [] |}.
Definition proc0 (std t : bool) : proc := mkProc (mkWorld (back_default g0) t) std.

(** Prints a result that is still unset, then leaves a qubit, a pending gate and a stored result behind. *)
Definition dirty : list bcall := [QResult 2 None; QGate GX 3; QWriteResult true 2].
Definition dirty_module : list func :=
  [declare "__quantum__qis__x__body" 1; declare "__quantum__rt__write_result" 2; declare "llvm.dbg.value" 3;
   entry "main" [("entry_point", ""); ("required_num_qubits", "4")]%string 0 true (straight dirty);
   entry "helper" [] 2 false (straight [])].
Definition dirty_main : func := entry "main" [("entry_point", ""); ("required_num_qubits", "4")]%string 0 true (straight dirty).
Lemma dirty_linked : bind_functions dirty_module = Linked.
Proof. vm_compute. reflexivity. Qed.
Lemma dirty_only : only_one (wanted None) dirty_module dirty_main.
Proof. apply (proj1 (choose_thm dirty_module None)). reflexivity. Qed.
Definition dirty_back : back :=
  mkBack (mkSim [(0%N, C1)] [Some 0; Some 1; Some 2; Some 3]%nat g0 0%N [] [] [([], 3%nat, OX)]) [false; false; true] 4 (render (RecResult false None)).
Lemma dirty_shot : forall m t, fresh_run dirty_main 10 m g0 t = PDone tt (mkWorld dirty_back t).
Proof. intros m t. reflexivity. Qed.
Lemma dirty_shots : forall t, shots_of dirty_main 10 2 tt g0 t [render (RecResult false None); render (RecResult false None)] tt g0 t.
Proof.
  intros t. eapply (shots_more dirty_main 10 1 tt g0 t tt (mkWorld dirty_back t)); [apply dirty_shot|].
  eapply (shots_more dirty_main 10 0 tt g0 t tt (mkWorld dirty_back t)); [apply dirty_shot|]. constructor.
Qed.
Lemma dirty_run : forall l std t, exists evs p', @run_module T0 E0 D0 SW0 RN0 (LL0 l) dirty_module None 10 2 (proc0 std t) = (evs, ROk, p').
Proof.
  intros l std t. unfold run_module. cbn [prepare LL0]. rewrite dirty_linked.
  change (choose_entry_point dirty_module None) with (@inl func string dirty_main).
  exact (shots_run dirty_main 10 2 tt (proc0 std t) _ _ _ _ eq_refl eq_refl (dirty_shots t)).
Qed.
Definition count_main : func := entry "main" [("EntryPoint", "")]%string 0 true counting.
Definition coin_main : func := entry "main" [("EntryPoint", "")]%string 0 true coin.
Definition fail_main : func := entry "main" [("EntryPoint", "")]%string 0 true (straight [QResult 0 None; QFail (codes "no")]).
(** A process in which a program has already run. *)
Definition used_proc : proc := mkProc (mkWorld (with_out dirty_back []) true) true.
