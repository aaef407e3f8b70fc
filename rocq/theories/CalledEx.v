(** * A program whose functions the runtime calls, for examples *)
From Coq Require Import Reals NArith ZArith List Bool Arith Lia.
From Verif Require Import Cx Arith ArithR Sim SimExp Spec SpecRun SimRun Text Backend Heap SpecHeap HeapLemmas HeapThms HeapCalls
  QubitArray Args SpecArgs ArgsThms Runner Mixed SpecMixed Captures Invoke SpecInvoke InvokeThms InvokeEx SpecCalled CalledThms.
Import ListNotations.

Section Prog.
Context {D : Doubles}.
(** Places in the program: invoking callable 0 on tuple 4, and updating the counts of what callable 1 captured; the functions of the
    callable, which read a qubit and maybe an array of controls from their arguments; the function that updates counts. *)
Inductive place := Go | Update | Plain (adj : bool) (a : nat) | Act (adj : bool) (w : list mval) | Ctld (adj : bool) (a : nat)
| ActCtl (adj : bool) (w : list mval) | Count (is_alias : bool) (cap : option ptr) (n : Z) | Finished | Lost.
Definition called_prog (g g' : gname) : mprog :=
  {| gmem := unit; gloc := place; ginit := tt; gstart := fun _ => Go;
     gstep := fun l => match l with
       | Go => MInvoke _ _ 0 (Some 4) None tt (fun _ => Finished)
       | Update => MCapture _ _ 1 2 false tt (fun _ => Finished)
       | Plain adj a => MLoad _ _ a 0 8 (Act adj)
       | Act adj w => match word_qubit w with Some q => MBack _ _ (QGate (if adj then g' else g) q) (fun _ => Finished) | None => MTrap _ _ end
       | Ctld adj a => MLoad _ _ a 0 16 (ActCtl adj)
       | ActCtl adj w =>
         match word_object (firstn 8 w), word_qubit (skipn 8 w) with
         | Some c, Some q => MArgs _ _ (PCtl (if adj then g' else g) c q) (fun _ => Finished)
         | _, _ => MTrap _ _
         end
       | Count al (Some (PObj t)) n => MHeap _ _ (if al then HAlias t n else HRef t n) (fun _ => Finished)
       | Count _ _ _ | Lost => MTrap _ _
       | Finished => MDone _ _ tt
       end;
     gcode := fun _ i _ args _ _ => match args with Some a => if Nat.ltb i 2 then Plain (Nat.odd i) a else Ctld (Nat.odd i) a | None => Lost end;
     gcapt := fun _ i => Some (fun cap n _ => Count (Nat.eqb i 1) cap n) |}.
(** What its memory functions do to the memory. *)
Definition counts {M : Mode} : memory_functions :=
  mkMem (fun _ i => Some i) (fun i cap k => match cap with Some (PObj t) => update_counts t k (Nat.eqb i 1) | _ => hub end).
Definition captured : heap :=
  [live 1 0 (VTup (ptr_bytes (PQubit 5))); live 1 0 (VCall (mkCallable 9 (Some 4) (Some (PObj 0)) false 0))].

Context {T : Tol} {EN : Env} {SW : Shows} {RN : Rand} {M : Mode}.
Lemma finished_sound : forall g g' n h w, sound (called_prog g g') n Finished [] h w.
Proof. intros g g' [|n] h w; exact I. Qed.
Lemma called_ok : forall g g' t cap, carries_out (called_prog g g') t cap one_qubit one_qubit (gate_op g g').
Proof.
  intros g g' t cap. split.
  - intros adj a n al d q h w res m Aa (wd & rest & -> & Q). destruct m.
    assert (R : tuple_read a 0 8 h = HOk wd h).
    { replace 8 with (length wd) by (exact (word_len _ _ Q)). apply tuple_ok. exists n, al, rest. exact Aa. }
    replace (gcode (called_prog g g') t (if adj then 1 else 0) cap (Some a) res tt) with (Plain adj a) by (destruct adj; reflexivity).
    unfold gate_op, gate_call. set (g1 := if adj then g' else g). destruct w as [b tg]. cbn [wback]. split.
    + intros [|[|n']]; try exact I; cbn [sound gstep called_prog]; unfold mem; cbn [wback]; rewrite R; [exact I|].
      cbn [onward wtgen sound gstep called_prog wback]. rewrite (word_qubit_ok _ _ Q). fold g1. unfold dev. cbn [wback].
      destruct (bcall1 (QGate g1 q) b) as [r b'|e o]; [|exact I]. apply finished_sound.
    + assert (X : forall f, mrun (called_prog g g') (S (S (S f))) (Plain adj a) [] h (mkWorld b tg) =
        match bcall1 (QGate g1 q) b with BOk _ b' => MEnd tt h (mkWorld b' tg) | BErr e o => MStopped (StopErr e) o end).
      { intros f. cbn [mrun gstep called_prog]. unfold mem. cbn [wback]. rewrite R. cbn [mnext wtgen gstep called_prog wback]. rewrite (word_qubit_ok _ _ Q).
        fold g1. unfold dev. cbn [wback]. destruct (bcall1 (QGate g1 q) b) as [r b'|e o]; reflexivity. }
      specialize (X 0). destruct (bcall1 (QGate g1 q) b) as [r b'|e o].
      * exists 3, h. split; [exact X|]. split; [reflexivity|]. intros; lia.
      * exists 3. exact X.
  - intros adj a n al c d cs q h w res m Aa Hq (wd & rest & -> & Q). destruct m.
    assert (R : tuple_read a 0 16 h = HOk (ptr_bytes (PObj c) ++ wd) h).
    { replace 16 with (length (ptr_bytes (PObj c) ++ wd)) by (rewrite app_length, ptr_bytes_len, (word_len _ _ Q); reflexivity).
      apply tuple_ok. exists n, al, rest. rewrite <- app_assoc. exact Aa. }
    replace (gcode (called_prog g g') t (if adj then 3 else 2) cap (Some a) res tt) with (Ctld adj a) by (destruct adj; reflexivity).
    unfold gate_op, gate_call. set (g1 := if adj then g' else g). destruct w as [b tg]. cbn [wback].
    destruct (app8 (ptr_bytes (PObj c)) wd (ptr_bytes_len _)) as [F8 S8].
    assert (Dn := D_ctl _ g1 c cs q Hq). assert (Ea := args_thm _ _ _ Dn b). unfold after in Ea. cbn [temps] in Ea. rewrite app_nil_r in Ea. split.
    + intros [|[|n']]; try exact I; cbn [sound gstep called_prog]; unfold mem; cbn [wback]; rewrite R; [exact I|].
      cbn [onward wtgen sound gstep called_prog wback]. rewrite F8, S8, word_object_ok, (word_qubit_ok _ _ Q). fold g1. split; [eexists; exact Dn|].
      cbn [wback]. rewrite Ea. destruct (bcall1 (QCtl g1 cs q) b) as [r b'|e o]; [|exact I]. apply finished_sound.
    + assert (X : forall f, mrun (called_prog g g') (S (S (S f))) (Ctld adj a) [] h (mkWorld b tg) =
        match bcall1 (QCtl g1 cs q) b with BOk _ b' => MEnd tt h (mkWorld b' tg) | BErr e o => MStopped (StopErr e) o end).
      { intros f. cbn [mrun gstep called_prog]. unfold mem. cbn [wback]. rewrite R. cbn [mnext wtgen gstep called_prog wback].
        rewrite F8, S8, word_object_ok, (word_qubit_ok _ _ Q). fold g1. cbn [wback]. rewrite Ea. destruct (bcall1 (QCtl g1 cs q) b) as [r b'|e o]; reflexivity. }
      specialize (X 0). destruct (bcall1 (QCtl g1 cs q) b) as [r b'|e o].
      * exists 3, h. split; [exact X|]. split; [reflexivity|]. intros; lia.
      * exists 3. exact X.
Qed.
Lemma counts_ok : forall g g', keeps_captures (called_prog g g') counts.
Proof.
  intros g g' t i. exists (fun cap n _ => Count (Nat.eqb i 1) cap n). split; [reflexivity|].
  intros cap n [] h [b tg] h' E. cbn [run counts] in E. destruct cap as [[a|]|]; try discriminate.
  assert (C : mem (hcall1 (if Nat.eqb i 1 then HAlias a n else HRef a n)) h b = QOk RUnit h' b).
  { unfold mem. destruct (Nat.eqb i 1); cbn [hcall1]; unfold Heap.runit; rewrite (bind_ok _ _ _ _ _ _ _ E); reflexivity. }
  split.
  - intros [|n']; [exact I|]. cbn [sound gstep called_prog wback]. rewrite C. apply finished_sound.
  - exists 2. cbn [mrun gstep called_prog wback]. rewrite C. reflexivity.
Qed.
End Prog.
