(** * A program that uses memory and qubits, for examples *)
From Coq Require Import String Ascii Reals NArith ZArith List Bool Arith Lia.
From Coq.Strings Require Import Byte.
From Verif Require Import Cx Arith ArithR Sim SimExp SimRun SpecRun Text Backend Heap SpecHeap HeapLemmas HeapThms HeapCalls
  SpecString Utf8 StringThms QubitArray QubitArrayThms Args SpecArgs ArgsThms Runner SpecRunner Mixed SpecMixed MixedThms.
From Verif Require Strings.
Import ListNotations.

Section Ex.
Context {D : Doubles}.
(** Two qubits in an array are the controls of a third; the array is given back; a message is made and printed.  The third number of
    the local state is an array, the second the place in the program. *)
Definition toffoli_prog : mprog :=
  {| gmem := unit; gloc := nat * nat; ginit := tt; gstart := fun _ => (0, 0);
     gstep := fun l => match l with
       | (0, _) => MAllocArray _ _ 2 (fun a => (1, a))
       | (1, a) => MBack _ _ (QGate GH 5) (fun _ => (2, a))
       | (2, a) => MArgs _ _ (PCtl GX a 5) (fun _ => (3, a))
       | (3, a) => MReleaseArray _ _ a (4, a)
       | (4, a) => MText _ _ (TInt 7) (fun s => (5, s))
       | (5, s) => MMessage _ _ s (6, s)
       | (6, s) => MHeap _ _ (HRef s (-1)) (fun _ => (7, s))
       | (_, _) => MDone _ _ tt
       end;
     gcode := fun _ _ _ _ _ _ => (7, 0); gcapt := fun _ _ => None |}.
Context {T : Tol} {EN : Env} {SW : Shows} {RN : Rand} {M : Mode}.
Lemma cell_qubits : forall qs, (8 * Z.of_nat (length qs) < 2 ^ 63)%Z -> forall h k, holds_qubits (h ++ qubit_cell qs :: k) (length h) qs.
Proof.
  intros qs B h k. exists 1, 0, (map qword qs). rewrite map_length. split; [split|split; [|exact B]].
  - apply alive_iff. split; [lia|]. rewrite nth_error_app2, Nat.sub_diag by lia. reflexivity.
  - apply Forall_forall. intros x Hx. apply in_map_iff in Hx. destruct Hx as (q & <- & _). unfold qword. now rewrite ptr_bytes_len.
  - clear. induction qs; constructor; [now left|assumption].
Qed.
Lemma sound_7 : forall fuel a h w, sound toffoli_prog fuel (7, a) [] h w.
Proof. intros [|fuel] a h w; exact I. Qed.
Lemma sound_6 : forall fuel c w, sound toffoli_prog fuel (6, 1) [] [c; live 1 0 (VStr (lit "7"))] w.
Proof. intros [|fuel] c w; [exact I|]. cbn [sound gstep toffoli_prog]. exact (sound_7 fuel 1 _ _). Qed.
Lemma sound_5 : forall fuel c w, sound toffoli_prog fuel (5, 1) [] [c; live 1 0 (VStr (lit "7"))] w.
Proof.
  intros [|fuel] c w; [exact I|]. cbn [sound gstep toffoli_prog]. exists (lit "7"). split.
  - exists 1, 0. apply alive_iff. split; [lia|reflexivity].
  - intros o _. apply sound_6.
Qed.
Lemma sound_4 : forall fuel c w, sound toffoli_prog fuel (4, 0) [] [c] w.
Proof. intros [|fuel] c w; [exact I|]. cbn [sound gstep toffoli_prog]. exact (sound_5 fuel c _). Qed.
Lemma sound_3 : forall fuel qs w, length qs = 2 -> sound toffoli_prog fuel (3, 0) [] [qubit_cell qs] w.
Proof.
  intros [|fuel] qs w L; [exact I|]. cbn [sound gstep toffoli_prog].
  assert (Hq : holds_qubits [qubit_cell qs] 0 qs) by (apply (cell_qubits qs ltac:(rewrite L; lia) [] [])). split; [now exists qs|].
  rewrite (release_exact _ _ _ _ Hq). destruct (rt_release_array qs (wback w)) as [[] b|]; [|exact I]. exact (sound_4 fuel _ _).
Qed.
Lemma sound_2 : forall fuel qs w, length qs = 2 -> sound toffoli_prog fuel (2, 0) [] [qubit_cell qs] w.
Proof.
  intros [|fuel] qs w L; [exact I|]. cbn [sound gstep toffoli_prog].
  assert (Hq : holds_qubits [qubit_cell qs] 0 qs) by (apply (cell_qubits qs ltac:(rewrite L; lia) [] [])).
  assert (Dn := D_ctl _ GX 0 qs 5 Hq). split; [eexists; exact Dn|]. rewrite (args_thm _ _ _ Dn (wback w)). unfold after.
  destruct (bcall1 (QCtl GX qs 5) (wback w)) as [r b|]; [|exact I]. exact (sound_3 fuel qs _ L).
Qed.
Lemma sound_1 : forall fuel qs w, length qs = 2 -> sound toffoli_prog fuel (1, 0) [] [qubit_cell qs] w.
Proof.
  intros [|fuel] qs w L; [exact I|]. cbn [sound gstep toffoli_prog]. unfold dev.
  destruct (bcall1 (QGate GH 5) (wback w)) as [r b|]; [|exact I]. exact (sound_2 fuel qs _ L).
Qed.
Lemma toffoli_sound : forall fuel w, sound toffoli_prog fuel (0, 0) [] [] w.
Proof.
  intros [|fuel] w; [exact I|]. cbn [sound gstep toffoli_prog]. split; [lia|]. rewrite (alloc_exact 2 [] (wback w) ltac:(lia)).
  destruct (rt_allocate_array 2 (wback w)) as [qs b|] eqn:E; [|exact I]. exact (sound_1 fuel qs _ (allocate_len _ _ _ _ E)).
Qed.
End Ex.

(** A shot computed. *)
Definition small_prog {D : Doubles} : mprog :=
  {| gmem := nat; gloc := nat * nat * nat; ginit := 0; gstart := fun m => (0, m, 0);
     gstep := fun l => match l with
       | (0, m, _) => MAllocArray _ _ 2 (fun a => (1, m, a))
       | (1, m, a) => MArgs _ _ (PCtl GX a 2) (fun _ => (2, m, a))
       | (2, m, a) => MHeap _ _ (HRef a (-1)) (fun _ => (3, m, a))
       | (3, m, _) => MText _ _ (TInt (Z.of_nat m)) (fun s => (4, m, s))
       | (4, m, s) => MMessage _ _ s (5, m, s)
       | (_, m, _) => MDone _ _ (S m)
       end;
     gcode := fun _ _ _ _ _ m => (5, m, 0); gcapt := fun _ _ => None |}.
From Verif Require Import World SimEx BackEx RunnerEx.
Local Existing Instance T0.
Local Existing Instance E0.
Local Existing Instance D0.
Local Existing Instance SW0.
Local Existing Instance RN0.
Definition debug_mode : Mode := {| overflow_checks := true |}.
Local Existing Instance debug_mode.
Lemma small_run : exists h w, mshots small_prog 6 1 0 [] g0 true [lit "INFO" ++ TAB :: lit "0" ++ [NL]] 1 h (rng (bsim (wback w))) (wtgen w) /\
  length h = 2.
Proof.
  assert (Ea : exists b1, rt_allocate_array 2 (back_default g0) = BOk [0; 1] b1 /\ exists b2, bcall1 (QCtl GX [0; 1] 2) b1 = BOk VUnit b2 /\ bout b2 = []).
  { exists (@mkBack T0 E0 (@mkSim (@RArith T0) E0 [(0%N, C1)] [Some 0; Some 1] g0 0%N [] [] []) [] 2 []). split; [reflexivity|].
    exists (@mkBack T0 E0 (@mkSim (@RArith T0) E0 [(0%N, C1)] [Some 0; Some 1; Some 2] g0 0%N [] [] [([0; 1], 2, OX)]) [] 3 []). split; reflexivity. }
  destruct Ea as (b1 & E1 & b2 & E2 & O2).
  assert (Hq : holds_qubits [qubit_cell [0; 1]] 0 [0; 1]) by (apply (cell_qubits [0; 1] ltac:(cbn; lia) [] [])).
  assert (Dn := D_ctl _ GX 0 [0; 1] 2 Hq).
  assert (E3 := args_thm _ _ _ Dn b1). unfold after in E3. rewrite E2 in E3. cbn [temps app] in E3. clear E2.
  assert (E4 : exists c, hcall1 (HRef 0 (-1)) [qubit_cell [0; 1]] = HOk RUnit [c]) by (eexists; reflexivity). destruct E4 as [c E4].
  assert (E5 : tcall1 (TInt 0) [c] = HOk 1 [c; live 1 0 (VStr (lit "0"))]) by reflexivity.
  set (h := [c; live 1 0 (VStr (lit "0"))]) in *.
  assert (S5 : str_is h 1 (lit "0")) by (exists 1, 0; apply alive_iff; split; [lia|reflexivity]).
  assert (E6 : forall o, Strings.rt_message 1 h o = Strings.MOk (o ++ lit "INFO" ++ TAB :: lit "0" ++ [NL])).
  { intros o. apply message_plain; [exact S5|]. repeat constructor; cbn; lia. }
  pose (w := with_wout (mkWorld b2 true) ([] ++ lit "INFO" ++ TAB :: lit "0" ++ [NL])).
  exists h, w. split; [|reflexivity].
  assert (R := alloc_exact 2 [] (back_default g0) ltac:(lia)). rewrite E1 in R. cbn [length app] in R.
  change ([lit "INFO" ++ TAB :: lit "0" ++ [NL]]) with ([bout (wback w)]).
  apply (mshots_more small_prog 6 0 0 [] g0 (true : @tgen T0 E0 RN0) 1 h w [] 1 h (rng (bsim (wback w))) (wtgen w)); [| |apply mshots_none].
  - cbn [sound gstep gstart small_prog]. split; [lia|]. cbn [wback]. rewrite R. cbn [onward wtgen wback]. split; [eexists; exact Dn|].
    rewrite E3. cbn [onward wtgen wback]. unfold mem. rewrite E4. cbn [onward wtgen wback]. change (Z.of_nat 0) with 0%Z. rewrite E5.
    cbn [onward wtgen wback]. exists (lit "0"). split; [exact S5|]. intros o _. exact I.
  - cbn [mrun gstep gstart small_prog]. cbn [wback]. rewrite R. cbn [mnext wtgen wback].
    rewrite E3. cbn [mnext wtgen wback]. unfold mem. rewrite E4. cbn [mnext wtgen wback]. change (Z.of_nat 0) with 0%Z. rewrite E5.
    cbn [mnext wtgen wback]. rewrite E6, O2. reflexivity.
Qed.
