(** * Any arithmetic: C52

    Nothing is assumed about amplitudes, angles, probabilities and samples, nor about the operations on them:
    they may round, overflow, or produce NaNs.  Calls, valid histories and expected replies are in SpecAny;
    [aexec] runs a history on the simulator (Any).  [any_order]: iterating over a hash map visits every entry once. *)
From Coq Require Import NArith List Bool Lia Permutation Floats.
From Verif Require Import Arith ArithF IndexMap Sim SimExp SimApply SpecRun SpecAny Any AnyRun.
Import ListNotations.

(** C52: every valid history runs to its end with the identifiers, the number of samples and the basis states that
    the specification gives, whatever the numbers are.  The one panic left is that of [apply] with a matrix that
    leaves no amplitude above the threshold. *)
Theorem C52_any_arithmetic : forall (A : Arith) (E : @Env A), any_order ->
  forall g h, avalid_run (mkBook [] true) h ->
  (exists rs s, aexec (new_sim g) h = Ok (rs, s) /\
     areplies_ok (mkBook [] true) h rs /\
     rng s = gen_after (mkBook [] true) g h /\
     (N.of_nat (length (op_queue s)) <= 10000)%N) \/
  (aexec (new_sim g) h = Panic EEmptyState /\ Exists is_apply h).
Proof. exact (fun A E O g h V => aexec_ok O h (new_sim g) (mkBook [] true) (new_abook g) V). Qed.
Print Assumptions C52_any_arithmetic.

(** Its hypotheses are met by machine floats, with a rotation by NaN and an infinite phase. *)
Definition nan_history : list (@acall ArithF) :=
  [AAlloc; AAlloc; AAlloc; AGate AH 0; AMc AX [0] 1;
   AApply 2 2 (fun i j => if Nat.eqb i j then (1 / 3, 0 / 0)%float else (2 / 7, 1)%float) [1] (Some [0]); AGate (ARx (0 / 0)%float) 2; AGate (ARy (1 / 0)%float) 1;
   APhase [0] ((1 / 0)%float, 0%float) 1; AMeasure 1; ARelease 0; AState;
   AMcExp [1] [PX_] (0 / 0)%float [2]; ADump; AJointProb [1; 2]; AAlloc].
Example C52_nan : @any_order ArithF EnvF /\ avalid_run (mkBook [] true) nan_history.
Proof.
  split; [intros l; apply Permutation_sym, Permutation_rev|].
  cbn [nan_history avalid_run avalid abstep live tidy]. unfold targets_ok. simpl.
  repeat match goal with
  | |- _ /\ _ => split
  | |- True => exact I
  | |- NoDup _ => repeat constructor; simpl; intuition lia
  | |- incl _ _ => intros x Hx; simpl in *; intuition
  | |- _ \/ _ => simpl; auto
  | |- _ <= _ => lia
  end; reflexivity.
Qed.
(** The panic of [apply] happens, and the history above runs to its end with the identifiers it should give. *)
Definition zero_matrix : list (@acall ArithF) := [AAlloc; AApply 2 2 (fun _ _ => (0, 0)%float) [0] None].
Example C52_empty : match aexec (@new_sim ArithF EnvF []) zero_matrix with Panic EEmptyState => true | _ => false end = true.
Proof. vm_compute. reflexivity. Qed.
Example C52_runs : match aexec (@new_sim ArithF EnvF []) nan_history with
  | Ok ([AId 0; AId 1; AId 2; AUnit; AUnit; AUnit; AUnit; AUnit; AUnit; ABit _; AUnit; AListed _ 2; AUnit; ADumped _; AProb _; AId 0], _) => true
  | _ => false end = true.
Proof. vm_compute. reflexivity. Qed.
