(** * What a shot prints with rounding, against quantum mechanics: specification

    A program over any arithmetic and the exact program it stands for, the simulator calls a shot can make, and the ways it can end.
    The chances of quantum mechanics are those of SpecChance. *)
From Coq Require Import String List NArith ZArith Reals Bool.
From Verif Require Import Cx Bits Arith ArithR Sim SimExp Spec SpecExp SpecRun SimRun SpecAny Any SpecNear SpecRound SpecLedger SpecRoundR
  Text Backend SpecBackend Runner SpecRunner SpecIdeal SpecChance SpecOdds BackAny.
Import ListNotations.
Local Open Scope R_scope.
Local Open Scope list_scope.

(** ** The exact program *)
Section Exact.
Context {A : Arith} {AP : Approx} {D : Doubles}.
Definition exact_gate (g : agate) : gname :=
  match g with
  | AX => GX | AY => GY | AZ => GZ | AH => GH | AS => GS | ASadj => GSadj | AT => GT | ATadj => GTadj
  | ARx t => GRx (tval t) | ARy t => GRy (tval t) | ARz t => GRz (tval t)
  end.
Definition exact_call (c : acallb) : bcall :=
  match c with
  | UGate g q => QGate (exact_gate g) q | UC1 g c t => QC1 (exact_gate g) c t | UC2 g c1 c2 t => QC2 (exact_gate g) c1 c2 t
  | UCtl g cs q => QCtl (exact_gate g) cs q
  | USx q => QSx q | URxx th a b => QRxx (tval th) a b | URyy th a b => QRyy (tval th) a b | URzz th a b => QRzz (tval th) a b
  | UR p th q => QR p (tval th) q | URAdj p th q => QRAdj p (tval th) q
  | URCtl cs p th q => QRCtl cs p (tval th) q | URCtlAdj cs p th q => QRCtlAdj cs p (tval th) q
  | UExp ps th qs => QExp ps (tval th) qs | UExpAdj ps th qs => QExpAdj ps (tval th) qs
  | UExpCtl cs ps th qs => QExpCtl cs ps (tval th) qs | UExpCtlAdj cs ps th qs => QExpCtlAdj cs ps (tval th) qs
  | USwap a b => QSwap a b | UReset q => QReset q | UMresetz q i => QMresetz q i | UMz q i => QMz q i
  | UReadResult i => QReadResult i | UWriteResult v i => QWriteResult v i
  | UM q => QM q | UMeasure ps qs => QMeasure ps qs
  | UAlloc => QAlloc | UAllocArray n => QAllocArray n | URelease q => QRelease q | UReleaseArray qs => QReleaseArray qs
  | UQubitString q => QQubitString q | UBarrier => QBarrier
  | UResult i tag => QResult i tag | UResultLegacy i => QResultLegacy i
  | URecord r => QRecord r
  | UFail m => QFail m
  | UInit => QInit
  end.
Definition exact_step {M L} (a : aact M L) : action M L :=
  match a with
  | BDone m => ADone m
  | BCall c k => ACall (exact_call c) k
  | BRandom lo hi k => ARandom lo hi k
  | BTrap => ATrap
  end.
(** The same program with angles as real numbers; [mem] is its memory before the shot. *)
Definition exact_program (p : aprogram) (mem : amem p) : program :=
  Build_program (amem p) (aloc p) mem (astart p) (fun l => exact_step (astep p l)).
End Exact.

(** The same program in the model over any arithmetic, with exact numbers. *)
Section Real.
Context {A : Arith} {AP : Approx} {D : Doubles} {T : Tol}.
Definition real_gate (g : agate) : @agate RArith :=
  match g with
  | AX => @AX RArith | AY => @AY RArith | AZ => @AZ RArith | AH => @AH RArith | AS => @AS RArith | ASadj => @ASadj RArith
  | AT => @AT RArith | ATadj => @ATadj RArith
  | ARx t => @ARx RArith (tval t) | ARy t => @ARy RArith (tval t) | ARz t => @ARz RArith (tval t)
  end.
Definition real_call (c : acallb) : @acallb RArith D :=
  match c with
  | UGate g q => @UGate RArith D (real_gate g) q | UC1 g c t => @UC1 RArith D (real_gate g) c t
  | UC2 g c1 c2 t => @UC2 RArith D (real_gate g) c1 c2 t | UCtl g cs q => @UCtl RArith D (real_gate g) cs q
  | USx q => @USx RArith D q | URxx th a b => @URxx RArith D (tval th) a b | URyy th a b => @URyy RArith D (tval th) a b
  | URzz th a b => @URzz RArith D (tval th) a b
  | UR p th q => @UR RArith D p (tval th) q | URAdj p th q => @URAdj RArith D p (tval th) q
  | URCtl cs p th q => @URCtl RArith D cs p (tval th) q | URCtlAdj cs p th q => @URCtlAdj RArith D cs p (tval th) q
  | UExp ps th qs => @UExp RArith D ps (tval th) qs | UExpAdj ps th qs => @UExpAdj RArith D ps (tval th) qs
  | UExpCtl cs ps th qs => @UExpCtl RArith D cs ps (tval th) qs | UExpCtlAdj cs ps th qs => @UExpCtlAdj RArith D cs ps (tval th) qs
  | USwap a b => @USwap RArith D a b | UReset q => @UReset RArith D q | UMresetz q i => @UMresetz RArith D q i
  | UMz q i => @UMz RArith D q i
  | UReadResult i => @UReadResult RArith D i | UWriteResult v i => @UWriteResult RArith D v i
  | UM q => @UM RArith D q | UMeasure ps qs => @UMeasure RArith D ps qs
  | UAlloc => @UAlloc RArith D | UAllocArray n => @UAllocArray RArith D n | URelease q => @URelease RArith D q
  | UReleaseArray qs => @UReleaseArray RArith D qs
  | UQubitString q => @UQubitString RArith D q | UBarrier => @UBarrier RArith D
  | UResult i tag => @UResult RArith D i tag | UResultLegacy i => @UResultLegacy RArith D i
  | URecord r => @URecord RArith D r
  | UFail m => @UFail RArith D m
  | UInit => @UInit RArith D
  end.
Definition real_step {M L} (a : aact M L) : @aact RArith D M L :=
  match a with
  | BDone m => BDone m | BCall c k => BCall (real_call c) k | BRandom lo hi k => BRandom lo hi k | BTrap => BTrap
  end.
Definition real_program (p : aprogram) : @aprogram RArith D :=
  @Build_aprogram RArith D (amem p) (aloc p) (astart p) (fun l => real_step (astep p l)).
End Real.
(** lib.rs:571-575 with exact numbers; the generator of the thread. *)
Definition PhasesR (T : Tol) : @Phases (@RArith T) := {| half_phase := fun th => Cis (- th / 2) |}.
Definition thread_of {T : Tol} {EN : Env} (RN : Rand) : ThreadGen := {| tg := tgen; tg_range := draw_range |}.

(** ** The simulator calls of a shot *)
Section Calls.
Context {A : Arith} {T : Tol}.
(** The reply to a call that does not ask for a probability or a listing, [r] being the result if it is a measurement. *)
Definition reply_to {A0 : Arith} (l : list nat) (c : @acall A0) (r : bool) : @areply A0 :=
  match c with AAlloc => AId (fresh_id l) | AMeasure _ | AJointMeasure _ => ABit r | _ => AUnit end.
Definition plain_call (c : @acall (@RArith T)) : call :=
  match c with
  | AGate g t => CGate (@exact_gate _ (ApproxR T 0) g) t
  | AMc g cs t => CMc (@exact_gate _ (ApproxR T 0) g) cs t
  | APhase cs p t => CPhase cs p t
  | AExp ps x ts => CExp ps x ts
  | AMcExp cs ps x ts => CMcExp cs ps x ts
  | AApply rows cols u ts cs => CApply rows cols u ts cs
  | AAlloc => CAlloc
  | ARelease q => CRelease q
  | ASwap a b => CSwap a b
  | AMeasure q => CMeasure q
  | AJointMeasure qs => CJointMeasure qs
  | AJointProb qs => CJointProb qs
  | AIsZero q => CIsZero q
  | AForce v q => CForce v q
  | AState => CState
  | ADump => CDump
  end.
(** The plan (SpecOdds) of a tree of calls and the tree of the same calls with exact numbers. *)
Fixpoint plan_of {X} (b : book) (t : @tree A X) (t' : @tree (@RArith T) X) {struct t} : @plan A :=
  match t with
  | Leaf _ => Stop
  | Renew t1 => match t' with Renew t1' => plan_of b t1 t1' | _ => Stop end
  | Ask _ c k =>
    match t' with
    | Ask _ c' k' => Call c (plain_call c') (fun r => plan_of (abstep b c) (k (reply_to (live b) c r)) (k' (reply_to (live b) c' r)))
    | _ => Stop
    end
  end.
(** A new simulator is asked for only before the first call. *)
Fixpoint settled {X} (t : @tree A X) : Prop :=
  match t with Leaf _ => True | Ask _ _ k => forall r, settled (k r) | Renew _ => False end.
Fixpoint early {X} (t : @tree A X) : Prop := match t with Renew t1 => early t1 | _ => settled t end.
End Calls.

(** ** What is required of a program *)
Section Fits.
Context {A : Arith} {EN : Env} {AP : Approx} {PP : ApproxP} {PH : Phases} {D : Doubles}.
Context {T : Tol} {EN' : @Env (@RArith T)} {RN : @Rand T EN'}.
Definition tree_a (p : aprogram) (fuel : nat) (mem : amem p) (t : tgen) :=
  @shot_tree A PH D (thread_of RN) p fuel (astart p mem) desk0 t.
Definition tree_r (p : aprogram) (fuel : nat) (mem : amem p) (t : tgen) :=
  @shot_tree (@RArith T) (PhasesR T) D (thread_of RN) (real_program p) fuel (astart p mem) desk0 t.
Definition plan_for (p : aprogram) (fuel : nat) (mem : amem p) (t : tgen) : plan :=
  plan_of (mkBook [] true) (tree_a p fuel mem t) (tree_r p fuel mem t).
(** Whatever the results: a valid history with the stated number of measurements and an error below [u], for the machine's numbers and
    for exact ones. *)
Definition shot_fits (w m : nat) (q u : R) (p : aprogram) (fuel : nat) (mem : amem p) (t : tgen) : Prop :=
  early (tree_a p fuel mem t) /\ plan_fits w m q u (plan_for p fuel mem t) /\
  forall h h', branch (plan_for p fuel mem t) h h' -> no_odd_pi h'.
(** The weight, in quantum mechanics, of the sequences of results each of which has a conditional probability above [q]. *)
Definition kept (q : R) (p : aprogram) (fuel : nat) (mem : amem p) (t : tgen) : R :=
  total weight (fun _ => true) (ways q 0 (mkBook [] true) ket0 (plan_for p fuel mem t)).
(** How the shot ends. *)
Definition shot_end {M} (a : @answer (@ashot (thread_of RN) M)) : ended M :=
  match a with
  | Fine (SDone m t) k => EDone m (dout k) t
  | Fine (SStop e) k => EStop e (dout k)
  | Fine SMore k => EMore (dout k)
  | Broken e o => EStop (StopErr e) o
  end.
Definition ends (p : aprogram) (fuel : nat) (mem : amem p) (g : @gen A EN) (t : tgen) : ended (amem p) :=
  shot_end (fst (@shot A EN PH D (thread_of RN) p fuel mem g t)).
End Fits.

(** ** Totals *)
Section Totals.
Context {X : Type}.
(** The size of the boxes of samples, and the chance, of the ways of ending in [E]. *)
Definition mass (f : box -> R) (E : X -> bool) (ls : list (box * X)) : R :=
  fold_right Rplus 0 (map (fun l => if E (snd l) then f (fst l) else 0) ls).
Definition chance_of (E : X -> bool) (ws : list (R * X)) : R :=
  fold_right Rplus 0 (map (fun w => if E (snd w) then fst w else 0) ws).
(** Boxes in the unit cube that do not overlap. *)
Definition apart (bs : list box) : Prop :=
  Forall (Forall (fun r => 0 <= fst r /\ fst r <= snd r /\ snd r <= 1)) bs /\
  ForallOrdPairs (fun b c => forall xs, ~ (inside xs b /\ inside xs c)) bs.
End Totals.
(** Every sequence of samples is the one of some generator. *)
Definition all_samples {T : Tol} {EN : Env} : Prop := forall xs, unit_samples xs -> exists g, forall n, SpecChance.samples_of g n = xs n.
