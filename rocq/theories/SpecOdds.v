(** * The odds of measurement results with rounding

    A plan is a program that makes calls and may choose the next call by the results of its measurements.  In quantum mechanics
    every sequence of results has a weight, the product of its conditional probabilities.  For the simulator each
    sequence has a box of samples, a range for each sample that is drawn, so that the odds of getting into it can be compared
    with that weight. *)
From Coq Require Import Reals NArith List Bool.
From Verif Require Import Cx Bits Arith ArithR Spec SpecExp SpecRun Sim SpecAny Any SpecNear SpecRound SpecLedger.
From Verif Require SpecChance.
Import ListNotations.
Local Open Scope R_scope.

Section Odds.
Context {A : Arith} {EN : Env} {AP : Approx} {PP : ApproxP}.

(** ** Plans *)

(** A call of the simulator, the same call of the exact machine, and what to do next.  Only results of measurements are
    used to decide that. *)
Inductive plan := Stop | Call (c : acall) (c' : call) (k : bool -> plan).
Definition go_on (c' : call) (k : bool -> plan) (r : bool) : plan :=
  match c' with CMeasure _ | CJointMeasure _ => k r | _ => k false end.
(** The calls made, whatever the results. *)
Inductive branch : plan -> list acall -> list call -> Prop :=
| branch_stop : branch Stop [] []
| branch_call : forall c c' k r h h', branch (go_on c' k r) h h' -> branch (Call c c' k) (c :: h) (c' :: h').
(** The plan run by the simulator. *)
Definition bit_in (r : areply) : bool := match r with ABit b => b | _ => false end.
Fixpoint perform (s : sim) (P : plan) : res (list areply * sim) :=
  match P with
  | Stop => Ok ([], s)
  | Call c c' k =>
      bind (arun1 s c) (fun rs => bind (perform (snd rs) (go_on c' k (bit_in (fst rs)))) (fun q => Ok (fst rs :: fst q, snd q)))
  end.

(** ** Quantum mechanics *)

(** The parity that is measured, the state after result [r]. *)
Definition asks (l : list nat) (c' : call) : option (list nat) :=
  match c' with
  | CMeasure q => Some [q]
  | CJointMeasure qs => Some qs
  | CRelease q => match remove_id q l with [] => None | _ => Some [q] end
  | _ => None
  end.
Definition told (l : list nat) (psi : qstate) (c' : call) (qs : list nat) (r : bool) : qstate :=
  match c' with
  | CRelease q => drop_qubit q r (collapsed l qs r psi)
  | _ => collapsed l qs r psi
  end.

(** A sequence of results, its weight, and the samples that lead to it. *)
Record way := mkWay { results : list bool; weight : R; ranges : SpecChance.box }.
(** The samples that give result [r], at a distance of at least [t] from the probability [q] of result 1. *)
Definition side (t q : R) (r : bool) : R * R := if r then (0, q - t) else (q + t, 1).
(** All sequences of results each of which has a conditional probability above [p].  For [p] = 0 these are all that can
    occur. *)
Fixpoint ways (p t : R) (b : book) (psi : qstate) (P : plan) : list way :=
  match P with
  | Stop => [mkWay [] 1 []]
  | Call c c' k =>
      let l := live b in
      match asks l c' with
      | None => ways p t (bstep b c') (vstep l psi 0 c') (go_on c' k false)
      | Some qs =>
          flat_map (fun r => if Rlt_dec p (chance l qs r psi)
                             then map (fun v => mkWay (r :: results v) (chance l qs r psi * weight v)
                                                      (side t (born (width l) qs psi) r :: ranges v))
                                      (ways p t (bstep b c') (told l psi c' qs r) (go_on c' k r))
                             else []) [true; false]
      end
  end.
(** The weight and the volume of the sequences in [E]. *)
Definition total (f : way -> R) (E : list bool -> bool) (vs : list way) : R :=
  fold_right Rplus 0 (map (fun v => if E (results v) then f v else 0) vs).
Definition volume_of (v : way) : R := SpecChance.volume (ranges v).
(** The share of the samples 0, 1/N, ..., (N-1)/N that lie in a range, and the share of the sequences of such samples that lie
    in a box: the chance to get there if all of these samples are equally likely. *)
Definition in_range (r : R * R) (x : R) : bool :=
  if Rle_dec (fst r) x then if Rlt_dec x (snd r) then true else false else false.
Definition grid (N : nat) (r : R * R) : R :=
  INR (length (filter (fun k => in_range r (INR k / INR N)) (seq 0 N))) / INR N.
Definition share_of (N : nat) (v : way) : R := fold_right (fun r x => grid N r * x) 1 (ranges v).

(** ** The simulator *)

(** The samples a generator will give. *)
Fixpoint gen_at (n : nat) (g : gen) : gen := match n with O => g | S n' => gen_at n' (snd (draw g)) end.
Definition samples (g : gen) : nat -> R := fun n => pval (fst (draw (gen_at n g))).
(** The replies along a sequence of results: measurements return these results, all other replies are within [t] of the
    exact ones. *)
Fixpoint along (w : nat) (t : R) (b : book) (psi : qstate) (P : plan) (os : list bool) (rs : list areply) : Prop :=
  match P, rs with
  | Stop, [] => os = []
  | Call c c' k, r :: rs1 =>
      let l := live b in
      match asks l c' with
      | None => reply_within w t t l psi 0 c' r /\ along w t (bstep b c') (vstep l psi 0 c') (go_on c' k false) os rs1
      | Some qs =>
          match os with
          | [] => False
          | o :: os1 =>
              r = match c' with CRelease _ => AUnit | _ => ABit o end /\
              along w t (bstep b c') (told l psi c' qs o) (go_on c' k o) os1 rs1
          end
      end
  | _, _ => False
  end.

(** Identifiers stay below [w]. *)
Fixpoint narrow (w : nat) (b : book) (h' : list call) : Prop :=
  match h' with [] => True | c' :: h1' => (forall q, In q (live b) -> (q < w)%nat) /\ narrow w (bstep b c') h1' end.
Definition not_forced (c' : call) : Prop := match c' with CForce _ _ => False | _ => True end.
(** Every branch is a valid history with the stated number of measurements and an error below [t]. *)
Definition plan_fits (w m : nat) (p t : R) (P : plan) : Prop :=
  forall h h', branch P h h' ->
    avalid_run (mkBook [] true) h /\ Forall2 call_stands h h' /\ angles_fit h /\ clear_of_odd_pi h' /\
    narrow w (mkBook [] true) h' /\ Forall not_forced h' /\ (total_pcount h <= m)%nat /\
    worst w (total_lcost (mkBook [] true) h) (total_pcount h) p < t.
End Odds.
