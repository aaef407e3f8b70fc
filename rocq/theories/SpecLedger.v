(** * Specification of measurement with rounding

    Probabilities with rounding, and a ledger of two numbers that is carried along a history with
    measurements: how far the computed vector may be from a multiple of the exact one, and how far the
    square of that multiple's modulus may be from 1.  The conditions that keep an outcome from being decided
    by rounding are stated with the exact machine of SpecRun.v; nothing here refers to the simulator. *)
From Coq Require Import Reals NArith List Bool.
From Verif Require Import Cx Bits Arith ArithR Spec SpecExp SpecRun SpecAny SpecNear SpecRound.
Import ListNotations.
Local Open Scope R_scope.

(** The numbers that probabilities and samples stand for. *)
Class ApproxP {A : Arith} := {
  pval : prb -> R;
  pfin : prb -> Prop;               (* finite probabilities *)
  perr : R                          (* error of one operation *)
}.

Section Ledger.
Context {A : Arith} {EN : Env} {AP : Approx} {PP : ApproxP}.

(** [p] is finite and within [e] of [x]. *)
Definition pclose (p : prb) (x e : R) : Prop := pfin p /\ Rabs (pval p - x) <= e.

Record approx_p_ok : Prop := {
  pp_err : 0 <= perr;
  pp_0 : pfin prb0 /\ pval prb0 = 0;
  pp_sqr : forall a, afin a -> cmod (aval a) <= 2 -> pclose (psqr a) (Cn2 (aval a)) perr;
  pp_add : forall p q, pfin p -> pfin q -> Rabs (pval p) <= 8 -> Rabs (pval q) <= 8 ->
    pclose (padd p q) (pval p + pval q) perr;
  pp_compl : forall p, pfin p -> Rabs (pval p) <= 8 -> pclose (pcompl p) (1 - pval p) perr;
  pp_lt : forall p q, pfin p -> pfin q -> (plt p q = true <-> pval p < pval q);
  pp_nz : forall p, pfin p -> (pnz p = true <-> Rabs (pval p) <= thr);
  pp_scale : forall a p, afin a -> cmod (aval a) <= 2 -> pfin p -> 0 < pval p -> perr <= pval p <= 2 ->
    close (amul a (pscale p)) (aval a * RtoC (/ sqrt (pval p)))%C (dlt * / sqrt (pval p));
  pp_draw : forall g, pfin (fst (draw g))
}.

(** The exact machine draws the values of the samples. *)
Definition sampled (g : gen) : R * gen := (pval (fst (draw g)), snd (draw g)).

(** The same call. *)
Definition call_stands (c : acall) (c' : call) : Prop :=
  match c, c' with
  | ARelease q, CRelease q' | AMeasure q, CMeasure q' => q' = q
  | AJointMeasure qs, CJointMeasure qs' => qs' = qs
  | AForce v q, CForce v' q' => v' = v /\ q' = q
  | _, _ => call_means c c'
  end.

(** The parity that a call projects on, if any, and the outcome. *)
Definition projects (l : list nat) (psi : qstate) (x : R) (c : call) : option (list nat * bool) :=
  match c with
  | CMeasure q => Some ([q], outcome l [q] psi x)
  | CJointMeasure qs => Some (qs, outcome l qs psi x)
  | CForce v q => Some ([q], v)
  | CRelease q => match remove_id q l with [] => None | _ => Some ([q], outcome l [q] psi x) end
  | _ => None
  end.
Definition chance (l qs : list nat) (r : bool) (psi : qstate) : R :=
  if r then born (width l) qs psi else 1 - born (width l) qs psi.

(** Rounding steps of a call, before the projection if there is one. *)
Definition lcost (l : list nat) (c : acall) : nat :=
  match c with
  | AMeasure _ | ARelease _ | AForce _ _ => 9
  | AJointMeasure qs => 9 * length qs
  | _ => rcost l c
  end.

(** The ledger: the computed vector is within [off] of a multiple [c] of the exact one, and
    | |c|^2 - 1 | <= [dev]. *)
Record ledger := mkLedger { off : R; dev : R }.
(** Error of a probability computed from such a vector. *)
Definition prob_err (w : nat) (e : ledger) : R := dev e + 3 * off e + 2 * 2 ^ w * perr + perr.
(** After the rounding steps of a call. *)
Definition stepped (w : nat) (e : ledger) (l : list nat) (c : acall) : ledger :=
  mkLedger (off e + drift w (lcost l c)) (dev e).
(** After the whole call. *)
Definition next (w : nat) (e : ledger) (l : list nat) (psi : qstate) (x : R) (c : acall) (c' : call) : ledger :=
  let e1 := stepped w e l c in
  match projects l psi x c' with
  | Some (qs, r) =>
      let p := chance l qs r psi - prob_err w e1 in
      mkLedger ((off e1 + drift w 1) / sqrt p) (prob_err w e1 / p)
  | None => match c' with CRelease _ => mkLedger 0 0 | _ => e1 end
  end.

(** What is required of a call: the ledger stays below 1/2, the outcome is not improbable, the sample
    is not too close to the probability it is compared with, and a forced outcome is not taken for
    impossible. *)
Definition fits (w : nat) (e : ledger) (l : list nat) (psi : qstate) (x : R) (c : acall) (c' : call) : Prop :=
  let e1 := stepped w e l c in
  off e1 <= 1 / 2 /\ dev e1 <= 1 / 2 /\ prob_err w e1 <= 2 /\
  match projects l psi x c' with
  | Some (qs, r) =>
      0 < chance l qs r psi /\ 2 * prob_err w e1 <= chance l qs r psi /\
      match c' with
      | CForce _ _ => thr + prob_err w e1 < chance l qs r psi
      | _ => prob_err w e1 < Rabs (x - born (width l) qs psi)
      end
  | None => True
  end.
Fixpoint fits_run (w : nat) (e : ledger) (m : machine) (h : list acall) (h' : list call) : Prop :=
  match h, h' with
  | [], [] => True
  | c :: h1, c' :: h1' =>
      let l := live (bk m) in let x := fst (sampled (mgen m)) in
      (forall q, In q l -> (q < w)%nat) /\
      fits w e l (vec m) x c c' /\
      fits_run w (next w e l (vec m) x c c') (mstep1 sampled m c') h1 h1'
  | _, _ => False
  end.

(** The reply to a call, [psi] being the exact vector: probabilities are within [pe], listed vectors
    within [de] up to a global phase, and outcomes are those of the exact machine. *)
Definition reply_within (w : nat) (pe de : R) (l : list nat) (psi : qstate) (x : R) (c' : call) (r : areply) : Prop :=
  let near st := all_finite st /\ exists phi k, supported l phi /\ listing (values st) l phi /\ Cn2 k = 1 /\
                   dist w phi (scale k psi) <= de in
  match c' with
  | CAlloc => r = AId (fresh_id l)
  | CMeasure q => r = ABit (outcome l [q] psi x)
  | CJointMeasure qs => r = ABit (outcome l qs psi x)
  | CJointProb qs => exists p, r = AProb p /\ pclose p (born (width l) qs psi) pe
  | CForce v q => exists p, r = AProb p /\ pclose p (chance l [q] v psi) pe
  | CIsZero q => exists b, r = ABit b /\ (b = true -> born (width l) [q] psi <= thr + pe) /\
                   (b = false -> thr - pe < born (width l) [q] psi)
  | CState => exists st, r = AListed st (length l) /\ near st
  | CDump => exists st, r = ADumped st /\ near st
  | _ => r = AUnit
  end.
(** The same with the errors in the ledger. *)
Definition reply_near (w : nat) (e : ledger) (l : list nat) (psi : qstate) (x : R) (c : acall) (c' : call)
    (r : areply) : Prop :=
  let e1 := stepped w e l c in reply_within w (prob_err w e1) (off e1 + dev e1) l psi x c' r.
Fixpoint replies_near (w : nat) (e : ledger) (m : machine) (h : list acall) (h' : list call) (rs : list areply) : Prop :=
  match h, h', rs with
  | [], [], [] => True
  | c :: h1, c' :: h1', r :: rs1 =>
      let l := live (bk m) in let x := fst (sampled (mgen m)) in
      reply_near w e l (vec m) x c c' r /\
      replies_near w (next w e l (vec m) x c c') (mstep1 sampled m c') h1 h1' rs1
  | _, _, _ => False
  end.

(** ** A bound in closed form *)

(** Along the exact run every outcome has a probability of at least [p], and no sample is within [g] of
    the probability it is compared with. *)
Fixpoint decided (w : nat) (p g : R) (m : machine) (h' : list call) : Prop :=
  match h' with
  | [] => True
  | c' :: h1' =>
      let l := live (bk m) in let x := fst (sampled (mgen m)) in
      (forall q, In q l -> (q < w)%nat) /\
      match projects l (vec m) x c' with
      | Some (qs, r) =>
          p <= chance l qs r (vec m) /\
          match c' with CForce _ _ => True | _ => g < Rabs (x - born (width l) qs (vec m)) end
      | None => True
      end /\
      decided w p g (mstep1 sampled m c') h1'
  end.

(** Calls that may project, and the rounding steps of a history. *)
Definition pcount (c : acall) : nat :=
  match c with AMeasure _ | ARelease _ | AForce _ _ | AJointMeasure _ => 1 | _ => 0 end.
Definition total_pcount (h : list acall) : nat := fold_right (fun c n => pcount c + n)%nat 0%nat h.
Fixpoint total_lcost (b : book) (h : list acall) : nat :=
  match h with [] => 0 | c :: h1 => lcost (live b) c + pcount c + total_lcost (abstep b c) h1 end.

(** The error after [n] rounding steps and [k] projections on outcomes of probability [p] or more. *)
Definition worst (w n k : nat) (p : R) : R :=
  (4 / p) ^ k * (3 * drift w n + INR (1 + k) * ((2 * 2 ^ w + 1) * perr)).

Fixpoint replies_within (w : nat) (t : R) (m : machine) (h' : list call) (rs : list areply) : Prop :=
  match h', rs with
  | [], [] => True
  | c' :: h1', r :: rs1 =>
      reply_within w t t (live (bk m)) (vec m) (fst (sampled (mgen m))) c' r /\
      replies_within w t (mstep1 sampled m c') h1' rs1
  | _, _ => False
  end.
End Ledger.
