(** * Specification of arithmetic with rounding

    What is assumed of the numbers the simulator computes with: which of them are finite, what they stand
    for, and how far the result of an operation may be from the exact one. *)
From Coq Require Import Reals NArith List.
From Verif Require Import Cx Bits Arith ArithR Spec SpecApply SpecRun SpecAny SpecNear.
Import ListNotations.
Local Open Scope R_scope.

(** Modulus. *)
Definition cmod (a : C) : R := sqrt (Cn2 a).

(** The numbers that amplitudes and angles stand for. *)
Class Approx {A : Arith} := {
  aval : amp -> C;
  tval : ang -> R;
  afin : amp -> Prop;               (* finite amplitudes *)
  tfin : ang -> Prop;               (* finite angles *)
  thr : R;                          (* threshold of is_nearly_zero *)
  dlt : R;                          (* error of one operation *)
  lim : R                           (* angles up to here are handled with that error *)
}.

Section Laws.
Context {A : Arith} {AP : Approx}.

(** [a] is finite and within [e] of [z]. *)
Definition close (a : amp) (z : C) (e : R) : Prop := afin a /\ cmod (aval a - z)%C <= e.
(** Finite amplitudes of moderate size and angles up to [lim]. *)
Definition small (a : amp) : Prop := afin a /\ cmod (aval a) <= 8.
Definition angle_ok (t : ang) : Prop := tfin t /\ Rabs (tval t) <= lim.

(** The bound on the change of real and imaginary part of one amplitude in one step. *)
Definition step_err : R := thr + 32 * dlt.

Record approx_ok : Prop := {
  ap_dlt : 0 <= dlt;
  ap_thr : 0 <= thr;
  ap_small : step_err <= 1 / 2;
  ap_gap : step_err * step_err + 2 * dlt <= thr;
  ap_0 : afin amp0 /\ aval amp0 = C0;
  ap_1 : afin amp1 /\ aval amp1 = C1;
  ap_i : afin ampi /\ aval ampi = Ci;
  ap_rs2 : close ars2 rsqrt2 dlt;
  ap_add : forall a b, small a -> small b -> close (aadd a b) (aval a + aval b)%C dlt;
  ap_sub : forall a b, small a -> small b -> close (asub a b) (aval a - aval b)%C dlt;
  ap_mul : forall a b, small a -> small b -> close (amul a b) (aval a * aval b)%C dlt;
  ap_opp : forall a, (afin a -> afin (aopp a)) /\ aval (aopp a) = (- aval a)%C;
  ap_nz : forall a, afin a -> (anz a = true <-> Rabs (fst (aval a)) <= thr /\ Rabs (snd (aval a)) <= thr);
  ap_is1 : forall a, afin a -> ais1 a = true -> aval a = C1;
  ap_tadd : forall a b, angle_ok a -> angle_ok b ->
    tfin (tadd a b) /\ Rabs (tval (tadd a b) - (tval a + tval b)) <= dlt;
  ap_tneg : forall t, (tfin t -> tfin (tneg t)) /\ tval (tneg t) = - tval t;
  ap_tnz : forall t, tfin t -> tnz t = true -> Rabs (tval t) <= thr;
  ap_chalf : forall t, angle_ok t -> close (chalf t) (RtoC (cos (tval t / 2))) dlt;
  ap_shalf : forall t, angle_ok t -> close (shalf t) (RtoC (sin (tval t / 2))) dlt;
  ap_cfull : forall t, angle_ok t -> close (cfull t) (RtoC (cos (tval t))) dlt;
  ap_sfull : forall t, angle_ok t -> close (sfull t) (RtoC (sin (tval t))) dlt;
  ap_even : forall t, anz (chalf (tneg t)) = anz (chalf t)
}.

(** ** Histories of calls with numbers of the machine, and the exact calls they stand for *)

(** The same gate; the exact angle is the value of the machine's angle. *)
Definition gate_means (g : agate) (g' : gname) : Prop :=
  match g, g' with
  | AX, GX | AY, GY | AZ, GZ | AH, GH | AS, GS | ASadj, GSadj | AT, GT | ATadj, GTadj => True
  | ARx t, GRx x | ARy t, GRy x | ARz t, GRz x => tfin t /\ x = tval t
  | _, _ => False
  end.
(** The same call, neither measuring nor releasing.  The phase of [mcphase] and the entries of a matrix may
    be the result of a short computation (the runner's own phases are); the exact matrix preserves lengths. *)
Definition call_means (c : acall) (c' : call) : Prop :=
  match c, c' with
  | AGate g t, CGate g' t' => gate_means g g' /\ t' = t
  | AMc g cs t, CMc g' cs' t' => gate_means g g' /\ cs' = cs /\ t' = t
  | APhase cs p t, CPhase cs' z t' => close p z (10 * dlt) /\ Cn2 z = 1 /\ cs' = cs /\ t' = t
  | AExp ps th ts, CExp ps' x ts' => (tfin th /\ x = tval th) /\ ps' = ps /\ ts' = ts
  | AMcExp cs ps th ts, CMcExp cs' ps' x ts' => (tfin th /\ x = tval th) /\ cs' = cs /\ ps' = ps /\ ts' = ts
  | AApply rows cols u ts cs, CApply rows' cols' U ts' cs' =>
      (forall r k, (r < rows)%nat -> (k < cols)%nat -> close (u r k) (U r k) (10 * dlt)) /\ isometry rows U /\
      rows' = rows /\ cols' = cols /\ ts' = ts /\ cs' = cs
  | AAlloc, CAlloc | AState, CState | ADump, CDump => True
  | ASwap a b, CSwap a' b' => a' = a /\ b' = b
  | AJointProb qs, CJointProb qs' => qs' = qs
  | AIsZero q, CIsZero q' => q' = q
  | _, _ => False
  end.

(** The number of rounding steps charged to a call, [l] being the allocated qubits: linear in the number
    of qubits it names, and for a matrix also in its size, controls included. *)
Definition rcost (l : list nat) (c : acall) : nat :=
  match c with
  | AGate _ _ => 11
  | AMc _ cs _ | APhase cs _ _ => 23 * (1 + length cs)
  | AExp _ _ ts => 9 * length ts + 1
  | AMcExp cs _ _ ts => 9 * (length cs + length ts) + 1
  | AApply _ _ _ ts cs => 27 * length (ctl_list cs ++ ts) + 2 * Nat.pow 2 (length (ctl_list cs ++ ts)) + 1
  | AJointProb qs => 9 * length qs
  | AIsZero _ => 9
  | AState | ADump => 9 * length l
  | _ => 0
  end.
Fixpoint total_rcost (b : book) (h : list acall) : nat :=
  match h with [] => 0 | c :: h' => rcost (live b) c + total_rcost (abstep b c) h' end.

(** Single-qubit [rx] and [ry] angles are added up before they are used: the sum of all of them, with the
    errors of adding, and every other angle on top of it, must be within the range of cosine and sine. *)
Definition turn (c : acall) : R :=
  match c with AGate (ARx t) _ | AGate (ARy t) _ => Rabs (tval t) + dlt | _ => 0 end.
Definition turns (h : list acall) : R := fold_right (fun c x => turn c + x) 0 h.
Definition held (m : R) (c : acall) : Prop :=
  match c with
  | AGate (ARz t) _ | AMc (ARx t) _ _ | AMc (ARy t) _ _ | AMc (ARz t) _ _ | AExp _ t _ | AMcExp _ _ t _ =>
      Rabs (tval t) <= m
  | _ => True
  end.
Definition angles_fit (h : list acall) : Prop := turns h <= lim /\ Forall (held (lim - turns h)) h.

(** A condition on the exact calls that rules out the defect of [C01_refuted]: there is no single-qubit
    [ry], or no sum of the single-qubit [rx] angles comes too close to an odd multiple of pi, where
    rounding widens the threshold a little.  For the latter it is enough that the angles are small enough
    never to reach pi, or that they lie in a group of angles that avoids it. *)
Definition rx_turn (c : call) : R := match c with CGate (GRx x) _ => Rabs x | _ => 0 end.
Definition rx_total (h : list call) : R := fold_right (fun c x => rx_turn c + x) 0 h.
Definition clear_of_odd_pi (h : list call) : Prop :=
  Forall (fun c => ~ is_ry c) h \/
  (rx_total h + INR (length h) * dlt < PI /\ step_err < cos ((rx_total h + INR (length h) * dlt) / 2)) \/
  exists G, subgroup G /\ (forall a, G a -> step_err + INR (length h) * dlt < Rabs (cos (a / 2))) /\
    Forall (rx_angles G) h.

(** Listed amplitudes as numbers. *)
Definition values (st : list (N * amp)) : list (N * C) := map (fun kv => (fst kv, aval (snd kv))) st.
Definition all_finite (st : list (N * amp)) : Prop := Forall (fun kv => afin (snd kv)) st.

(** Distance that [n] rounding steps can cause on the qubits below [w]: each changes the real and the
    imaginary part of each of the 2^w amplitudes by at most [step_err]. *)
Definition drift (w n : nat) : R := INR n * (step_err * sqrt (2 * 2 ^ w)).
End Laws.
