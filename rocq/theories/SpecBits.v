(** * Running a program on bits

    Answers the calls that a program makes to the simulator by the machine of SpecClassical.v, which has no amplitudes, no
    generator and no hash table.  There is no result if a call is not classical, names unallocated or repeated qubits, or asks for
    amplitudes. *)
From Coq Require Import NArith ZArith List Bool.
From Flocq Require Import IEEE754.BinarySingleNaN.
From Verif Require Import Cx Arith SimExp SpecRun SpecAny SpecClassical Math Binary64 Text Backend Runner BackAny.
Import ListNotations.

Section Bits.
Context {A : Arith} {EN : Env}.
Fixpoint distinct (l : list nat) : bool := match l with [] => true | q :: l' => negb (existsb (Nat.eqb q) l') && distinct l' end.
Definition named (m : bits) (l : list nat) : bool := forallb (fun q => existsb (Nat.eqb q) (live (bbook m))) l.
Definition ready (m : bits) (c : acall) : bool :=
  match c with
  | AGate g t => classical_gate g && named m [t]
  | AMc g cs t => classical_gate g && named m (t :: cs) && distinct (t :: cs)
  | AAlloc => true
  | ARelease q | AMeasure q | AIsZero q | AForce _ q => named m [q]
  | ASwap x y => named m [x; y]
  | AJointMeasure qs | AJointProb qs => named m qs && distinct qs
  | _ => false
  end.
Definition bits_answer (m : bits) (c : acall) : areply :=
  match c with
  | AAlloc => AId (fresh_id (live (bbook m)))
  | AMeasure q => ABit (value m q)
  | AJointMeasure qs => ABit (odd (value m) qs)
  | AJointProb qs => AProb (sure (odd (value m) qs))
  | AIsZero q => ABit (negb (value m q))
  | AForce v q => AProb (sure (Bool.eqb v (value m q)))
  | _ => AUnit
  end.
Fixpoint bits_play {X} (m : bits) (t : tree (answer X)) : option (answer X) :=
  match t with
  | Leaf x => Some x
  | Ask o c k => if ready m c then bits_play (bits_step m c) (k (bits_answer m c)) else None
  | Renew t' => bits_play no_bits t'
  end.
Context {PH : Phases} {D : Doubles} {TG : ThreadGen}.
Definition bits_shot (p : aprogram) (fuel : nat) (mem : amem p) (t : tg) : option (answer (ashot (amem p))) :=
  bits_play no_bits (shot_tree p fuel (astart p mem) desk0 t).
End Bits.

(** In binary64: a one turned by [k] right angles, up to the sign of the part that is zero. *)
Definition zero64 (x : f64) : Prop := exists b, x = B754_zero b.
Definition turned64 (k : nat) (a : f64 * f64) : Prop :=
  match Nat.modulo k 4 with
  | 0%nat => fst a = f1 /\ zero64 (snd a)
  | 1%nat => zero64 (fst a) /\ snd a = f1
  | 2%nat => fst a = Bopp f1 /\ zero64 (snd a)
  | _ => zero64 (fst a) /\ snd a = Bopp f1
  end.
(** A sample: a whole number below 2^53 divided by 2^53. *)
Definition sample53 (k : Z) : f64 := flit k (-53).
(** A one turned by [k] right angles, as a complex number. *)
Fixpoint quarter (k : nat) : C := match k with O => C1 | S k' => Cmul Ci (quarter k') end.
