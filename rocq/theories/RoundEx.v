(** * A short program in binary64 *)
From Coq Require Import Reals NArith ZArith List Bool Lia Lra Permutation.
From Flocq Require Import IEEE754.BinarySingleNaN.
From Verif Require Import Cx Bits Arith ArithR IndexMap Sim SimExp SimApply Spec SpecExp SpecRun SimRun SpecAny Any AnyRun
  SpecNear SpecApply SpecRound RoundThms Math Binary64 SpecBinary64 Binary64Lemmas.
Import ListNotations.
Local Open Scope R_scope.

(** A history over three qubits with entangling gates, [rx] and [ry] on one qubit, an exponential and a controlled
    matrix, with binary64 numbers, and cosine and sine rounded to 52 places. *)
Definition cos52 := ref_trig cos.
Definition sin52 := ref_trig sin.
Definition E64 : @Env (Arith64 cos52 sin52) := @Build_Env (Arith64 cos52 sin52) (@rev _) unit (fun g => (f0 : @prb (Arith64 cos52 sin52), g)).
(** The Hadamard matrix, with 1/sqrt 2 as in the code. *)
Definition had64 (r c : nat) : @amp (Arith64 cos52 sin52) :=
  if (Nat.eqb r 1 && Nat.eqb c 1)%bool then @aopp (Arith64 cos52 sin52) ars2 else ars2.
Definition had (r c : nat) : C := if (Nat.eqb r 1 && Nat.eqb c 1)%bool then (- rsqrt2)%C else rsqrt2.
Lemma had_iso : isometry 2 had.
Proof.
  intros v. unfold had, Rsum, Csum. simpl. destruct (v 0%nat) as [a b], (v 1%nat) as [c d].
  unfold rsqrt2, RtoC, Cn2, Cadd, Cmul, Copp, C0. simpl.
  assert (Q : / sqrt 2 * / sqrt 2 = / 2) by (rewrite <- Rinv_mult, sqrt_sqrt; lra).
  set (u := / sqrt 2) in *. clearbody u. assert (Q2 : 2 * (u * u) = 1) by lra. clear Q.
  transitivity (2 * (u * u) * (a * a + b * b + (c * c + d * d + 0))); [ring|rewrite Q2; ring].
Qed.
Definition run64 : list (@acall (Arith64 cos52 sin52)) :=
  [AAlloc; AAlloc; AAlloc; AGate AH 0; AMc AX [0%nat] 1;
   AGate (@ARx (Arith64 cos52 sin52) (flit 1 (-1))) 0; AGate (@ARy (Arith64 cos52 sin52) (flit 3 0)) 0;
   AMc (@ARz (Arith64 cos52 sin52) f1) [1%nat] 2; APhase [0%nat] ((f0, f1) : @amp (Arith64 cos52 sin52)) 2;
   @AExp (Arith64 cos52 sin52) [PX_; PZ_] (flit (-7) (-3)) [0%nat; 2%nat]; AApply 2 2 had64 [1%nat] (Some [2%nat]); ASwap 0 2; AIsZero 1].
Definition exact64 : list call :=
  [CAlloc; CAlloc; CAlloc; CGate GH 0; CMc GX [0%nat] 1; CGate (GRx (1 / 2)) 0; CGate (GRy 3) 0;
   CMc (GRz 1) [1%nat] 2; CPhase [0%nat] Ci 2; CExp [PX_; PZ_] (-7 / 8) [0%nat; 2%nat]; CApply 2 2 had [1%nat] (Some [2%nat]); CSwap 0 2; CIsZero 1].
