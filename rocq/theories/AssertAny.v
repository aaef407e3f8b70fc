(** * Assertions on probabilities, over any arithmetic: backend/src/lib.rs *)
From Coq Require Import String List NArith Bool.
From Verif Require Import Arith Sim SimExp SpecAny Any Text Backend Runner Math Binary64 BackAny.
From Flocq Require Import IEEE754.BinarySingleNaN.
Import ListNotations.

(** lib.rs:824: [(actual_prob - prob).abs() > tol]. *)
Class Asserts {A : Arith} := { far : prb -> prb -> prb -> bool }.

Section Assert.
Context {A : Arith} {EN : Env} {CK : Asserts} {D : Doubles}.
(** lib.rs:793-831 [assertmeasurementprobability]; lib.rs:844-866 (the ctl variant) ignores the controls. *)
Definition a_assert (ps : list pauli) (qs : list nat) (result : nat) (prob : prb) (msg : list N) (tolerance : prb) : W unit :=
  wbind (a_map_to_z_basis ps qs) (fun cl =>
  wbind (ask (AJointProb (map snd cl))) (fun r =>
    let p := match r with AProb p => p | _ => prb0 end in
    let actual := if Nat.eqb result 0 then pcompl p else p in
    wbind (if far actual prob tolerance then wfail msg else wret tt) (fun _ => wfor cl a_from_z))).
(** lib.rs:784-791 [qubit_is_zero]. *)
Definition a_is_zero (q : nat) : W bool := wbind (a_ensure q) (fun _ => ask_bit (AIsZero q)).
End Assert.

(** lib.rs:824 on f64, with Flocq's operations. *)
Definition Asserts64 (cosf sinf : f64 -> f64) : @Asserts (Arith64 cosf sinf) :=
  @Build_Asserts (Arith64 cosf sinf) (fun a b c : f64 => flt c (Babs (fsub a b))).
