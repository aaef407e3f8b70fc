(** * Classical programs over any arithmetic: C73

    Calls and replies are those of SpecAny; the machine that works on bits is in SpecClassical, and programs running on it in
    SpecBits.  About the numbers only products of ones and right angles are assumed ([turns_ok]), and that samples lie in [0,1). *)
From Coq Require Import String NArith ZArith List Bool Lia Permutation Reals.
From Flocq Require Import IEEE754.BinarySingleNaN.
From Verif Require Import Cx Arith ArithR Sim SimExp SpecRun SpecAny Any AnyRun Math Binary64 SpecBinary64 SpecClassical Classical Text Backend Runner BackAny
  SpecBits ClassicalThms.
Import ListNotations.

(** C73: a program of X, Y, Z, S, their inverses and controlled forms, with allocation, release, exchange and measurement, never
    panics and every reply is the one of the machine that works on bits: whatever the seed, the order of the hash table and the
    number of calls.  The state listed is one basis state, turned by exactly the right angles the gates make. *)
Theorem C73_calls : forall (A : Arith) (E : @Env A) (turned : nat -> amp -> Prop), any_order -> turns_ok turned -> samples_proper ->
  forall g h, avalid_run (bbook no_bits) h -> Forall classical h ->
  exists rs s, aexec (new_sim g) h = Ok (rs, s) /\ bits_replies turned no_bits h rs.
Proof. exact (fun A E t O K S => classical_thm O t K S). Qed.
Print Assumptions C73_calls.

(** C73 for whole shots: if the program runs on bits, then every shot of it, whatever the seed, ends as it does there, with the same
    results and the same text. *)
Theorem C73_shot : forall (A : Arith) (E : @Env A) (turned : nat -> amp -> Prop) (PH : Phases) (D : Doubles) (TG : ThreadGen),
  any_order -> turns_ok turned -> samples_proper ->
  forall (p : aprogram) fuel mem t x, bits_shot p fuel mem t = Some x -> forall g, fst (shot p fuel mem g t) = x.
Proof. exact (fun A E t PH D TG O K S => shot_bits t O K S). Qed.
Print Assumptions C73_shot.

(** Binary64 has what is assumed about the numbers, whatever cos and sin are. *)
Theorem C73_binary64_laws : forall cosf sinf, @turns_ok (Arith64 cosf sinf) turned64.
Proof. exact turns64. Qed.
Print Assumptions C73_binary64_laws.
(** So do the real numbers, where the amplitude is exactly the power of i. *)
Theorem C73_real_laws : forall (T : Tol), (0 <= tol < 1)%R -> @turns_ok RArith (fun k a => a = quarter k).
Proof. exact (@turnsR). Qed.
Print Assumptions C73_real_laws.
(** Samples that are the quotient of a whole number below 2^53 and 2^53 (rand's [StandardUniform] for [f64]) lie in [0,1). *)
Theorem C73_binary64_samples : forall cosf sinf (E : @Env (Arith64 cosf sinf)),
  (forall g, exists k, (0 <= k < 2 ^ 53)%Z /\ @eq f64 (fst (@draw _ E g)) (sample53 k)) -> @samples_proper _ E.
Proof. exact samples64. Qed.
Print Assumptions C73_binary64_samples.

(** The hypotheses are met: a full adder in binary64, then a reset and another measurement.  For every seed, and whatever cos, sin and
    the order of the hash table are, it prints the sum, the carry and a zero. *)
Definition calls_in_turn {A : Arith} {D : Doubles} (cs : list acallb) : aprogram :=
  {| amem := unit; aloc := list acallb; astart := fun _ => cs;
     astep := fun l => match l with [] => BDone tt | c :: l' => BCall c (fun _ => l') end |}.
Definition adder {A : Arith} {D : Doubles} (x y z : bool) : list acallb :=
  (if x then [UGate AX 0] else []) ++ (if y then [UGate AY 1] else []) ++ (if z then [UGate AX 2] else []) ++
  [UC2 AX 0 1 3; UC1 AX 0 1; UGate AS 3; UCtl AX [1; 2] 3; UCtl AZ [3] 2; UC1 AX 1 2; USwap 2 1; UMz 1 0; UMz 3 1; UReset 3; UMz 3 2;
   UResult 0 None; UResult 1 None; UResult 2 None].
Definition printed {D : Doubles} (l : list bool) : text := flat_map (fun v => render (RecResult v None)) l.
Definition majority (x y z : bool) : bool := (x && y) || (x && z) || (y && z).
Example C73_ex : forall cosf sinf (E : @Env (Arith64 cosf sinf)) (PH : @Phases (Arith64 cosf sinf)) (D : Doubles) (TG : ThreadGen),
  @any_order _ E -> (forall g, exists k, (0 <= k < 2 ^ 53)%Z /\ @eq f64 (fst (@draw _ E g)) (sample53 k)) ->
  forall x y z g t, exists res, let sum := xorb x (xorb y z) in
  fst (@shot _ E PH D TG (calls_in_turn (adder x y z)) 20 tt g t) = Fine (SDone tt t) (mkDesk res 4 (printed [sum; majority x y z; false])).
Proof.
  intros cosf sinf E PH D TG O S x y z g t. exists [xorb x (xorb y z); majority x y z; false]. cbv zeta.
  apply (C73_shot _ E turned64 PH D TG O (C73_binary64_laws cosf sinf) (C73_binary64_samples cosf sinf E S)).
  destruct x, y, z; reflexivity.
Qed.
(** The replies to a short history: the state listed is the one with both bits set, turned by one right angle, and the joint
    measurement is even. *)
Example C73_calls_ex : forall cosf sinf (E : @Env (Arith64 cosf sinf)), @any_order _ E ->
  (forall g, exists k, (0 <= k < 2 ^ 53)%Z /\ @eq f64 (fst (@draw _ E g)) (sample53 k)) ->
  forall g, exists a s, turned64 1 a /\
    @aexec _ E (new_sim g) [AAlloc; AAlloc; AGate AY 0; AMc AX [0] 1; AState; AJointMeasure [1; 0]; ARelease 0; AMeasure 1] =
    Ok ([AId 0; AId 1; AUnit; AUnit; @AListed (Arith64 cosf sinf) [(3%N, a)] 2; ABit false; AUnit; ABit true], s).
Proof.
  intros cosf sinf E O S g.
  destruct (C73_calls _ E turned64 O (C73_binary64_laws cosf sinf) (C73_binary64_samples cosf sinf E S) g
    [AAlloc; AAlloc; AGate AY 0; AMc AX [0] 1; AState; AJointMeasure [1; 0]; ARelease 0; AMeasure 1]) as (rs & s & Er & R).
  - cbn. unfold targets_ok. repeat split; simpl; auto; try (repeat constructor; simpl; intuition discriminate); intros q H; cbn in *; intuition.
  - repeat constructor.
  - repeat (destruct rs as [|? rs]; [solve [repeat (destruct R as [_ R]); contradiction]|]). destruct rs; [|repeat (destruct R as [_ R]); contradiction].
    cbn in R. destruct R as (-> & -> & -> & -> & (amp_ & -> & T) & -> & -> & -> & _). exists amp_, s. split; [exact T|exact Er].
Qed.
