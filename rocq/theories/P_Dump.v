(** * Results: dumps of the state

    [dump_text] is the text that [dump] returns and [dumpmachine] prints for a list of basis states and amplitudes
    (DumpText).  What a text reads as is in SpecDump. *)
From Coq Require Import String Ascii Reals NArith ZArith List Bool Lia Lra Permutation.
From Flocq Require Import IEEE754.BinarySingleNaN.
From Verif Require Import Cx Bits Arith ArithR IndexMap Sim SimExp SimApply Spec SpecExp SpecRun SimRun SpecAny Any AnyRun
  SpecNear SpecApply SpecRound RoundThms Math Binary64 SpecBinary64 Text SpecText SpecDouble DumpText SpecDump DumpThms DumpRun RoundEx.
From Verif Require Import P_Round.
Import ListNotations.

(** ** C61: a dump can be read back *)
Theorem C61_read_back : forall st, reads_dump (dump_text st) st.
Proof. exact read_dump. Qed.
Print Assumptions C61_read_back.

Theorem C61_unique : forall t st st', reads_dump t st -> reads_dump t st' -> st = st'.
Proof. exact dump_fun. Qed.
Print Assumptions C61_unique.

Theorem C61_distinct : forall st st', dump_text st = dump_text st' -> st = st'.
Proof. intros st st' H. apply (dump_fun (dump_text st)); [apply read_dump|rewrite H; apply read_dump]. Qed.
Print Assumptions C61_distinct.

(** Negative parts, negative zeros, numbers without a point, infinities and NaN as the code prints them. *)
Example C61_text_ex :
  dump_text [(0%N, (frs2, f0)); (3%N, (Bopp frs2, Bopp f0)); (2 ^ 70, (flit 25 2, flit (-5) (-1)))%N] =
  lit "STATE: [ |0" ++ ket ++ lit ": 0.7071067811865476+0i, |3" ++ ket ++ lit ": -0.7071067811865476+-0i, |1180591620717411303424" ++
    ket ++ lit ": 100-2.5i, ]" ++ [NL] /\
  dump_text [(1%N, (B754_infinity true, B754_nan))] = lit "STATE: [ |1" ++ ket ++ lit ": -inf+NaNi, ]" ++ [NL] /\
  dump_text [] = lit "STATE: [ ]" ++ [NL].
Proof. vm_compute. repeat split. Qed.

(** Looking does not disturb: once the state has been dumped, dumps, listings and probabilities asked for in any number
    and order always get the same replies, whatever the arithmetic is. *)
Theorem C61_looking : forall (A : Arith) (E : @Env A), any_order ->
  forall g h, avalid_run (mkBook [] true) h ->
  (exists rs s st reply, basis_list (length (live (fold_left abstep h (mkBook [] true)))) st /\
     reply AState = AListed st (length (live (fold_left abstep h (mkBook [] true)))) /\ reply ADump = ADumped st /\
     forall cs, Forall looks cs -> Forall (avalid (fold_left abstep h (mkBook [] true))) cs ->
       aexec (new_sim g) (h ++ ADump :: cs) = Ok (rs ++ ADumped st :: map reply cs, s)) \/
  (aexec (new_sim g) h = Panic EEmptyState /\ Exists is_apply h).
Proof. exact (fun A E O g h => looking O g h). Qed.
Print Assumptions C61_looking.

Local Open Scope R_scope.
(** The numbers in the text are close to quantum mechanics: with the hypotheses of [C55_binary64], what the text of a dump
    after the history reads as are finite amplitudes of a vector within the bound of the exact result. *)
Theorem C61_numbers : forall cosf sinf (EN : @Env (Arith64 cosf sinf)) k, libm_ok cosf sinf -> (k <= 8)%nat ->
  @any_order _ EN ->
  forall w g h h', avalid_run (mkBook [] true) h ->
  Forall2 (@call_means _ (Approx64 cosf sinf k)) h h' -> @angles_fit _ (Approx64 cosf sinf k) h ->
  (forall q, In q (live (fold_left abstep h (mkBook [] true))) -> (q < w)%nat) ->
  INR (total_rcost (mkBook [] true) (h ++ [ADump])) * ((1 / 10 ^ 10 + 2 ^ k / 2 ^ 38) * sqrt (2 * 2 ^ w)) <= 1 ->
  exists rs st s h'' phi z,
    aexec (new_sim g) (h ++ [ADump]) = Ok (rs ++ [ADumped st], s) /\
    Forall2 up_to_ry_sign h' h'' /\ (@clear_of_odd_pi _ (Approx64 cosf sinf k) h' -> h'' = h') /\ Cn2 z = 1 /\
    dist w phi (scale z (evolve h'' ket0)) <=
      INR (total_rcost (mkBook [] true) (h ++ [ADump])) * ((1 / 10 ^ 10 + 2 ^ k / 2 ^ 38) * sqrt (2 * 2 ^ w)) /\
    forall read, reads_dump (dump_text st) read ->
      (forall b a, In (b, a) read -> is_finite (fst a) = true /\ is_finite (snd a) = true) /\
      listing (map (fun e => (fst e, (B2R (fst (snd e)), B2R (snd (snd e))))) read)
              (live (fold_left abstep h (mkBook [] true))) phi.
Proof.
  intros cosf sinf EN k L K O w g h h' V M F W B.
  assert (Eq : forall b, total_rcost b (h ++ [ADump]) = total_rcost b (h ++ [AState])).
  { clear. induction h as [|c h IH]; intros b; [reflexivity|]. cbn [app total_rcost]. now rewrite IH. }
  rewrite Eq in *.
  destruct (C55_binary64 cosf sinf EN k L K O w g h h' V M F W B) as (rs & st & s & h'' & phi & z & E & Fi & Li & F2 & C & Z & D).
  rewrite exec_app in E. destruct (aexec (new_sim g) h) as [[r1 s1]|] eqn:E1; [|discriminate]. cbn [bind] in E.
  destruct (aexec s1 [AState]) as [[r2 s2]|] eqn:E2; [|discriminate]. cbn [bind] in E. injection E as E3 E4.
  assert (R2 : r2 = [] ++ [AListed st (length (live (fold_left abstep h (mkBook [] true))))]).
  { cbn [aexec] in E2. destruct (arun1 s1 AState) as [[r s3]|]; [|discriminate]. cbn [bind] in E2. injection E2 as <- _.
    apply app_inj_tail in E3. destruct E3 as [_ ->]. reflexivity. }
  subst r2. destruct (dump_lists _ _ _ _ _ E2) as [s3 E5].
  exists r1, st, s3, h'', phi, z. split; [rewrite exec_app, E1; cbn [bind]; rewrite E5; reflexivity|].
  split; [exact F2|]. split; [exact C|]. split; [exact Z|]. split; [exact D|].
  intros rd R. rewrite (dump_fun _ _ _ R (read_dump st)). split; [exact Fi|exact Li].
Qed.
Print Assumptions C61_numbers.

(** The history of [C55_binary64_ex] meets the hypotheses; here with the dump. *)
Example C61_numbers_ex : exists rs st s phi z,
  @aexec _ E64 (@new_sim _ E64 tt) (run64 ++ [ADump]) = Ok (rs ++ [ADumped st], s) /\
  (forall read, reads_dump (dump_text st) read ->
     listing (map (fun e => (fst e, (B2R (fst (snd e)), B2R (snd (snd e))))) read) [0; 1; 2]%nat phi) /\
  Cn2 z = 1 /\ dist 3 phi (scale z (evolve exact64 ket0)) <= 2 / 10 ^ 7.
Proof.
  destruct C55_binary64_ex as (rs & st & s & phi & z & E & Li & Z & D).
  rewrite exec_app in E. destruct (@aexec _ E64 (@new_sim _ E64 tt) run64) as [[r1 s1]|] eqn:E1; [|discriminate]. cbn [bind] in E.
  destruct (aexec s1 [AState]) as [[r2 s2]|] eqn:E2; [|discriminate]. cbn [bind] in E. injection E as E3 E4.
  assert (R2 : r2 = [] ++ [AListed st 3]).
  { cbn [aexec] in E2. destruct (arun1 s1 AState) as [[r s3]|]; [|discriminate]. cbn [bind] in E2. injection E2 as <- _.
    apply app_inj_tail in E3. destruct E3 as [_ ->]. reflexivity. }
  subst r2. destruct (dump_lists _ _ _ _ _ E2) as [s3 E5].
  exists r1, st, s3, phi, z. split; [rewrite exec_app, E1; cbn [bind]; rewrite E5; reflexivity|].
  split; [|split; [exact Z|exact D]]. intros rd R. rewrite (dump_fun _ _ _ R (read_dump st)). exact Li.
Qed.

(** The first case of [C61_looking] on a history without [apply]: any arithmetic, two entangled qubits, a rotation. *)
Example C61_looking_ex : forall (A : Arith) (E : @Env A), any_order -> forall g th,
  exists rs s st p, aexec (new_sim g) ([AAlloc; AAlloc; AGate AH 0; AMc AX [0%nat] 1; AGate (ARx th) 1] ++
    [ADump; AJointProb [0; 1]; AState; AJointProb [0; 1]; ADump])%nat =
    Ok (rs ++ [ADumped st; p; AListed st 2; p; ADumped st], s) /\ basis_list 2 st.
Proof.
  intros A E O g th.
  destruct (C61_looking A E O g [AAlloc; AAlloc; AGate AH 0; AMc AX [0%nat] 1; AGate (ARx th) 1])
    as [(rs & s & st & reply & B & R1 & R2 & H)|[_ X]].
  - cbn [avalid_run avalid abstep live tidy]. unfold targets_ok. simpl.
    repeat match goal with
    | |- _ /\ _ => split
    | |- True => exact I
    | |- NoDup _ => repeat constructor; simpl; intuition lia
    | |- incl _ _ => intros x Hx; simpl in *; intuition
    | |- _ \/ _ => simpl; auto
    end.
  - exists rs, s, st, (reply (AJointProb [0; 1]%nat)). split; [|exact B].
    rewrite (H [AJointProb [0; 1]; AState; AJointProb [0; 1]; ADump]%nat).
    + cbn [map]. rewrite R1, R2. reflexivity.
    + repeat constructor.
    + change (fold_left _ _ _) with (mkBook [0; 1]%nat true).
      repeat apply Forall_cons; try apply Forall_nil; cbn [avalid]; unfold targets_ok; simpl; try exact I;
        (split; [repeat constructor; simpl; intuition lia|intros x Hx; exact Hx]).
  - exfalso. repeat (apply Exists_cons in X; destruct X as [X|X]; [exact X|]). inversion X.
Qed.
