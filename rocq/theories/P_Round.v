(** * Rounding: C55

    What is assumed of an arithmetic with rounding ([approx_ok]), and how machine calls and exact calls correspond
    ([call_means]), is in SpecRound.  Binary64.v is the arithmetic of the code; what is assumed of the platform's
    cosine and sine ([libm_ok]) is in SpecBinary64.  [aexec] runs a history on the simulator (Any); [evolve] is the
    exact effect of a list of calls on a state vector and [dist] the Euclidean distance (SpecNear). *)
From Coq Require Import Reals NArith ZArith List Bool Lia Lra Permutation.
From Flocq Require Import IEEE754.BinarySingleNaN.
From Verif Require Import Cx Bits Arith ArithR IndexMap Sim SimExp SimApply Spec SpecExp SpecRun SimRun SpecAny Any AnyRun
  SpecNear SpecApply SpecRound RoundThms Math Binary64 SpecBinary64 Binary64Lemmas.
From Verif Require Import RoundEx.
Import ListNotations.
Local Open Scope R_scope.

(** ** C55 *)

(** For every arithmetic that rounds within the stated bounds: after a valid history of allocations, gates,
    matrices, exponentials, relabellings and queries, with angles in the range of cosine and sine, nothing panics and
    [get_state] lists finite amplitudes of a vector whose distance from the exact result, up to a global phase, grows at most linearly with the
    number of calls, as long as that bound is at most 1.  Single-qubit [ry] calls over a pending [rx] close to an odd
    multiple of pi act as their inverse (see [C01_refuted]). *)
Theorem C55_rounding : forall (A : Arith) (EN : Env) (AP : Approx), approx_ok -> any_order ->
  forall w g h h', avalid_run (mkBook [] true) h -> Forall2 call_means h h' -> angles_fit h ->
  (forall q, In q (live (fold_left abstep h (mkBook [] true))) -> (q < w)%nat) ->
  drift w (total_rcost (mkBook [] true) (h ++ [AState])) <= 1 ->
  exists rs st s h'' phi k,
    aexec (new_sim g) (h ++ [AState]) = Ok (rs ++ [AListed st (length (live (fold_left abstep h (mkBook [] true))))], s) /\
    all_finite st /\ supported (live (fold_left abstep h (mkBook [] true))) phi /\
    listing (values st) (live (fold_left abstep h (mkBook [] true))) phi /\
    Forall2 up_to_ry_sign h' h'' /\ (clear_of_odd_pi h' -> h'' = h') /\ Cn2 k = 1 /\
    dist w phi (scale k (evolve h'' ket0)) <= drift w (total_rcost (mkBook [] true) (h ++ [AState])).
Proof. exact (fun A EN AP L O w g h h' => rounding L O w g h h'). Qed.
Print Assumptions C55_rounding.

(** Binary64 is such an arithmetic, for angles up to 2^(8+k) and any k up to 8. *)
Theorem C55_binary64_laws : forall cosf sinf k, libm_ok cosf sinf -> (k <= 8)%nat ->
  @approx_ok (Arith64 cosf sinf) (Approx64 cosf sinf k).
Proof. exact (fun cosf sinf k L K => approx64_ok cosf sinf L k K). Qed.
Print Assumptions C55_binary64_laws.

(** The simulator in binary64, with the numbers filled in: each step costs at most (1e-10 + 2^(k-38)) sqrt (2 * 2^w). *)
Theorem C55_binary64 : forall cosf sinf (EN : @Env (Arith64 cosf sinf)) k, libm_ok cosf sinf -> (k <= 8)%nat ->
  @any_order _ EN ->
  forall w g h h', avalid_run (mkBook [] true) h ->
  Forall2 (@call_means _ (Approx64 cosf sinf k)) h h' -> @angles_fit _ (Approx64 cosf sinf k) h ->
  (forall q, In q (live (fold_left abstep h (mkBook [] true))) -> (q < w)%nat) ->
  INR (total_rcost (mkBook [] true) (h ++ [AState])) * ((1 / 10 ^ 10 + 2 ^ k / 2 ^ 38) * sqrt (2 * 2 ^ w)) <= 1 ->
  exists rs st s h'' phi z,
    aexec (new_sim g) (h ++ [AState]) = Ok (rs ++ [AListed st (length (live (fold_left abstep h (mkBook [] true))))], s) /\
    (forall b a, In (b, a) st -> is_finite (fst a) = true /\ is_finite (snd a) = true) /\
    listing (map (fun e => (fst e, (B2R (fst (snd e)), B2R (snd (snd e))))) st)
            (live (fold_left abstep h (mkBook [] true))) phi /\
    Forall2 up_to_ry_sign h' h'' /\ (@clear_of_odd_pi _ (Approx64 cosf sinf k) h' -> h'' = h') /\ Cn2 z = 1 /\
    dist w phi (scale z (evolve h'' ket0)) <=
      INR (total_rcost (mkBook [] true) (h ++ [AState])) * ((1 / 10 ^ 10 + 2 ^ k / 2 ^ 38) * sqrt (2 * 2 ^ w)).
Proof.
  intros cosf sinf EN k L K O w g h h' V M F W B.
  assert (D : @drift _ (Approx64 cosf sinf k) w (total_rcost (mkBook [] true) (h ++ [AState])) <=
    INR (total_rcost (mkBook [] true) (h ++ [AState])) * ((1 / 10 ^ 10 + 2 ^ k / 2 ^ 38) * sqrt (2 * 2 ^ w))).
  { unfold drift. apply Rmult_le_compat_l; [apply pos_INR|]. apply Rmult_le_compat_r; [apply sqrt_pos|].
    unfold step_err. cbn [thr dlt Approx64]. destruct f1em10_val as [_ T]. assert (T' := Rle_abs (B2R f1em10 - 1 / 10 ^ 10)).
    assert (1 <= 2 ^ k) by (apply pow_R1_Rle; lra). lra. }
  destruct (C55_rounding (Arith64 cosf sinf) EN (Approx64 cosf sinf k) (C55_binary64_laws cosf sinf k L K) O w g h h' V M F W)
    as (rs & st & s & h'' & phi & z & E & Fi & _ & Li & F2 & C & Z & Ds); [lra|].
  exists rs, st, s, h'', phi, z. split; [exact E|]. split.
  { intros b a I. unfold all_finite in Fi. rewrite Forall_forall in Fi. exact (Fi (b, a) I). }
  split; [exact Li|]. split; [exact F2|]. split; [exact C|]. split; [exact Z|]. lra.
Qed.
Print Assumptions C55_binary64.
Example C55_binary64_ex : exists rs st s phi z,
  @aexec _ E64 (@new_sim _ E64 tt) (run64 ++ [AState]) = Ok (rs ++ [AListed st 3], s) /\
  listing (map (fun e => (fst e, (B2R (fst (snd e)), B2R (snd (snd e))))) st) [0; 1; 2]%nat phi /\ Cn2 z = 1 /\
  dist 3 phi (scale z (evolve exact64 ket0)) <= 2 / 10 ^ 7.
Proof.
  assert (L1 : B2R (flit 1 (-1)) = 1 / 2 /\ is_finite (flit 1 (-1)) = true) by (destruct (flit_val 1 (-1)) as [F V]; [reflexivity|lia|]; split; [rewrite V; simpl; lra|exact F]).
  assert (L2 : B2R (flit 3 0) = 3 /\ is_finite (flit 3 0) = true) by (destruct (flit_val 3 0) as [F V]; [reflexivity|lia|]; split; [rewrite V; simpl; lra|exact F]).
  assert (L3 : B2R (flit (-7) (-3)) = -7 / 8 /\ is_finite (flit (-7) (-3)) = true) by (destruct (flit_val (-7) (-3)) as [F V]; [reflexivity|lia|]; split; [rewrite V; simpl; lra|exact F]).
  destruct L1 as [V1 F1], L2 as [V2 F2], L3 as [V3 F3], f1_val as [F4 V4], f0_val as [F5 V5].
  assert (N : total_rcost (mkBook [] true) (run64 ++ [AState]) = 289%nat) by reflexivity.
  assert (S4 : sqrt (2 * 2 ^ 3) = 4) by (replace (2 * 2 ^ 3) with (4 * 4) by ring; apply sqrt_square; lra).
  assert (Nv : INR 289 = 289) by (rewrite INR_IZR_INZ; reflexivity).
  assert (A1 : Rabs (1 / 2) = 1 / 2) by (apply Rabs_pos_eq; lra). assert (A2 : Rabs 3 = 3) by (apply Rabs_pos_eq; lra).
  assert (A3 : Rabs (-7 / 8) = 7 / 8) by (rewrite Rabs_left; lra). assert (A4 := Rabs_R1).
  destruct (C55_binary64 cos52 sin52 E64 0 ref_libm ltac:(lia) (fun l => Permutation_sym (Permutation_rev l)) 3 tt run64 exact64)
    as (rs & st & s & h'' & phi & z & E & _ & Li & _ & C & Z & D).
  - cbn [run64 avalid_run avalid abstep live tidy]. unfold targets_ok. simpl.
    repeat match goal with
    | |- _ /\ _ => split
    | |- True => exact I
    | |- NoDup _ => repeat constructor; simpl; intuition lia
    | |- incl _ _ => intros x Hx; simpl in *; intuition
    | |- _ \/ _ => simpl; auto
    | |- (_ <= _)%nat => lia
    end; reflexivity.
  - unfold run64, exact64. repeat apply Forall2_cons; try apply Forall2_nil; cbn [call_means gate_means tfin tval Approx64]; auto.
    2:{ split; [|split; [exact had_iso|auto]]. intros r c _ _.
        assert (La := C55_binary64_laws cos52 sin52 0 ref_libm ltac:(lia)).
        assert (Cl : @close _ (Approx64 cos52 sin52 0) ars2 rsqrt2 (10 * @dlt _ (Approx64 cos52 sin52 0))).
        { destruct (ap_rs2 La) as [Fa Da]. split; [exact Fa|]. eapply Rle_trans; [exact Da|]. cbn [dlt Approx64]. lra. }
        unfold had64, had. destruct (Nat.eqb r 1 && Nat.eqb c 1)%bool; [|exact Cl].
        destruct Cl as [Fa Da], (ap_opp La ars2) as [Fo Eo]. split; [apply Fo; exact Fa|]. rewrite Eo.
        match goal with |- cmod (- ?v - - ?z)%C <= _ => replace (- v - - z)%C with (- (v - z))%C by ring end.
        rewrite Round.cmod_opp. exact Da. }
    split; [|split; [unfold Ci, Cn2; simpl; ring|auto]]. split; [split; [exact F5|exact F4]|].
    change (cmod ((B2R f0, B2R f1) - Ci)%C <= 10 * (2 ^ 0 / 2 ^ 44)). rewrite V5, V4.
    replace ((0, 1) - Ci)%C with C0 by (unfold Ci, C0, Csub; simpl; f_equal; ring).
    unfold cmod, C0, Cn2. simpl fst. simpl snd. rewrite Rmult_0_l, Rplus_0_l, sqrt_0. lra.
  - assert (T : @turns _ (Approx64 cos52 sin52 0) run64 <= 4).
    { unfold run64, turns, turn. cbn [fold_right tval dlt Approx64]. rewrite V1, V2, A1, A2. lra. }
    assert (L : @lim _ (Approx64 cos52 sin52 0) = 256) by (cbn [lim Approx64]; simpl; ring).
    split; [rewrite L; lra|]. rewrite L. unfold run64.
    repeat apply Forall_cons; try apply Forall_nil; cbn [held tval Approx64]; auto; rewrite ?V3, ?V4, ?A3, ?A4; unfold run64 in T; lra.
  - intros q Hq. change (In q [0; 1; 2]%nat) in Hq. simpl in Hq. intuition lia.
  - rewrite N, S4, Nv. lra.
  - change (live (fold_left abstep run64 (mkBook [] true))) with [0; 1; 2]%nat in *. rewrite N, S4, Nv in D.
    rewrite C in D.
    + exists rs, st, s, phi, z. split; [exact E|]. split; [exact Li|]. split; [exact Z|]. lra.
    + right. left.
      assert (X : rx_total exact64 + INR (length exact64) * @dlt _ (Approx64 cos52 sin52 0) <= 1).
      { unfold exact64, rx_total, rx_turn. cbn [fold_right length dlt Approx64]. rewrite A1.
        replace (INR 13) with 13 by (rewrite INR_IZR_INZ; reflexivity). lra. }
      assert (X0 : 0 <= rx_total exact64 + INR (length exact64) * @dlt _ (Approx64 cos52 sin52 0)).
      { apply Rplus_le_le_0_compat; [apply rx_total_pos|]. apply Rmult_le_pos; [apply pos_INR|cbn [dlt Approx64]; lra]. }
      set (u := rx_total exact64 + _) in *. assert (P3 := PI2_3_2). split; [lra|].
      apply Rlt_le_trans with (1 / 2).
      * unfold step_err. cbn [thr dlt Approx64]. destruct f1em10_val as [_ T]. assert (T' := Rle_abs (B2R f1em10 - 1 / 10 ^ 10)). lra.
      * rewrite <- cos_PI3. apply cos_decr_1; lra.
Qed.
