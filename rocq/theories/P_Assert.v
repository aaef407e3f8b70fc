(** * Assertions with rounding: C72

    The calls of the simulator that an assertion makes ([peek_a], [peek_c]) and the law assumed of the comparison
    ([asserts_ok]) are in SpecAssert; [decided], [worst], [pclose] in SpecLedger; [paired], [result_prob] in SpecBackend. *)
From Coq Require Import Reals NArith ZArith List Bool Lia Lra Permutation.
From Flocq Require Import IEEE754.BinarySingleNaN.
From Verif Require Import Cx Bits Arith ArithR IndexMap Sim SimExp SimApply Spec SpecExp SpecRun SimRun SpecAny Any AnyRun
  SpecNear SpecRound SpecLedger RoundThms RoundLedger LedgerBound Math Binary64 SpecBinary64 Binary64Lemmas Binary64Prob RoundEx.
From Verif Require Import LedgerEx Text Runner Backend SpecBackend BackAny AssertAny SpecAssert AssertThms.
From Verif Require Import BackAnyR P_Round P_Ledger.
Import ListNotations.
Local Open Scope R_scope.

(** ** C72 *)

(** After any valid history of calls in which rounding decides no outcome: an assertion on the probability of a
    Pauli measurement passes if the exact probability is within the tolerance by the margin of rounding, and
    stops the program with its message if it is outside by that margin; the calls it makes leave the exact state as it was. *)
Theorem C72_assert : forall (A : Arith) (EN : Env) (AP : Approx) (PP : ApproxP) (CK : Asserts) (D : Doubles),
  approx_ok -> approx_p_ok -> any_order -> asserts_ok ->
  forall w p, 0 < p <= 1 -> forall g h h' x k ps qs, length ps = length qs ->
  let cl := paired ps qs in let n := (top (map snd cl) - dmax k)%nat in
  NoDup (map snd cl) -> avalid_run (mkBook [] true) (h ++ peek_a n cl) -> Forall2 call_stands h h' -> angles_fit h ->
  clear_of_odd_pi (h' ++ peek_c n cl) -> decided w p x (initial g) (h' ++ peek_c n cl) ->
  let t := worst w (total_lcost (mkBook [] true) (h ++ peek_a n cl)) (total_pcount (h ++ peek_a n cl)) p in
  t <= 1 / 2 -> t <= p / 2 -> t <= x -> thr + t < p ->
  let m := mrun sampled (initial g) h' in let l := grow n (live (bk m)) in
  exists rs s rs' s', aexec (new_sim g) h = Ok (rs, s) /\ aexec s (peek_a n cl) = Ok (rs', s') /\
    vec (mrun sampled (initial g) (h' ++ peek_c n cl)) = vec m /\
    forall res prob msg tl, pfin prob -> pfin tl -> Rabs (pval prob) <= 8 ->
    let e := Rabs (result_prob (width l) cl (negb (Nat.eqb res 0)) (vec m) - pval prob) in
    (e + (t + 2 * perr) <= pval tl ->
     play s (a_assert ps qs res prob msg tl k) = (Fine tt (mkDesk (dres k) (Nat.max (dmax k) (top (map snd cl))) (dout k)), s')) /\
    (pval tl + (t + 2 * perr) < e ->
     exists s'', play s (a_assert ps qs res prob msg tl k) = (Broken (EFail msg) (dout k ++ render (RecMessage msg)), s'')).
Proof. exact (fun A EN AP PP CK D L Lp O K w p Hp g h h' x => assert_decides L Lp O w p Hp g h h' x K). Qed.
Print Assumptions C72_assert.

(** With exact numbers these are the functions of Backend.v (C22). *)
Theorem C72_exact : forall (T : Tol) (EN : Env) (D : Doubles) (SW : Shows) s k,
  let told X (a : answer X * sim) := match a with
    | (Fine r k', s') => BOk r (mkBack s' (dres k') (dmax k') (dout k'))
    | (Broken e o, _) => BErr e o
    end in
  (forall ps qs res (prob tl : R) msg,
    told unit (play s (a_assert (A := RArith) (CK := AssertsR) ps qs res prob msg tl k)) =
    qis_assert ps qs res prob msg tl (mkBack s (dres k) (dmax k) (dout k))) /\
  (forall q, told bool (play s (a_is_zero q k)) = api_qubit_is_zero q (mkBack s (dres k) (dmax k) (dout k))).
Proof.
  intros T EN D SW s k told. split.
  - intros ps qs res prob tl msg. etransitivity; [|exact (same_assert ps qs res prob msg tl s k)]. unfold bres_of, told. destruct (play s _) as [[r k'|e o] s']; reflexivity.
  - intros q. etransitivity; [|exact (same_is_zero q s k)]. unfold bres_of, told. destruct (play s _) as [[r k'|e o] s']; reflexivity.
Qed.
Print Assumptions C72_exact.

(** Likewise asking whether a qubit is zero. *)
Theorem C72_is_zero : forall (A : Arith) (EN : Env) (AP : Approx) (PP : ApproxP) (D : Doubles),
  approx_ok -> approx_p_ok -> any_order ->
  forall w p, 0 < p <= 1 -> forall g h h' x k q, let n := (S q - dmax k)%nat in
  avalid_run (mkBook [] true) (h ++ repeat AAlloc n ++ [AIsZero q]) -> Forall2 call_stands h h' -> angles_fit h ->
  clear_of_odd_pi (h' ++ repeat CAlloc n ++ [CIsZero q]) -> decided w p x (initial g) (h' ++ repeat CAlloc n ++ [CIsZero q]) ->
  let t := worst w (total_lcost (mkBook [] true) (h ++ repeat AAlloc n ++ [AIsZero q])) (total_pcount (h ++ repeat AAlloc n ++ [AIsZero q])) p in
  t <= 1 / 2 -> t <= p / 2 -> t <= x -> thr + t < p ->
  let m := mrun sampled (initial g) h' in let l := grow n (live (bk m)) in
  exists rs s b s', aexec (new_sim g) h = Ok (rs, s) /\
    play s (a_is_zero q k) = (Fine b (mkDesk (dres k) (Nat.max (dmax k) (S q)) (dout k)), s') /\
    vec (mrun sampled (initial g) (h' ++ repeat CAlloc n ++ [CIsZero q])) = vec m /\
    (born (width l) [q] (vec m) <= thr - t -> b = true) /\ (thr + t < born (width l) [q] (vec m) -> b = false).
Proof. exact (fun A EN AP PP D L Lp O w p Hp g h h' x => is_zero_near L Lp O w p Hp g h h' x). Qed.
Print Assumptions C72_is_zero.

(** Binary64 satisfies the law of the comparison. *)
Theorem C72_binary64_laws : forall cosf sinf, @asserts_ok (Arith64 cosf sinf) (ApproxP64 cosf sinf) (Asserts64 cosf sinf).
Proof. exact asserts64_ok. Qed.
Print Assumptions C72_binary64_laws.

(** Assertions in binary64, with the numbers filled in. *)
Theorem C72_binary64 : forall cosf sinf (EN : @Env (Arith64 cosf sinf)) (D : Doubles) k, libm_ok cosf sinf -> (k <= 8)%nat ->
  (forall g, is_finite (fst (@draw (Arith64 cosf sinf) EN g) : f64) = true) -> @any_order _ EN ->
  forall w p, 0 < p <= 1 ->
  forall g h h' d ps qs, length ps = length qs ->
  let cl := paired ps qs in let n := (top (map snd cl) - dmax d)%nat in
  NoDup (map snd cl) -> avalid_run (mkBook [] true) (h ++ peek_a n cl) ->
  Forall2 (@call_stands _ (Approx64 cosf sinf k)) h h' -> @angles_fit _ (Approx64 cosf sinf k) h ->
  @clear_of_odd_pi _ (Approx64 cosf sinf k) (h' ++ peek_c n cl) ->
  let c := total_pcount (h ++ peek_a n cl) in
  let t := (4 / p) ^ c * (3 * INR (total_lcost (mkBook [] true) (h ++ peek_a n cl)) * (1 / 10 ^ 10 + 2 ^ k / 2 ^ 38) * sqrt (2 * 2 ^ w)
    + INR (1 + c) * (2 * 2 ^ w + 1) / 2 ^ 49) in
  @decided _ EN (ApproxP64 cosf sinf) w p t (initial g) (h' ++ peek_c n cl) ->
  t <= 1 / 2 -> 2 / 10 ^ 10 + t <= p -> t <= p / 2 ->
  let m := mrun (@sampled _ EN (ApproxP64 cosf sinf)) (initial g) h' in let l := grow n (live (bk m)) in
  exists rs s rs' s', aexec (new_sim g) h = Ok (rs, s) /\ aexec s (peek_a n cl) = Ok (rs', s') /\
    forall res (prob tl : f64) msg, is_finite prob = true -> is_finite tl = true -> Rabs (B2R prob) <= 8 ->
    let e := Rabs (result_prob (width l) cl (negb (Nat.eqb res 0)) (vec m) - B2R prob) in
    (e + (t + 1 / 2 ^ 48) <= B2R tl ->
     play s (a_assert (CK := Asserts64 cosf sinf) ps qs res prob msg tl d) =
       (Fine tt (mkDesk (dres d) (Nat.max (dmax d) (top (map snd cl))) (dout d)), s')) /\
    (B2R tl + (t + 1 / 2 ^ 48) < e ->
     exists s'', play s (a_assert (CK := Asserts64 cosf sinf) ps qs res prob msg tl d) =
       (Broken (EFail msg) (dout d ++ render (RecMessage msg)), s'')).
Proof.
  intros cosf sinf EN D k L K S O w p Hp g h h' d ps qs Le cl n N V M F C c t De T1 T2 T3 m l.
  destruct f1em10_val as [_ T]. assert (T' := Rle_abs (B2R f1em10 - 1 / 10 ^ 10)).
  assert (B : @worst _ (Approx64 cosf sinf k) (ApproxP64 cosf sinf) w (total_lcost (mkBook [] true) (h ++ peek_a n cl)) c p <= t).
  { unfold worst, t. apply Rmult_le_compat_l; [apply pow_le; left; apply Rdiv_lt_0_compat; lra|]. cbn [perr ApproxP64].
    replace (INR (1 + c) * ((2 * 2 ^ w + 1) * / 2 ^ 49)) with (INR (1 + c) * (2 * 2 ^ w + 1) / 2 ^ 49) by (unfold Rdiv; ring).
    apply Rplus_le_compat_r. unfold drift. rewrite !Rmult_assoc. apply Rmult_le_compat_l; [lra|].
    apply Rmult_le_compat_l; [apply pos_INR|]. apply Rmult_le_compat_r; [apply sqrt_pos|].
    unfold step_err. cbn [thr dlt Approx64]. assert (1 <= 2 ^ k) by (apply pow_R1_Rle; lra). lra. }
  destruct (C72_assert _ EN (Approx64 cosf sinf k) (ApproxP64 cosf sinf) (Asserts64 cosf sinf) D (C55_binary64_laws cosf sinf k L K)
    (C56_binary64_laws cosf sinf EN k K S) O (C72_binary64_laws cosf sinf) w p Hp g h h' t d ps qs Le N V M F C De)
    as (rs & s & rs' & s' & E1 & E2 & _ & H); fold cl; fold n; fold c; try lra.
  - cbn [thr Approx64]. lra.
  - exists rs, s, rs', s'. split; [exact E1|]. split; [exact E2|]. intros res prob tl msg Fp Ft Bp e.
    destruct (H res prob msg tl Fp Ft Bp) as [H1 H2]. cbn [pval perr ApproxP64] in H1, H2. fold cl n m in H1, H2. fold l in H1, H2. fold c in H1, H2.
    assert (P : 2 * / 2 ^ 49 = 1 / 2 ^ 48) by lra. rewrite P in H1, H2. split; intros X; [apply H1|apply H2]; fold e; lra.
Qed.
Print Assumptions C72_binary64.

(** An assertion whose probability or tolerance is not a number passes whatever the state. *)
Theorem C72_nan : forall cosf sinf (EN : @Env (Arith64 cosf sinf)) (D : Doubles) ps qs d s rs s' res (prob tl : f64) msg,
  length ps = length qs -> is_nan prob = true \/ is_nan tl = true ->
  let cl := paired ps qs in aexec s (peek_a (top (map snd cl) - dmax d) cl) = Ok (rs, s') ->
  play s (a_assert (CK := Asserts64 cosf sinf) ps qs res prob msg tl d) =
    (Fine tt (mkDesk (dres d) (Nat.max (dmax d) (top (map snd cl))) (dout d)), s').
Proof.
  exact (fun cosf sinf EN D ps qs d s rs s' res prob tl msg Le H => assert_passes (CK := Asserts64 cosf sinf) ps qs d s rs s' res prob msg tl Le
    (fun a => far_nan cosf sinf a prob tl H)).
Qed.
Print Assumptions C72_nan.

(** A Bell pair in binary64: that XX gives Zero is asserted and passes, that it gives One is asserted and stops the program; asserted with
    a probability that is not a number it passes; qubit 0 is not zero. *)
Definition made64 : list (@acall (Arith64 cos52 sin52)) := [AAlloc; AAlloc; AGate AH 0; AMc AX [0%nat] 1].
Definition made : list call := [CAlloc; CAlloc; CGate GH 0; CMc GX [0%nat] 1].
Definition tenth : f64 := @B754_finite 53 1024 false 7205759403792794 (-56) eq_refl.
Lemma tenth_val : is_finite tenth = true /\ B2R tenth = 7205759403792794 / 2 ^ 56.
Proof. split; [reflexivity|]. unfold tenth, B2R, Defs.F2R. cbn. lra. Qed.
Lemma pair_xx : one_prob 2 [(PX_, 0%nat); (PX_, 1%nat)] pair = 0.
Proof.
  destruct pair_at as (P0 & P1 & P2 & P3). unfold one_prob, norm2, qsum, basis. cbn -[pair Cn2 eigen_proj]. unfold eigen_proj. cbn -[Cn2 pair].
  rewrite P0, P1, P2, P3. unfold Cn2, rsqrt2, RtoC, C0, Cmul, Csub. simpl. ring.
Qed.
Ltac valid64 := unfold targets_ok; simpl;
  repeat match goal with
  | |- _ /\ _ => split
  | |- True => exact I
  | |- NoDup _ => repeat constructor; simpl; intuition lia
  | |- incl _ _ => intros x Hx; simpl in *; intuition
  | |- _ \/ _ => simpl; auto
  end; auto.
Ltac decided64 := cbn [app decided initial bk vec mgen live mstep1 sampled fst snd draw E64 projects bstep vstep draws_sample remove_id filter Nat.eqb
    negb insert_id fresh_id gap_from Nat.ltb Nat.leb pval ApproxP64];
  repeat match goal with
  | |- _ /\ _ => split
  | |- True => exact I
  | |- forall q, In q _ -> _ => intros q Hq; simpl in Hq; intuition lia
  end.
Lemma made_stands : Forall2 (@call_stands _ (Approx64 cos52 sin52 0)) made64 made.
Proof. unfold made64, made. repeat apply Forall2_cons; try apply Forall2_nil; cbn [call_stands call_means gate_means]; auto. Qed.
Lemma made_fits : @angles_fit _ (Approx64 cos52 sin52 0) made64.
Proof.
  unfold angles_fit, made64. cbn [turns turn fold_right]. assert (L : @lim _ (Approx64 cos52 sin52 0) = 256) by (cbn [lim Approx64]; simpl; ring).
  rewrite L. split; [lra|]. repeat apply Forall_cons; try apply Forall_nil; exact I.
Qed.
Example C72_ex : forall (D : Doubles) out msg, let d := mkDesk ([]) 2 out in
  exists rs s s' s'', @aexec _ E64 (@new_sim _ E64 tt) made64 = Ok (rs, s) /\
    play s (a_assert (CK := Asserts64 cos52 sin52) [PX_; PI_; PX_] [0; 1; 1]%nat 0 f1 msg tenth d) = (Fine tt d, s') /\
    play s (a_assert (CK := Asserts64 cos52 sin52) [PX_; PI_; PX_] [0; 1; 1]%nat 1 f1 msg tenth d) =
      (Broken (EFail msg) (out ++ render (RecMessage msg)), s'') /\
    play s (a_assert (CK := Asserts64 cos52 sin52) [PX_; PI_; PX_] [0; 1; 1]%nat 1 (B754_nan : f64) msg tenth d) = (Fine tt d, s').
Proof.
  intros D out msg d.
  assert (S3 : 0 <= sqrt (2 * 2 ^ 2) <= 3).
  { split; [apply sqrt_pos|]. replace 3 with (sqrt (3 * 3)) by (apply sqrt_square; lra). apply sqrt_le_1_alt. lra. }
  assert (B := C72_binary64 cos52 sin52 E64 D 0 ref_libm ltac:(lia) (fun _ => proj1 f0_val)
    (fun l => Permutation_sym (Permutation_rev l)) 2 1 ltac:(lra) tt made64 made d [PX_; PI_; PX_] [0; 1; 1]%nat eq_refl).
  change (paired [PX_; PI_; PX_] [0; 1; 1]%nat) with [(PX_, 0%nat); (PX_, 1%nat)] in B. cbn [map snd] in B.
  change (top [0; 1]%nat - dmax d)%nat with 0%nat in B.
  assert (N : total_lcost (mkBook [] true) (made64 ++ peek_a 0 [(PX_, 0%nat); (PX_, 1%nat)]) = 119%nat) by reflexivity.
  assert (M : total_pcount (made64 ++ peek_a 0 [(PX_, 0%nat); (PX_, 1%nat)]) = 0%nat) by reflexivity.
  rewrite N, M in B. cbv zeta in B. set (t := (4 / 1) ^ 0 * _) in B.
  assert (T : 0 <= t <= 1 / 10 ^ 4).
  { unfold t. replace (INR 119) with 119 by (rewrite INR_IZR_INZ; reflexivity). replace (INR (1 + 0)) with 1 by (simpl; ring).
    set (r := sqrt (2 * 2 ^ 2)) in *. clearbody r. clear - S3. simpl pow at 1. lra. }
  clearbody t.
  destruct B as (rs & s & rs' & s' & E1 & E2 & H); try lra.
  - repeat constructor; simpl; intuition lia.
  - cbn [made64 peek_a peek repeat flat_map turning turning_back fst snd map app avalid_run avalid abstep live tidy]. valid64.
  - exact made_stands.
  - exact made_fits.
  - left. unfold made. cbn. repeat apply Forall_cons; try apply Forall_nil; simpl; tauto.
  - unfold made, peek_c, peek. cbn [repeat flat_map turning turning_back fst snd map]. decided64.
  - destruct f1_val as [F1 V1]. destruct tenth_val as [Ft Vt].
    assert (P : forall r, result_prob (width (grow 0 (live (bk (mrun (@sampled _ E64 (ApproxP64 cos52 sin52)) (@initial _ E64 tt) made)))))
        [(PX_, 0%nat); (PX_, 1%nat)] r (vec (mrun (@sampled _ E64 (ApproxP64 cos52 sin52)) (@initial _ E64 tt) made)) = if r then 0 else 1).
    { intros r. change (width _) with 2%nat. change (vec _) with pair. unfold result_prob. rewrite pair_xx. destruct r; ring. }
    destruct (H 0%nat f1 tenth msg F1 Ft) as [H1 _]; [rewrite V1, Rabs_R1; lra|].
    destruct (H 1%nat f1 tenth msg F1 Ft) as [_ H2]; [rewrite V1, Rabs_R1; lra|]. rewrite P, V1, Vt in H1, H2. cbn [Nat.eqb negb] in H1, H2.
    destruct H2 as [s'' H2]. { rewrite Rabs_left by lra. lra. }
    exists rs, s, s', s''. split; [exact E1|]. split; [|split; [exact H2|]].
    + apply H1. replace (1 - 1) with 0 by ring. rewrite Rabs_R0. lra.
    + apply (C72_nan cos52 sin52 E64 D [PX_; PI_; PX_] [0; 1; 1]%nat d s rs' s' 1 B754_nan tenth msg eq_refl); [left; reflexivity|exact E2].
Qed.
Example C72_is_zero_ex : forall (D : Doubles) out, let d := mkDesk ([]) 2 out in
  exists rs s s', @aexec _ E64 (@new_sim _ E64 tt) made64 = Ok (rs, s) /\ play s (a_is_zero 0 d) = (Fine false d, s').
Proof.
  intros D out d.
  assert (S3 : 0 <= sqrt (2 * 2 ^ 2) <= 3).
  { split; [apply sqrt_pos|]. replace 3 with (sqrt (3 * 3)) by (apply sqrt_square; lra). apply sqrt_le_1_alt. lra. }
  destruct f1em10_val as [_ T]. assert (T' := Rle_abs (B2R f1em10 - 1 / 10 ^ 10)).
  assert (B := C72_is_zero _ E64 (Approx64 cos52 sin52 0) (ApproxP64 cos52 sin52) D (C55_binary64_laws cos52 sin52 0 ref_libm ltac:(lia))
    (C56_binary64_laws cos52 sin52 E64 0 ltac:(lia) (fun _ => proj1 f0_val)) (fun l => Permutation_sym (Permutation_rev l)) 2 1 ltac:(lra) tt made64 made (1 / 10) d 0).
  change (1 - dmax d)%nat with 0%nat in B. cbn [repeat app] in B. cbv zeta in B.
  set (n := total_lcost _ _) in B. vm_compute in n. set (c := total_pcount _) in B. vm_compute in c. subst n c.
  set (t := worst 2 _ 0 1) in B.
  assert (Tb : t <= 1 / 10 ^ 4).
  { unfold t, worst, drift, step_err. cbn [thr dlt perr Approx64 ApproxP64]. rewrite INR_IZR_INZ. cbn [Z.of_nat Pos.of_succ_nat Pos.succ].
    replace (INR (1 + 0)) with 1 by (simpl; ring).
    set (r := sqrt (2 * 2 ^ 2)) in *. clearbody r. clear - S3 T T'. set (f := B2R f1em10) in *. clearbody f. simpl pow. nra. }
  clearbody t.
  destruct B as (rs & s & b & s' & E1 & E2 & _ & _ & H); try lra.
  - cbn [made64 app avalid_run avalid abstep live tidy]. valid64.
  - exact made_stands.
  - exact made_fits.
  - left. unfold made. cbn. repeat apply Forall_cons; try apply Forall_nil; simpl; tauto.
  - unfold made. decided64.
  - cbn [thr Approx64]. lra.
  - exists rs, s, s'. split; [exact E1|]. rewrite E2. f_equal. f_equal. apply H. change (vec _) with pair. change (grow 0 _) with [0; 1]%nat. rewrite pair_born.
    cbn [thr Approx64]. lra.
Qed.
