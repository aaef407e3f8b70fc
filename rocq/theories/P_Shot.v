(** * C65: what a program prints, with rounding

    The backend over any arithmetic is in BackAny; a program over it, the exact program it stands for, the calls it makes and what is
    required of them ([shot_fits]), how a shot ends ([ends]) and the size of sets of samples ([mass]) are in SpecShot; the chances of
    quantum mechanics ([chances]) are in SpecChance, the same as in C60. *)
From Coq Require Import String List NArith ZArith Reals Bool Lia Lra Permutation.
From Flocq Require Import IEEE754.BinarySingleNaN.
From Verif Require Import Cx Bits Arith ArithR Sim SimExp Spec SpecExp SpecRun SimRun SpecAny Any SpecNear SpecRound SpecLedger SpecRoundR Math Binary64
  SpecBinary64 Text Backend SpecBackend Runner SpecRunner SpecIdeal IdealEx World BackEx SpecChance SpecOdds BackAny SpecShot BackAnyR Boxes Shot BackAny64
  RoundEx LedgerEx OddsEx ShotEx.
From Verif Require ChanceEx Odds Binary64Lemmas.
From Verif Require Import P_Round P_Ledger.
Import ListNotations.
Local Open Scope R_scope.
Local Open Scope list_scope.

(** With exact numbers the backend over any arithmetic is the one of Backend.v: every call gives the same reply, state and text. *)
Theorem C65_backend : forall (T : Tol) (EN : Env) (D : Doubles) (SW : Shows) (c : @acallb RArith D) s k,
  bcall1 (@exact_call RArith (ApproxR T 0) D c) (mkBack s (dres k) (dmax k) (dout k)) =
  match play s (@acall1 RArith (PhasesR T) D c k) with
  | (Fine r k', s') => BOk r (mkBack s' (dres k') (dmax k') (dout k'))
  | (Broken e o, _) => BErr e o
  end.
Proof.
  intros T EN D SW c s k. assert (H := same_call c s k). unfold bres_of, back_of in H. etransitivity; [symmetry; exact H|].
  unfold PhR. destruct (play s _) as [[r k'|e o] s']; reflexivity.
Qed.
Print Assumptions C65_backend.

(** So is the shot of a program, for the program with its angles taken as real numbers. *)
Theorem C65_program : forall (A : Arith) (AP : Approx) (D : Doubles) (SW : Shows) (T : Tol) (EN : @Env RArith) (RN : Rand) (p : aprogram) fuel mem g t,
  @ends RArith EN (PhasesR T) D T EN RN (real_program p) fuel mem g t =
  ending (run_from (exact_program p mem) fuel (pstart (exact_program p mem) mem) (mkWorld (back_default g) t)).
Proof. intros A AP D SW T EN RN p fuel mem g t. exact (same_shot p mem fuel (astart p mem) desk0 t (new_sim g)). Qed.
Print Assumptions C65_program.

(** The volume of the samples with a given ending does not depend on the boxes used to divide them up. *)
Theorem C65_volume : forall (X : Type) (ls1 ls2 : list (box * X)), partition (map fst ls1) -> partition (map fst ls2) ->
  (forall xs l1 l2, unit_samples xs -> In l1 ls1 -> In l2 ls2 -> inside xs (fst l1) -> inside xs (fst l2) -> snd l1 = snd l2) ->
  forall E, mass volume E ls1 = mass volume E ls2.
Proof. exact (fun X => @one_volume X). Qed.
Print Assumptions C65_volume.
Example C65_volume_ex :
  let ls1 := [([(0, 1 / 2)], true); ([(1 / 2, 1)], false)] in
  let ls2 := [([(0, 1 / 4)], true); ([(1 / 4, 1 / 2)], true); ([(1 / 2, 1)], false)] in
  partition (map fst ls1) /\ partition (map fst ls2) /\
  (forall xs l1 l2, unit_samples xs -> In l1 ls1 -> In l2 ls2 -> inside xs (fst l1) -> inside xs (fst l2) -> snd l1 = snd l2) /\
  mass volume (fun b => b) ls1 = 1 / 2.
Proof.
  cbv zeta. unfold partition, mass. cbn. split; [|split; [|split]].
  - split; [|split].
    + repeat constructor; cbn; lra.
    + repeat (apply FOP_cons || apply FOP_nil || apply Forall_cons || apply Forall_nil); intros xs; cbn; lra.
    + intros xs U. specialize (U 0%nat). destruct (Rlt_dec (xs 0%nat) (1 / 2)); [apply Exists_cons_hd|apply Exists_cons_tl, Exists_cons_hd]; cbn; lra.
  - split; [|split].
    + repeat constructor; cbn; lra.
    + repeat (apply FOP_cons || apply FOP_nil || apply Forall_cons || apply Forall_nil); intros xs; cbn; lra.
    + intros xs U. specialize (U 0%nat). destruct (Rlt_dec (xs 0%nat) (1 / 4)); [apply Exists_cons_hd; cbn; lra|].
      destruct (Rlt_dec (xs 0%nat) (1 / 2)); [apply Exists_cons_tl, Exists_cons_hd|do 2 apply Exists_cons_tl; apply Exists_cons_hd]; cbn; lra.
  - intros xs l1 l2 U [<- | [<- | []]] [<- | [<- | [<- | []]]]; cbn; try reflexivity; lra.
  - lra.
Qed.

(** For every arithmetic that rounds within the stated bounds and every program whose calls are fit: there are boxes of samples
    that do not overlap, each with an ending; with samples in a box the shot ends in that way; and the volume of the boxes of any
    set of endings is the chance of that set in quantum mechanics, but for the results of probability [q] or less that are left out
    and an error of [2 u] for each measurement. *)
Theorem C65_shot : forall (A : Arith) (EN : Env) (AP : Approx) (PP : ApproxP) (PH : Phases) (D : Doubles) (SW : Shows)
  (T : Tol) (EN' : @Env RArith) (RN : Rand), approx_ok -> approx_p_ok -> any_order -> exact_world -> all_samples ->
  forall (P : bcall -> Prop) (p : aprogram) fuel mem t w m q u, careful P -> lists_nothing P ->
  sound P (exact_program p mem) fuel (pstart (exact_program p mem) mem) path0 t ->
  0 < q < 1 / 2 -> 0 <= u <= q / 2 -> thr + u <= q -> shot_fits w m q u p fuel mem t ->
  exists leaves : list (box * ended (amem p)),
    apart (map fst leaves) /\
    (forall g leaf, In leaf leaves -> inside (samples g) (fst leaf) -> ends p fuel mem g t = snd leaf) /\
    1 - INR m * q <= kept q p fuel mem t <= 1 /\
    forall E : ended (amem p) -> bool,
      let odds := mass volume E leaves in
      let exact := chance_of E (chances (exact_program p mem) fuel (pstart (exact_program p mem) mem) path0 t) in
      odds <= exact <= odds + (1 - kept q p fuel mem t) + INR m * (2 * u).
Proof.
  intros A EN AP PP PH D SW T EN' RN L Lp O EW Ev P p fuel mem t w m q u CP LN Sd Hq Hu Tu F.
  exists (leaves_of q u p fuel mem t). split; [apply (leaves_apart w m); auto; lra|]. split.
  { intros g leaf Il Ib. apply (shot_in_box L Lp O w m q u p fuel mem t F); auto; lra. }
  destruct (shot_odds EW Ev w m q u p fuel mem t F P (fun r => snd r - fst r) 0 CP LN Sd) as [K H]; try lra.
  { intros r H1 H2 H3. rewrite Rminus_eq_0, Rabs_R0. lra. }
  split; [exact K|]. intros E. specialize (H E). rewrite Rplus_0_r in H.
  replace (mass volume E (leaves_of q u p fuel mem t)) with (mass (fun b => fold_right (fun r x => (snd r - fst r) * x) 1 b) E (leaves_of q u p fuel mem t)); [exact H|].
  unfold mass. f_equal. apply map_ext. intros [b e]. cbn [fst snd]. destruct (E e); [|reflexivity].
  clear. induction b as [|[lo hi] b IH]; [reflexivity|]. cbn. now rewrite IH.
Qed.
Print Assumptions C65_shot.

(** The backend in binary64, with samples that are equally likely multiples of 2^-53: the share of the sample sequences with which the
    shot ends in a set [E] differs from the chance of [E] in quantum mechanics by at most (1 - k0) + m (2 u + 2^-52), where k0 is the
    total probability of the runs all of whose results have probability above [q]; it is at least 1 - m q. *)
Theorem C65_binary64 : forall cosf sinf (EN : @Env (Arith64 cosf sinf)) k (D : Doubles) (SW : Shows) (T : Tol) (EN' : @Env RArith) (RN : Rand),
  libm_ok cosf sinf -> (k <= 8)%nat -> (forall g, is_finite (fst (@draw (Arith64 cosf sinf) EN g) : f64) = true) -> @any_order _ EN ->
  exact_world -> all_samples ->
  forall (P : bcall -> Prop) (p : @aprogram (Arith64 cosf sinf) D) fuel mem t w m q u, careful P -> lists_nothing P ->
  let ex := @exact_program _ (Approx64 cosf sinf k) D p mem in
  sound P ex fuel (pstart ex mem) path0 t ->
  0 < q < 1 / 2 -> / 2 ^ 53 <= u <= q / 2 -> 2 / 10 ^ 10 + u <= q ->
  @shot_fits _ (Approx64 cosf sinf k) (ApproxP64 cosf sinf) (Phases64 cosf sinf) D T EN' RN w m q u p fuel mem t ->
  exists leaves : list (box * ended (amem p)),
    apart (map fst leaves) /\
    (forall g leaf, In leaf leaves -> inside (@samples _ EN (ApproxP64 cosf sinf) g) (fst leaf) ->
      @ends _ EN (Phases64 cosf sinf) D T EN' RN p fuel mem g t = snd leaf) /\
    let k0 := @kept _ (Approx64 cosf sinf k) (Phases64 cosf sinf) D T EN' RN q p fuel mem t in
    1 - INR m * q <= k0 <= 1 /\
    forall E : ended (amem p) -> bool,
      let odds := mass (shareb (Nat.pow 2 53)) E leaves in
      let exact := chance_of E (chances ex fuel (pstart ex mem) path0 t) in
      odds <= exact <= odds + (1 - k0) + INR m * (2 * u + / 2 ^ 52).
Proof.
  intros cosf sinf EN k D SW T EN' RN L K Fs O EW Ev P p fuel mem t w m q u CP LN ex Sd Hq Hu Tu F.
  assert (N : INR (Nat.pow 2 53) = 2 ^ 53) by (rewrite pow_INR; reflexivity).
  destruct Binary64Lemmas.f1em10_val as [_ Tv]. assert (Tv' := Rle_abs (B2R f1em10 - 1 / 10 ^ 10)).
  exists (@leaves_of _ (Approx64 cosf sinf k) (Phases64 cosf sinf) D T EN' RN q u p fuel mem t).
  split; [apply (leaves_apart w m q u p fuel mem t F); lra|]. split.
  { intros g leaf Il Ib. apply (shot_in_box (C55_binary64_laws cosf sinf k L K) (C56_binary64_laws cosf sinf EN k K Fs) O w m q u p fuel mem t F); auto; try lra.
    cbn [thr Approx64]. lra. }
  destruct (shot_odds EW Ev w m q u p fuel mem t F P (grid (Nat.pow 2 53)) (/ 2 ^ 53) CP LN Sd) as [Kp H]; try lra.
  { rewrite <- N. apply Odds.grid_ok. apply Nat.neq_0_lt_0, Nat.pow_nonzero. discriminate. }
  split; [exact Kp|]. intros E. specialize (H E). replace (2 * (u + / 2 ^ 53)) with (2 * u + / 2 ^ 52) in H by lra. exact H.
Qed.
Print Assumptions C65_binary64.

(** The factor that a controlled [R] about I applies in binary64 is within 2^(k-44) of exp(-i theta/2), so [shot_fits] can be met. *)
Theorem C65_phase : forall cosf sinf k, libm_ok cosf sinf -> (k <= 8)%nat -> forall th : f64, is_finite th = true -> Rabs (B2R th) <= 2 ^ (8 + k) ->
  @close _ (Approx64 cosf sinf k) (@half_phase _ (Phases64 cosf sinf) th) (Cis (- B2R th / 2)) (2 ^ k / 2 ^ 44).
Proof. exact phase64. Qed.
Print Assumptions C65_phase.
Example C65_phase_ex : libm_ok cos52 sin52 /\ is_finite f1 = true /\ Rabs (B2R f1) <= 2 ^ (8 + 0).
Proof. destruct Binary64Lemmas.f1_val as [F V]. split; [exact Binary64Lemmas.ref_libm|]. split; [exact F|]. rewrite V, Rabs_R1. apply pow_R1_Rle. lra. Qed.

(** Two entangled qubits in binary64: the shares of the samples with which 11 and 00 are printed are within 1/2000 of 1/2. *)
Example C65_ex : forall t, exists leaves : list (box * @ended T0 ES RNS unit),
  apart (map fst leaves) /\
  (forall g leaf, In leaf leaves -> inside (@samples _ EG (ApproxP64 cos52 sin52) g) (fst leaf) ->
    @ends _ EG (Phases64 cos52 sin52) D0 T0 ES RNS (straight bell64) 7 tt g t = snd leaf) /\
  forall v, 1 / 2 - 1 / 2000 <= mass (shareb (Nat.pow 2 53)) (prints v) leaves <= 1 / 2.
Proof.
  intros t.
  destruct (C65_binary64 cos52 sin52 EG 0 D0 SW0 T0 ES RNS Binary64Lemmas.ref_libm ltac:(lia)
    ltac:(intros g; simpl; destruct (is_finite (g 0%nat)) eqn:Ef; [exact Ef|reflexivity]) (fun l => Permutation_sym (Permutation_rev l)) exactS everyS
    (@plain D0) (straight bell64) 7 tt t 2 2 (1 / 4) (1 / 10 ^ 4) plain_careful plain_lists) as (ls & H1 & H2 & H3 & H4).
  - apply (straight_sound _ _ ChanceEx.bell). exact (proj1 (ChanceEx.bell_calc 0 t)).
  - lra.
  - lra.
  - lra.
  - exact (bell_fits t).
  - exists ls. split; [exact H1|]. split; [exact H2|]. intros v. specialize (H4 (prints v)). cbv zeta in H4. rewrite bell_kept in H4.
    assert (E := bell_chances v t). cbv zeta in E. set (x := chance_of _ _) in E. 
    match type of H4 with _ <= ?y <= _ => change y with x in H4 end. rewrite E in H4. simpl (INR 2) in H4.
    match type of H4 with ?y <= _ <= _ => assert (G : 1 / 2 - 1 / 2000 <= y <= 1 / 2) by lra end. exact G.
Qed.
