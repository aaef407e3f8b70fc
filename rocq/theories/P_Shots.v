(** * C66: several shots, with rounding

    One shot is C65. The shots of a run follow each other with one generator of samples and one memory: [shots] is in BackAny, the
    chances of quantum mechanics of what all of them print ([series]) are in SpecChance, the same as in C60. *)
From Coq Require Import String List NArith ZArith Reals Bool Lia Lra Permutation.
From Flocq Require Import IEEE754.BinarySingleNaN.
From Verif Require Import Cx Bits Arith ArithR Sim SimExp Spec SpecExp SpecRun SimRun SpecAny Any SpecNear SpecRound SpecLedger SpecRoundR Math Binary64
  SpecBinary64 Text Backend SpecBackend Runner SpecRunner SpecIdeal IdealEx World BackEx SpecChance SpecOdds BackAny SpecShot BackAnyR Boxes Shot BackAny64
  RoundEx LedgerEx OddsEx ShotEx SpecShots Shots ShotsEx.
From Verif Require ChanceEx Odds Binary64Lemmas.
From Verif Require Import P_Round P_Ledger.
Import ListNotations.
Local Open Scope R_scope.
Local Open Scope list_scope.

(** With exact numbers these are the shots of Runner, for the program with its angles taken as real numbers. *)
Theorem C66_exact : forall (A : Arith) (AP : Approx) (D : Doubles) (SW : Shows) (T : Tol) (EN : @Env RArith) (RN : Rand) (p : aprogram) mem0 fuel n mem g t recs,
  @shots RArith EN (PhasesR T) D (thread_of RN) (real_program p) fuel n mem g t = Some recs <->
  exists m' g' t', shots_of (exact_func p mem0) fuel n mem g t recs m' g' t'.
Proof. intros A AP D SW T EN RN. exact same_shots. Qed.
Print Assumptions C66_exact.

(** For every arithmetic that rounds within the stated bounds, every program all of whose shots are fit and every number of shots:
    there are boxes of samples that do not overlap, each with the list of what the shots print (or the fact that one of them fails);
    with samples in a box the shots print that; and the volume of the boxes of any set of such lists is its chance in quantum
    mechanics, up to [n] times the bound of one shot. *)
Theorem C66_shots : forall (A : Arith) (EN : Env) (AP : Approx) (PP : ApproxP) (PH : Phases) (D : Doubles) (SW : Shows)
  (T : Tol) (EN' : @Env RArith) (RN : Rand), approx_ok -> approx_p_ok -> any_order -> exact_world -> all_samples ->
  forall (P : bcall -> Prop) (p : aprogram) fuel mem0 w m q u lost, careful P -> lists_nothing P ->
  (forall mem t, sound P (exact_program p mem0) fuel (pstart (exact_program p mem0) mem) path0 t) ->
  0 < q < 1 / 2 -> 0 <= u <= q / 2 -> thr + u <= q -> 0 <= lost -> shots_fit w m q u lost p fuel ->
  forall n mem t, exists leaves : list (box * option (list text)),
    apart (map fst leaves) /\
    (forall g leaf, In leaf leaves -> inside (samples g) (fst leaf) -> @shots A EN PH D (thread_of RN) p fuel n mem g t = snd leaf) /\
    forall E : option (list text) -> bool,
      let odds := mass volume E leaves in
      let exact := chance_of E (series (exact_program p mem0) fuel n mem t) in
      odds <= exact <= odds + INR n * (lost + INR m * (2 * u)).
Proof.
  intros A EN AP PP PH D SW T EN' RN L Lp O EW Ev P p fuel mem0 w m q u lost CP LN Sd Hq Hu Tu Hl F n mem t.
  exists (leaves_n q u p fuel n mem t). split; [apply leaves_n_apart; intros mem1 t1; apply (leaves_apart w m); [apply (F mem1 t1)|lra]|]. split.
  { apply leaves_n_in. intros mem1 t1 g leaf Il Ib. destruct (F mem1 t1) as [F1 _]. apply (shot_in_box L Lp O w m q u p fuel mem1 t1 F1); auto; lra. }
  intros E.
  assert (H := shots_odds EW Ev w m q u lost p fuel F P (fun r => snd r - fst r) 0 mem0 CP LN Sd ltac:(lra) ltac:(lra) ltac:(lra) Hl
    ltac:(intros r H1 H2 H3; rewrite Rminus_eq_0, Rabs_R0; lra) n mem t E).
  rewrite Rplus_0_r in H.
  replace (mass volume E (leaves_n q u p fuel n mem t)) with (mass (lenb (fun r => snd r - fst r)) E (leaves_n q u p fuel n mem t)); [exact H|].
  unfold mass. f_equal. apply map_ext. intros [b e]. cbn [fst snd]. destruct (E e); [|reflexivity].
  clear. induction b as [|[lo hi] b IH]; [reflexivity|]. unfold lenb in *. cbn. now rewrite IH.
Qed.
Print Assumptions C66_shots.

(** Shots that fit lose at most [m q] each. *)
Theorem C66_lost : forall (A : Arith) (EN : Env) (AP : Approx) (PP : ApproxP) (PH : Phases) (D : Doubles) (SW : Shows)
  (T : Tol) (EN' : @Env RArith) (RN : Rand), exact_world -> all_samples ->
  forall (P : bcall -> Prop) (p : aprogram) fuel mem0 w m q u, careful P -> lists_nothing P ->
  (forall mem t, sound P (exact_program p mem0) fuel (pstart (exact_program p mem0) mem) path0 t) ->
  0 <= q < 1 / 2 -> 0 <= u <= q ->
  (forall mem t, shot_fits w m q u p fuel mem t) -> shots_fit w m q u (INR m * q) p fuel.
Proof.
  intros A EN AP PP PH D SW T EN' RN EW Ev P p fuel mem0 w m q u CP LN Sd Hq Hu F mem t. split; [apply F|].
  destruct (shot_odds EW Ev w m q u p fuel mem t (F mem t) P (fun r => snd r - fst r) 0 CP LN) as [K _]; try lra.
  - apply (sound_init p P mem0 mem). exact (Sd mem t).
  - intros r H1 H2 H3. rewrite Rminus_eq_0, Rabs_R0. lra.
Qed.
Print Assumptions C66_lost.

(** In binary64, with samples that are equally likely multiples of 2^-53: the share of the sample sequences with which [n] shots print a
    list in [E] differs from its chance in quantum mechanics by at most n (lost + m (2 u + 2^-52)). *)
Theorem C66_binary64 : forall cosf sinf (EN : @Env (Arith64 cosf sinf)) k (D : Doubles) (SW : Shows) (T : Tol) (EN' : @Env RArith) (RN : Rand),
  libm_ok cosf sinf -> (k <= 8)%nat -> (forall g, is_finite (fst (@draw (Arith64 cosf sinf) EN g) : f64) = true) -> @any_order _ EN ->
  exact_world -> all_samples ->
  forall (P : bcall -> Prop) (p : @aprogram (Arith64 cosf sinf) D) fuel mem0 w m q u lost, careful P -> lists_nothing P ->
  let ex := @exact_program _ (Approx64 cosf sinf k) D p mem0 in
  (forall mem t, sound P ex fuel (pstart ex mem) path0 t) ->
  0 < q < 1 / 2 -> / 2 ^ 53 <= u <= q / 2 -> 2 / 10 ^ 10 + u <= q -> 0 <= lost ->
  @shots_fit _ (Approx64 cosf sinf k) (ApproxP64 cosf sinf) (Phases64 cosf sinf) D T EN' RN w m q u lost p fuel ->
  forall n mem t, exists leaves : list (box * option (list text)),
    apart (map fst leaves) /\
    (forall g leaf, In leaf leaves -> inside (@samples _ EN (ApproxP64 cosf sinf) g) (fst leaf) ->
      @shots _ EN (Phases64 cosf sinf) D (thread_of RN) p fuel n mem g t = snd leaf) /\
    forall E : option (list text) -> bool,
      let odds := mass (shareb (Nat.pow 2 53)) E leaves in
      let exact := chance_of E (series ex fuel n mem t) in
      odds <= exact <= odds + INR n * (lost + INR m * (2 * u + / 2 ^ 52)).
Proof.
  intros cosf sinf EN k D SW T EN' RN L K Fs O EW Ev P p fuel mem0 w m q u lost CP LN ex Sd Hq Hu Tu Hl F n mem t.
  assert (N : INR (Nat.pow 2 53) = 2 ^ 53) by (rewrite pow_INR; reflexivity).
  destruct Binary64Lemmas.f1em10_val as [_ Tv]. assert (Tv' := Rle_abs (B2R f1em10 - 1 / 10 ^ 10)).
  exists (@leaves_n _ (Approx64 cosf sinf k) (Phases64 cosf sinf) D T EN' RN q u p fuel n mem t).
  split; [apply leaves_n_apart; intros mem1 t1; destruct (F mem1 t1) as [F1 _]; apply (leaves_apart w m q u p fuel mem1 t1 F1); lra|]. split.
  { apply (@leaves_n_in _ EN). intros mem1 t1 g leaf Il Ib. destruct (F mem1 t1) as [F1 _].
    apply (shot_in_box (C55_binary64_laws cosf sinf k L K) (C56_binary64_laws cosf sinf EN k K Fs) O w m q u p fuel mem1 t1 F1); auto; try lra.
    cbn [thr Approx64]. lra. }
  intros E.
  assert (G := Odds.grid_ok (Nat.pow 2 53) ltac:(apply Nat.neq_0_lt_0, Nat.pow_nonzero; discriminate)). rewrite N in G.
  assert (H := shots_odds EW Ev w m q u lost p fuel F P (grid (Nat.pow 2 53)) (/ 2 ^ 53) mem0 CP LN Sd ltac:(lra) ltac:(lra) ltac:(lra) Hl G n mem t E).
  replace (2 * (u + / 2 ^ 53)) with (2 * u + / 2 ^ 52) in H by lra. exact H.
Qed.
Print Assumptions C66_binary64.

(** Two entangled qubits in binary64, any number of shots: for every list of results, the share of the samples with which the shots print
    those results, each twice, is within n / 2000 of 2^-n. *)
Example C66_ex : forall vs t, exists leaves : list (box * option (list text)),
  apart (map fst leaves) /\
  (forall g leaf, In leaf leaves -> inside (@samples _ EG (ApproxP64 cos52 sin52) g) (fst leaf) ->
    @shots _ EG (Phases64 cos52 sin52) D0 (thread_of RNS) (straight bell64) 7 (length vs) tt g t = snd leaf) /\
  (1 / 2) ^ length vs - INR (length vs) / 2000 <= mass (shareb (Nat.pow 2 53)) (says vs) leaves <= (1 / 2) ^ length vs.
Proof.
  intros vs t.
  destruct (C66_binary64 cos52 sin52 EG 0 D0 SW0 T0 ES RNS Binary64Lemmas.ref_libm ltac:(lia)
    ltac:(intros g; simpl; destruct (is_finite (g 0%nat)) eqn:Ef; [exact Ef|reflexivity]) (fun l => Permutation_sym (Permutation_rev l)) exactS everyS
    (@plain D0) (straight bell64) 7 tt 2 2 (1 / 4) (1 / 10 ^ 4) 0 plain_careful plain_lists) with (n := length vs) (mem := tt) (t := t) as (ls & H1 & H2 & H3); try lra.
  - intros [] t1. apply (straight_sound _ _ ChanceEx.bell). exact (proj1 (ChanceEx.bell_calc 0 t1)).
  - intros [] t1. split; [exact (bell_fits t1)|]. assert (Kp := bell_kept t1). apply Req_le. etransitivity; [|symmetry; exact Kp]. ring.
  - exists ls. split; [exact H1|]. split; [exact H2|]. specialize (H3 (says vs)). cbv zeta in H3.
    assert (E := bell_says vs t). rewrite <- (straight_series bell64 ChanceEx.bell 7 (length vs) t bell_code) in E.
    match type of H3 with _ <= ?y <= _ => assert (E' : y = (1 / 2) ^ length vs) by exact E; rewrite E' in H3 end.
    simpl (INR 2) in H3. assert (P := pos_INR (length vs)).
    assert (INR (length vs) * (0 + 2 * (2 * (1 / 10 ^ 4) + / 2 ^ 52)) <= INR (length vs) * (1 / 2000)) by (apply Rmult_le_compat_l; lra). lra.
Qed.
