(** * C80 in binary64: several shots *)
From Coq Require Import String List NArith ZArith Reals Bool Lia Lra Permutation.
From Flocq Require Import IEEE754.BinarySingleNaN.
From Verif Require Import Cx Bits Arith ArithR Sim SimExp Spec SpecExp SpecRun SimRun SpecAny Any SpecNear SpecRound SpecLedger SpecRoundR Math Binary64
  SpecBinary64 Text Backend SpecBackend Runner SpecRunner SpecIdeal IdealEx World BackEx SpecChance SpecOdds BackAny SpecShot SpecShots Boxes BackAny64 RoundEx OddsEx ShotEx.
From Verif Require ChanceEx Binary64Lemmas SpecIdle IdleThms Chance.
From Verif Require Import P_Shots SpecAlike SpecRewrite RewriteThms RewriteShots RewriteEx64.
Import ListNotations.
Local Open Scope R_scope.
Local Open Scope list_scope.

(** Any number of shots, in binary64, of two programs that arise from each other by rewriting: for every set of lists of what the shots
    print, the shares of the samples that lead to it differ by at most the larger of the two errors of C66. *)
Theorem C80_shots64 : forall cosf sinf (EN : @Env (Arith64 cosf sinf)) k (D : Doubles) (SW : Shows) (T : Tol) (EN' : @Env RArith) (RN : Rand),
  libm_ok cosf sinf -> (k <= 8)%nat -> (forall g, is_finite (fst (@draw (Arith64 cosf sinf) EN g) : f64) = true) -> @any_order _ EN ->
  exact_world -> all_samples ->
  forall (P : bcall -> Prop) (p : @aprogram (Arith64 cosf sinf) D) (s s' : amem p -> aloc p) fuel fuel' mem0 w w' m m' q u lost lost',
  careful P -> lists_nothing P ->
  let ex := fun z => @exact_program _ (Approx64 cosf sinf k) D (astarted p z) mem0 in
  (forall mem t, sound P (ex s) fuel (s mem) path0 t) -> (forall mem t, sound P (ex s') fuel' (s' mem) path0 t) ->
  (forall mem t, rewritten (@exact_program _ (Approx64 cosf sinf k) D p mem0) fuel (s mem) fuel' (s' mem) path0 t) ->
  0 < q < 1 / 2 -> / 2 ^ 53 <= u <= q / 2 -> 2 / 10 ^ 10 + u <= q -> 0 <= lost -> 0 <= lost' ->
  @shots_fit _ (Approx64 cosf sinf k) (ApproxP64 cosf sinf) (Phases64 cosf sinf) D T EN' RN w m q u lost (astarted p s) fuel ->
  @shots_fit _ (Approx64 cosf sinf k) (ApproxP64 cosf sinf) (Phases64 cosf sinf) D T EN' RN w' m' q u lost' (astarted p s') fuel' ->
  forall n mem t, exists leaves leaves' : list (box * option (list text)),
    apart (map fst leaves) /\ apart (map fst leaves') /\
    (forall g leaf, In leaf leaves -> inside (@samples _ EN (ApproxP64 cosf sinf) g) (fst leaf) ->
      @shots _ EN (Phases64 cosf sinf) D (thread_of RN) (astarted p s) fuel n mem g t = snd leaf) /\
    (forall g leaf, In leaf leaves' -> inside (@samples _ EN (ApproxP64 cosf sinf) g) (fst leaf) ->
      @shots _ EN (Phases64 cosf sinf) D (thread_of RN) (astarted p s') fuel' n mem g t = snd leaf) /\
    forall E : option (list text) -> bool,
      Rabs (mass (shareb (Nat.pow 2 53)) E leaves - mass (shareb (Nat.pow 2 53)) E leaves') <=
      INR n * Rmax (lost + INR m * (2 * u + / 2 ^ 52)) (lost' + INR m' * (2 * u + / 2 ^ 52)).
Proof.
  intros cosf sinf EN k D SW T EN' RN L K Fs O EW Ev P p s s' fuel fuel' mem0 w w' m m' q u lost lost' CP LN ex S1 S2 Al Hq Hu Tu Hl Hl' F1 F2 n mem t.
  destruct (C66_binary64 cosf sinf EN k D SW T EN' RN L K Fs O EW Ev P (astarted p s) fuel mem0 w m q u lost CP LN S1 Hq Hu Tu Hl F1 n mem t) as (ls & A1 & R1 & H1).
  destruct (C66_binary64 cosf sinf EN k D SW T EN' RN L K Fs O EW Ev P (astarted p s') fuel' mem0 w' m' q u lost' CP LN S2 Hq Hu Tu Hl' F2 n mem t) as (ls' & A2 & R2 & H2).
  exists ls, ls'. split; [exact A1|]. split; [exact A2|]. split; [exact R1|]. split; [exact R2|]. intros E.
  specialize (H1 E). specialize (H2 E). cbv zeta in H1, H2.
  assert (Eq := rewritten_series (@exact_program _ (Approx64 cosf sinf k) D p mem0) s s' fuel fuel' Al n mem t E).
  assert (Nn := pos_INR n). set (a := lost + INR m * (2 * u + / 2 ^ 52)) in *. set (b := lost' + INR m' * (2 * u + / 2 ^ 52)) in *.
  assert (M1 := Rmult_le_compat_l _ _ _ Nn (Rmax_l a b)). assert (M2 := Rmult_le_compat_l _ _ _ Nn (Rmax_r a b)).
  assert (Sq : forall x x' y z : R, x = x' -> y <= x <= y + INR n * a -> z <= x' <= z + INR n * b -> Rabs (y - z) <= INR n * Rmax a b)
    by (intros x x' y z X Y Z; subst x'; apply Rabs_le; lra).
  exact (Sq _ _ _ _ Eq H1 H2).
Qed.
Print Assumptions C80_shots64.
(** The hypotheses are met: any number of shots of the entangled pair made in two ways. *)
Example C80_shots64_ex : forall n t, exists leaves leaves' : list (box * option (list text)),
  (forall g leaf, In leaf leaves -> inside (@samples _ EG (ApproxP64 cos52 sin52) g) (fst leaf) ->
    @shots _ EG (Phases64 cos52 sin52) D0 (thread_of RNS) (straight cast64) 9 n tt g t = snd leaf) /\
  (forall g leaf, In leaf leaves' -> inside (@samples _ EG (ApproxP64 cos52 sin52) g) (fst leaf) ->
    @shots _ EG (Phases64 cos52 sin52) D0 (thread_of RNS) (straight bell64) 7 n tt g t = snd leaf) /\
  forall E, Rabs (mass (shareb (Nat.pow 2 53)) E leaves - mass (shareb (Nat.pow 2 53)) E leaves') <= INR n / 2000.
Proof.
  intros n t.
  destruct (C80_shots64 cos52 sin52 EG 0 D0 SW0 T0 ES RNS Binary64Lemmas.ref_libm ltac:(lia)
    ltac:(intros g; simpl; destruct (is_finite (g 0%nat)) eqn:Ef; [exact Ef|reflexivity]) (fun l => Permutation_sym (Permutation_rev l)) exactS everyS
    (@plain D0) (straight bell64) (fun _ => cast64) (fun _ => bell64) 9%nat 7%nat tt 2%nat 2%nat 2%nat 2%nat (1 / 4) (1 / 10 ^ 4) 0 0 plain_careful plain_lists)
    with (n := n) (mem := tt) (t := t) as (ls & ls' & _ & _ & H1 & H2 & H).
  - intros [] t1. exact (cast_sound t1).
  - intros [] t1. apply (straight_sound _ _ ChanceEx.bell). exact (proj1 (ChanceEx.bell_calc 0 t1)).
  - intros [] t1. exact (cast_rewritten t1).
  - lra.
  - lra.
  - lra.
  - lra.
  - lra.
  - intros [] t1. split; [exact (cast_fits t1)|]. assert (Kp := cast_kept t1). apply Req_le. etransitivity; [|symmetry; exact Kp]. ring.
  - intros [] t1. split; [exact (bell_fits t1)|]. assert (Kp := bell_kept t1). apply Req_le. etransitivity; [|symmetry; exact Kp]. ring.
  - exists ls, ls'. split; [exact H1|]. split; [exact H2|]. intros E. eapply Rle_trans; [exact (H E)|]. assert (Pn := pos_INR n).
    rewrite Rmax_left by lra. simpl (INR 2). unfold Rdiv. apply Rmult_le_compat_l; lra.
Qed.
