(** * C79 in binary64 *)
From Coq Require Import String List NArith ZArith Reals Bool Lia Lra Permutation.
From Flocq Require Import IEEE754.BinarySingleNaN.
From Verif Require Import Cx Bits Arith ArithR Sim SimExp Spec SpecExp SpecRun SimRun SpecAny Any SpecNear SpecRound SpecLedger SpecRoundR Math Binary64
  SpecBinary64 Text Backend SpecBackend Runner SpecRunner SpecIdeal IdealEx World BackEx SpecChance SpecOdds BackAny SpecShot Boxes BackAny64 RoundEx OddsEx ShotEx.
From Verif Require ChanceEx Binary64Lemmas SpecIdle IdleThms Chance.
From Verif Require Import P_Shot SpecAlike AlikeThms AlikeEx64.
Import ListNotations.
Local Open Scope R_scope.
Local Open Scope list_scope.

(** Two ways to go about the same instructions that differ, with exact numbers, only in the order of unrelated calls and in idle calls.
    In binary64, with samples that are equally likely multiples of 2^-53: for every set of endings the shares of the samples that lead
    to it differ by at most the larger of the two errors of C65. *)
Theorem C79_binary64 : forall cosf sinf (EN : @Env (Arith64 cosf sinf)) k (D : Doubles) (SW : Shows) (T : Tol) (EN' : @Env RArith) (RN : Rand),
  libm_ok cosf sinf -> (k <= 8)%nat -> (forall g, is_finite (fst (@draw (Arith64 cosf sinf) EN g) : f64) = true) -> @any_order _ EN ->
  exact_world -> all_samples ->
  forall (P : bcall -> Prop) (p : @aprogram (Arith64 cosf sinf) D) (s s' : amem p -> aloc p) fuel fuel' mem t w w' m m' q u, careful P -> lists_nothing P ->
  let ex := fun z => @exact_program _ (Approx64 cosf sinf k) D (astarted p z) mem in
  sound P (ex s) fuel (s mem) path0 t -> sound P (ex s') fuel' (s' mem) path0 t ->
  alike (@exact_program _ (Approx64 cosf sinf k) D p mem) fuel (s mem) fuel' (s' mem) path0 t ->
  0 < q < 1 / 2 -> / 2 ^ 53 <= u <= q / 2 -> 2 / 10 ^ 10 + u <= q ->
  @shot_fits _ (Approx64 cosf sinf k) (ApproxP64 cosf sinf) (Phases64 cosf sinf) D T EN' RN w m q u (astarted p s) fuel mem t ->
  @shot_fits _ (Approx64 cosf sinf k) (ApproxP64 cosf sinf) (Phases64 cosf sinf) D T EN' RN w' m' q u (astarted p s') fuel' mem t ->
  exists leaves leaves' : list (box * ended (amem p)),
    apart (map fst leaves) /\ apart (map fst leaves') /\
    (forall g leaf, In leaf leaves -> inside (@samples _ EN (ApproxP64 cosf sinf) g) (fst leaf) ->
      @ends _ EN (Phases64 cosf sinf) D T EN' RN (astarted p s) fuel mem g t = snd leaf) /\
    (forall g leaf, In leaf leaves' -> inside (@samples _ EN (ApproxP64 cosf sinf) g) (fst leaf) ->
      @ends _ EN (Phases64 cosf sinf) D T EN' RN (astarted p s') fuel' mem g t = snd leaf) /\
    let kept0 := fun z n => @kept _ (Approx64 cosf sinf k) (Phases64 cosf sinf) D T EN' RN q (astarted p z) n mem t in
    1 - INR m * q <= kept0 s fuel <= 1 /\ 1 - INR m' * q <= kept0 s' fuel' <= 1 /\
    forall E : ended (amem p) -> bool,
      Rabs (mass (shareb (Nat.pow 2 53)) E leaves - mass (shareb (Nat.pow 2 53)) E leaves') <=
      Rmax (1 - kept0 s fuel + INR m * (2 * u + / 2 ^ 52)) (1 - kept0 s' fuel' + INR m' * (2 * u + / 2 ^ 52)).
Proof.
  intros cosf sinf EN k D SW T EN' RN L K Fs O EW Ev P p s s' fuel fuel' mem t w w' m m' q u CP LN ex S1 S2 Al Hq Hu Tu F1 F2.
  destruct (C65_binary64 cosf sinf EN k D SW T EN' RN L K Fs O EW Ev P (astarted p s) fuel mem t w m q u CP LN S1 Hq Hu Tu F1) as (ls & A1 & R1 & K1 & H1).
  destruct (C65_binary64 cosf sinf EN k D SW T EN' RN L K Fs O EW Ev P (astarted p s') fuel' mem t w' m' q u CP LN S2 Hq Hu Tu F2) as (ls' & A2 & R2 & K2 & H2).
  exists ls, ls'. split; [exact A1|]. split; [exact A2|]. split; [exact R1|]. split; [exact R2|]. intros kept0. split; [exact K1|]. split; [exact K2|]. intros E.
  specialize (H1 E). specialize (H2 E). cbv zeta in H1, H2.
  assert (Eq : chance_of E (chances (ex s) fuel (s mem) path0 t) = chance_of E (chances (ex s') fuel' (s' mem) path0 t)).
  { change (SpecIdle.odds E (chances (ex s) fuel (s mem) path0 t) = SpecIdle.odds E (chances (ex s') fuel' (s' mem) path0 t)).
    transitivity (SpecIdle.odds E (chances (@exact_program _ (Approx64 cosf sinf k) D p mem) fuel (s mem) path0 t)).
    { f_equal. exact (IdleThms.started_chances (@exact_program _ (Approx64 cosf sinf k) D p mem) s fuel (s mem) path0 t). }
    transitivity (SpecIdle.odds E (chances (@exact_program _ (Approx64 cosf sinf k) D p mem) fuel' (s' mem) path0 t)).
    { exact (alike_thm (@exact_program _ (Approx64 cosf sinf k) D p mem) E fuel (s mem) fuel' (s' mem) path0 t Al Chance.start_supported). }
    f_equal. symmetry. exact (IdleThms.started_chances (@exact_program _ (Approx64 cosf sinf k) D p mem) s' fuel' (s' mem) path0 t). }
  set (x := chance_of E (chances (ex s) fuel (s mem) path0 t)) in Eq.
  match type of H1 with _ <= ?y <= _ => change y with x in H1 end.
  match type of H2 with _ <= ?y <= _ => change y with (chance_of E (chances (ex s') fuel' (s' mem) path0 t)) in H2 end. rewrite <- Eq in H2.
  set (a := 1 - kept0 s fuel + INR m * (2 * u + / 2 ^ 52)). set (b := 1 - kept0 s' fuel' + INR m' * (2 * u + / 2 ^ 52)).
  match type of H1 with ?y <= _ <= ?z => assert (G1 : y <= x <= y + a) by (split; [exact (proj1 H1)|]; apply (Rle_trans _ _ _ (proj2 H1)), Req_le; unfold a, kept0; ring) end.
  match type of H2 with ?y <= _ <= ?z => assert (G2 : y <= x <= y + b) by (split; [exact (proj1 H2)|]; apply (Rle_trans _ _ _ (proj2 H2)), Req_le; unfold b, kept0; ring) end.
  clear H1 H2. assert (M1 := Rmax_l a b). assert (M2 := Rmax_r a b).
  assert (Sq : forall y z : R, y <= x <= y + a -> z <= x <= z + b -> Rabs (y - z) <= Rmax a b) by (intros y z Y Z; apply Rabs_le; lra).
  exact (Sq _ _ G1 G2).
Qed.
Print Assumptions C79_binary64.
(** The hypotheses are met: two entangled qubits in binary64, the first or the second measured first. *)
Example C79_binary64_ex : forall t, exists leaves leaves' : list (box * @ended T0 ES RNS unit),
  (forall g leaf, In leaf leaves -> inside (@samples _ EG (ApproxP64 cos52 sin52) g) (fst leaf) ->
    @ends _ EG (Phases64 cos52 sin52) D0 T0 ES RNS (straight bell64) 7 tt g t = snd leaf) /\
  (forall g leaf, In leaf leaves' -> inside (@samples _ EG (ApproxP64 cos52 sin52) g) (fst leaf) ->
    @ends _ EG (Phases64 cos52 sin52) D0 T0 ES RNS (straight cross64) 7 tt g t = snd leaf) /\
  forall E, Rabs (mass (shareb (Nat.pow 2 53)) E leaves - mass (shareb (Nat.pow 2 53)) E leaves') <= 1 / 2000.
Proof.
  intros t.
  destruct (C79_binary64 cos52 sin52 EG 0 D0 SW0 T0 ES RNS Binary64Lemmas.ref_libm ltac:(lia)
    ltac:(intros g; simpl; destruct (is_finite (g 0%nat)) eqn:Ef; [exact Ef|reflexivity]) (fun l => Permutation_sym (Permutation_rev l)) exactS everyS
    (@plain D0) (straight bell64) (fun _ => bell64) (fun _ => cross64) 7%nat 7%nat tt t 2%nat 2%nat 2%nat 2%nat (1 / 4) (1 / 10 ^ 4) plain_careful plain_lists)
    as (ls & ls' & _ & _ & H1 & H2 & K1 & K2 & H).
  - apply (straight_sound _ _ ChanceEx.bell). exact (proj1 (ChanceEx.bell_calc 0 t)).
  - exact (cross_sound t).
  - exact (cross_alike t).
  - lra.
  - lra.
  - lra.
  - exact (bell_fits t).
  - exact (cross_fits t).
  - exists ls, ls'. split; [exact H1|]. split; [exact H2|]. intros E. eapply Rle_trans; [exact (H E)|]. cbv beta. rewrite cross_kept.
    change (astarted (straight bell64) (fun _ => bell64)) with (straight bell64). rewrite bell_kept. simpl (INR 2). apply Rmax_lub; lra.
Qed.
