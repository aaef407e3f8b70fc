(** * Two entangled qubits in binary64, measured in the other order *)
From Coq Require Import String List NArith ZArith Reals Bool Lia Lra Permutation FunctionalExtensionality.
From Flocq Require Import IEEE754.BinarySingleNaN.
From Verif Require Import Cx Bits Arith ArithR Sim SimExp Spec SpecExp SpecRun SimRun SpecAny Any SpecNear SpecRound SpecLedger Math Binary64 SpecBinary64
  Text Backend SpecBackend Runner SpecRunner SpecIdeal IdealEx World BackEx SpecChance SpecOdds BackAny SpecShot BackAny64 RoundEx OddsEx ShotEx.
From Verif Require ChanceEx SpecIdle SpecAlike.
Import ListNotations.
Local Open Scope R_scope.
Local Open Scope list_scope.

Definition cross64 : list (@acallb F64 D0) :=
  [UGate AH 0; UC1 AX 0 1; UMz 1 1; UMz 0 0; UResult 0 None; UResult 1 None].
Definition cross_plan : @plan F64 :=
  Call AAlloc CAlloc (fun _ => Call (AGate AH 0) (CGate GH 0) (fun _ => Call AAlloc CAlloc (fun _ =>
  Call (AMc AX [0%nat] 1) (CMc GX [0%nat] 1) (fun _ => Call (AMeasure 1) (CMeasure 1) (fun _ => Call (AMeasure 0) (CMeasure 0) (fun _ => Stop)))))).
Lemma cross_plan_for : forall t, @plan_for F64 AP64 (Phases64 cos52 sin52) D0 T0 ES RNS (SpecAlike.astarted (straight bell64) (fun _ => cross64)) 7 tt t = cross_plan.
Proof. intros t. reflexivity. Qed.
Lemma cross_early : forall t, early (@tree_a F64 (Phases64 cos52 sin52) D0 T0 ES RNS (SpecAlike.astarted (straight bell64) (fun _ => cross64)) 7 tt t).
Proof. intros t. cbn. intros r1 r2 r3 r4 r5 r6. destruct r5, r6; exact I. Qed.
Lemma cross_branches : forall h h', branch cross_plan h h' ->
  h = [AAlloc; AGate AH 0; AAlloc; AMc AX [0%nat] 1; AMeasure 1; AMeasure 0] /\
  h' = [CAlloc; CGate GH 0; CAlloc; CMc GX [0%nat] 1; CMeasure 1; CMeasure 0].
Proof.
  intros h h' B. unfold cross_plan in B.
  repeat match goal with
  | B : branch Stop _ _ |- _ => inversion B; subst; clear B
  | B : branch (Call _ _ _) _ _ |- _ => inversion B; subst; clear B
  | B : branch (go_on _ _ ?r) _ _ |- _ => cbn [go_on] in B
  end. auto.
Qed.
Lemma cross_fits : forall t, @shot_fits F64 AP64 (ApproxP64 cos52 sin52) (Phases64 cos52 sin52) D0 T0 ES RNS 2 2 (1 / 4) (1 / 10 ^ 4) (SpecAlike.astarted (straight bell64) (fun _ => cross64)) 7 tt t.
Proof.
  intros t. split; [apply cross_early|]. rewrite cross_plan_for. split.
  - intros h h' Br. destruct (cross_branches h h' Br) as [-> ->].
    assert (L : @lim _ AP64 = 256) by (cbn [lim Approx64]; simpl; ring).
    split; [cbn [avalid_run avalid abstep live tidy]; cbn; repeat match goal with |- _ /\ _ => split | |- True => exact I | |- _ \/ _ => simpl; auto end; auto|].
    { split; [|intros x Hx; simpl in *; intuition auto]. constructor; [simpl; intros [H|[]]; discriminate H|]. constructor; [intros []|constructor]. }
    split; [repeat apply Forall2_cons; try apply Forall2_nil; cbn [call_stands call_means gate_means]; auto|].
    split; [unfold angles_fit; cbn [turns turn fold_right]; rewrite L; split; [lra|]; repeat apply Forall_cons; try apply Forall_nil; exact I|].
    split; [left; repeat apply Forall_cons; try apply Forall_nil; simpl; tauto|].
    split; [cbn; repeat match goal with |- _ /\ _ => split | |- True => exact I | |- forall q, _ -> _ => intros q Hq; simpl in Hq; intuition lia end|].
    split; [repeat apply Forall_cons; try apply Forall_nil; exact I|]. split; [cbn; lia|].
    set (h := [AAlloc; AGate AH 0; AAlloc; AMc AX [0%nat] 1; AMeasure 1; AMeasure 0]).
    assert (S2 : 0 <= sqrt (2 * 2 ^ 2) <= 3).
    { split; [apply sqrt_pos|]. replace 3 with (sqrt (3 * 3)) by (apply sqrt_square; lra). apply sqrt_le_1_alt. lra. }
    destruct Binary64Lemmas.f1em10_val as [_ Tv]. assert (Tv' := Rle_abs (B2R f1em10 - 1 / 10 ^ 10)).
    assert (V8 : (total_lcost (mkBook [] true) h <= 100)%nat) by (apply Nat.leb_le; reflexivity).
    apply le_INR in V8. replace (INR 100) with 100 in V8 by (rewrite INR_IZR_INZ; reflexivity).
    change (total_pcount h) with 2%nat. unfold worst. cbn [perr ApproxP64]. unfold drift, step_err. cbn [thr dlt Approx64].
    replace (INR (1 + 2)) with 3 by (rewrite INR_IZR_INZ; reflexivity). assert (N0 := pos_INR (total_lcost (mkBook [] true) h)).
    set (n := INR (total_lcost (mkBook [] true) h)) in *. set (r := sqrt (2 * 2 ^ 2)) in *. clearbody r n. replace (4 / (1 / 4)) with 16 by lra.
    assert (n * r <= 100 * 3) by (apply Rmult_le_compat; lra). assert (0 <= n * r) by (apply Rmult_le_pos; lra).
    set (s := B2R f1em10 + 32 * (2 ^ 0 / 2 ^ 44)) in *. assert (s <= 2 / 10 ^ 10) by (unfold s; rewrite pow_O; lra).
    assert (n * r * s <= n * r * (2 / 10 ^ 10)) by (apply Rmult_le_compat_l; lra).
    replace (3 * n * s * r) with (3 * (n * r * s)) by ring. lra.
  - intros h h' Br. destruct (cross_branches h h' Br) as [_ ->]. left. repeat apply Forall_cons; try apply Forall_nil; simpl; tauto.
Qed.
(** Every result on the way has probability 1/2 or 1 or 0. *)
Lemma cross_born : born (width [0%nat; 1%nat]) [1%nat] pair_state = 1 / 2.
Proof. rewrite born_1. destruct pair_at as (_ & -> & -> & _). rewrite ChanceEx.rs_n2. unfold Cn2, C0. simpl. lra. Qed.
Lemma cross_next : forall r, born (width [0%nat; 1%nat]) [0%nat] (collapsed [0%nat; 1%nat] [1%nat] r pair_state) = if r then 1 else 0.
Proof.
  intros r. rewrite born_0. unfold collapsed. rewrite cross_born.
  assert (Z : Cn2 C0 = 0) by (unfold Cn2, C0; simpl; ring). destruct pair_at as (E1 & _ & E3 & _).
  destruct r.
  - replace (scale _ (proj [1%nat] true pair_state) 1%N) with C0 by (cbv -[C C0 C1 Cmul Cadd Copp pair_state RtoC Rdiv sqrt]; ring).
    replace (scale (RtoC (1 / sqrt (1 / 2))) (proj [1%nat] true pair_state) 3%N) with (RtoC (1 / sqrt (1 / 2)) * rsqrt2)%C
      by (rewrite <- E3; cbv -[C C0 C1 Cmul Cadd Copp pair_state RtoC Rdiv sqrt]; ring).
    rewrite Z, Cn2_mul, ChanceEx.rs_n2. unfold Cn2, RtoC. cbn [fst snd]. assert (S := sqrt_sqrt (1 / 2) ltac:(lra)).
    assert (P := sqrt_lt_R0 (1 / 2) ltac:(lra)). field_simplify; [|lra]. rewrite <- Rsqr_pow2. unfold Rsqr. rewrite S. lra.
  - replace (scale _ (proj [1%nat] false pair_state) 1%N) with C0
      by (transitivity (RtoC (1 / sqrt (1 - 1 / 2)) * pair_state 1%N)%C; [rewrite E1; ring|]; cbv -[C C0 C1 Cmul Cadd Copp pair_state RtoC Rdiv Rminus sqrt]; ring).
    replace (scale _ (proj [1%nat] false pair_state) 3%N) with C0 by (cbv -[C C0 C1 Cmul Cadd Copp pair_state RtoC Rdiv Rminus sqrt]; ring).
    rewrite Z. ring.
Qed.
Lemma cross_kept : forall t, @kept F64 AP64 (Phases64 cos52 sin52) D0 T0 ES RNS (1 / 4) (SpecAlike.astarted (straight bell64) (fun _ => cross64)) 7 tt t = 1.
Proof.
  intros t. unfold kept. rewrite cross_plan_for. unfold cross_plan. cbn [ways asks live bstep told go_on flat_map app vstep insert_id fresh_id gap_from Nat.eqb tidy Nat.ltb Nat.leb].
  fold pair_state. unfold SpecLedger.chance. rewrite !cross_born, !cross_next.
  destruct (Rlt_dec (1 / 4) (1 / 2)) as [_|F]; [|lra]. destruct (Rlt_dec (1 / 4) (1 - 1 / 2)) as [_|F]; [|lra].
  destruct (Rlt_dec (1 / 4) 1) as [_|F]; [|lra]. destruct (Rlt_dec (1 / 4) (1 - 1)) as [F|_]; [lra|].
  destruct (Rlt_dec (1 / 4) 0) as [F|_]; [lra|]. destruct (Rlt_dec (1 / 4) (1 - 0)) as [_|F]; [|lra].
  unfold total. cbn. lra.
Qed.

Local Existing Instance T0.
Ltac ok := first [exact I | split; [repeat constructor; simpl; intuition discriminate|intros ? ?; cbv; cbv in *; intuition auto]].
Ltac out := intros r m' H _; repeat destruct H as [H|H]; try contradiction; injection H as <- <-.
Notation B64 := (@exact_program F64 AP64 D0 (straight bell64) tt).
Lemma cross_alike : forall t, @SpecAlike.alike T0 ES D0 RNS B64 7 bell64 7 cross64 path0 t.
Proof.
  intros t. eapply (SpecAlike.al_call B64); [reflexivity|reflexivity|ok|]. out.
  eapply (SpecAlike.al_call B64); [reflexivity|reflexivity|ok|]. out.
  apply (SpecAlike.al_cross B64) with (c := QMz 0 0) (c' := QMz 1 1).
  exists (fun _ => [UMz 1 1; UResult 0 None; UResult 1 None]), (fun _ => [UMz 0 0; UResult 0 None; UResult 1 None]), (fun _ _ => [UResult 0 None; UResult 1 None]).
  repeat (split; [reflexivity|]). split; [|split].
  - split; [exact I|]. split; [ok|cbv; lia].
  - split; [exact I|]. split; [ok|cbv; lia].
  - split; [intros q H H'; cbv in H, H'; lia|intros i H H'; cbv in H, H'; congruence].
Qed.
Ltac plain1 := repeat split; discriminate.
Lemma cross_sound : forall t, @sound T0 ES D0 RNS plain (@exact_program F64 AP64 D0 (SpecAlike.astarted (straight bell64) (fun _ => cross64)) tt) 7 cross64 path0 t.
Proof.
  intros t. split; [plain1|]. split; [ok|]. out. split; [plain1|]. split; [ok|]. out. split; [plain1|]. split; [ok|].
  out; (split; [plain1|]; split; [ok|]); out; (split; [plain1|]; split; [ok|]); intros r m' _ _; (split; [plain1|]; split; [ok|]); intros r' m2 _ _; exact I.
Qed.
