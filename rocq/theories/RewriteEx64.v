(** * Two entangled qubits in binary64, made with other gates *)
From Coq Require Import String List NArith ZArith Reals Bool Lia Lra Permutation FunctionalExtensionality.
From Flocq Require Import IEEE754.BinarySingleNaN.
From Verif Require Import Cx Bits Arith ArithR Sim SimExp Spec SpecExp SpecRun SimRun SpecAny Any SpecNear SpecRound SpecLedger Math Binary64 SpecBinary64
  Text Backend SpecBackend Runner SpecRunner SpecIdeal IdealEx World BackEx SpecChance SpecOdds BackAny SpecShot BackAny64 RoundEx OddsEx ShotEx QLib.
From Verif Require ChanceEx SpecIdle SpecAlike SpecRewrite RewriteThms.
Import ListNotations.
Local Open Scope R_scope.
Local Open Scope list_scope.

Definition cast64 : list (@acallb F64 D0) :=
  [UGate AH 0; UGate AH 1; UC1 AZ 0 1; UGate AH 1; UMz 0 0; UMz 1 1; UResult 0 None; UResult 1 None].
Definition cast_plan : @plan F64 :=
  Call AAlloc CAlloc (fun _ => Call (AGate AH 0) (CGate GH 0) (fun _ => Call AAlloc CAlloc (fun _ => Call (AGate AH 1) (CGate GH 1) (fun _ =>
  Call (AMc AZ [0%nat] 1) (CMc GZ [0%nat] 1) (fun _ => Call (AGate AH 1) (CGate GH 1) (fun _ =>
  Call (AMeasure 0) (CMeasure 0) (fun _ => Call (AMeasure 1) (CMeasure 1) (fun _ => Stop)))))))).
Lemma cast_plan_for : forall t, @plan_for F64 AP64 (Phases64 cos52 sin52) D0 T0 ES RNS (SpecAlike.astarted (straight bell64) (fun _ => cast64)) 9 tt t = cast_plan.
Proof. intros t. reflexivity. Qed.
Lemma cast_early : forall t, early (@tree_a F64 (Phases64 cos52 sin52) D0 T0 ES RNS (SpecAlike.astarted (straight bell64) (fun _ => cast64)) 9 tt t).
Proof. intros t. cbn. intros r1 r2 r3 r4 r5 r6 r7 r8. destruct r7, r8; exact I. Qed.
Lemma cast_branches : forall h h', branch cast_plan h h' ->
  h = [AAlloc; AGate AH 0; AAlloc; AGate AH 1; AMc AZ [0%nat] 1; AGate AH 1; AMeasure 0; AMeasure 1] /\
  h' = [CAlloc; CGate GH 0; CAlloc; CGate GH 1; CMc GZ [0%nat] 1; CGate GH 1; CMeasure 0; CMeasure 1].
Proof.
  intros h h' B. unfold cast_plan in B.
  repeat match goal with
  | B : branch Stop _ _ |- _ => inversion B; subst; clear B
  | B : branch (Call _ _ _) _ _ |- _ => inversion B; subst; clear B
  | B : branch (go_on _ _ ?r) _ _ |- _ => cbn [go_on] in B
  end. auto.
Qed.
Lemma cast_fits : forall t, @shot_fits F64 AP64 (ApproxP64 cos52 sin52) (Phases64 cos52 sin52) D0 T0 ES RNS 2 2 (1 / 4) (1 / 10 ^ 4) (SpecAlike.astarted (straight bell64) (fun _ => cast64)) 9 tt t.
Proof.
  intros t. split; [apply cast_early|]. rewrite cast_plan_for. split.
  - intros h h' Br. destruct (cast_branches h h' Br) as [-> ->].
    assert (L : @lim _ AP64 = 256) by (cbn [lim Approx64]; simpl; ring).
    split; [cbn [avalid_run avalid abstep live tidy]; cbn; repeat match goal with |- _ /\ _ => split | |- True => exact I | |- _ \/ _ => simpl; auto end; auto|].
    { split; [|intros x Hx; simpl in *; intuition auto]. constructor; [simpl; intros [H|[]]; discriminate H|]. constructor; [intros []|constructor]. }
    split; [repeat apply Forall2_cons; try apply Forall2_nil; cbn [call_stands call_means gate_means]; auto|].
    split; [unfold angles_fit; cbn [turns turn fold_right]; rewrite L; split; [lra|]; repeat apply Forall_cons; try apply Forall_nil; exact I|].
    split; [left; repeat apply Forall_cons; try apply Forall_nil; simpl; tauto|].
    split; [cbn; repeat match goal with |- _ /\ _ => split | |- True => exact I | |- forall q, _ -> _ => intros q Hq; simpl in Hq; intuition lia end|].
    split; [repeat apply Forall_cons; try apply Forall_nil; exact I|]. split; [cbn; lia|].
    set (h := [AAlloc; AGate AH 0; AAlloc; AGate AH 1; AMc AZ [0%nat] 1; AGate AH 1; AMeasure 0; AMeasure 1]).
    assert (S2 : 0 <= sqrt (2 * 2 ^ 2) <= 3).
    { split; [apply sqrt_pos|]. replace 3 with (sqrt (3 * 3)) by (apply sqrt_square; lra). apply sqrt_le_1_alt. lra. }
    destruct Binary64Lemmas.f1em10_val as [_ Tv]. assert (Tv' := Rle_abs (B2R f1em10 - 1 / 10 ^ 10)).
    assert (V8 : (total_lcost (mkBook [] true) h <= 200)%nat) by (apply Nat.leb_le; reflexivity).
    apply le_INR in V8. replace (INR 200) with 200 in V8 by (rewrite INR_IZR_INZ; reflexivity).
    change (total_pcount h) with 2%nat. unfold worst. cbn [perr ApproxP64]. unfold drift, step_err. cbn [thr dlt Approx64].
    replace (INR (1 + 2)) with 3 by (rewrite INR_IZR_INZ; reflexivity). assert (N0 := pos_INR (total_lcost (mkBook [] true) h)).
    set (n := INR (total_lcost (mkBook [] true) h)) in *. set (r := sqrt (2 * 2 ^ 2)) in *. clearbody r n. replace (4 / (1 / 4)) with 16 by lra.
    assert (n * r <= 200 * 3) by (apply Rmult_le_compat; lra). assert (0 <= n * r) by (apply Rmult_le_pos; lra).
    set (s := B2R f1em10 + 32 * (2 ^ 0 / 2 ^ 44)) in *. assert (s <= 2 / 10 ^ 10) by (unfold s; rewrite pow_O; lra).
    assert (n * r * s <= n * r * (2 / 10 ^ 10)) by (apply Rmult_le_compat_l; lra).
    replace (3 * n * s * r) with (3 * (n * r * s)) by ring. lra.
  - intros h h' Br. destruct (cast_branches h h' Br) as [_ ->]. left. repeat apply Forall_cons; try apply Forall_nil; simpl; tauto.
Qed.
(** The state is the same. *)
Lemma cast_state : gate1 (gmat GH) 1 (cgate [0%nat] (gmat GZ) 1 (gate1 (gmat GH) 1 (gate1 (gmat GH) 0 ket0))) = pair_state.
Proof.
  unfold pair_state. set (psi := gate1 (gmat GH) 0 ket0). change (gmat GH) with mH. change (gmat GZ) with mZ. change (gmat GX) with mX.
  rewrite (cgate_conj [0%nat] mZ mH mX 1 psi); [|intros [H|[]]; discriminate|exact ZH]. rewrite gate1_comp, HH. apply gate1_I.
Qed.
Lemma cast_kept : forall t, @kept F64 AP64 (Phases64 cos52 sin52) D0 T0 ES RNS (1 / 4) (SpecAlike.astarted (straight bell64) (fun _ => cast64)) 9 tt t = 1.
Proof.
  intros t. unfold kept. rewrite cast_plan_for. unfold cast_plan. cbn [ways asks live bstep told go_on flat_map app vstep insert_id fresh_id gap_from Nat.eqb tidy Nat.ltb Nat.leb].
  rewrite !cast_state. unfold SpecLedger.chance. rewrite !pair_born, !pair_next.
  destruct (Rlt_dec (1 / 4) (1 / 2)) as [_|F]; [|lra]. destruct (Rlt_dec (1 / 4) (1 - 1 / 2)) as [_|F]; [|lra].
  destruct (Rlt_dec (1 / 4) 1) as [_|F]; [|lra]. destruct (Rlt_dec (1 / 4) (1 - 1)) as [F|_]; [lra|].
  destruct (Rlt_dec (1 / 4) 0) as [F|_]; [lra|]. destruct (Rlt_dec (1 / 4) (1 - 0)) as [_|F]; [|lra].
  unfold total. cbn. lra.
Qed.

Local Existing Instance T0.
Ltac ok := first [exact I | split; [repeat constructor; simpl; intuition discriminate|intros ? ?; cbv; cbv in *; intuition auto]].
Ltac out := intros r m' H _; repeat destruct H as [H|H]; try contradiction; injection H as <- <-.
Ltac plain1 := repeat split; discriminate.
Notation B64 := (@exact_program F64 AP64 D0 (straight bell64) tt).
Lemma cast_rewritten : forall t, @SpecRewrite.rewritten T0 ES D0 RNS B64 9 cast64 7 bell64 path0 t.
Proof.
  intros t. eapply (SpecRewrite.rw_call B64); [reflexivity|reflexivity|ok|]. out.
  set (m := moved path0 _ _).
  apply (SpecRewrite.rw_gates B64 5 [UMz 0 0; UMz 1 1; UResult 0 None; UResult 1 None] 5 [UMz 0 0; UMz 1 1; UResult 0 None; UResult 1 None] m t
    [QGate GH 1; QC1 GZ 0 1; QGate GH 1] [QC1 GX 0 1]).
  - do 3 (eexists; split; [reflexivity|]). reflexivity.
  - eexists; split; reflexivity.
  - repeat (split; [discriminate|]; split; [ok|]). exact I.
  - repeat (split; [discriminate|]; split; [ok|]). exact I.
  - apply RewriteThms.rules_thm; [apply SpecRewrite.ru_cx|repeat (split; [discriminate|]; split; [ok|]); exact I|repeat (split; [discriminate|]; split; [ok|]); exact I|reflexivity].
  - apply SpecRewrite.rw_alike, SpecAlike.al_same.
Qed.
Ltac step := split; [plain1|]; split; [ok|]; out.
Lemma cast_sound : forall t, @sound T0 ES D0 RNS plain (@exact_program F64 AP64 D0 (SpecAlike.astarted (straight bell64) (fun _ => cast64)) tt) 9 cast64 path0 t.
Proof.
  intros t. step. step. step. step. split; [plain1|]. split; [ok|].
  out; (split; [plain1|]; split; [ok|]); out; (split; [plain1|]; split; [ok|]); intros r m' _ _; (split; [plain1|]; split; [ok|]); intros r' m2 _ _; exact I.
Qed.
