(** * Straight-line programs, and two entangled qubits in binary64 *)
From Coq Require Import String List NArith ZArith Reals Bool Lia Lra Permutation FunctionalExtensionality.
From Flocq Require Import IEEE754.BinarySingleNaN.
From Verif Require Import Cx Bits Arith ArithR Sim SimExp Spec SpecExp SpecRun SimRun SpecAny Any SpecNear SpecRound SpecLedger Math Binary64 SpecBinary64
  Text Backend SpecBackend Runner SpecRunner SpecIdeal IdealEx World BackEx SpecChance SpecOdds BackAny SpecShot BackAny64 RoundEx OddsEx.
From Verif Require ChanceEx.
Import ListNotations.
Local Open Scope R_scope.
Local Open Scope list_scope.

Section Straight.
Context {A : Arith} {AP : Approx} {D : Doubles} {T : Tol} {EN : @Env (@RArith T)} {SW : Shows} {RN : Rand}.
Definition straight (l : list acallb) : aprogram :=
  {| amem := unit; aloc := list acallb; astart := fun _ => l;
     astep := fun l => match l with [] => BDone tt | c :: l' => BCall c (fun _ => l') end |}.
Fixpoint code_of (l : list acallb) : code := match l with [] => Ret | c :: l' => Do (exact_call c) (fun _ => code_of l') end.
Lemma straight_chances : forall x y n l m t, chances (exact_program (straight x) tt) n l m t = chances (IdealEx.tree y) n (code_of l) m t.
Proof.
  intros x y. induction n as [|n IH]; intros l m t; [reflexivity|]. cbn [chances]. destruct l as [|c l]; [reflexivity|]. cbn.
  apply flat_map_ext. intros []; [|reflexivity]. destruct (Req_EM_T _ 0); [reflexivity|]. apply IH.
Qed.
Lemma straight_sound : forall P x y n l m t, sound P (IdealEx.tree y) n (code_of l) m t -> sound P (exact_program (straight x) tt) n l m t.
Proof.
  intros P x y. induction n as [|n IH]; intros l m t H; [exact I|]. destruct l as [|c l]; [exact I|]. cbn in *. destruct H as (H1 & H2 & H3).
  split; [exact H1|]. split; [exact H2|]. intros r m' Hm Hc. apply IH. exact (H3 r m' Hm Hc).
Qed.
End Straight.

(** ** Exact numbers and every sequence of samples *)
Definition ES : @Env (@RArith T0) :=
  @Build_Env (@RArith T0) (fun l => l) (nat -> R)
    (fun g => (if Rle_dec 0 (g 0%nat) then if Rlt_dec (g 0%nat) 1 then g 0%nat else 0 else 0, fun n => g (S n))).
Definition RNS : @Rand T0 ES := @Build_Rand T0 ES (fun _ _ => 0) bool (fun lo hi t => (if t then hi else lo, t)).
Lemma exactS : @exact_world T0 ES.
Proof.
  split; [reflexivity|]. split; [intros l; apply Permutation_refl|]. intros g. simpl. destruct (Rle_dec 0 (g 0%nat)); [|lra]. destruct (Rlt_dec (g 0%nat) 1); lra.
Qed.
Lemma everyS : @all_samples T0 ES.
Proof.
  intros xs U. exists xs. intros n. revert xs U. induction n as [|n IH]; intros xs U.
  - unfold samples_of. simpl. assert (H := U 0%nat). destruct (Rle_dec 0 (xs 0%nat)); [|lra]. destruct (Rlt_dec (xs 0%nat) 1); lra.
  - assert (H := IH (fun k => xs (S k)) (fun k => U (S k))). exact H.
Qed.

(** ** Two entangled qubits in binary64 *)
Notation F64 := (Arith64 cos52 sin52).
Notation AP64 := (Approx64 cos52 sin52 0).
Definition bell64 : list (@acallb F64 D0) :=
  [UGate AH 0; UC1 AX 0 1; UMz 0 0; UMz 1 1; UResult 0 None; UResult 1 None].
Definition bell_plan : @plan F64 :=
  Call AAlloc CAlloc (fun _ => Call (AGate AH 0) (CGate GH 0) (fun _ => Call AAlloc CAlloc (fun _ =>
  Call (AMc AX [0%nat] 1) (CMc GX [0%nat] 1) (fun _ => Call (AMeasure 0) (CMeasure 0) (fun _ => Call (AMeasure 1) (CMeasure 1) (fun _ => Stop)))))).
Lemma bell_code : @code_of F64 AP64 D0 bell64 = ChanceEx.bell.
Proof. reflexivity. Qed.
Lemma bell_plan_for : forall t, @plan_for F64 AP64 (Phases64 cos52 sin52) D0 T0 ES RNS (straight bell64) 7 tt t = bell_plan.
Proof. intros t. reflexivity. Qed.
Lemma bell_early : forall t, early (@tree_a F64 (Phases64 cos52 sin52) D0 T0 ES RNS (straight bell64) 7 tt t).
Proof. intros t. cbn. intros r1 r2 r3 r4 r5 r6. destruct r5, r6; exact I. Qed.
Lemma bell_branches : forall h h', branch bell_plan h h' ->
  h = [AAlloc; AGate AH 0; AAlloc; AMc AX [0%nat] 1; AMeasure 0; AMeasure 1] /\
  h' = [CAlloc; CGate GH 0; CAlloc; CMc GX [0%nat] 1; CMeasure 0; CMeasure 1].
Proof.
  intros h h' B. unfold bell_plan in B.
  repeat match goal with
  | B : branch Stop _ _ |- _ => inversion B; subst; clear B
  | B : branch (Call _ _ _) _ _ |- _ => inversion B; subst; clear B
  | B : branch (go_on _ _ ?r) _ _ |- _ => cbn [go_on] in B
  end. auto.
Qed.
Lemma bell_fits : forall t, @shot_fits F64 AP64 (ApproxP64 cos52 sin52) (Phases64 cos52 sin52) D0 T0 ES RNS 2 2 (1 / 4) (1 / 10 ^ 4) (straight bell64) 7 tt t.
Proof.
  intros t. split; [apply bell_early|]. rewrite bell_plan_for. split.
  - intros h h' Br. destruct (bell_branches h h' Br) as [-> ->].
    assert (L : @lim _ AP64 = 256) by (cbn [lim Approx64]; simpl; ring).
    split; [cbn [avalid_run avalid abstep live tidy]; cbn; repeat match goal with |- _ /\ _ => split | |- True => exact I | |- _ \/ _ => simpl; auto end; auto|].
    { split; [|intros x Hx; simpl in *; intuition auto]. constructor; [simpl; intros [H|[]]; discriminate H|]. constructor; [intros []|constructor]. }
    split; [repeat apply Forall2_cons; try apply Forall2_nil; cbn [call_stands call_means gate_means]; auto|].
    split; [unfold angles_fit; cbn [turns turn fold_right]; rewrite L; split; [lra|]; repeat apply Forall_cons; try apply Forall_nil; exact I|].
    split; [left; repeat apply Forall_cons; try apply Forall_nil; simpl; tauto|].
    split; [cbn; repeat match goal with |- _ /\ _ => split | |- True => exact I | |- forall q, _ -> _ => intros q Hq; simpl in Hq; intuition lia end|].
    split; [repeat apply Forall_cons; try apply Forall_nil; exact I|]. split; [cbn; lia|].
    set (h := [AAlloc; AGate AH 0; AAlloc; AMc AX [0%nat] 1; AMeasure 0; AMeasure 1]).
    assert (S2 : 0 <= sqrt (2 * 2 ^ 2) <= 3).
    { split; [apply sqrt_pos|]. replace 3 with (sqrt (3 * 3)) by (apply sqrt_square; lra). apply sqrt_le_1_alt. lra. }
    destruct Binary64Lemmas.f1em10_val as [_ Tv]. assert (Tv' := Rle_abs (B2R f1em10 - 1 / 10 ^ 10)).
    assert (V8 : (total_lcost (mkBook [] true) h <= 100)%nat) by (apply Nat.leb_le; reflexivity).
    apply le_INR in V8. replace (INR 100) with 100 in V8 by (rewrite INR_IZR_INZ; reflexivity).
    change (total_pcount h) with 2%nat. unfold worst. cbn [perr ApproxP64]. unfold drift, step_err. cbn [thr dlt Approx64].
    replace (INR (1 + 2)) with 3 by (rewrite INR_IZR_INZ; reflexivity). assert (N0 := pos_INR (total_lcost (mkBook [] true) h)).
    set (n := INR (total_lcost (mkBook [] true) h)) in *. set (r := sqrt (2 * 2 ^ 2)) in *. clearbody r n. replace (4 / (1 / 4)) with 16 by lra.
    assert (n * r <= 100 * 3) by (apply Rmult_le_compat; lra). assert (0 <= n * r) by (apply Rmult_le_pos; lra).
    set (s := B2R f1em10 + 32 * (2 ^ 0 / 2 ^ 44)) in *. assert (s <= 2 / 10 ^ 10) by (unfold s; rewrite pow_O; lra).
    assert (n * r * s <= n * r * (2 / 10 ^ 10)) by (apply Rmult_le_compat_l; lra).
    replace (3 * n * s * r) with (3 * (n * r * s)) by ring. lra.
  - intros h h' Br. destruct (bell_branches h h' Br) as [_ ->]. left. repeat apply Forall_cons; try apply Forall_nil; simpl; tauto.
Qed.
(** Every result on the way has probability 1/2 or 1 or 0. *)
Lemma born_0 : forall phi, born (width [0%nat; 1%nat]) [0%nat] phi = Cn2 (phi 1%N) + Cn2 (phi 3%N).
Proof. intros. unfold born, qsum, Rsum. simpl. ring. Qed.
Lemma born_1 : forall phi, born (width [0%nat; 1%nat]) [1%nat] phi = Cn2 (phi 2%N) + Cn2 (phi 3%N).
Proof. intros. unfold born, qsum, Rsum. simpl. ring. Qed.
Definition pair_state : qstate := cgate [0%nat] (gmat GX) 1 (gate1 (gmat GH) 0 ket0).
Lemma pair_at : pair_state 1%N = C0 /\ pair_state 2%N = C0 /\ pair_state 3%N = rsqrt2 /\ pair_state 0%N = rsqrt2.
Proof. repeat split; cbv -[C rsqrt2 C0 C1 Cmul Cadd Copp]; ring. Qed.
Lemma pair_born : born (width [0%nat; 1%nat]) [0%nat] pair_state = 1 / 2.
Proof. rewrite born_0. destruct pair_at as (-> & _ & -> & _). rewrite ChanceEx.rs_n2. unfold Cn2, C0. simpl. lra. Qed.
Lemma pair_next : forall r, born (width [0%nat; 1%nat]) [1%nat] (collapsed [0%nat; 1%nat] [0%nat] r pair_state) = if r then 1 else 0.
Proof.
  intros r. rewrite born_1. unfold collapsed. rewrite pair_born.
  assert (Z : Cn2 C0 = 0) by (unfold Cn2, C0; simpl; ring). destruct pair_at as (_ & E2 & E3 & _).
  destruct r.
  - replace (scale _ (proj [0%nat] true pair_state) 2%N) with C0 by (cbv -[C C0 C1 Cmul Cadd Copp pair_state RtoC Rdiv sqrt]; ring).
    replace (scale (RtoC (1 / sqrt (1 / 2))) (proj [0%nat] true pair_state) 3%N) with (RtoC (1 / sqrt (1 / 2)) * rsqrt2)%C
      by (rewrite <- E3; cbv -[C C0 C1 Cmul Cadd Copp pair_state RtoC Rdiv sqrt]; ring).
    rewrite Z, Cn2_mul, ChanceEx.rs_n2. unfold Cn2, RtoC. cbn [fst snd]. assert (S := sqrt_sqrt (1 / 2) ltac:(lra)).
    assert (P := sqrt_lt_R0 (1 / 2) ltac:(lra)). field_simplify; [|lra]. rewrite <- Rsqr_pow2. unfold Rsqr. rewrite S. lra.
  - replace (scale _ (proj [0%nat] false pair_state) 2%N) with C0
      by (transitivity (RtoC (1 / sqrt (1 - 1 / 2)) * pair_state 2%N)%C; [rewrite E2; ring|]; cbv -[C C0 C1 Cmul Cadd Copp pair_state RtoC Rdiv Rminus sqrt]; ring).
    replace (scale _ (proj [0%nat] false pair_state) 3%N) with C0 by (cbv -[C C0 C1 Cmul Cadd Copp pair_state RtoC Rdiv Rminus sqrt]; ring).
    rewrite Z. ring.
Qed.
Lemma bell_kept : forall t, @kept F64 AP64 (Phases64 cos52 sin52) D0 T0 ES RNS (1 / 4) (straight bell64) 7 tt t = 1.
Proof.
  intros t. unfold kept. rewrite bell_plan_for. unfold bell_plan. cbn [ways asks live bstep told go_on flat_map app vstep insert_id fresh_id gap_from Nat.eqb tidy Nat.ltb Nat.leb].
  fold pair_state. unfold SpecLedger.chance. rewrite !pair_born, !pair_next.
  destruct (Rlt_dec (1 / 4) (1 / 2)) as [_|F]; [|lra]. destruct (Rlt_dec (1 / 4) (1 - 1 / 2)) as [_|F]; [|lra].
  destruct (Rlt_dec (1 / 4) 1) as [_|F]; [|lra]. destruct (Rlt_dec (1 / 4) (1 - 1)) as [F|_]; [lra|].
  destruct (Rlt_dec (1 / 4) 0) as [F|_]; [lra|]. destruct (Rlt_dec (1 / 4) (1 - 0)) as [_|F]; [|lra].
  unfold total. cbn. lra.
Qed.
(** The text is that of two equal results. *)
Definition prints {M} (v : bool) (e : @ended T0 ES RNS M) : bool :=
  match e with EDone _ o _ => if list_eq_dec Ascii.ascii_dec o (@ChanceEx.said D0 v) then true else false | _ => false end.
Lemma bell_chances : forall v t, chance_of (prints v) (@chances T0 ES D0 RNS (@exact_program F64 AP64 D0 (straight bell64) tt) 7 bell64 path0 t) = 1 / 2.
Proof.
  intros v t.
  assert (Ec : @chances T0 ES D0 RNS (@exact_program F64 AP64 D0 (straight bell64) tt) 7 bell64 path0 t = _)
    by (transitivity (@chances T0 ES D0 RNS (IdealEx.tree ChanceEx.bell) 7 ChanceEx.bell path0 t);
        [exact (@straight_chances F64 AP64 D0 T0 ES RNS bell64 ChanceEx.bell 7 bell64 path0 t)|exact (proj2 (@ChanceEx.bell_calc T0 ES D0 RNS 0 t))]).
  etransitivity; [exact (f_equal (chance_of (@prints unit v)) Ec)|]. unfold chance_of. cbn [map fold_right fst snd].
  assert (H : forall a : unit, prints v (EDone a (@ChanceEx.said D0 true) t) = v /\ prints v (EDone a (@ChanceEx.said D0 false) t) = negb v).
  { intros a. cbn [prints]. destruct v; split; (destruct (list_eq_dec _ _ _) as [E|E]; [|try reflexivity; exfalso; apply E; reflexivity]); try reflexivity; vm_compute in E; discriminate. }
  destruct (H tt) as [-> ->]. destruct v; cbn; lra.
Qed.
