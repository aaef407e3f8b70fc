(** * A program with control flow on the ideal machine: teleportation *)
From Coq Require Import String Reals NArith ZArith List Bool Lia Lra Arith FunctionalExtensionality.
From Verif Require Import Cx Bits BitsLemmas Arith ArithR Sim SimExp Spec SpecExp SpecRun SimRun Text Backend SpecBackend Runner SpecRunner SpecIdeal Ideal.
Import ListNotations.
Local Open Scope R_scope.
Local Open Scope list_scope.

(** ** Programs written as trees *)
Section Tree.
Context {D : Doubles}.
Inductive code := Ret | Do (c : bcall) (k : breply -> code).
Definition tree (t : code) : program :=
  {| pmem := unit; ploc := code; pinit := tt; pstart := fun _ => t;
     pstep := fun l => match l with Ret => ADone tt | Do c k => ACall c k end |}.
End Tree.

(** ** States of three qubits *)
Definition high (b : N) : bool := negb (N.eqb (N.shiftr b 3) 0).
Definition v3 (f : bool -> bool -> bool -> C) : qstate := fun b => if high b then C0 else f (bit b 0) (bit b 1) (bit b 2).
Lemma high_set : forall b t v, (t < 3)%nat -> high (set_bit b t v) = high b.
Proof.
  intros b t v H. unfold high. replace (N.shiftr (set_bit b t v) 3) with (N.shiftr b 3); auto. apply N.bits_inj. intros n. rewrite !N.shiftr_spec by lia.
  assert (X := bit_set b t (N.to_nat (n + 3)) v). unfold bit in X. rewrite N2Nat.id in X. rewrite X. destruct (Nat.eqb_spec t (N.to_nat (n + 3))); [lia|reflexivity].
Qed.
Ltac v3tac := apply functional_extensionality; intros b; unfold cgate, gate1, scale, proj, v3, par; cbn [forallb map fold_right];
  rewrite ?high_set by lia; rewrite ?bit_set; cbn [Nat.eqb].
Lemma v3_ket : ket0 = v3 (fun x y z => if x || y || z then C0 else C1).
Proof.
  apply functional_extensionality. intros b. unfold ket0, v3. destruct (high b) eqn:H.
  - destruct (N.eqb_spec b 0); subst; [discriminate|reflexivity].
  - assert (Hb : (b = 0 \/ b = 1 \/ b = 2 \/ b = 3 \/ b = 4 \/ b = 5 \/ b = 6 \/ b = 7)%N).
    { unfold high in H. apply negb_false_iff, N.eqb_eq in H. rewrite N.shiftr_div_pow2 in H. apply N.div_small_iff in H; [|discriminate]. change (2 ^ 3)%N with 8%N in H. lia. }
    repeat destruct Hb as [-> |Hb]; try reflexivity. subst. reflexivity.
Qed.
Lemma v3_g0 : forall U f, gate1 U 0 (v3 f) = v3 (fun x y z => U x false * f false y z + U x true * f true y z)%C.
Proof. intros U f. v3tac. destruct (high b); [ring|reflexivity]. Qed.
Lemma v3_g1 : forall U f, gate1 U 1 (v3 f) = v3 (fun x y z => U y false * f x false z + U y true * f x true z)%C.
Proof. intros U f. v3tac. destruct (high b); [ring|reflexivity]. Qed.
Lemma v3_g2 : forall U f, gate1 U 2 (v3 f) = v3 (fun x y z => U z false * f x y false + U z true * f x y true)%C.
Proof. intros U f. v3tac. destruct (high b); [ring|reflexivity]. Qed.
Lemma v3_c12 : forall U f, cgate [1%nat] U 2 (v3 f) = v3 (fun x y z => if y then U z false * f x y false + U z true * f x y true else f x y z)%C.
Proof. intros U f. v3tac. rewrite andb_true_r. destruct (high b); destruct (bit b 1); try ring; reflexivity. Qed.
Lemma v3_c01 : forall U f, cgate [0%nat] U 1 (v3 f) = v3 (fun x y z => if x then U y false * f x false z + U y true * f x true z else f x y z)%C.
Proof. intros U f. v3tac. rewrite andb_true_r. destruct (high b); destruct (bit b 0); try ring; reflexivity. Qed.
Lemma v3_scale : forall c f, scale c (v3 f) = v3 (fun x y z => c * f x y z)%C.
Proof. intros c f. v3tac. destruct (high b); [ring|reflexivity]. Qed.
Lemma v3_p0 : forall v f, proj [0%nat] v (v3 f) = v3 (fun x y z => if Bool.eqb x v then f x y z else C0).
Proof. intros v f. v3tac. rewrite xorb_false_r. destruct (Bool.eqb (bit b 0) v), (high b); reflexivity. Qed.
Lemma v3_p1 : forall v f, proj [1%nat] v (v3 f) = v3 (fun x y z => if Bool.eqb y v then f x y z else C0).
Proof. intros v f. v3tac. rewrite xorb_false_r. destruct (Bool.eqb (bit b 1) v), (high b); reflexivity. Qed.
Lemma v3_born : forall q f, (q < 3)%nat -> born 3 [q] (v3 f) =
  let pick (x y z : bool) := if nth q [x; y; z] false then Cn2 (f x y z) else 0 in
  pick false false false + (pick true false false + (pick false true false + (pick true true false +
  (pick false false true + (pick true false true + (pick false true true + (pick true true true + 0))))))).
Proof. intros q f H. destruct q as [|[|[|q]]]; [reflexivity|reflexivity|reflexivity|lia]. Qed.
Lemma v3_ext : forall f g, (forall x y z, f x y z = g x y z) -> v3 f = v3 g.
Proof. intros f g H. apply functional_extensionality. intros b. unfold v3. destruct (high b); auto. Qed.

Section Teleport.
Context {T : Tol} {EN : Env} {D : Doubles} {SW : Shows} {RN : Rand}.
Variables th ph : R.
(** Qubit 0 is put into the state Rz(ph) Rx(th) |0>, teleported to qubit 2 with static results 0 and 1, and the preparation is undone there. *)
Definition when (v : breply) (c : bcall) (k : code) : code := match v with VBool true => Do c (fun _ => k) | _ => k end.
Definition teleport : code :=
  Do (QGate (GRx th) 0) (fun _ => Do (QGate (GRz ph) 0) (fun _ =>
  Do (QGate GH 1) (fun _ => Do (QC1 GX 1 2) (fun _ =>
  Do (QC1 GX 0 1) (fun _ => Do (QGate GH 0) (fun _ =>
  Do (QMz 0 0) (fun _ => Do (QMz 1 1) (fun _ =>
  Do (QReadResult 1) (fun v1 => when v1 (QGate GX 2) (
  Do (QReadResult 0) (fun v0 => when v0 (QGate GZ 2) (
  Do (QGate (GRz (- ph)) 2) (fun _ => Do (QGate (GRx (- th)) 2) (fun _ =>
  Do (QMz 2 2) (fun _ => Do (QResult 2 None) (fun _ => Ret)))))))))))))))).

Definition amp (x : bool) : C := (Cis (if x then ph / 2 else - (ph / 2)) * mRx th x false)%C.
Lemma amp_norm : Cn2 (amp false) + Cn2 (amp true) = 1.
Proof.
  unfold amp. rewrite !Cn2_mul, !Cn2_Cis. cunfold. cbn. assert (H := sin2_cos2 (th / 2)). unfold Rsqr in H. nra.
Qed.
Definition shared : qstate := v3 (fun x y z => RtoC (/ 2) * ((if x && xorb y z then - C1 else C1) * amp (xorb y z)))%C.
Lemma rsqrt2_sq : (rsqrt2 * rsqrt2)%C = RtoC (/ 2).
Proof. unfold rsqrt2. cunfold. apply C_eq; cbn; [|ring]. assert (H := sqrt_def 2). assert (sqrt 2 <> 0) by (apply Rgt_not_eq, sqrt_lt_R0; lra). field_simplify; auto. rewrite pow2_sqrt by lra. field. Qed.
Lemma shared_ok : gate1 mH 0 (cgate [0%nat] mX 1 (cgate [1%nat] mX 2 (gate1 mH 1 (gate1 (mRz ph) 0 (gate1 (mRx th) 0 ket0))))) = shared.
Proof.
  rewrite v3_ket, !v3_g0, v3_g1, v3_c12, v3_c01, v3_g0. apply v3_ext. intros x y z. rewrite <- rsqrt2_sq. unfold amp.
  destruct x, y, z; cbn [orb xorb andb mH mX mRz mRx mk2]; ring.
Qed.

Definition three : list nat := [0; 1; 2]%nat.
Definition shared1 (r : bool) : qstate := collapsed three [0%nat] r shared.
Definition shared2 (r0 r1 : bool) : qstate :=
  v3 (fun x y z => if Bool.eqb x r0 && Bool.eqb y r1 then (if r0 && xorb r1 z then - C1 else C1) * amp (xorb r1 z) else C0)%C.
Definition half : C := RtoC (1 / sqrt (1 / 2)).
Lemma half_sq : (half * half * RtoC (/ 2) = C1)%C.
Proof.
  unfold half. cunfold. assert (H := sqrt_def (1 / 2)). assert (P : sqrt (1 / 2) <> 0) by (apply Rgt_not_eq, sqrt_lt_R0; lra).
  assert (E : 1 / sqrt (1 / 2) * (1 / sqrt (1 / 2)) = 2). { apply Rmult_eq_reg_r with (sqrt (1 / 2) * sqrt (1 / 2)); [|rewrite H; lra]. field_simplify; auto. rewrite pow2_sqrt by lra. field. }
  apply C_eq; cbn; [|ring]. rewrite !Rmult_0_l, !Rmult_0_r, !Rminus_0_r. rewrite E. field.
Qed.
Lemma born0 : born 3 [0%nat] shared = 1 / 2.
Proof.
  unfold shared. rewrite v3_born by lia. assert (H := amp_norm). cbv zeta. cbn [nth andb xorb].
  rewrite !Cn2_mul, !Cn2_opp, !Cn2_C1, !Cn2_RtoC. lra.
Qed.
Lemma shared1_eq : forall r, shared1 r = v3 (fun x y z => if Bool.eqb x r then half * (RtoC (/ 2) * ((if x && xorb y z then - C1 else C1) * amp (xorb y z))) else C0)%C.
Proof.
  intros r. unfold shared1, collapsed. change (width three) with 3%nat. rewrite born0.
  replace (if r then 1 / 2 else 1 - 1 / 2) with (1 / 2) by (destruct r; lra). fold half. unfold shared. rewrite v3_p0, v3_scale.
  apply v3_ext. intros x y z. destruct (Bool.eqb x r); ring.
Qed.
Lemma half_n2 : Cn2 half = 2.
Proof. assert (H := f_equal Cn2 half_sq). rewrite !Cn2_mul, Cn2_RtoC, Cn2_C1 in H. assert (P := Cn2_nonneg half). nra. Qed.
Lemma born1 : forall r, born 3 [1%nat] (shared1 r) = 1 / 2.
Proof.
  intros r. rewrite shared1_eq, v3_born by lia. assert (H := amp_norm). assert (Hh := half_n2). cbv zeta. cbn [nth andb xorb].
  destruct r; cbn [Bool.eqb]; rewrite ?Cn2_C0, !Cn2_mul, ?Cn2_opp, !Cn2_C1, !Cn2_RtoC, Hh; lra.
Qed.
Lemma shared2_eq : forall r0 r1, collapsed three [1%nat] r1 (shared1 r0) = shared2 r0 r1.
Proof.
  intros r0 r1. unfold collapsed. change (width three) with 3%nat. rewrite born1.
  replace (if r1 then 1 / 2 else 1 - 1 / 2) with (1 / 2) by (destruct r1; lra). fold half. rewrite shared1_eq, v3_p1, v3_scale.
  apply v3_ext. intros x y z. destruct (Bool.eqb_spec x r0), (Bool.eqb_spec y r1); cbn [andb]; try ring. subst.
  transitivity ((half * half * RtoC (/ 2)) * ((if r0 && xorb r1 z then - C1 else C1) * amp (xorb r1 z)))%C; [ring|]. rewrite half_sq. ring.
Qed.
(** After the corrections qubit 2 carries the state, whatever was measured. *)
Definition sent (r0 r1 : bool) : qstate := v3 (fun x y z => if Bool.eqb x r0 && Bool.eqb y r1 then amp z else C0).
Definition fix1 (r1 : bool) (psi : qstate) : qstate := if r1 then gate1 mX 2 psi else psi.
Definition fix0 (r0 : bool) (psi : qstate) : qstate := if r0 then gate1 mZ 2 psi else psi.
Lemma sent_eq : forall r0 r1, fix0 r0 (fix1 r1 (shared2 r0 r1)) = sent r0 r1.
Proof.
  intros r0 r1. unfold shared2, sent. destruct r0, r1; cbn [fix0 fix1]; rewrite ?v3_g2; apply v3_ext; intros x y z;
    destruct x, y, z; cbn [Bool.eqb andb xorb mX mZ mk2]; ring.
Qed.
Definition back0 (r0 r1 : bool) : qstate := v3 (fun x y z => if Bool.eqb x r0 && Bool.eqb y r1 && negb z then C1 else C0).
Lemma back0_eq : forall r0 r1, gate1 (mRx (- th)) 2 (gate1 (mRz (- ph)) 2 (sent r0 r1)) = back0 r0 r1.
Proof.
  intros r0 r1. unfold sent, back0. rewrite !v3_g2. apply v3_ext. intros x y z. destruct (Bool.eqb x r0 && Bool.eqb y r1); [|destruct z; cbn [andb]; ring].
  cbn [andb]. unfold amp, mRx, mRz, mk2.
  replace (- th / 2) with (- (th / 2)) by field. replace (- (- ph / 2)) with (ph / 2) by field. replace (- ph / 2) with (- (ph / 2)) by field.
  rewrite cos_neg, sin_neg. assert (H := sin2_cos2 (th / 2)). assert (H' := sin2_cos2 (ph / 2)). unfold Rsqr in *.
  destruct z; cbn [negb mk2]; cunfold; cbn [fst snd]; rewrite ?cos_neg, ?sin_neg; apply C_eq; cbn [fst snd];
   generalize dependent (cos (th / 2)); generalize dependent (sin (th / 2)); generalize dependent (cos (ph / 2)); generalize dependent (sin (ph / 2)); intros; nra.
Qed.
Lemma born2 : forall r0 r1, born 3 [2%nat] (back0 r0 r1) = 0.
Proof. intros r0 r1. unfold back0. rewrite v3_born by lia. cbv zeta. cbn [nth negb]. rewrite !andb_false_r, Cn2_C0. lra. Qed.

(** ** The run *)
Hypothesis EW : exact_world.
Let P : program := tree teleport.
(** No rotation about Y, no listing. *)
Definition plain (c : bcall) : Prop := turns_y c = None /\ c <> QCapture /\ c <> QDump 0.
Definition good (n : nat) (l : code) (m : ideal) (t : tgen) (o : outcome_of unit) : Prop := isafe plain P n l m t /\ irun P n l m t o.
Lemma good_do : forall n c k m t r m' o, istep m c (IGo r m') -> plain c -> ivalid m c ->
  good n (k r) m' t o -> good (S n) (Do c k) m t o.
Proof.
  intros n c k m t r m' o E L V [S1 S2]. split.
  - cbn [isafe]. cbn [pstep P tree]. split; auto. split; auto. intros r' m2 E'. assert (X := istep_det _ _ _ _ (proj2 L) E E'). inversion X; subst. auto.
  - eapply ir_call; [reflexivity|exact E|exact S2].
Qed.
Lemma good_ret : forall n m t, good (S n) Ret m t (ODone tt (i_out m) (i_gen m) t).
Proof. intros. split; [exact I|]. apply ir_done. reflexivity. Qed.
Ltac valid3 := cbn [ivalid bvalid bnames bb_max bb_live i_book put store touch say]; split;
  [repeat constructor; cbn; intuition discriminate|intros x Hx; vm_compute; cbn in Hx; intuition].
Ltac step := eapply good_do; [reflexivity|repeat split; discriminate|valid3|].
Definition next (g : gen) : gen := snd (draw g).
Definition at3 (psi : qstate) (n : nat) (res : nat -> bool) (g : gen) (o : text) : ideal := mkIdeal (mkBBook 3 three) psi n res g o.
Ltac now3 psi n res g o := match goal with |- good _ _ ?m _ _ => change m with (at3 psi n res g o) end.
Definition none : text := [].
(** The part after the corrections. *)
Definition finish : code := Do (QGate (GRz (- ph)) 2) (fun _ => Do (QGate (GRx (- th)) 2) (fun _ => Do (QMz 2 2) (fun _ => Do (QResult 2 None) (fun _ => Ret)))).
Lemma finish_run : forall n r0 r1 res g t, good (5 + n) finish (at3 (sent r0 r1) 2 res g none) t (ODone tt (render (RecResult false None)) (next g) t).
Proof.
  intros n r0 r1 res g t. unfold finish. cbn [plus]. step. step.
  now3 (gate1 (mRx (- th)) 2 (gate1 (mRz (- ph)) 2 (sent r0 r1))) 2%nat res g none. rewrite back0_eq.
  step. assert (E : SpecRun.outcome three [2%nat] (back0 r0 r1) (fst (draw g)) = false).
  { unfold SpecRun.outcome. change (width three) with 3%nat. rewrite born2. destruct (Rlt_dec _ _) as [H|H]; auto. exfalso.
    assert (X := proj2 (proj2 EW) g). lra. }
  now3 (collapsed three [2%nat] (SpecRun.outcome three [2%nat] (back0 r0 r1) (fst (draw g))) (back0 r0 r1)) 3%nat
    (fun j => if Nat.eqb j 2 then SpecRun.outcome three [2%nat] (back0 r0 r1) (fst (draw g)) else res j) (next g) none. rewrite E.
  step. apply good_ret.
Qed.
Lemma teleport_run : forall n g t, good (17 + n) teleport (ideal0 g) t (ODone tt (render (RecResult false None)) (next (next (next g))) t).
Proof.
  intros n g t. unfold teleport. fold finish. cbn [plus].
  step. step. step. step. step. step.
  now3 (gate1 mH 0 (cgate [0%nat] mX 1 (cgate [1%nat] mX 2 (gate1 mH 1 (gate1 (mRz ph) 0 (gate1 (mRx th) 0 ket0)))))) 0%nat (fun _ : nat => false) g none.
  rewrite shared_ok. step. set (r0 := SpecRun.outcome _ _ _ _).
  now3 (shared1 r0) 1%nat (fun j => if Nat.eqb j 0 then r0 else false) (next g) none. clearbody r0.
  step. set (r1 := SpecRun.outcome _ _ _ _).
  now3 (collapsed three [1%nat] r1 (shared1 r0)) 2%nat (fun j => if Nat.eqb j 1 then r1 else if Nat.eqb j 0 then r0 else false) (next (next g)) none. clearbody r1.
  rewrite shared2_eq. assert (E := sent_eq r0 r1). step.
  set (res := fun j => if Nat.eqb j 1 then r1 else if Nat.eqb j 0 then r0 else false). change (i_res _ _) with r1.
  now3 (shared2 r0 r1) 2%nat res (next (next g)) none.
  destruct r1; cbn [when].
  - step. now3 (gate1 mX 2 (shared2 r0 true)) 2%nat res (next (next g)) none. step. change (i_res _ _) with r0. destruct r0; cbn [when].
    + step. now3 (fix0 true (fix1 true (shared2 true true))) 2%nat res (next (next g)) none. rewrite E. apply finish_run.
    + now3 (fix0 false (fix1 true (shared2 false true))) 2%nat res (next (next g)) none. rewrite E. apply (finish_run (S n)).
  - step. change (i_res _ _) with r0. destruct r0; cbn [when].
    + step. now3 (fix0 true (fix1 false (shared2 true false))) 2%nat res (next (next g)) none. rewrite E. apply (finish_run (S n)).
    + now3 (fix0 false (fix1 false (shared2 false false))) 2%nat res (next (next g)) none. rewrite E. apply (finish_run (S (S n))).
Qed.
End Teleport.
Lemma plain_careful : forall {D : Doubles}, careful plain.
Proof. intros D. left. intros c H. apply H. Qed.
Lemma plain_lists : forall {D : Doubles}, lists_nothing plain.
Proof. intros D c H. apply H. Qed.
