(** * Theorems on classical programs: shots, real numbers, binary64 *)
From Coq Require Import NArith ZArith List Bool Lia Reals Lra.
From Flocq Require Import IEEE754.BinarySingleNaN Core.Raux.
From Verif Require Import Cx Arith ArithR Sim SimExp SpecRun SpecAny Any AnyRun Math Binary64 SpecBinary64 Binary64Lemmas SpecClassical Classical Text Backend Runner BackAny SpecBits.
Import ListNotations.

Section Play.
Context {A : Arith} {EN : Env}.
Lemma named_ok : forall m l, named m l = true -> forall q, In q l -> In q (live (bbook m)).
Proof.
  intros m l H q Hq. unfold named in H. rewrite forallb_forall in H. specialize (H q Hq). apply existsb_exists in H. destruct H as [x [Hx E]].
  apply Nat.eqb_eq in E. subst. exact Hx.
Qed.
Lemma distinct_ok : forall l, distinct l = true -> NoDup l.
Proof.
  induction l as [|q l IH]; intros H; [constructor|]. cbn [distinct] in H. apply andb_prop in H. destruct H as [H1 H2]. constructor; auto.
  intros Hq. apply negb_true_iff in H1. assert (E : existsb (Nat.eqb q) l = true) by (apply existsb_exists; exists q; split; [auto|apply Nat.eqb_refl]). congruence.
Qed.
Lemma ready_ok : forall m c, ready m c = true -> avalid (bbook m) c /\ classical c /\ forall turned r, bits_reply turned m c r -> r = bits_answer m c.
Proof.
  intros m c H. destruct c; cbn [ready avalid classical bits_reply bits_answer] in *; try discriminate;
    repeat match goal with H : andb _ _ = true |- _ => apply andb_prop in H; destruct H end;
    (split; [|split; auto]); auto;
    try (eapply named_ok; [eassumption|simpl; auto; fail]).
  - split; [apply distinct_ok; auto|]. intros x. apply named_ok; auto.
  - split; eapply named_ok; try eassumption; simpl; auto.
  - split; [apply distinct_ok; auto|]. intros x. apply named_ok; auto.
  - split; [apply distinct_ok; auto|]. intros x. apply named_ok; auto.
Qed.
Variable turned : nat -> amp -> Prop.
Theorem play_bits : any_order -> turns_ok turned -> samples_proper -> forall X (t : tree (answer X)) m s x, cl turned m s ->
  bits_play m t = Some x -> fst (play s t) = x.
Proof.
  intros HO K Sm X t. induction t as [y|o c k IH|t IH]; intros m s x C H; cbn [bits_play play] in *.
  - injection H as ->. reflexivity.
  - destruct (ready m c) eqn:R; [|discriminate]. destruct (ready_ok m c R) as (V & Cc & Ra).
    destruct (run_one HO turned K Sm [c] m s C) as (rs & s' & E & Rp & C'); [split; simpl; auto|repeat constructor; auto|].
    cbn [aexec] in E. destruct (arun1 s c) as [[r s1]|] eqn:E1; [|discriminate]. cbn [bind] in E. injection E as <- <-.
    destruct Rp as [Rp _]. rewrite (Ra _ _ Rp). eapply IH; eauto.
  - eapply IH; [|exact H]. apply new_cl. exact K.
Qed.
Context {PH : Phases} {D : Doubles} {TG : ThreadGen}.
Theorem shot_bits : any_order -> turns_ok turned -> samples_proper -> forall (p : aprogram) fuel mem t x,
  bits_shot p fuel mem t = Some x -> forall g, fst (shot p fuel mem g t) = x.
Proof. intros HO K Sm p fuel mem t x H g. unfold shot. eapply play_bits; [exact HO|exact K|exact Sm|apply new_cl; exact K|exact H]. Qed.
End Play.

(** ** Binary64 *)
Section B64.
Variables cosf sinf : f64 -> f64.
Lemma mod4 : forall k, (Nat.modulo k 4 < 4)%nat. Proof. intros. apply Nat.mod_upper_bound. lia. Qed.
Lemma mod4_add : forall k j, Nat.modulo (k + j) 4 = Nat.modulo (Nat.modulo k 4 + j) 4.
Proof. intros. rewrite Nat.add_mod_idemp_l by lia. reflexivity. Qed.
Lemma zero_of : forall b x, B2SF x = SpecFloat.S754_zero b -> zero64 x.
Proof. intros b x H. exists b. apply B2SF_inj. exact H. Qed.
Ltac calc := apply B2SF_inj; vm_compute; reflexivity.
Ltac calc0 := first [apply (zero_of false); vm_compute; reflexivity|apply (zero_of true); vm_compute; reflexivity].
Ltac four := intros k [x y] H; change (@amp (Arith64 cosf sinf)) with (f64 * f64)%type in *; unfold turned64 in *; try rewrite mod4_add; pose proof (mod4 k) as M4;
  destruct (Nat.modulo k 4) as [|[|[|[|]]]]; try (exfalso; lia); cbn [fst snd] in H; destruct H as [H1 H2];
  match goal with
  | H : zero64 x, G : y = _ |- _ => destruct H as [[|] ->]; rewrite G
  | H : zero64 y, G : x = _ |- _ => destruct H as [[|] ->]; rewrite G
  end.
Ltac both := try match goal with |- context[Nat.modulo ?a 4] => let v := eval vm_compute in (Nat.modulo a 4) in change (Nat.modulo a 4) with v end; cbv iota beta; split; match goal with |- zero64 _ => calc0 | |- _ = _ => calc end.
Theorem turns64 : @turns_ok (Arith64 cosf sinf) turned64.
Proof.
  split.
  - both.
  - four; both.
  - four; both.
  - four; both.
  - four; both.
  - four; calc.
  - four; both.
  - calc.
  - vm_compute. reflexivity.
  - vm_compute. reflexivity.
Qed.
Theorem samples64 : forall (E : @Env (Arith64 cosf sinf)),
  (forall g, exists k, (0 <= k < 2 ^ 53)%Z /\ @eq f64 (fst (@draw _ E g)) (sample53 k)) -> @samples_proper _ E.
Proof.
  intros E H g. destruct (H g) as (k & B & Ek). change (@plt (Arith64 cosf sinf)) with flt. change (@pcompl (Arith64 cosf sinf) (@prb0 (Arith64 cosf sinf))) with (fsub f1 f0).
  change (@prb0 (Arith64 cosf sinf)) with f0. change (@prb (Arith64 cosf sinf)) with f64 in *. rewrite Ek. replace (fsub f1 f0) with f1 by calc.
  destruct (flit_val k (-53)) as [Fk Vk]; [lia|lia|]. destruct f0_val as [F0 V0]. destruct f1_val as [F1 V1].
  assert (P : (0 < powerRZ 2 (-53) /\ IZR (2 ^ 53) * powerRZ 2 (-53) = 1)%R).
  { split; [apply powerRZ_lt; lra|]. change (2 ^ 53)%Z with (Z.pow_pos 2 53). rewrite <- (powerRZ_add 2 53 (-53)) at 1 || idtac. simpl. lra. }
  destruct P as [P1 P2]. assert (K1 := IZR_le 0 k ltac:(lia)). assert (K2 := IZR_lt k (2 ^ 53) ltac:(lia)). unfold sample53. split.
  - rewrite flt_val by assumption. apply Rlt_bool_false. rewrite Vk, V0. nra.
  - rewrite flt_val by assumption. apply Rlt_bool_true. rewrite Vk, V1. nra.
Qed.
End B64.

(** ** Real numbers *)
Local Open Scope R_scope.
Section Real.
Context {T : Tol}.
Lemma quarter_n2 : forall k, Cn2 (quarter k) = 1.
Proof. induction k; simpl; [apply Cn2_C1|]. rewrite Cn2_mul, IHk, Cn2_Ci. ring. Qed.
Theorem turnsR : 0 <= tol < 1 -> @turns_ok RArith (fun k a => a = quarter k).
Proof.
  intros Ht. assert (S1 : RtoC (1 / sqrt (1 - 0)) = C1) by (rewrite Rminus_0_r, sqrt_1; unfold RtoC, C1; f_equal; field).
  assert (Ii : Cmul Ci Ci = Copp C1) by (unfold Ci, C1, Cmul, Copp; simpl; f_equal; ring).
  split; cbn [amp prb amp1 ampi amul aopp pscale pcompl prb0 padd psqr pnz RArith]; intros; subst; auto.
  - ring.
  - rewrite Nat.add_comm. simpl. ring.
  - rewrite Nat.add_comm. simpl. rewrite <- Ii. ring.
  - rewrite Nat.add_comm. simpl. replace (Cmul Ci (Cmul Ci (Cmul Ci (quarter k)))) with (Cmul (Cmul Ci Ci) (Cmul Ci (quarter k))) by ring. rewrite Ii. ring.
  - change (prb (Arith := RArith)) with R. rewrite quarter_n2. ring.
  - rewrite S1. ring.
  - change (prb (Arith := RArith)) with R. ring.
  - unfold rnz. rewrite Rabs_R0. unfold Rleb. destruct (Rle_dec _ _); [reflexivity|lra].
  - unfold rnz. rewrite Rminus_0_r, Rabs_R1. unfold Rleb. destruct (Rle_dec _ _); [lra|reflexivity].
Qed.
End Real.
