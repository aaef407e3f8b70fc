(** * Runs for C71 in binary64 *)
From Coq Require Import ZArith NArith List Bool Lia Permutation Reals Lra.
From Flocq Require Import Core.Raux IEEE754.BinarySingleNaN.
From Verif Require Import Arith Math Binary64 Binary64Lemmas IndexMap Sim SimExp SpecRun SpecAny Any AnyRun SpecSettled Settled.
Import ListNotations.

(** Samples as [rand] gives them: a 53-bit number times 2^-53 (the [f64] of the standard distribution). *)
(** sparsesim/src/lib.rs:318. *)
Definition sample53 (m : N) : f64 := flit (Z.of_N (m mod 2 ^ 53)) (-53).
Lemma sample53_range : forall m, is_finite (sample53 m) = true /\ (0 <= B2R (sample53 m) < 1)%R.
Proof.
  intros m. unfold sample53. assert (B : (Z.of_N (m mod 2 ^ 53) < 2 ^ 53)%Z).
  { change (2 ^ 53)%Z with (Z.of_N (2 ^ 53)). apply N2Z.inj_lt. apply N.mod_lt. discriminate. }
  assert (P : (0 <= Z.of_N (m mod 2 ^ 53))%Z) by apply N2Z.is_nonneg.
  destruct (flit_val (Z.of_N (m mod 2 ^ 53)) (-53)) as [F V]; [rewrite Z.abs_eq by exact P; exact B|lia|].
  split; [exact F|]. rewrite V. apply IZR_le in P. apply IZR_lt in B. cbn [powerRZ].
  assert (Q : (0 < / 2 ^ Pos.to_nat 53)%R) by (apply Rinv_0_lt_compat, pow_lt; lra).
  split; [apply Rmult_le_pos; lra|].
  assert (E : IZR (2 ^ 53) = (2 ^ Pos.to_nat 53)%R) by (rewrite (pow_IZR 2); reflexivity).
  rewrite E in B. apply Rmult_lt_reg_r with (2 ^ Pos.to_nat 53)%R; [apply pow_lt; lra|].
  rewrite Rmult_assoc, Rinv_l by (apply pow_nonzero; lra). lra.
Qed.
(** A list of such samples, and entries of a hash map in the order of their insertion. *)
(** sparsesim/src/lib.rs:30, 97. *)
Definition Env53 (cosf sinf : f64 -> f64) : @Env (Arith64 cosf sinf) :=
  @Build_Env (Arith64 cosf sinf) (fun l => l) (list N)
    (fun g => match g with x :: g' => (sample53 x : @prb (Arith64 cosf sinf), g') | [] => (sample53 0 : @prb (Arith64 cosf sinf), []) end).
Lemma not_below : forall cosf sinf g, @plt (Arith64 cosf sinf) (fst (@draw _ (Env53 cosf sinf) g)) (@prb0 (Arith64 cosf sinf)) = false.
Proof.
  intros cosf sinf g. assert (H : forall m, flt (sample53 m) f0 = false).
  { intros m. destruct (sample53_range m) as [F R]. destruct f0_val as [F0 V0]. unfold flt. rewrite Bltb_correct by auto.
    rewrite V0. apply Rlt_bool_false. lra. }
  destruct g; apply H.
Qed.

(** Two qubits, H on both and a controlled Z: the first is measured, measured again, and the state is listed. *)
Definition twice (cosf sinf : f64 -> f64) : list (@acall (Arith64 cosf sinf)) :=
  [AAlloc; AAlloc; AGate AH 0; AGate AH 1; AMc AZ [0] 1; AMeasure 0; AMeasure 0; AState].
(** Replies without numbers, encoded. *)
Definition coded {A : Arith} (a : areply) : list nat :=
  match a with
  | AUnit => [0]
  | AId q => [1; q]
  | ABit b => [2; if b then 1 else 0]
  | AListed [] n => [3; n]
  | _ => [4]
  end%nat.
Lemma coded_inj {A : Arith} : forall a b, coded a = coded b -> coded b <> [4%nat] -> a = b.
Proof.
  intros [] [] H N; simpl in *; try destruct st; try destruct st0; try congruence; injection H; intros; subst; auto.
  destruct b, b0; congruence.
Qed.
Lemma twice_codes : forall cosf sinf,
  match @aexec _ (Env53 cosf sinf) (@new_sim _ (Env53 cosf sinf) [0; 2 ^ 53 - 1]%N) (twice cosf sinf) with
  | Ok (rs, _) => map coded rs
  | Panic _ => []
  end = [[1; 0]; [1; 1]; [0]; [0]; [0]; [2; 1]; [2; 0]; [3; 2]]%nat.
Proof. intros cosf sinf. vm_compute. reflexivity. Qed.
Lemma twice_run : forall cosf sinf, exists s,
  @aexec _ (Env53 cosf sinf) (@new_sim _ (Env53 cosf sinf) [0; 2 ^ 53 - 1]%N) (twice cosf sinf) =
  Ok ([AId 0; AId 1; AUnit; AUnit; AUnit; ABit true; ABit false; AListed [] 2], s).
Proof.
  intros cosf sinf. pose proof (twice_codes cosf sinf) as H.
  destruct (@aexec _ (Env53 cosf sinf) (@new_sim _ (Env53 cosf sinf) [0; 2 ^ 53 - 1]%N) (twice cosf sinf)) as [[rs s]|]; [|discriminate].
  exists s. do 2 f_equal.
  assert (G : forall (a b : list (@areply (Arith64 cosf sinf))), map coded a = map coded b -> Forall (fun x => coded x <> [4%nat]) b -> a = b).
  { induction a as [|x a IH]; intros [|y b] E F; try discriminate; auto. cbn [map] in E. injection E as E1 E2. inversion F; subst.
    rewrite (coded_inj x y), (IH b); auto. }
  apply G; [exact H|]. repeat constructor; discriminate.
Qed.
