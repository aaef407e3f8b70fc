(** * The phase factor of [r__ctl] in binary64 *)
From Coq Require Import ZArith Reals Bool Lia Lra.
From Flocq Require Import Core IEEE754.BinarySingleNaN.
From Verif Require Import Cx Arith ArithR SpecRound Math Binary64 SpecBinary64 Binary64Lemmas BackAny.
Local Open Scope R_scope.

(** backend/src/lib.rs:571-575 [Complex64::exp(Complex64::new(0.0, -theta / 2.0))], which in num-complex 0.4 is
    [from_polar(exp(0.0), -theta / 2.0)]: the cosine and the sine, each multiplied by 1 (left out here). *)
Definition Phases64 (cosf sinf : f64 -> f64) : @Phases (Arith64 cosf sinf) :=
  @Build_Phases (Arith64 cosf sinf) (fun th : f64 => ((cosf (fdiv (Bopp th) f2), sinf (fdiv (Bopp th) f2)) : @amp (Arith64 cosf sinf))).

Theorem phase64 : forall cosf sinf k, libm_ok cosf sinf -> (k <= 8)%nat -> forall th : f64, is_finite th = true -> Rabs (B2R th) <= 2 ^ (8 + k) ->
  @close _ (Approx64 cosf sinf k) (@half_phase _ (Phases64 cosf sinf) th) (Cis (- B2R th / 2)) (2 ^ k / 2 ^ 44).
Proof.
  intros cosf sinf k L K th F B. assert (Kr := two_range k K). cbn [half_phase Phases64].
  assert (F' : is_finite (Bopp th) = true) by (rewrite is_finite_Bopp; exact F). destruct (fhalf_err (Bopp th) F') as [Fh Eh]. rewrite B2R_Bopp in Eh.
  assert (Q : bpow radix2 (-1000) <= / 2 ^ 50) by (rewrite <- b2_neg; apply bpow_le; simpl; lia).
  assert (BT : Rabs (B2R th) <= 65536) by (rewrite pow_add in B; lra).
  assert (Bx : Rabs (B2R (fdiv (Bopp th) f2)) <= 2 ^ 17).
  { assert (X := Rabs_triang (B2R (fdiv (Bopp th) f2) - - B2R th / 2) (- B2R th / 2)).
    replace (B2R (fdiv (Bopp th) f2) - - B2R th / 2 + - B2R th / 2) with (B2R (fdiv (Bopp th) f2)) in X by ring.
    assert (Y : Rabs (- B2R th / 2) = Rabs (B2R th) / 2) by (unfold Rdiv; rewrite Rabs_mult, Rabs_Ropp, (Rabs_pos_eq (/ 2)); lra). lra. }
  destruct (libm_cos _ _ L _ Fh Bx) as [F1 E1]. destruct (libm_sin _ _ L _ Fh Bx) as [F2 E2].
  apply (close_parts cosf sinf k _ _ (/ 2 ^ 50 + / 2 ^ 50) (/ 2 ^ 50 + / 2 ^ 50)); simpl fst; simpl snd.
  - eapply res_near; [split; [exact F1|exact E1]|]. eapply Rle_trans; [apply cos_lip1|]. lra.
  - eapply res_near; [split; [exact F2|exact E2]|]. eapply Rle_trans; [apply sin_lip1|]. lra.
  - lra.
Qed.
