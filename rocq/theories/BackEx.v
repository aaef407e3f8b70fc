(** * Concrete backend states, for examples and counterexamples *)
From Coq Require Import String Ascii Reals NArith ZArith List Bool Lia Lra Permutation.
From Verif Require Import Cx Bits Arith ArithR IndexMap Sim SimExp SimApply Spec SpecExp SpecApply SpecRun SimRun QLib QSum SpecLemmas
  RunLemmas RunProps RunThms SimProps Text Backend SpecBackend BackLemmas BackMath BackSem BackStore BackThms World SimEx.
Import ListNotations.
Local Open Scope R_scope.
Definition D0 : Doubles := {| dbl := unit; dbl_whole := fun _ => true; dbl_show1 := fun _ => lit "0.0"; dbl_show := fun _ => lit "0" |}.
Definition SW0 : Shows := {| show_results := fun _ => lit "results"; show_dump := fun _ => lit "dump" |}.
Local Existing Instance T0.
Local Existing Instance E0.
Local Existing Instance D0.
Local Existing Instance SW0.

Definition g0 : @gen (@RArith T0) E0 := tt.
Lemma start_breached : forall g, breached (back_default g) [].
Proof. intros g. exists g, [], []. split; [exact I|]. split; reflexivity. Qed.
Lemma start_shows : bshows (back_default g0) [] ket0.
Proof. apply (new_st exact0). Qed.
Definition bell_calls : list bcall := [QGate GH 0; QC1 GX 0 1].
Lemma bell_back : exists rs b, bexec bell_calls (back_default g0) = BOk rs b /\ breached b [0; 1]%nat /\ bshows b [0; 1]%nat bell /\ bmax b = 2%nat.
Proof.
  destruct (op_thm exact0 (back_default g0) [] ket0 (QGate GH 0) (gate1 mH 0) (start_breached g0) start_shows) as (b1 & E1 & R1 & S1 & _).
  { split; [repeat constructor; simpl; auto|]. intros x [<-|[]]. simpl. auto. }
  { reflexivity. }
  { intros q a H. discriminate. }
  assert (M1 : bmax b1 = 1%nat) by (inversion E1; reflexivity).
  destruct (op_thm exact0 b1 _ _ (QC1 GX 0 1) (cgate [0%nat] mX 1) R1 S1) as (b2 & E2 & R2 & S2 & _).
  { rewrite M1. split; [repeat constructor; simpl; intuition lia|]. intros x [<-|[<-|[]]]; simpl; auto. }
  { reflexivity. }
  { intros q a H. discriminate. }
  exists [VUnit; VUnit], b2. split.
  - unfold bell_calls. cbn [bexec]. unfold bbind. rewrite E1, E2. reflexivity.
  - rewrite M1 in R2, S2. split; [exact R2|]. split; [exact S2|].
    assert (V : bvalid (mkBBook 1 [0%nat]) (QC1 GX 0 1)).
    { split; [repeat constructor; simpl; intuition lia|]. intros x [<-|[<-|[]]]; simpl; auto. }
    assert (K1 : K b1 (mkBBook 1 [0%nat])) by (split; [apply (breached_K (proj1 (proj2 exact0)) _ _ R1)|exact M1]).
    assert (Kb := wp_ok _ _ _ _ _ _ _ E2 (bcall_k (proj1 (proj2 exact0)) b1 _ _ K1 V)).
    exact (proj2 Kb).
Qed.
(** The rotation defect through the backend. *)
Definition clash_calls : list bcall := [QR PX_ PI 0; QR PY_ (PI / 2) 0; QGate GH 0].
Lemma clash_back : exists rs b, bexec clash_calls (back_default g0) = BOk rs b /\ bproper bbstart clash_calls /\
  bcall1 (QAssert [PZ_] [0%nat] 1 1 (codes "certainly one") (1 / 2)) b = BErr (EFail (codes "certainly one")) (render (RecMessage (codes "certainly one"))).
Proof.
  destruct clash_prob as [s' Ep].
  exists [VUnit; VUnit; VUnit], (mkBack after_h [] 1 []). split; [|split].
  - assert (E1 : bcall1 (QR PX_ PI 0) (back_default g0) = BOk VUnit (mkBack (mkSim [(0%N, C1)] [Some 0%nat] g0 0%N [Some PI] [] []) [] 1 [])) by reflexivity.
    assert (E2 : bcall1 (QR PY_ (PI / 2) 0) (mkBack (mkSim [(0%N, C1)] [Some 0%nat] g0 0%N [Some PI] [] []) [] 1 []) =
      BOk VUnit (mkBack (mkSim [(0%N, C1)] [Some 0%nat] g0 0%N [Some PI] [Some (PI / 2)] []) [] 1 [])) by reflexivity.
    assert (E3 : bcall1 (QGate GH 0) (mkBack (mkSim [(0%N, C1)] [Some 0%nat] g0 0%N [Some PI] [Some (PI / 2)] []) [] 1 []) =
      BOk VUnit (mkBack after_h [] 1 [])).
    { cbn [bcall1]. unfold vunit, qis_gate, bbind, ensure. cbn [bmax alloc_times Nat.sub bret]. unfold simdo, bbind, simcall. cbn [bsim run1 gate_call].
      unfold g0. rewrite clash_h. reflexivity. }
    unfold clash_calls. cbn [bexec]. unfold bbind. rewrite E1, E2, E3. reflexivity.
  - simpl. repeat split; try (repeat constructor; simpl; tauto); intros x [<-|[]]; simpl; auto.
  - cbn [bcall1]. unfold vunit, qis_assert, map_to_z_basis, bbind. cbn [length Nat.eqb combine filter not_id fst bfor fold_right map snd to_z ensure].
    unfold bbind. cbn [bmax ensure alloc_times Nat.sub bret]. unfold ensure. cbn [bmax alloc_times Nat.sub bret].
    unfold simcall. cbn [bsim run1 map snd]. rewrite Ep. cbn [bind Nat.eqb].
    assert (X : Rltb (1 / 2) (Rabs (0 - 1)) = true).
    { unfold Rltb. destruct (Rlt_dec _ _); auto. exfalso. apply n. rewrite Rabs_left; lra. }
    rewrite X. reflexivity.
Qed.
