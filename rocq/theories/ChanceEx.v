(** * Programs whose chances are worked out *)
From Coq Require Import String Reals NArith ZArith List Bool Lia Lra Arith FunctionalExtensionality.
From Verif Require Import Cx Bits BitsLemmas Arith ArithR Sim SimExp Spec SpecExp SpecRun SimRun QLib QSum Text Backend SpecBackend Runner SpecRunner SpecIdeal
  SpecChance Chance IdealEx.
Import ListNotations.
Local Open Scope R_scope.
Local Open Scope list_scope.

Section Ex.
Context {T : Tol} {EN : Env} {D : Doubles} {SW : Shows} {RN : Rand}.

Section Calc.
Variable x : code.
Definition calc (n : nat) (l : code) (h : path) (t : tgen) (ws : list (R * ended unit)) : Prop :=
  sound plain (tree x) n l h t /\ chances (tree x) n l h t = ws.
Definition branch (n : nat) (l : code) (h : path) (t : tgen) (ws : list (R * ended unit)) : Prop :=
  (chance h = 0 /\ ws = []) \/ (chance h <> 0 /\ calc n l h t ws).
Lemma calc_one : forall k n h t c r h' ws, sides h c = [Go r h'] -> plain c -> hvalid h c -> chance h' <> 0 -> calc n (k r) h' t ws -> calc (S n) (Do c k) h t ws.
Proof.
  intros k n h t c r h' ws E P V C [H1 H2]. split.
  - cbn [sound tree pstep]. split; auto. split; auto. rewrite E. intros r0 m0 [X|[]] _. injection X as <- <-. exact H1.
  - cbn [chances tree pstep]. rewrite E. cbn [flat_map]. destruct (Req_EM_T (chance h') 0); [contradiction|]. rewrite app_nil_r. exact H2.
Qed.
Lemma calc_two : forall k n h t c r1 h1 r2 h2 ws1 ws2, sides h c = [Go r1 h1; Go r2 h2] -> plain c -> hvalid h c ->
  branch n (k r1) h1 t ws1 -> branch n (k r2) h2 t ws2 -> calc (S n) (Do c k) h t (ws1 ++ ws2).
Proof.
  intros k n h t c r1 h1 r2 h2 ws1 ws2 E P V B1 B2. split.
  - cbn [sound tree pstep]. split; auto. split; auto. rewrite E. intros r0 m0 [X|[X|[]]] C; injection X as <- <-.
    + destruct B1 as [[Z _]|[_ [H _]]]; [contradiction|exact H].
    + destruct B2 as [[Z _]|[_ [H _]]]; [contradiction|exact H].
  - cbn [chances tree pstep]. rewrite E. cbn [flat_map]. rewrite app_nil_r. f_equal.
    + destruct B1 as [[Z ->]|[Z [_ H]]]; destruct (Req_EM_T (chance h1) 0); auto; contradiction.
    + destruct B2 as [[Z ->]|[Z [_ H]]]; destruct (Req_EM_T (chance h2) 0); auto; contradiction.
Qed.
Lemma calc_ret : forall n h t w o, chance h = w -> h_out h = o -> calc (S n) Ret h t [(w, EDone tt o t)].
Proof. intros n h t w o <- <-. split; [exact I|reflexivity]. Qed.
Lemma branch_go : forall n l h t ws, chance h <> 0 -> calc n l h t ws -> branch n l h t ws.
Proof. intros. right. auto. Qed.
Lemma branch_no : forall n l h t, chance h = 0 -> branch n l h t [].
Proof. intros. left. auto. Qed.
End Calc.

(** A rotation about X, a measurement, and the result is recorded. *)
Definition rot (th : R) : code :=
  Do (QGate (GRx th) 0) (fun _ => Do (QMz 0 0) (fun _ => Do (QResult 0 None) (fun _ => Ret))).
(** Two entangled qubits are measured. *)
Definition bell : code :=
  Do (QGate GH 0) (fun _ => Do (QC1 GX 0 1) (fun _ => Do (QMz 0 0) (fun _ => Do (QMz 1 1) (fun _ =>
  Do (QResult 0 None) (fun _ => Do (QResult 1 None) (fun _ => Ret)))))).

Lemma n2_1 : forall f, norm2 1 (v3 f) = Cn2 (f false false false) + (Cn2 (f true false false) + 0).
Proof. reflexivity. Qed.
Lemma n2_2 : forall f, norm2 2 (v3 f) = Cn2 (f false false false) + (Cn2 (f true false false) + (Cn2 (f false true false) + (Cn2 (f true true false) + 0))).
Proof. reflexivity. Qed.

Definition one0 : bbook := mkBBook 1 [0%nat].
Lemma rot_sat : forall th, gate1 (mRx th) 0 ket0 = v3 (fun x y z => if y || z then C0 else mRx th x false).
Proof. intros th. rewrite v3_ket, v3_g0. apply v3_ext. intros x y z. destruct y, z; cbn [orb]; ring. Qed.
Lemma rx_false : forall th, Cn2 (mRx th false false) = cos (th / 2) * cos (th / 2).
Proof. intros. cunfold. cbn. ring. Qed.
Lemma rx_true : forall th, Cn2 (mRx th true false) = sin (th / 2) * sin (th / 2).
Proof. intros. cunfold. cbn. ring. Qed.
Ltac plain1 := repeat split; discriminate.
Ltac valid1 := first [exact I | split; [repeat constructor; simpl; intuition discriminate|intros ? ?; cbv; cbv in *; intuition auto]].
Lemma rot_calc : forall th n t, sin (th / 2) <> 0 -> cos (th / 2) <> 0 ->
  calc (rot th) (4 + n) (rot th) path0 t
    [(sin (th / 2) * sin (th / 2), EDone tt (render (RecResult true None)) t); (cos (th / 2) * cos (th / 2), EDone tt (render (RecResult false None)) t)].
Proof.
  intros th n t Hs Hc. set (v := v3 (fun x y z => if y || z then C0 else mRx th x false)).
  assert (Ss := sin2_cos2 (th / 2)). unfold Rsqr in Ss.
  assert (E1 : forall r o u re, chance (mkPath one0 (proj [0%nat] r v) u re o) = if r then sin (th / 2) * sin (th / 2) else cos (th / 2) * cos (th / 2)).
  { intros r o u re. unfold chance, size2, v. cbn [h_book h_vec one0 bb_live]. change (width [0%nat]) with 1%nat. rewrite v3_p0, n2_1. cbn [orb Bool.eqb]. 
    destruct r; cbn [Bool.eqb]; rewrite ?rx_true, ?rx_false, Cn2_C0; ring. }
  apply calc_one with VUnit (mkPath one0 v 0 (fun _ => false) []).
  { rewrite <- (rot_sat th : _ = v). reflexivity. } { plain1. } { valid1. }
  { unfold chance, size2, v. cbn [h_book h_vec one0 bb_live]. change (width [0%nat]) with 1%nat. rewrite n2_1. cbn [orb]. rewrite rx_true, rx_false. lra. }
  eapply (calc_two _ _ _ _ _ _ _ _ _ _ [_] [_]); [reflexivity|plain1|valid1| |].
  - apply branch_go. { match goal with |- chance ?h <> 0 => rewrite (E1 true _ _ _ : chance h = _) end. nra. }
    eapply calc_one; [reflexivity|plain1|valid1| |].
    { match goal with |- chance ?h <> 0 => rewrite (E1 true _ _ _ : chance h = _) end. nra. }
    apply calc_ret; [apply (E1 true)|reflexivity].
  - apply branch_go. { match goal with |- chance ?h <> 0 => rewrite (E1 false _ _ _ : chance h = _) end. nra. }
    eapply calc_one; [reflexivity|plain1|valid1| |].
    { match goal with |- chance ?h <> 0 => rewrite (E1 false _ _ _ : chance h = _) end. nra. }
    apply calc_ret; [apply (E1 false)|reflexivity].
Qed.

Definition pair01 : bbook := mkBBook 2 [0%nat; 1%nat].
Definition said (v : bool) : text := render (RecResult v None) ++ render (RecResult v None).
Lemma plus_sat : gate1 mH 0 ket0 = v3 (fun x y z => if y || z then C0 else rsqrt2).
Proof. rewrite v3_ket, v3_g0. apply v3_ext. intros x y z. destruct x, y, z; cbn [orb mH mk2]; ring. Qed.
Lemma bell_sat : cgate [0%nat] mX 1 (v3 (fun x y z => if y || z then C0 else rsqrt2)) = v3 (fun x y z => if xorb x y || z then C0 else rsqrt2).
Proof. rewrite v3_c01. apply v3_ext. intros x y z. destruct x, y, z; cbn [orb xorb mX mk2]; ring. Qed.
Lemma rs_n2 : Cn2 rsqrt2 = 1 / 2.
Proof. assert (H := f_equal fst rsqrt2_sq). unfold rsqrt2 in *. cunfold. cbn in *. lra. Qed.
Lemma bell_calc : forall n t, calc bell (7 + n) bell path0 t [(1 / 2, EDone tt (said true) t); (1 / 2, EDone tt (said false) t)].
Proof.
  intros n t. set (v := v3 (fun x y z => if xorb x y || z then C0 else rsqrt2)). set (u := v3 (fun x y z => if y || z then C0 else rsqrt2)).
  assert (E1 : forall r o a re, chance (mkPath pair01 (proj [0%nat] r v) a re o) = 1 / 2).
  { intros r o a re. unfold chance, size2, v. cbn [h_book h_vec pair01 bb_live]. change (width [0%nat; 1%nat]) with 2%nat. rewrite v3_p0, n2_2. cbn [orb xorb Bool.eqb].
    destruct r; cbn [Bool.eqb]; rewrite rs_n2, Cn2_C0; lra. }
  assert (E2 : forall r r' o a re, chance (mkPath pair01 (proj [1%nat] r' (proj [0%nat] r v)) a re o) = if Bool.eqb r r' then 1 / 2 else 0).
  { intros r r' o a re. unfold chance, size2, v. cbn [h_book h_vec pair01 bb_live]. change (width [0%nat; 1%nat]) with 2%nat. rewrite v3_p0, v3_p1, n2_2. cbn [orb xorb Bool.eqb].
    destruct r, r'; cbn [Bool.eqb]; rewrite ?rs_n2, Cn2_C0; lra. }
  apply calc_one with VUnit (mkPath one0 u 0 (fun _ => false) []).
  { rewrite <- (plus_sat : _ = u). reflexivity. } { plain1. } { valid1. }
  { unfold chance, size2, u. cbn [h_book h_vec one0 bb_live]. change (width [0%nat]) with 1%nat. rewrite n2_1. cbn [orb]. rewrite rs_n2. lra. }
  apply calc_one with VUnit (mkPath pair01 v 0 (fun _ => false) []).
  { rewrite <- (bell_sat : _ = v). reflexivity. } { plain1. } { valid1. }
  { unfold chance, size2, v. cbn [h_book h_vec pair01 bb_live]. change (width [0%nat; 1%nat]) with 2%nat. rewrite n2_2. cbn [orb xorb]. rewrite rs_n2, Cn2_C0. lra. }
  eapply (calc_two _ _ _ _ _ _ _ _ _ _ [_] [_]); [reflexivity|plain1|valid1| |].
  - apply branch_go. { match goal with |- chance ?h <> 0 => rewrite (E1 true _ _ _ : chance h = _) end. lra. }
    eapply (calc_two _ _ _ _ _ _ _ _ _ _ [_] []); [reflexivity|plain1|valid1| |apply branch_no; apply (E2 true false)].
    apply branch_go. { match goal with |- chance ?h <> 0 => rewrite (E2 true true _ _ _ : chance h = _) end. cbn [Bool.eqb]. lra. }
    eapply calc_one; [reflexivity|plain1|valid1|match goal with |- chance ?h <> 0 => rewrite (E2 true true _ _ _ : chance h = _) end; cbn [Bool.eqb]; lra|].
    eapply calc_one; [reflexivity|plain1|valid1|match goal with |- chance ?h <> 0 => rewrite (E2 true true _ _ _ : chance h = _) end; cbn [Bool.eqb]; lra|].
    apply calc_ret; [apply (E2 true true)|reflexivity].
  - apply branch_go. { match goal with |- chance ?h <> 0 => rewrite (E1 false _ _ _ : chance h = _) end. lra. }
    eapply (calc_two _ _ _ _ _ _ _ _ _ _ [] [_]); [reflexivity|plain1|valid1|apply branch_no; apply (E2 false true)|].
    apply branch_go. { match goal with |- chance ?h <> 0 => rewrite (E2 false false _ _ _ : chance h = _) end. cbn [Bool.eqb]. lra. }
    eapply calc_one; [reflexivity|plain1|valid1|match goal with |- chance ?h <> 0 => rewrite (E2 false false _ _ _ : chance h = _) end; cbn [Bool.eqb]; lra|].
    eapply calc_one; [reflexivity|plain1|valid1|match goal with |- chance ?h <> 0 => rewrite (E2 false false _ _ _ : chance h = _) end; cbn [Bool.eqb]; lra|].
    apply calc_ret; [apply (E2 false false)|reflexivity].
Qed.

Lemma bell_series : forall n k t, Forall (fun wr => fst wr = (1 / 2) ^ n /\ exists vs, length vs = n /\ snd wr = Some (map said vs)) (series (tree bell) (7 + k) n tt t) /\
  length (series (tree bell) (7 + k) n tt t) = Nat.pow 2 n.
Proof.
  induction n as [|n IH]; intros k t; cbn [series].
  - split; [|reflexivity]. constructor; [|constructor]. split; [reflexivity|]. exists []. auto.
  - change (pstart (tree bell) tt) with bell. rewrite (proj2 (bell_calc k t)). cbn [flat_map fst snd]. rewrite app_nil_r. destruct (IH k t) as [F L]. split.
    + apply Forall_app. split; apply Forall_forall; intros z Hz; apply in_map_iff in Hz; destruct Hz as (y & <- & Hy); rewrite Forall_forall in F; destruct (F y Hy) as (E1 & vs & E2 & E3); cbn [fst snd].
      * split; [rewrite E1; simpl; ring|]. exists (true :: vs). rewrite E3. simpl. auto.
      * split; [rewrite E1; simpl; ring|]. exists (false :: vs). rewrite E3. simpl. auto.
    + rewrite app_length, !map_length. transitivity (Nat.pow 2 n + Nat.pow 2 n)%nat; [exact (f_equal2 Nat.add L L)|simpl; lia].
Qed.
End Ex.
