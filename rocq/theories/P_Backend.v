(** * Results: the backend's entry points *)
From Coq Require Import String Ascii Reals NArith ZArith List Bool Lia Lra.
From Verif Require Import Cx Bits Arith ArithR IndexMap Sim SimExp SimApply Spec SpecExp SpecApply SpecRun SimRun Text Backend SpecBackend
  BackThms BackStore World BackEx.
Import ListNotations.
Local Open Scope R_scope.

(** ** C20: gates act as the named unitaries *)
Theorem C20_gates : forall (T : Tol) (EN : Env) (D : Doubles) (SW : Shows), exact_world ->
  forall b l psi c F, breached b l -> bshows b l psi -> bvalid (mkBBook (bmax b) l) c -> bop c = Some F -> turns_y c = None ->
  exists b', bcall1 c b = BOk VUnit b' /\ breached b' (opened (bmax b) l (bnames c)) /\
    bshows b' (opened (bmax b) l (bnames c)) (F psi) /\ same_rest b b'.
Proof. intros T EN D SW EW b l psi c F R S V E Y. apply op_thm; auto. intros q a H. congruence. Qed.
Print Assumptions C20_gates.

(** Rotations about Y only where no odd multiple of pi of rx is pending; false otherwise (C20_refuted). *)
Theorem C20_y_partial : forall (T : Tol) (EN : Env) (D : Doubles) (SW : Shows), exact_world ->
  forall b l psi c F, breached b l -> bshows b l psi -> bvalid (mkBBook (bmax b) l) c -> bop c = Some F -> y_free b c ->
  exists b', bcall1 c b = BOk VUnit b' /\ breached b' (opened (bmax b) l (bnames c)) /\
    bshows b' (opened (bmax b) l (bnames c)) (F psi) /\ same_rest b b'.
Proof. exact @op_thm. Qed.
Print Assumptions C20_y_partial.

(** A controlled phase, a controlled rotation and an XX rotation of a Bell pair; qubit 3 comes into being on use. *)
Example C20_ex : exists b, @breached T0 E0 D0 SW0 b [0; 1]%nat /\ bshows b [0; 1]%nat bell /\
  @bvalid D0 (mkBBook (bmax b) [0; 1]%nat) (QRCtl [0%nat] PI_ 1 1) /\ @turns_y D0 (QRCtl [0%nat] PI_ 1 1) = None /\
  @bvalid D0 (mkBBook (bmax b) [0; 1]%nat) (QRCtl [0; 1]%nat PY_ 1 3) /\ @turns_y D0 (QRCtl [0; 1]%nat PY_ 1 3) = None /\
  @bvalid D0 (mkBBook (bmax b) [0; 1]%nat) (QRxx 1 0 1) /\ @y_free T0 E0 D0 b (QR PY_ 1 3).
Proof.
  destruct bell_back as (rs & b & E & R & S & M). exists b. rewrite M. split; auto. split; auto.
  split; [split; [repeat constructor; simpl; intuition lia|intros x; simpl; intuition subst; auto]|]. split; auto.
  split; [split; [repeat constructor; simpl; intuition lia|intros x; simpl; intuition subst; auto 10]|]. split; auto.
  split; [simpl; intuition lia|]. intros q a H Hq. injection H as <-. exfalso.
  inversion E. subst b. discriminate Hq.
Qed.

(** Ry loses its sign behind a pending Rx(pi): a state that ideally is certainly One fails the assertion of that. *)
Theorem C20_refuted : exists (T : Tol) (EN : Env) (D : Doubles) (SW : Shows), exact_world /\
  exists g h m, bproper bbstart h /\ h = [QR PX_ PI 0; QR PY_ (PI / 2) 0; QGate GH 0] /\
    born 1 [0%nat] (gate1 mH 0 (gate1 (mRy (PI / 2)) 0 (gate1 (mRx PI) 0 ket0))) = 1 /\
    exists rs b, bexec h (back_default g) = BOk rs b /\ breached b [0%nat] /\
      bcall1 (QAssert [PZ_] [0%nat] 1 1 m (1 / 2)) b = BErr (EFail m) (render (RecMessage m)).
Proof.
  exists T0, E0, D0, SW0. split; [apply exact0|]. destruct clash_back as (rs & b & E & P & A).
  exists g0, clash_calls, (codes "certainly one"). split; auto. split; [reflexivity|]. split; [apply clash_ideal|].
  exists rs, b. split; auto. split; auto. exists g0, clash_calls, rs. auto.
Qed.
Print Assumptions C20_refuted.

(** ** C21: measurement of a Pauli product *)
Theorem C21_measure : forall (T : Tol) (EN : Env) (D : Doubles) (SW : Shows), exact_world ->
  forall b l psi ps qs, let c := QMeasure ps qs in let l' := opened (bmax b) l (bnames c) in
  let p := one_prob (width l') (combine ps qs) psi in
  breached b l -> bshows b l psi -> bvalid (mkBBook (bmax b) l) c ->
  0 <= p <= 1 /\
  exists (r : bool) b', bcall1 c b = BOk (VResult (if r then 1 else 0)%nat) b' /\ (r = true <-> fst (draw (rng (bsim b))) < p) /\
    breached b' l' /\ bshows b' l' (after_result (width l') (combine ps qs) r psi) /\
    norm2 (width l') (after_result (width l') (combine ps qs) r psi) = 1 /\ same_rest b b'.
Proof. exact @measure_thm'. Qed.
Print Assumptions C21_measure.
Theorem C21_lengths : forall (T : Tol) (EN : Env) (D : Doubles) (SW : Shows) b ps qs, length ps <> length qs ->
  let m := codes "Pauli array and Qubit array must be the same size." in
  bcall1 (QMeasure ps qs) b = BErr (EFail m) (bout b ++ render (RecMessage m)) /\
  forall res pr msg tl, bcall1 (QAssert ps qs res pr msg tl) b = BErr (EFail m) (bout b ++ render (RecMessage m)).
Proof. exact @lengths_thm. Qed.
Print Assumptions C21_lengths.
(** XX, with an identity entry for an unused qubit, on a Bell pair is certainly Zero; ZI is even. *)
Example C21_ex : exists b, @breached T0 E0 D0 SW0 b [0; 1]%nat /\ bshows b [0; 1]%nat bell /\
  @bvalid D0 (mkBBook (bmax b) [0; 1]%nat) (QMeasure [PX_; PX_; PI_] [0; 1; 1]%nat) /\
  one_prob 2 (combine [PX_; PX_; PI_] [0; 1; 1]%nat) bell = 0 /\
  one_prob 2 (combine [PZ_; PI_] [0; 1]%nat) bell = 1 / 2.
Proof.
  destruct bell_back as (rs & b & E & R & S & M). exists b. rewrite M. split; auto. split; auto.
  split; [split; [repeat constructor; simpl; intuition lia|split; [intros x; simpl; intuition subst; auto|reflexivity]]|].
  unfold one_prob, norm2, qsum, basis. cbn -[bell Cn2 eigen_proj]. unfold eigen_proj. cbn -[Cn2 bell].
  unfold bell, cgate, gate1. cbn -[Cn2 mH mX]. unfold mH, mX, mk2, ket0. cbn -[Cn2]. unfold Cn2. simpl.
  set (r := / sqrt 2). assert (Q : r * r = / 2) by (unfold r; rewrite <- Rinv_mult, sqrt_sqrt; lra).
  split; [field|]. transitivity (r * r); [field|]. rewrite Q. lra.
Qed.

(** ** C22: assertions only observe *)
Theorem C22_assert : forall (T : Tol) (EN : Env) (D : Doubles) (SW : Shows), exact_world ->
  forall b l psi ps qs res prob msg tl, let c := QAssert ps qs res prob msg tl in
  let l' := opened (bmax b) l (bnames c) in let p := result_prob (width l') (combine ps qs) (negb (Nat.eqb res 0)) psi in
  breached b l -> bshows b l psi -> bvalid (mkBBook (bmax b) l) c ->
  (Rabs (p - prob) <= tl -> exists b', bcall1 c b = BOk VUnit b' /\ breached b' l' /\ bshows b' l' psi /\ same_rest b b') /\
  (tl < Rabs (p - prob) -> bcall1 c b = BErr (EFail msg) (bout b ++ render (RecMessage msg))).
Proof. exact @assert_thm. Qed.
Print Assumptions C22_assert.
Example C22_ex : exists b, @breached T0 E0 D0 SW0 b [0; 1]%nat /\ bshows b [0; 1]%nat bell /\
  @bvalid D0 (mkBBook (bmax b) [0; 1]%nat) (QAssert [PX_; PX_] [0; 1]%nat 0 1 (codes "even") 0.001).
Proof.
  destruct bell_back as (rs & b & E & R & S & M). exists b. rewrite M. split; auto. split; auto.
  split; [repeat constructor; simpl; intuition lia|split; [intros x; simpl; intuition subst; auto|reflexivity]].
Qed.

(** ** C23: reset and measure-reset *)
Theorem C23_reset : forall (T : Tol) (EN : Env) (D : Doubles) (SW : Shows), exact_world ->
  forall b l psi q, let l' := opened (bmax b) l [q] in breached b l -> bshows b l psi -> In q l' ->
  exists (r : bool) b', bcall1 (QReset q) b = BOk VUnit b' /\ (r = true <-> fst (draw (rng (bsim b))) < born (width l') [q] psi) /\
    let phi := drop_qubit q r (collapsed l' [q] r psi) in
    breached b' l' /\ bshows b' l' phi /\ norm2 (width l') phi = 1 /\ born (width l') [q] phi = 0 /\ same_rest b b'.
Proof. exact @reset_thm. Qed.
Print Assumptions C23_reset.
Theorem C23_mresetz : forall (T : Tol) (EN : Env) (D : Doubles) (SW : Shows), exact_world ->
  forall b l psi q i, let l' := opened (bmax b) l [q] in breached b l -> bshows b l psi -> In q l' ->
  exists (r : bool) b', bcall1 (QMresetz q i) b = BOk VUnit b' /\ (r = true <-> fst (draw (rng (bsim b))) < born (width l') [q] psi) /\
    let phi := drop_qubit q r (collapsed l' [q] r psi) in
    breached b' l' /\ bshows b' l' phi /\ norm2 (width l') phi = 1 /\ born (width l') [q] phi = 0 /\
    reads_result b' i r /\ (forall j v, j <> i -> (reads_result b' j v <-> reads_result b j v)) /\ bout b' = bout b.
Proof. exact @mresetz_thm. Qed.
Print Assumptions C23_mresetz.
(** Both outcomes are possible on half of a Bell pair. *)
Example C23_ex : exists b, @breached T0 E0 D0 SW0 b [0; 1]%nat /\ bshows b [0; 1]%nat bell /\
  In 1%nat (opened (bmax b) [0; 1]%nat [1%nat]) /\ born (width (opened (bmax b) [0; 1]%nat [0%nat])) [0%nat] bell = 1 / 2.
Proof.
  destruct bell_back as (rs & b & E & R & S & M). exists b. rewrite M. split; auto. split; auto. split; [simpl; auto|apply bell_born].
Qed.

(** ** C24: static qubits *)
Theorem C24_identifiers : forall (T : Tol) (EN : Env) (D : Doubles) (SW : Shows), order_ok ->
  forall g h, Forall is_static h -> Forall well_named h ->
  bproper bbstart h /\
  forall rs b, bexec h (back_default g) = BOk rs b -> held b = seq 0 (top (flat_map bnames h)) /\ breached b (held b).
Proof. exact @static_thm. Qed.
Print Assumptions C24_identifiers.
Theorem C24_untouched : forall (T : Tol) (EN : Env) (D : Doubles) (SW : Shows), exact_world ->
  forall g h rs b q psi, Forall is_static h -> Forall well_named h -> bexec h (back_default g) = BOk rs b ->
  ~ In q (flat_map bnames h) -> bshows b (held b) psi -> forall k, bit k q = true -> psi k = C0.
Proof. exact @untouched_thm. Qed.
Print Assumptions C24_untouched.
(** Naming 3 before 1: four qubits, 0 and 2 untouched. *)
Example C24_ex : let h := [QGate GH 3; QC1 GX 3 1; QMz 1 0] in
  Forall (@is_static D0) h /\ Forall (@well_named D0) h /\
  seq 0 (top (flat_map (@bnames D0) h)) = [0; 1; 2; 3]%nat /\ ~ In 0%nat (flat_map (@bnames D0) h) /\ ~ In 2%nat (flat_map (@bnames D0) h).
Proof.
  cbv zeta. split; [repeat constructor|]. split.
  - repeat constructor; simpl; intuition lia.
  - split; [reflexivity|]. simpl. intuition lia.
Qed.

(** ** C25: dynamic allocation *)
Theorem C25_identifiers : forall (T : Tol) (EN : Env) (D : Doubles) (SW : Shows), order_ok ->
  forall n b l, breached b l ->
  exists qs b', bcall1 (QAllocArray n) b = BOk (VQubits qs) b' /\ length qs = n /\ NoDup qs /\ (forall q, In q qs -> ~ In q l) /\
    breached b' (held b') /\ (forall q, In q (held b') <-> In q l \/ In q qs).
Proof. exact @alloc_ids. Qed.
Print Assumptions C25_identifiers.
Theorem C25_allocate : forall (T : Tol) (EN : Env) (D : Doubles) (SW : Shows), exact_world ->
  forall b l psi, breached b l -> bshows b l psi ->
  exists q b', bcall1 QAlloc b = BOk (VQubit q) b' /\ ~ In q l /\ breached b' (insert_id q l) /\
    bshows b' (insert_id q l) psi /\ same_rest b b'.
Proof. exact @alloc_thm. Qed.
Print Assumptions C25_allocate.
Theorem C25_allocate_array : forall (T : Tol) (EN : Env) (D : Doubles) (SW : Shows), exact_world ->
  forall n b l psi, breached b l -> bshows b l psi ->
  exists qs b', bcall1 (QAllocArray n) b = BOk (VQubits qs) b' /\ length qs = n /\ NoDup qs /\ (forall q, In q qs -> ~ In q l) /\
    breached b' (held b') /\ (forall q, In q (held b') <-> In q l \/ In q qs) /\ bshows b' (held b') psi /\ same_rest b b'.
Proof. exact @array_thm. Qed.
Print Assumptions C25_allocate_array.
(** Release gives up one qubit: the others are in the state left by measuring it. *)
Theorem C25_release : forall (T : Tol) (EN : Env) (D : Doubles) (SW : Shows), exact_world ->
  forall b l psi q, breached b l -> bshows b l psi -> In q l ->
  exists (r : bool) b', bcall1 (QRelease q) b = BOk VUnit b' /\ breached b' (remove_id q l) /\
    bshows b' (remove_id q l) (drop_qubit q r (collapsed l [q] r psi)) /\
    (remove_id q l <> [] -> (r = true <-> fst (draw (rng (bsim b))) < born (width l) [q] psi)) /\ same_rest b b'.
Proof. exact @release_thm. Qed.
Print Assumptions C25_release.
(** A live Bell pair with a gap: 0 is allocated again after its release. *)
Example C25_ex : exists b, @breached T0 E0 D0 SW0 b [0; 1]%nat /\ bshows b [0; 1]%nat bell /\
  remove_id 0 [0; 1]%nat = [1%nat] /\ fresh_id [1%nat] = 0%nat /\ insert_id 0 [1%nat] = [0; 1]%nat.
Proof. destruct bell_back as (rs & b & E & R & S & M). exists b. auto. Qed.

(** ** C26: the result store *)
Theorem C26_last_write : forall (T : Tol) (EN : Env) (D : Doubles) (SW : Shows) h1 v i h2 b rs b',
  bexec (h1 ++ QWriteResult v i :: h2) b = BOk rs b' ->
  Forall (fun c => writes c <> Some i /\ c <> QInit) h2 -> reads_result b' i v.
Proof. exact @last_write_thm. Qed.
Print Assumptions C26_last_write.
Theorem C26_mz : forall (T : Tol) (EN : Env) (D : Doubles) (SW : Shows), exact_world ->
  forall b l psi q i, let l' := opened (bmax b) l [q] in breached b l -> bshows b l psi -> In q l' ->
  exists (r : bool) b', bcall1 (QMz q i) b = BOk VUnit b' /\ (r = true <-> fst (draw (rng (bsim b))) < born (width l') [q] psi) /\
    breached b' l' /\ bshows b' l' (collapsed l' [q] r psi) /\ norm2 (width l') (collapsed l' [q] r psi) = 1 /\
    reads_result b' i r /\ (forall j v, j <> i -> (reads_result b' j v <-> reads_result b j v)) /\ bout b' = bout b.
Proof. exact @mz_thm. Qed.
Print Assumptions C26_mz.
Theorem C26_kept : forall (T : Tol) (EN : Env) (D : Doubles) (SW : Shows) h b rs b' i v,
  bexec h b = BOk rs b' -> Forall (fun c => writes c <> Some i /\ c <> QInit) h ->
  (reads_result b' i v <-> reads_result b i v).
Proof. exact @keep_thm. Qed.
Print Assumptions C26_kept.
Theorem C26_default : forall (T : Tol) (EN : Env) (D : Doubles) (SW : Shows) h g rs b i,
  bexec h (back_default g) = BOk rs b -> Forall (fun c => writes c <> Some i /\ c <> QInit) h -> reads_result b i false.
Proof. exact @default_thm. Qed.
Print Assumptions C26_default.
Theorem C26_initialize : forall (T : Tol) (EN : Env) (D : Doubles) (SW : Shows) h1 h2 b rs b' i,
  bexec (h1 ++ QInit :: h2) b = BOk rs b' -> Forall (fun c => writes c <> Some i /\ c <> QInit) h2 -> reads_result b' i false.
Proof. exact @init_thm. Qed.
Print Assumptions C26_initialize.
(** A write to 3 between writes to 5. *)
Example C26_ex : exists rs b, @bexec T0 E0 D0 SW0 [QWriteResult false 5; QWriteResult true 5; QWriteResult false 3; QReadResult 5; QReadResult 9]
    (back_default g0) = BOk rs b /\ rs = [VUnit; VUnit; VUnit; VBool true; VBool false].
Proof. eexists. eexists. split; reflexivity. Qed.

(** ** C27: recorded results *)
Theorem C27_static : forall (T : Tol) (EN : Env) (D : Doubles) (SW : Shows) h g rs b i v,
  bexec h (back_default g) = BOk rs b -> ~ In QInit h -> Exists uses_store h -> reads_result b i v ->
  (forall tag, exists b', bcall1 (QResult i tag) b = BOk VUnit b' /\ bout b' = bout b ++ render (RecResult v tag)) /\
  exists b', bcall1 (QResultLegacy i) b = BOk VUnit b' /\ bout b' = bout b ++ render (LegResult v).
Proof. exact @static_record_thm. Qed.
Print Assumptions C27_static.
Theorem C27_dynamic : forall (T : Tol) (EN : Env) (D : Doubles) (SW : Shows) h g rs b i,
  bexec h (back_default g) = BOk rs b -> ~ Exists uses_store h ->
  (forall tag, exists b', bcall1 (QResult i tag) b = BOk VUnit b' /\ bout b' = bout b ++ render (RecResult (Nat.eqb i 1) tag)) /\
  exists b', bcall1 (QResultLegacy i) b = BOk VUnit b' /\ bout b' = bout b ++ render (LegResult (Nat.eqb i 1)).
Proof. exact @dynamic_record_thm. Qed.
Print Assumptions C27_dynamic.
Example C27_ex : exists rs b, @bexec T0 E0 D0 SW0 [QGate GX 0; QWriteResult true 4; QResult 1 None; QResult 4 None] (back_default g0) = BOk rs b /\
  Exists (@uses_store D0) [QGate GX 0; QWriteResult true 4; QResult 1 None; QResult 4 None] /\ ~ In (@QInit D0) [QGate GX 0; QWriteResult true 4; QResult 1 None; QResult 4 None].
Proof.
  eexists. eexists. split; [reflexivity|]. split; [apply Exists_cons_tl, Exists_cons_hd; exact I|]. simpl. intuition discriminate.
Qed.
(** Without a use of the store the static result 1 prints as 1 although reading it gives false. *)
Theorem C27_refuted : exists (T : Tol) (EN : Env) (D : Doubles) (SW : Shows), exact_world /\
  exists g rs b, bexec [QGate GH 0] (back_default g) = BOk rs b /\ reads_result b 1 false /\
    exists b', bcall1 (QResult 1 None) b = BOk VUnit b' /\ bout b' = render (RecResult true None).
Proof.
  exists T0, E0, D0, SW0. split; [apply exact0|]. exists g0. eexists. eexists. split; [reflexivity|].
  split; [eexists; reflexivity|]. eexists. split; reflexivity.
Qed.
Print Assumptions C27_refuted.

(** ** C28: initialisation forgets everything but the generator and the output buffer *)
Theorem C28_initialize_partial : forall (T : Tol) (EN : Env) (D : Doubles) (SW : Shows) h b,
  bexec (QInit :: h) b =
  match bexec h (back_default (rng (bsim b))) with
  | BOk rs b' => BOk (VUnit :: rs) (with_out b' (bout b ++ bout b'))
  | BErr e o => BErr e (bout b ++ o)
  end.
Proof. intros. rewrite init_fresh_thm. destruct (bexec h _); reflexivity. Qed.
Print Assumptions C28_initialize_partial.
(** Nothing of a live superposition, of a stored result or of output with one line survives but the line. *)
Example C28_initialize_partial_ex : exists rs b rs' b', @bexec T0 E0 D0 SW0 [QGate GX 2; QWriteResult true 1; QResult 1 None] (back_default g0) = BOk rs b /\
  held b = [0; 1; 2]%nat /\ @bexec T0 E0 D0 SW0 [QInit; QReadResult 1; QAlloc] b = BOk rs' b' /\
  rs' = [VUnit; VBool false; VQubit 0] /\ bout b' = @render D0 (RecResult true None) /\ held b' = [0%nat].
Proof.
  pose (b := @mkBack T0 E0 (@mkSim (@RArith T0) E0 [(0%N, C1)] [Some 0; Some 1; Some 2]%nat g0 0%N [] [] [([], 2%nat, OX)]) [false; true] 3 (@render D0 (RecResult true None))).
  pose (b' := @mkBack T0 E0 (@mkSim (@RArith T0) E0 [(0%N, C1)] [Some 0%nat] g0 0%N [] [] []) [false; false] 1 (@render D0 (RecResult true None))).
  exists [VUnit; VUnit; VUnit], b, [VUnit; VBool false; VQubit 0], b'.
  split; [reflexivity|]. split; [reflexivity|]. split; [reflexivity|]. split; [reflexivity|]. split; reflexivity.
Qed.

(** ** C49: valid programs do not abort *)
Theorem C49_no_abort : forall (T : Tol) (EN : Env) (D : Doubles) (SW : Shows), order_ok ->
  forall g h, bproper bbstart h ->
  (exists rs b, bexec h (back_default g) = BOk rs b) \/
  (exists m o, bexec h (back_default g) = BErr (EFail m) o /\ Exists is_assert h).
Proof. exact @no_abort_thm. Qed.
Print Assumptions C49_no_abort.
Example C49_ex : @bproper D0 bbstart
  [QAllocArray 2; QRelease 0; QAlloc; QC2 GX 4 3 1; QMeasure [PX_; PI_; PY_] [1; 0; 4]%nat; QInit; QGate GT 7].
Proof.
  cbn [bproper bbstep bbstart bb_max bb_live].
  assert (nd : forall l : list nat, NoDup (nodup Nat.eq_dec l)) by (intros; apply NoDup_nodup).
  assert (inc : forall l l', forallb (fun x => if in_dec Nat.eq_dec x l' then true else false) l = true -> incl l l').
  { intros l l' H x Hx. rewrite forallb_forall in H. specialize (H x Hx). destruct (in_dec Nat.eq_dec x l'); auto. discriminate. }
  split; [split; [apply (nd [])|apply inc; reflexivity]|]. split; [simpl; auto|].
  split; [split; [apply (nd [])|apply inc; reflexivity]|].
  split; [split; [apply (nd [1; 4; 3]%nat)|apply inc; reflexivity]|].
  split; [split; [apply (nd [1; 4]%nat)|split; [apply inc; reflexivity|reflexivity]]|].
  split; [split; [apply (nd [])|apply inc; reflexivity]|].
  split; [split; [apply (nd [7%nat])|apply inc; reflexivity]|exact I].
Qed.
