(** * What the backend calls do to the state *)
From Coq Require Import Reals NArith List Bool Lia Lra Arith Sorted Permutation FunctionalExtensionality.
From Verif Require Import Cx Bits Arith ArithR IndexMap Sim SimExp SimApply Spec SpecExp SpecApply SpecRun SimRun QLib QSum SpecLemmas ExpLemmas
  Gates RunLemmas RunProps RunThms SimProps Text Backend SpecBackend BackLemmas BackMath.
Import ListNotations.
Local Open Scope R_scope.

Section Sem.
Context {T : Tol} {EN : Env} {D : Doubles} {SW : Shows}.
Hypothesis EW : exact_world.
Let Ho : order_ok := proj1 (proj2 EW).
(** The angles of the single-qubit [rx] calls. *)
Variable G : R -> Prop.
Hypothesis SG : subgroup G.

(** Reachable and showing [psi]. *)
Definition st (s : sim) (l : list nat) (psi : qstate) : Prop := rch s l /\ shows s l psi.

Lemma st_norm : forall s l psi, st s l psi -> norm2 (width l) psi = 1.
Proof.
  intros s l psi [R Sh]. destruct (reached_case EW s l psi (rch_reached _ _ R) Sh) as (m & c & Rf & <- & Hc & ->).
  rewrite norm2_scale, Hc, (rf_norm _ _ Rf). ring.
Qed.
Lemma draws_effective : forall s c l, draws_sample l (effective s c) = draws_sample l c.
Proof. intros s c l. destruct c; simpl; auto. destruct g; reflexivity. Qed.
Lemma st_call : forall s l psi c, st s l psi -> (forall b, live b = l -> valid b c) -> unit_call c -> ~ is_apply c ->
  exists r s', run1 s c = Ok (r, s') /\ reply_ok l psi (fst (draw (rng s))) c r /\
    st s' (live (bstep (mkBook l true) c)) (vstep l psi (fst (draw (rng s))) (effective s c)) /\
    rng s' = (if draws_sample l c then snd (draw (rng s)) else rng s) /\ (rx_angles G c -> rxin G s -> rxin G s').
Proof.
  intros s l psi c [R Sh] V U Na. destruct (call_shows EW s l psi c (rch_reached _ _ R) Sh V U) as (r & s' & E & Rp & Sh' & _).
  destruct (rch_step Ho s l c R V U Na) as (r1 & s1 & E1 & R1 & _). rewrite E in E1. inversion E1; subst r1 s1.
  exists r, s'. split; auto. split; auto. split; [split; auto|]. split.
  - destruct (reached_case EW s l psi (rch_reached _ _ R) Sh) as (m & k & Rf & El & _ & _).
    destruct (call_step Ho s m c (ew0 EW) (ews EW) Rf (V _ El) U) as (r2 & s2 & E2 & _ & Rf2).
    rewrite E in E2. inversion E2; subst r2 s2. rewrite (rf_rng _ _ Rf2), (rf_rng _ _ Rf).
    unfold mstep1. change (draw (mgen m)) with (draws (mgen m)). destruct (draws (mgen m)). cbn [mgen snd]. rewrite draws_effective, El. reflexivity.
  - intros Ra Rx. destruct R as (g & h & rs & [Pv Pu] & Nh & Eh & L). assert (Tr := tracks_reached Ho g h rs s Pv Eh).
    assert (Vb : valid (fold_left bstep h (mkBook [] true)) c) by (apply V; symmetry; exact L).
    destruct (run1_ok Ho s _ c Tr Vb) as [(r3 & s3 & E3 & _ & K & _)|[X _]]; [|contradiction].
    rewrite E in E3. inversion E3; subst r3 s3. eapply K; eauto.
Qed.
(** No sample is drawn; angles stay in the set. *)
Definition keeps (s s' : sim) : Prop := rng s' = rng s /\ (rxin G s -> rxin G s').
(** One sample is drawn. *)
Definition samples (s s' : sim) : Prop := rng s' = snd (draw (rng s)) /\ (rxin G s -> rxin G s').
Lemma keeps_refl : forall s, keeps s s.
Proof. intros s. split; auto. Qed.
Lemma keeps_trans : forall a b c, keeps a b -> keeps b c -> keeps a c.
Proof. intros a b c [A1 A2] [B1 B2]. split; [congruence|auto]. Qed.
Lemma keeps_samples : forall a b c, keeps a b -> samples b c -> samples a c.
Proof. intros a b c [A1 A2] [B1 B2]. split; [congruence|auto]. Qed.
Lemma samples_keeps : forall a b c, samples a b -> keeps b c -> samples a c.
Proof. intros a b c [A1 A2] [B1 B2]. split; [congruence|auto]. Qed.

(** [m] opens the qubits [qs], turns [psi] into [phi] and draws no sample. *)
Definition does (m : B unit) (b : back) (l qs : list nat) (psi phi : qstate) : Prop :=
  st (bsim b) l psi -> exists s', m b = BOk tt (upd b s' (Nat.max (bmax b) (top qs))) /\
    st s' (opened (bmax b) l qs) phi /\ keeps (bsim b) s'.

Lemma does_seq : forall (m1 m2 : B unit) b l q1 q2 psi psi1 phi,
  does m1 b l q1 psi psi1 ->
  (forall s', st s' (opened (bmax b) l q1) psi1 ->
     does m2 (upd b s' (Nat.max (bmax b) (top q1))) (opened (bmax b) l q1) q2 psi1 phi) ->
  does (bbind m1 (fun _ => m2)) b l (q1 ++ q2) psi phi.
Proof.
  intros m1 m2 b l q1 q2 psi psi1 phi H1 H2 S. destruct (H1 S) as (s1 & E1 & S1 & G1).
  destruct (H2 s1 S1 S1) as (s2 & E2 & S2 & G2). exists s2. unfold bbind. rewrite E1, E2.
  rewrite upd_upd, bmax_upd, <- Nat.max_assoc, <- top_app. split; auto. rewrite bmax_upd, opened_app in S2.
  split; auto. eapply keeps_trans; [exact G1|exact G2].
Qed.
Lemma does_seq_old : forall (m1 m2 : B unit) b l q1 psi psi1 phi,
  does m1 b l q1 psi psi1 ->
  (forall s', st s' (opened (bmax b) l q1) psi1 ->
     does m2 (upd b s' (Nat.max (bmax b) (top q1))) (opened (bmax b) l q1) [] psi1 phi) ->
  does (bbind m1 (fun _ => m2)) b l q1 psi phi.
Proof. intros. rewrite <- (app_nil_r q1). eapply does_seq; eauto. Qed.
Lemma max_top_nil : forall b, Nat.max (bmax b) (top []) = bmax b.
Proof. intros. unfold top. simpl. lia. Qed.
Lemma upd_self : forall b, upd b (bsim b) (bmax b) = b.
Proof. intros []. reflexivity. Qed.
Lemma does_old : forall m b l qs psi phi, does m b l qs psi phi -> (top qs <= bmax b)%nat -> does m b l [] psi phi.
Proof.
  intros m b l qs psi phi H Ht S. destruct (H S) as (s' & E & S' & K). exists s'. rewrite max_top_nil, opened_nil.
  rewrite opened_done in S' by auto. replace (Nat.max (bmax b) (top qs)) with (bmax b) in E by lia. auto.
Qed.
Lemma does_ret : forall b l psi, does (bret tt) b l [] psi psi.
Proof. intros b l psi S. exists (bsim b). rewrite max_top_nil, upd_self, opened_nil. auto using keeps_refl. Qed.
Lemma does_simdo : forall c b l psi phi, (forall bk, live bk = l -> valid bk c) -> unit_call c -> ~ is_apply c ->
  live (bstep (mkBook l true) c) = l -> draws_sample l c = false -> no_clash (bsim b) c -> rx_angles G c ->
  (forall x, vstep l psi x c = phi) -> does (simdo c) b l [] psi phi.
Proof.
  intros c b l psi phi V U A E Dr Nc Ra Ph S. destruct (st_call (bsim b) l psi c S V U A) as (r & s' & E1 & _ & S1 & K & X). rewrite Dr in K.
  rewrite (effective_no_clash (bsim b) c (ew0 EW) Nc), E, Ph in S1. exists s'. unfold simdo, bbind, simcall. rewrite E1.
  rewrite max_top_nil, opened_nil. split; auto. split; auto. split; auto.
Qed.
Lemma does_alloc_times : forall n b l psi, st (bsim b) l psi ->
  exists s', alloc_times n b = BOk tt (upd b s' (n + bmax b)) /\ st s' (grow n l) psi /\ keeps (bsim b) s' /\
    rx_queue s' = rx_queue (bsim b).
Proof.
  induction n; intros b l psi S; cbn [alloc_times].
  - exists (bsim b). rewrite upd_self. auto using keeps_refl.
  - destruct (st_call (bsim b) l psi CAlloc S) as (r & s' & E & Rp & S' & K); simpl; auto.
    cbn [bstep live effective vstep] in S'. unfold bbind, simcall. rewrite E. unfold with_max, with_sim. cbn [bsim bres bmax bout].
    destruct (IHn (mkBack s' (bres b) (Datatypes.S (bmax b)) (bout b)) _ psi S') as (s2 & E2 & S2 & G2 & X2). rewrite E2.
    exists s2. cbn [bmax bsim] in *. split; [unfold upd; cbn [bres bout]; repeat f_equal; lia|].
    split; auto. split; [eapply keeps_trans; [|exact G2]; split; [apply K|apply K; exact Logic.I]|]. rewrite X2. cbn [run1] in E.
    unfold allocate in E. inversion E. reflexivity.
Qed.
Lemma ensure_st : forall q b l psi, st (bsim b) l psi ->
  exists s', ensure q b = BOk tt (upd b s' (Nat.max (bmax b) (S q))) /\ st s' (opened (bmax b) l [q]) psi /\ keeps (bsim b) s' /\
    rx_queue s' = rx_queue (bsim b).
Proof.
  intros q b l psi S. unfold ensure. destruct (does_alloc_times (Datatypes.S q - bmax b) b l psi S) as (s' & E & S' & K & X).
  exists s'. replace (Nat.max (bmax b) (Datatypes.S q)) with (Datatypes.S q - bmax b + bmax b)%nat by lia. split; auto.
Qed.
Lemma does_ensure : forall q b l psi, does (ensure q) b l [q] psi psi.
Proof. intros q b l psi S. destruct (ensure_st q b l psi S) as (s' & E & S' & K & _). exists s'. auto. Qed.
Lemma does_ensures : forall qs b l psi, does (bfor qs ensure) b l qs psi psi.
Proof.
  induction qs as [|q qs IH]; intros b l psi; cbn [bfor fold_right].
  - apply does_ret.
  - change (q :: qs) with ([q] ++ qs). eapply does_seq; [apply does_ensure|]. intros. apply IH.
Qed.
Ltac dsd := apply does_simdo;
  [ let bk := fresh "bk" in let E := fresh "E" in intros bk E; cbn [valid]; unfold targets_ok; rewrite !E
  | cbn [unit_call]; auto; try apply Cn2_Cis | cbn [is_apply]; auto | reflexivity | reflexivity
  | cbn [no_clash]; auto | cbn [rx_angles]; auto | intros; cbn [vstep]; auto ].
Ltac dstep := match goal with
  | |- does (bbind (ensure ?q) (fun _ => _)) _ _ (?q :: ?l) _ _ =>
      change (q :: l) with ([q] ++ l); eapply does_seq; [apply does_ensure|intros]
  end.
Definition not_ry (g : gname) : Prop := match g with GRy _ => False | _ => True end.
Lemma does_gate : forall g q b l psi, In q (opened (bmax b) l [q]) -> rx_angles G (CGate g q) ->
  (forall th a, g = GRy th -> im_get (rx_queue (bsim b)) q = Some a -> cos (a / 2) <> 0) ->
  does (qis_gate g q) b l [q] psi (gate1 (gmat g) q psi).
Proof.
  intros g q b l psi Hq Ra Hg S. destruct (ensure_st q b l psi S) as (s' & E & S' & K & X).
  unfold qis_gate, bbind. rewrite E.
  assert (Dd : does (simdo (CGate g q)) (upd b s' (Nat.max (bmax b) (Datatypes.S q))) (opened (bmax b) l [q]) [] psi (gate1 (gmat g) q psi)).
  { dsd; auto. destruct g; auto. rewrite bsim_upd, X. intros a Ha. eapply Hg; eauto. }
  destruct (Dd S') as (s2 & E2 & S2 & G2). rewrite E2. exists s2. rewrite upd_upd, max_top_nil, bmax_upd.
  split; [unfold top; simpl; repeat f_equal; lia|]. rewrite opened_nil in S2. split; auto. eapply keeps_trans; [exact K|exact G2].
Qed.
Lemma does_gate' : forall g q b l psi, In q (opened (bmax b) l [q]) -> rx_angles G (CGate g q) -> not_ry g ->
  does (qis_gate g q) b l [q] psi (gate1 (gmat g) q psi).
Proof. intros g q b l psi H Ra N. apply does_gate; auto. intros th a ->. destruct N. Qed.
Lemma does_gate_old : forall g q b l psi, In q l -> (S q <= bmax b)%nat -> rx_angles G (CGate g q) -> not_ry g ->
  does (qis_gate g q) b l [] psi (gate1 (gmat g) q psi).
Proof.
  intros g q b l psi Hq Hm Ra N. assert (Ht : (top [q] <= bmax b)%nat) by (unfold top; simpl; lia).
  apply does_old with [q]; auto. apply does_gate'; auto. rewrite opened_done; auto.
Qed.
Lemma does_c1 : forall g c t b l psi, NoDup [t; c] -> incl [t; c] (opened (bmax b) l [t; c]) ->
  does (qis_c1 g c t) b l [t; c] psi (cgate [c] (gmat g) t psi).
Proof.
  intros g c t b l psi N I. unfold qis_c1. dstep. dstep. dsd. split; auto. rewrite bmax_upd, opened_app. exact I.
Qed.
Lemma does_c2 : forall g c1 c2 t b l psi, NoDup [t; c1; c2] -> incl [t; c1; c2] (opened (bmax b) l [t; c1; c2]) ->
  does (qis_c2 g c1 c2 t) b l [t; c1; c2] psi (cgate [c1; c2] (gmat g) t psi).
Proof.
  intros g c1 c2 t b l psi N I. unfold qis_c2. dstep. dstep. dstep. dsd. split; auto.
  rewrite !bmax_upd. rewrite <- Nat.max_assoc, <- top_app, !opened_app. exact I.
Qed.
Lemma does_ctl : forall g cs t b l psi, NoDup (t :: cs) -> incl (t :: cs) (opened (bmax b) l (t :: cs)) ->
  does (qis_ctl g cs t) b l (t :: cs) psi (cgate cs (gmat g) t psi).
Proof.
  intros g cs t b l psi N I. unfold qis_ctl. dstep. eapply does_seq_old; [apply does_ensures|].
  intros. dsd. split; auto. rewrite bmax_upd, opened_app. exact I.
Qed.
Lemma does_seq2 : forall (m1 m2 : B unit) b l psi psi1 phi, does m1 b l [] psi psi1 ->
  (forall b', bmax b' = bmax b -> does m2 b' l [] psi1 phi) -> does (bbind m1 (fun _ => m2)) b l [] psi phi.
Proof.
  intros m1 m2 b l psi psi1 phi H1 H2. eapply does_seq_old; eauto. intros s' _. rewrite opened_nil in *. apply H2; auto.
  rewrite bmax_upd. apply max_top_nil.
Qed.
Lemma does_sx : forall q b l psi, In q (opened (bmax b) l [q]) -> does (qis_sx q) b l [q] psi (gate1 mSX q psi).
Proof.
  intros q b l psi Hq. assert (M : (S q <= Nat.max (bmax b) (top [q]))%nat) by (unfold top; simpl; lia).
  rewrite <- sx_mat, <- gate1_comp, <- gate1_comp.
  eapply does_seq_old; [apply does_gate'; simpl; auto|]. intros.
  eapply does_seq2; [apply does_gate_old; simpl; auto|]. intros b' E'. rewrite bmax_upd in E'.
  apply does_gate_old; simpl; auto. lia.
Qed.
Ltac dg := apply does_gate_old; [auto | rewrite ?bmax_upd; try lia | exact Logic.I | exact Logic.I].
Lemma does_rzz : forall th x y b l psi, NoDup [x; y] -> incl [x; y] (opened (bmax b) l [x; y]) ->
  does (qis_rzz th x y) b l [x; y] psi (exp_op (- (th / 2)) [(PZ_, x); (PZ_, y)] psi).
Proof.
  intros th x y b l psi N I. assert (M : (top [x; y] <= Nat.max (bmax b) (top [x; y]))%nat) by lia.
  assert (X : (S x <= top [x; y])%nat) by (apply top_In; simpl; auto).
  rewrite <- rzz_exp by (intros ->; inversion N; simpl in *; auto).
  eapply does_seq_old; [apply does_c1; auto|]. intros.
  eapply does_seq2; [apply does_gate_old; [apply I; simpl; auto|rewrite bmax_upd; lia|exact Logic.I|exact Logic.I]|]. intros b' E'. rewrite bmax_upd in E'.
  apply does_old with [x; y]; [apply (does_c1 GX y x); auto|lia].
  rewrite opened_done; auto. lia.
Qed.
Lemma does_rzz_old : forall th x y b l psi, x <> y -> In x l -> In y l -> (top [x; y] <= bmax b)%nat ->
  does (qis_rzz th x y) b l [] psi (exp_op (- (th / 2)) [(PZ_, x); (PZ_, y)] psi).
Proof.
  intros. apply does_old with [x; y]; auto. apply does_rzz; auto.
  - constructor; [simpl; intros [E|[]]; auto|constructor; auto; constructor].
  - rewrite opened_done by auto. intros z [<-|[<-|[]]]; auto.
Qed.
Lemma does_rxx : forall th x y b l psi, In x (opened (bmax b) l [x]) -> In y (opened (bmax b) l [x; y]) ->
  x <> y -> does (qis_rxx th x y) b l [x; y] psi (exp_op (- (th / 2)) [(PX_, x); (PX_, y)] psi).
Proof.
  intros th x y b l psi Hx Hy N. unfold qis_rxx. change [x; y] with ([x] ++ [y]).
  eapply does_seq; [apply does_gate'; simpl; auto|]. intros s R1.
  assert (Hx' : In x (opened (bmax b) l ([x] ++ [y]))) by (apply opened_incl; auto).
  assert (T2 : top [x] = S x) by (unfold top; simpl; lia).
  assert (T3 : top [y] = S y) by (unfold top; simpl; lia).
  eapply does_seq_old; [apply does_gate'; [rewrite bmax_upd, opened_app; exact Hy|exact Logic.I|exact Logic.I]|]. intros s2 R2.
  rewrite !bmax_upd, upd_upd in *. rewrite !opened_app in *. rewrite <- Nat.max_assoc, <- top_app in *.
  assert (T1 : top ([x] ++ [y]) = Nat.max (S x) (S y)) by (rewrite top_app, T2, T3; auto).
  set (m := Nat.max (bmax b) (top ([x] ++ [y]))) in *. set (l' := opened (bmax b) l ([x] ++ [y])) in *.
  assert (M1 : (S x <= m)%nat) by lia. assert (M2 : (S y <= m)%nat) by lia.
  assert (Fin : exp_op (- (th / 2)) [(PX_, x); (PX_, y)] psi =
    gate1 mH x (gate1 mH y (exp_op (- (th / 2)) [(PZ_, x); (PZ_, y)] (gate1 mH y (gate1 mH x psi))))).
  { rewrite (exp_swap _ (PZ_, x)) by auto.
    rewrite (exp_conj mH mH PZ_ PX_ y) by (simpl; auto using HH; try rewrite ZH, mmul_assoc, HH, mmul_I_l; auto; intros [?|[]]; auto).
    rewrite (exp_swap _ (PX_, y) (PZ_, x)) by auto.
    rewrite (exp_conj mH mH PZ_ PX_ x) by (simpl; auto using HH; try rewrite ZH, mmul_assoc, HH, mmul_I_l; auto; intros [?|[]]; auto).
    reflexivity. }
  rewrite Fin.
  eapply does_seq2; [apply does_rzz_old; auto; change [x; y] with ([x] ++ [y]); rewrite bmax_upd; lia|]. intros b3 E3. rewrite bmax_upd in E3.
  eapply does_seq2; [dg|]. intros b4 E4.
  dg.
Qed.
Lemma does_ryy : forall th x y b l psi, In x (opened (bmax b) l [x]) -> In y (opened (bmax b) l [x; y]) ->
  x <> y -> does (qis_ryy th x y) b l [x; y] psi (exp_op (- (th / 2)) [(PY_, x); (PY_, y)] psi).
Proof.
  intros th x y b l psi Hx Hy N. unfold qis_ryy. change [x; y] with ([x] ++ [y]).
  assert (T2 : top [x] = S x) by (unfold top; simpl; lia).
  assert (T3 : top [y] = S y) by (unfold top; simpl; lia).
  assert (Fin : exp_op (- (th / 2)) [(PY_, x); (PY_, y)] psi =
    gate1 mH x (gate1 mSadj x (gate1 mH x (gate1 mH y (gate1 mSadj y (gate1 mH y
      (exp_op (- (th / 2)) [(PZ_, x); (PZ_, y)]
        (gate1 mH y (gate1 mS y (gate1 mH y (gate1 mH x (gate1 mS x (gate1 mH x psi))))))))))))).
  { rewrite (exp_swap _ (PZ_, x)) by auto. set (u := gate1 mH x (gate1 mS x (gate1 mH x psi))).
    assert (A : forall v q, gate1 mH q (gate1 mS q (gate1 mH q v)) = gate1 (zmat PY_) q v).
    { intros. simpl. rewrite <- !gate1_comp. reflexivity. }
    assert (A' : forall v q, gate1 mH q (gate1 mSadj q (gate1 mH q v)) = gate1 (zinv PY_) q v).
    { intros. simpl. rewrite <- !gate1_comp. reflexivity. }
    rewrite A, (A' _ y), (exp_conj (zmat PY_) (zinv PY_) PZ_ PY_ y); [|apply zinv_zmat|apply zconj_inv; discriminate|simpl; intros [?|[]]; auto].
    rewrite (exp_swap _ (PY_, y) (PZ_, x)) by auto. unfold u. rewrite A, (A' _ x).
    rewrite (exp_conj (zmat PY_) (zinv PY_) PZ_ PY_ x); [reflexivity|apply zinv_zmat|apply zconj_inv; discriminate|simpl; intros [?|[]]; auto]. }
  rewrite Fin.
  eapply does_seq; [apply does_gate'; simpl; auto|]. intros s R1.
  assert (Hx' : In x (opened (bmax b) l ([x] ++ [y]))) by (apply opened_incl; auto).
  change [y] with ([] ++ [y]). eapply does_seq; [dg|]. intros s2 R2.
  change [y] with ([] ++ [y]). eapply does_seq; [dg; change (top []) with 0%nat; lia|]. intros s3 R3.
  rewrite !bmax_upd, !upd_upd, !opened_nil in *. change (top []) with 0%nat. rewrite !Nat.max_0_r.
  eapply does_seq_old; [apply does_gate'; [rewrite bmax_upd, opened_app; exact Hy|exact Logic.I|exact Logic.I]|]. intros s4 R4.
  rewrite !bmax_upd, upd_upd in *. rewrite !opened_app in *. rewrite <- Nat.max_assoc, <- top_app in *.
  assert (T1 : top ([x] ++ [y]) = Nat.max (S x) (S y)) by (rewrite top_app, T2, T3; auto).
  set (m := Nat.max (bmax b) (top ([x] ++ [y]))) in *. set (l' := opened (bmax b) l ([x] ++ [y])) in *.
  assert (M1 : (S x <= m)%nat) by lia. assert (M2 : (S y <= m)%nat) by lia.
  eapply does_seq2; [dg|intros b5 E5]. rewrite bmax_upd in E5.
  eapply does_seq2; [dg|intros b6 E6].
  eapply does_seq2; [apply does_rzz_old; auto; change [x; y] with ([x] ++ [y]); lia|intros b7 E7].
  do 5 (eapply does_seq2; [dg|intros ? ?]).
  dg.
Qed.

Lemma shows_scale : forall s l psi c, Cn2 c = 1 -> shows s l psi -> shows s l (scale c psi).
Proof.
  intros s l psi c Hc [Su (lst & s' & k & E & Hk & L)]. split; [apply supported_scale; auto|].
  destruct (unit_inv c Hc) as (e & He & Ee). exists lst, s', (k * e)%C. split; auto. split; [rewrite Cn2_mul, Hk, He; ring|].
  rewrite scale_scale. replace (k * e * c)%C with (k * (e * c))%C by ring. rewrite Ee. replace (k * C1)%C with k by ring. auto.
Qed.
Lemma does_phase : forall m b l qs psi phi c, Cn2 c = 1 -> does m b l qs psi phi -> does m b l qs psi (scale c phi).
Proof.
  intros m b l qs psi phi c Hc H S. destruct (H S) as (s' & E & [R Sh] & K). exists s'. split; auto. split; auto.
  split; auto. apply shows_scale; auto.
Qed.
Lemma does_r : forall p th q b l psi, (p = PX_ -> G th) -> incl (r_names p q) (opened (bmax b) l (r_names p q)) ->
  (forall a, p = PY_ -> im_get (rx_queue (bsim b)) q = Some a -> cos (a / 2) <> 0) ->
  does (qis_r p th q) b l (r_names p q) psi (exp_op (- (th / 2)) [(p, q)] psi).
Proof.
  intros p th q b l psi Ra I Hy. destruct p; cbn [qis_r r_names] in *.
  - rewrite ri_exp. apply does_phase; [apply Cn2_Cis|]. apply does_ret.
  - rewrite rx_exp. apply (does_gate' (GRx th)); [apply I; simpl; auto|exact (Ra eq_refl)|exact Logic.I].
  - rewrite rz_exp. apply (does_gate' (GRz th)); [apply I; simpl; auto|exact Logic.I|exact Logic.I].
  - rewrite ry_exp. apply (does_gate (GRy th)); [apply I; simpl; auto|exact Logic.I|]. intros. eapply Hy; eauto.
Qed.
Lemma does_r_ctl : forall cs p th q b l psi, NoDup (rctl_names cs p q) ->
  incl (rctl_names cs p q) (opened (bmax b) l (rctl_names cs p q)) ->
  does (qis_r_ctl cs p th q) b l (rctl_names cs p q) psi (ctrl_op cs (exp_op (- (th / 2)) [(p, q)]) psi).
Proof.
  intros cs p th q b l psi N I. destruct p.
  - destruct cs as [|h rest].
    + change (ctrl_op [] (exp_op (- (th / 2)) [(PI_, q)]) psi) with (exp_op (- (th / 2)) [(PI_, q)] psi).
      rewrite ri_exp. apply does_phase; [apply Cn2_Cis|]. apply does_ret.
    + cbn [qis_r_ctl rctl_names] in *. inversion N as [|? ? _ Nr]; subst. inversion Nr as [|? ? Nh _]; subst.
      rewrite ri_ctrl by auto. dstep. eapply does_seq_old; [apply does_ensures|]. intros.
      dsd. split; auto. rewrite bmax_upd, opened_app. intros z Hz. apply I. right. exact Hz.
  - rewrite (ctrl_ext cs _ (gate1 (mRx th) q)) by apply rx_exp. destruct cs; apply (does_ctl (GRx th)); auto.
  - rewrite (ctrl_ext cs _ (gate1 (mRz th) q)) by apply rz_exp. destruct cs; apply (does_ctl (GRz th)); auto.
  - rewrite (ctrl_ext cs _ (gate1 (mRy th) q)) by apply ry_exp. destruct cs; apply (does_ctl (GRy th)); auto.
Qed.
Lemma does_exp : forall ps th qs b l psi, NoDup qs -> incl qs (opened (bmax b) l qs) -> (length ps <= length qs)%nat ->
  does (qis_exp ps th qs) b l qs psi (exp_op th (combine ps qs) psi).
Proof.
  intros ps th qs b l psi N I L. eapply does_seq_old; [apply does_ensures|]. intros. dsd. split; auto.
Qed.
Lemma does_exp_ctl : forall cs ps th qs b l psi, NoDup (cs ++ qs) -> incl (cs ++ qs) (opened (bmax b) l (cs ++ qs)) ->
  (length ps <= length qs)%nat -> does (qis_exp_ctl cs ps th qs) b l (cs ++ qs) psi (ctrl_op cs (exp_op th (combine ps qs)) psi).
Proof.
  intros cs ps th qs b l psi N I L. eapply does_seq; [apply does_ensures|]. intros.
  eapply does_seq_old; [apply does_ensures|]. intros. dsd. split; auto. split; auto. rewrite bmax_upd, opened_app. exact I.
Qed.
Lemma does_swap : forall x y b l psi, In x (opened (bmax b) l [x; y]) -> In y (opened (bmax b) l [x; y]) ->
  does (qis_swap x y) b l [x; y] psi (swap_qubits x y psi).
Proof.
  intros x y b l psi Hx Hy. unfold qis_swap. dstep. dstep. dsd. rewrite bmax_upd, opened_app. auto.
Qed.

Lemma same_vunit : forall (m : B unit) b b', m b = BOk tt b' -> vunit m b = BOk VUnit b'.
Proof. intros m b b' E. unfold vunit, bbind. rewrite E. reflexivity. Qed.
Lemma half_neg : forall th : R, th / 2 = - (- th / 2).
Proof. intros. field. Qed.
Lemma op_does : forall b l psi c F, bvalid (mkBBook (bmax b) l) c -> bop c = Some F -> y_free b c -> bangles G c -> st (bsim b) l psi ->
  exists s', bcall1 c b = BOk VUnit (upd b s' (Nat.max (bmax b) (top (bnames c)))) /\
    st s' (opened (bmax b) l (bnames c)) (F psi) /\ keeps (bsim b) s'.
Proof.
  intros b l psi c F V E Y Ra S.
  assert (X : forall m, does m b l (bnames c) psi (F psi) -> bcall1 c = vunit m ->
    exists s', bcall1 c b = BOk VUnit (upd b s' (Nat.max (bmax b) (top (bnames c)))) /\
      st s' (opened (bmax b) l (bnames c)) (F psi) /\ keeps (bsim b) s').
  { intros m H Ec. destruct (H S) as (s' & E1 & S1 & G1). exists s'. rewrite Ec. split; auto. apply same_vunit. auto. }
  unfold bvalid in V. unfold y_free in Y.
  destruct c; cbn [bop turns_y bnames bb_max bb_live bangles] in *; try discriminate; inversion E; subst F; clear E.
  - eapply X; [|reflexivity]. apply does_gate; [apply V; simpl; auto|destruct g; exact Ra|]. intros th a -> Ha. eapply Y; eauto.
  - eapply X; [|reflexivity]. apply does_c1; apply V.
  - eapply X; [|reflexivity]. apply does_c2; apply V.
  - eapply X; [|reflexivity]. apply does_ctl; apply V.
  - eapply X; [|reflexivity]. apply does_sx; apply V; simpl; auto.
  - eapply X; [|reflexivity]. apply does_rxx; apply V.
  - eapply X; [|reflexivity]. apply does_ryy; apply V.
  - eapply X; [|reflexivity]. apply does_rzz; apply V.
  - replace (match p with PI_ => [] | _ => [q] end) with (r_names p q) in * by (destruct p; reflexivity).
    eapply X; [|reflexivity]. apply does_r; [intros ->; exact Ra|apply V|]. intros a -> Ha. eapply Y; eauto.
  - replace (match p with PI_ => [] | _ => [q] end) with (r_names p q) in * by (destruct p; reflexivity).
    eapply X; [|reflexivity]. rewrite half_neg. apply does_r; [intros ->; apply SG; exact Ra|apply V|]. intros a -> Ha. eapply Y; eauto.
  - replace (match cs with [] => match p with PI_ => [] | _ => q :: cs end | _ :: _ => q :: cs end) with (rctl_names cs p q) in *
      by (destruct cs, p; reflexivity).
    eapply X; [|reflexivity]. apply does_r_ctl; apply V.
  - replace (match cs with [] => match p with PI_ => [] | _ => q :: cs end | _ :: _ => q :: cs end) with (rctl_names cs p q) in *
      by (destruct cs, p; reflexivity).
    eapply X; [|reflexivity]. rewrite half_neg. apply does_r_ctl; apply V.
  - eapply X; [|reflexivity]. apply does_exp; apply V.
  - eapply X; [|reflexivity]. apply does_exp; apply V.
  - eapply X; [|reflexivity]. apply does_exp_ctl; apply V.
  - eapply X; [|reflexivity]. apply does_exp_ctl; apply V.
  - eapply X; [|reflexivity]. apply does_swap; apply V.
  - exists (bsim b). rewrite max_top_nil, upd_self, opened_nil. auto using keeps_refl.
Qed.


(** ** Measurements *)
Lemma does_for : forall X (f : X -> B unit) (F : X -> qstate -> qstate) l xs b psi,
  (forall x b' psi, In x xs -> bmax b' = bmax b -> does (f x) b' l [] psi (F x psi)) ->
  does (bfor xs f) b l [] psi (fold_left (fun psi x => F x psi) xs psi).
Proof.
  intros X f F l xs. induction xs as [|x xs IH]; intros b psi H; cbn [bfor fold_right fold_left].
  - apply does_ret.
  - eapply does_seq2; [apply H; simpl; auto|]. intros b' E'. apply IH. intros. apply H; simpl; auto. congruence.
Qed.
Lemma does_to_z : forall pq l b psi, In (snd pq) l -> does (to_z pq) b l [] psi (gate1 (zmat (fst pq)) (snd pq) psi).
Proof.
  intros [p q] l b psi H. cbn [fst snd] in *. destruct p; cbn [to_z zmat].
  - rewrite gate1_I. apply does_ret.
  - dsd; auto.
  - rewrite gate1_I. apply does_ret.
  - rewrite <- !gate1_comp. eapply does_seq2; [dsd; auto; reflexivity|]. intros.
    eapply does_seq2; [dsd; auto; reflexivity|]. intros. dsd; auto.
Qed.
Lemma does_from_z : forall pq l b psi, In (snd pq) l -> does (from_z pq) b l [] psi (gate1 (zinv (fst pq)) (snd pq) psi).
Proof.
  intros [p q] l b psi H. cbn [fst snd] in *. destruct p; cbn [from_z zinv].
  - rewrite gate1_I. apply does_ret.
  - dsd; auto.
  - rewrite gate1_I. apply does_ret.
  - rewrite <- !gate1_comp. eapply does_seq2; [dsd; auto; reflexivity|]. intros.
    eapply does_seq2; [dsd; auto; reflexivity|]. intros. dsd; auto.
Qed.
Lemma map_to_z_st : forall ps qs b l psi, let n := map snd (paired ps qs) in
  length ps = length qs -> incl n (opened (bmax b) l n) -> st (bsim b) l psi ->
  exists s', map_to_z_basis ps qs b = BOk (paired ps qs) (upd b s' (Nat.max (bmax b) (top n))) /\
    st s' (opened (bmax b) l n) (turn zmat (paired ps qs) psi) /\ keeps (bsim b) s'.
Proof.
  intros ps qs b l psi n L I S. unfold map_to_z_basis. rewrite L, Nat.eqb_refl. fold (paired ps qs).
  rewrite <- (bfor_map _ _ snd ensure). fold n.
  destruct (does_ensures n b l psi S) as (s1 & E1 & S1 & G1). unfold bbind at 1. rewrite E1.
  set (b1 := upd b s1 (Nat.max (bmax b) (top n))) in *.
  assert (X : does (bfor (paired ps qs) to_z) b1 (opened (bmax b) l n) [] psi (turn zmat (paired ps qs) psi)).
  { apply (does_for _ to_z (fun pq => gate1 (zmat (fst pq)) (snd pq))). intros x b' psi' Hx _. apply does_to_z.
    apply I. apply in_map. exact Hx. }
  destruct (X S1) as (s2 & E2 & S2 & G2). unfold bbind. rewrite E2. exists s2. unfold bret.
  rewrite max_top_nil. split; [reflexivity|]. rewrite opened_nil in S2. split; auto. eapply keeps_trans; [exact G1|exact G2].
Qed.
Lemma simbit_st : forall q qs b l psi, (q = CMeasure (hd 0%nat qs) /\ length qs = 1%nat) \/ q = CJointMeasure qs ->
  NoDup qs -> incl qs l -> st (bsim b) l psi ->
  let r := outcome l qs psi (fst (draw (rng (bsim b)))) in
  exists s', simbit q b = BOk r (with_sim b s') /\ st s' l (collapsed l qs r psi) /\ samples (bsim b) s'.
Proof.
  intros q qs b l psi Hq N I S r.
  assert (V : forall bk, live bk = l -> valid bk q).
  { intros bk E. destruct Hq as [[-> Lq]| ->]; simpl; unfold targets_ok; rewrite E; auto. destruct qs as [|x [|]]; try discriminate.
    simpl. apply I. simpl; auto. }
  assert (U : unit_call q) by (destruct Hq as [[-> _]| ->]; simpl; auto).
  assert (A : ~ is_apply q) by (destruct Hq as [[-> _]| ->]; simpl; auto).
  destruct (st_call (bsim b) l psi q S V U A) as (r' & s' & E & Rp & S' & K & X).
  assert (Er : r' = RBit r).
  { destruct Hq as [[-> Lq]| ->]; simpl in Rp; rewrite Rp; auto. destruct qs as [|x [|]]; try discriminate. reflexivity. }
  exists s'. unfold simbit, bbind, simcall. rewrite E, Er. split; [reflexivity|]. split.
  - destruct Hq as [[-> Lq]| ->]; cbn [effective vstep bstep live] in S'; auto.
    destruct qs as [|x [|]]; try discriminate. exact S'.
  - destruct Hq as [[-> Lq]| ->]; split; try exact K; apply X; exact Logic.I.
Qed.
Lemma paired_product : forall ps qs psi, pauli_product (paired ps qs) psi = pauli_product (combine ps qs) psi.
Proof.
  intros ps qs psi. unfold paired. induction (combine ps qs) as [|[p q] l IH]; auto. cbn [filter].
  destruct p; cbn [not_id fst pauli_product fold_right snd pmat].
  - rewrite gate1_I. exact IH.
  - fold (pauli_product (filter not_id l) psi). rewrite IH. reflexivity.
  - fold (pauli_product (filter not_id l) psi). rewrite IH. reflexivity.
  - fold (pauli_product (filter not_id l) psi). rewrite IH. reflexivity.
Qed.
Lemma paired_eigen : forall ps qs r psi, eigen_proj (paired ps qs) r psi = eigen_proj (combine ps qs) r psi.
Proof. intros. unfold eigen_proj. rewrite paired_product. reflexivity. Qed.
Lemma paired_prob : forall n ps qs psi, one_prob n (paired ps qs) psi = one_prob n (combine ps qs) psi.
Proof. intros. unfold one_prob. rewrite paired_eigen. reflexivity. Qed.
Lemma paired_after : forall n ps qs r psi, after_result n (paired ps qs) r psi = after_result n (combine ps qs) r psi.
Proof. intros. unfold after_result, result_prob. rewrite paired_prob, paired_eigen. reflexivity. Qed.

Lemma from_z_st : forall cl b l psi, incl (map snd cl) l -> st (bsim b) l psi ->
  exists s', bfor cl from_z b = BOk tt (with_sim b s') /\ st s' l (turn zinv cl psi) /\ keeps (bsim b) s'.
Proof.
  intros cl b l psi I S.
  assert (X : does (bfor cl from_z) b l [] psi (turn zinv cl psi)).
  { apply (does_for _ from_z (fun pq => gate1 (zinv (fst pq)) (snd pq))). intros x b' psi' Hx _. apply does_from_z.
    apply I. apply in_map. exact Hx. }
  destruct (X S) as (s2 & E2 & S2 & G2). exists s2. rewrite E2, max_top_nil. rewrite opened_nil in S2. auto.
Qed.
Lemma one_prob_range : forall n ps qs b l psi, let cl := paired ps qs in st b l psi -> n = width l ->
  NoDup (map snd cl) -> incl (map snd cl) l -> 0 <= one_prob n cl psi <= 1.
Proof.
  intros n ps qs b l psi cl S -> N I. rewrite <- born_turn; auto; [|apply paired_no_id|intros; apply width_lt; auto].
  split; [apply born_nonneg|]. eapply Rle_trans; [apply born_le_norm|].
  rewrite norm2_turn; [rewrite (st_norm _ _ _ S); lra|apply uzmat|intros; apply width_lt; auto].
Qed.
Lemma measure_st : forall ps qs b l psi, let n := map snd (paired ps qs) in let l' := opened (bmax b) l n in
  length ps = length qs -> NoDup n -> incl n l' -> st (bsim b) l psi ->
  exists (r : bool) s', qis_measure ps qs b = BOk (if r then 1%nat else 0%nat) (upd b s' (Nat.max (bmax b) (top n))) /\
    (r = true <-> fst (draw (rng (bsim b))) < one_prob (width l') (paired ps qs) psi) /\
    st s' l' (after_result (width l') (paired ps qs) r psi) /\ samples (bsim b) s'.
Proof.
  intros ps qs b l psi n l' L N I S. destruct (map_to_z_st ps qs b l psi L I S) as (s1 & E1 & S1 & G1).
  unfold qis_measure. unfold bbind at 1. rewrite E1. fold n in S1. fold l' in S1. fold n.
  set (b1 := upd b s1 (Nat.max (bmax b) (top n))) in *.
  destruct (simbit_st (CJointMeasure n) n b1 l' _ (or_intror eq_refl) N I S1) as (s2 & E2 & S2 & G2).
  unfold bbind at 1. rewrite E2. change (bsim b1) with s1 in *. rewrite (proj1 G1) in *.
  set (x := fst (draw (rng (bsim b)))) in *. set (r := outcome l' n (turn zmat (paired ps qs) psi) x) in *.
  destruct (from_z_st (paired ps qs) (with_sim b1 s2) l' _ I S2) as (s3 & E3 & S3 & G3).
  unfold bbind. rewrite E3. exists r, s3. split; [reflexivity|]. split; [|split].
  - unfold r. rewrite outcome_iff. unfold n. rewrite born_turn; auto; [|apply paired_no_id|intros; apply width_lt; auto]. tauto.
  - unfold n in S3. rewrite collapsed_turn in S3; auto. apply paired_no_id.
  - eapply samples_keeps; [eapply keeps_samples; [exact G1|exact G2]|exact G3].
Qed.
Lemma result_nonzero : forall l ps qs (r : bool) psi x, 0 <= x < 1 -> (r = true <-> x < one_prob (width l) (paired ps qs) psi) ->
  result_prob (width l) (paired ps qs) r psi <> 0.
Proof.
  intros l ps qs r psi x Hx Hr. unfold result_prob. destruct r.
  - assert (x < one_prob (width l) (paired ps qs) psi) by (apply Hr; auto). lra.
  - destruct (Rlt_dec x (one_prob (width l) (paired ps qs) psi)) as [H|H]; [apply Hr in H; discriminate|]. lra.
Qed.
Lemma assert_st : forall ps qs res prob msg tl b l psi, let n := map snd (paired ps qs) in let l' := opened (bmax b) l n in
  let p := result_prob (width l') (paired ps qs) (negb (Nat.eqb res 0)) psi in
  length ps = length qs -> NoDup n -> incl n l' -> st (bsim b) l psi ->
  (Rabs (p - prob) <= tl -> exists s', qis_assert ps qs res prob msg tl b = BOk tt (upd b s' (Nat.max (bmax b) (top n))) /\
     st s' l' psi /\ keeps (bsim b) s') /\
  (tl < Rabs (p - prob) -> qis_assert ps qs res prob msg tl b = BErr (EFail msg) (bout b ++ render (RecMessage msg))).
Proof.
  intros ps qs res prob msg tl b l psi n l' p L N I S. destruct (map_to_z_st ps qs b l psi L I S) as (s1 & E1 & S1 & G1).
  unfold qis_assert. unfold bbind at 1 4. rewrite E1. fold n in S1. fold l' in S1. fold n.
  set (b1 := upd b s1 (Nat.max (bmax b) (top n))) in *.
  destruct (st_call s1 l' _ (CJointProb n) S1) as (r & s2 & E2 & Rp & S2 & G2); simpl; auto.
  { intros bk E. unfold targets_ok. rewrite E. auto. }
  assert (Es : simcall (CJointProb n) b1 = BOk r (with_sim b1 s2)) by (unfold simcall; change (bsim b1) with s1; rewrite E2; reflexivity).
  unfold bbind at 1 3. rewrite Es. cbn [reply_ok] in Rp. rewrite Rp.
  cbn [bstep live effective vstep] in S2.
  assert (Ep : (if Nat.eqb res 0 then 1 - born (width l') n (turn zmat (paired ps qs) psi)
                else born (width l') n (turn zmat (paired ps qs) psi)) = p).
  { unfold p, result_prob. unfold n. rewrite born_turn; auto; [|apply paired_no_id|intros; apply width_lt; auto]. destruct (Nat.eqb res 0); reflexivity. }
  rewrite Ep. split; intros Hp.
  - assert (Rb : Rltb tl (Rabs (p - prob)) = false) by (unfold Rltb; destruct (Rlt_dec _ _); auto; lra). rewrite Rb.
    destruct (from_z_st (paired ps qs) (with_sim b1 s2) l' _ I S2) as (s3 & E3 & S3 & G3).
    unfold bbind, bret. rewrite E3. exists s3. split; [reflexivity|]. rewrite turn_back in S3; auto. split; auto.
    eapply keeps_trans; [exact G1|]. eapply keeps_trans; [|exact G3]. split; [apply G2|apply G2; exact Logic.I].
  - assert (Rb : Rltb tl (Rabs (p - prob)) = true) by (unfold Rltb; destruct (Rlt_dec _ _); auto; lra). rewrite Rb. reflexivity.
Qed.
Lemma NoDup1 : forall q : nat, NoDup [q].
Proof. intros. constructor; [simpl; auto|constructor]. Qed.
Lemma incl1 : forall (q : nat) l, In q l -> incl [q] l.
Proof. intros q l H x [<-|[]]; auto. Qed.

(** Measuring one qubit, and flipping it when One was seen. *)
Lemma ensure_measure : forall q b l psi, let l' := opened (bmax b) l [q] in In q l' -> st (bsim b) l psi ->
  exists s1, ensure q b = BOk tt (upd b s1 (Nat.max (bmax b) (S q))) /\
    forall b1 r, bsim b1 = s1 -> r = outcome l' [q] psi (fst (draw (rng (bsim b)))) ->
    exists s2, simbit (CMeasure q) b1 = BOk r (with_sim b1 s2) /\ st s2 l' (collapsed l' [q] r psi) /\ samples (bsim b) s2 /\
      exists s3, (if r : bool then simdo (CGate GX q) else bret tt) (with_sim b1 s2) = BOk tt (with_sim b1 s3) /\
        st s3 l' (drop_qubit q r (collapsed l' [q] r psi)) /\ samples (bsim b) s3.
Proof.
  intros q b l psi l' Hq S. destruct (ensure_st q b l psi S) as (s1 & E1 & S1 & G1 & _). fold l' in S1.
  exists s1. split; auto. intros b1 r B1 Er.
  assert (Sb : st (bsim b1) l' psi) by (rewrite B1; exact S1).
  destruct (simbit_st (CMeasure q) [q] b1 l' psi (or_introl (conj eq_refl eq_refl)) (NoDup1 q) (incl1 q l' Hq) Sb) as (s2 & E2 & S2 & G2).
  rewrite B1 in G2. assert (G3 := keeps_samples _ _ _ G1 G2).
  assert (Er1 : outcome l' [q] psi (fst (draw (rng (bsim b1)))) = r) by (rewrite B1, (proj1 G1); auto).
  rewrite Er1 in *. clear Er.
  exists s2. split; auto. split; auto. split; auto. rewrite <- flip_drop by (intros; apply collapsed_value; auto). destruct r.
  - assert (X : does (simdo (CGate GX q)) (with_sim b1 s2) l' [] (collapsed l' [q] true psi) (gate1 mX q (collapsed l' [q] true psi))).
    { dsd; auto. }
    destruct (X S2) as (s3 & E3 & S3 & G4). exists s3. rewrite E3, max_top_nil. rewrite opened_nil in S3. split; auto. split; auto.
    eapply samples_keeps; [exact G3|exact G4].
  - exists s2. auto.
Qed.
Lemma reset_st : forall q b l psi, let l' := opened (bmax b) l [q] in In q l' -> st (bsim b) l psi ->
  exists r s', r = outcome l' [q] psi (fst (draw (rng (bsim b)))) /\
    qis_reset q b = BOk tt (upd b s' (Nat.max (bmax b) (S q))) /\
    st s' l' (drop_qubit q r (collapsed l' [q] r psi)) /\ samples (bsim b) s'.
Proof.
  intros q b l psi l' Hq S. destruct (ensure_measure q b l psi Hq S) as (s1 & E1 & H1). fold l' in H1.
  destruct (H1 (upd b s1 (Nat.max (bmax b) (Datatypes.S q))) _ eq_refl eq_refl) as (s2 & E2 & S2 & _ & s3 & E3 & S3).
  eexists _, s3. split; [reflexivity|]. split; [|exact S3]. unfold qis_reset, bbind. rewrite E1, E2, E3. reflexivity.
Qed.
Lemma mresetz_st : forall q i b l psi, let l' := opened (bmax b) l [q] in In q l' -> st (bsim b) l psi ->
  exists r s', r = outcome l' [q] psi (fst (draw (rng (bsim b)))) /\
    qis_mresetz q i b = BOk tt (mkBack s' (set_res (grow_res (bres b) i) i r) (Nat.max (bmax b) (S q)) (bout b)) /\
    st s' l' (drop_qubit q r (collapsed l' [q] r psi)) /\ samples (bsim b) s'.
Proof.
  intros q i b l psi l' Hq S. destruct (ensure_measure q b l psi Hq S) as (s1 & E1 & H1). fold l' in H1.
  destruct (H1 (with_res (upd b s1 (Nat.max (bmax b) (Datatypes.S q))) (grow_res (bres b) i)) _ eq_refl eq_refl) as (s2 & E2 & S2 & _ & s3 & E3 & S3).
  eexists _, s3. split; [reflexivity|]. split; [|exact S3]. unfold qis_mresetz, bbind. rewrite E1. unfold expand.
  change (bres (upd b s1 (Nat.max (bmax b) (Datatypes.S q)))) with (bres b). rewrite E2, E3. reflexivity.
Qed.
Lemma mz_st : forall q i b l psi, let l' := opened (bmax b) l [q] in In q l' -> st (bsim b) l psi ->
  exists r s', r = outcome l' [q] psi (fst (draw (rng (bsim b)))) /\
    qis_mz q i b = BOk tt (mkBack s' (set_res (grow_res (bres b) i) i r) (Nat.max (bmax b) (S q)) (bout b)) /\
    st s' l' (collapsed l' [q] r psi) /\ samples (bsim b) s'.
Proof.
  intros q i b l psi l' Hq S. destruct (ensure_measure q b l psi Hq S) as (s1 & E1 & H1). fold l' in H1.
  destruct (H1 (with_res (upd b s1 (Nat.max (bmax b) (Datatypes.S q))) (grow_res (bres b) i)) _ eq_refl eq_refl) as (s2 & E2 & S2 & K2 & _).
  eexists _, s2. split; [reflexivity|]. split; [|exact (conj S2 K2)]. unfold qis_mz, bbind. rewrite E1. unfold expand.
  change (bres (upd b s1 (Nat.max (bmax b) (Datatypes.S q)))) with (bres b). rewrite E2. reflexivity.
Qed.
Lemma m_st : forall q b l psi, let l' := opened (bmax b) l [q] in In q l' -> st (bsim b) l psi ->
  exists (r : bool) s', r = outcome l' [q] psi (fst (draw (rng (bsim b)))) /\
    qis_m q b = BOk (if r then 1%nat else 0%nat) (upd b s' (Nat.max (bmax b) (S q))) /\
    st s' l' (collapsed l' [q] r psi) /\ samples (bsim b) s'.
Proof.
  intros q b l psi l' Hq S. destruct (ensure_measure q b l psi Hq S) as (s1 & E1 & H1). fold l' in H1.
  destruct (H1 (upd b s1 (Nat.max (bmax b) (Datatypes.S q))) _ eq_refl eq_refl) as (s2 & E2 & S2 & K2 & _).
  eexists _, s2. split; [reflexivity|]. split; [|exact (conj S2 K2)]. unfold qis_m, bbind. rewrite E1, E2. reflexivity.
Qed.
Lemma is_zero_st : forall q b l psi, let l' := opened (bmax b) l [q] in In q l' -> st (bsim b) l psi ->
  exists v s', api_qubit_is_zero q b = BOk v (upd b s' (Nat.max (bmax b) (S q))) /\
    (v = true <-> born (width l') [q] psi = 0) /\ st s' l' psi /\ keeps (bsim b) s'.
Proof.
  intros q b l psi l' Hq S. destruct (ensure_st q b l psi S) as (s1 & E1 & S1 & G1 & _). fold l' in S1.
  destruct (st_call s1 l' psi (CIsZero q) S1) as (r & s2 & E2 & Rp & S2 & G2); simpl; auto.
  { intros bk E. rewrite E. auto. }
  destruct Rp as (v & -> & Hv). exists v, s2.
  assert (K2 : keeps (bsim b) s2) by (eapply keeps_trans; [exact G1|]; split; [apply G2|apply G2; exact Logic.I]). split; auto. unfold api_qubit_is_zero, bbind, simbit. rewrite E1. unfold bbind, simcall.
  change (bsim (upd b s1 (Nat.max (bmax b) (Datatypes.S q)))) with s1. rewrite E2. reflexivity.
Qed.

End Sem.
