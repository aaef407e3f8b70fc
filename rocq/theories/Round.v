(** * Rounding: errors of the arithmetic and of single steps on stored amplitudes *)
From Coq Require Import Reals NArith List Bool Lia Lra Permutation Arith FunctionalExtensionality.
From Verif Require Import Cx Arith ArithR IndexMap IndexMapLemmas Bits BitsLemmas Spec QLib QSum Sim
  StateLemmas Loc Abs Gates Meas SpecAny Any SpecNear Near SpecRound.
Import ListNotations.
Local Open Scope R_scope.

(** ** Modulus *)
Lemma cmod_nonneg : forall a, 0 <= cmod a.
Proof. intros. apply sqrt_pos. Qed.
Lemma cmod_sq : forall a, cmod a * cmod a = Cn2 a.
Proof. intros. apply sqrt_sqrt, Cn2_nonneg. Qed.
Lemma cmod_le : forall a e, 0 <= e -> Cn2 a <= e * e -> cmod a <= e.
Proof. intros. unfold cmod. rewrite <- (sqrt_square e) by auto. apply sqrt_le_1_alt. auto. Qed.
Lemma Cn2_le : forall a e, cmod a <= e -> Cn2 a <= e * e.
Proof. intros a e H. rewrite <- cmod_sq. assert (P := cmod_nonneg a). nra. Qed.
Lemma cmod_add : forall a b, cmod (a + b)%C <= cmod a + cmod b.
Proof.
  intros. apply cmod_le; [|apply Cn2_add_le]. assert (P := cmod_nonneg a). assert (Q := cmod_nonneg b). lra.
Qed.
Lemma cmod_opp : forall a, cmod (- a)%C = cmod a.
Proof. intros. unfold cmod. now rewrite Cn2_opp. Qed.
Lemma cmod_sub : forall a b, cmod (a - b)%C <= cmod a + cmod b.
Proof.
  intros. replace (a - b)%C with (a + - b)%C by ring. eapply Rle_trans; [apply cmod_add|]. rewrite cmod_opp. lra.
Qed.
Lemma cmod_mul : forall a b, cmod (a * b)%C = cmod a * cmod b.
Proof. intros. unfold cmod. rewrite Cn2_mul. apply sqrt_mult; apply Cn2_nonneg. Qed.
Lemma cmod_0 : cmod C0 = 0.
Proof. unfold cmod. rewrite Cn2_C0. apply sqrt_0. Qed.
Lemma cmod_1 : cmod C1 = 1.
Proof. unfold cmod. rewrite Cn2_C1. apply sqrt_1. Qed.
Lemma cmod_i : cmod Ci = 1.
Proof. unfold cmod. rewrite Cn2_Ci. apply sqrt_1. Qed.
Lemma cmod_unit : forall a, Cn2 a <= 1 -> cmod a <= 1.
Proof. intros. apply cmod_le; lra. Qed.
Lemma cmod_parts : forall a, Rabs (fst a) <= cmod a /\ Rabs (snd a) <= cmod a.
Proof.
  intros [x y]. unfold cmod, Cn2. simpl. split.
  - rewrite <- sqrt_Rsqr_abs. apply sqrt_le_1_alt. unfold Rsqr. assert (0 <= y * y) by apply Rle_0_sqr. lra.
  - rewrite <- sqrt_Rsqr_abs. apply sqrt_le_1_alt. unfold Rsqr. assert (0 <= x * x) by apply Rle_0_sqr. lra.
Qed.
Lemma cmod_tri : forall a b c, cmod (a - c)%C <= cmod (a - b)%C + cmod (b - c)%C.
Proof. intros. replace (a - c)%C with ((a - b) + (b - c))%C by ring. apply cmod_add. Qed.
Lemma rabs_le_sq : forall x e, Rabs x <= e -> x * x <= e * e.
Proof.
  intros x e H. assert (E : x * x = Rabs x * Rabs x) by (rewrite <- Rabs_mult; symmetry; apply Rabs_right; nra).
  rewrite E. assert (P := Rabs_pos x). nra.
Qed.
Lemma Cn2_rsqrt2 : Cn2 rsqrt2 = / 2.
Proof. unfold rsqrt2, Cn2, RtoC. simpl. generalize rs2_sq. lra. Qed.
Lemma cmod_rsqrt2 : cmod rsqrt2 <= 1.
Proof. apply cmod_unit. rewrite Cn2_rsqrt2. lra. Qed.
Lemma cmod_cos : forall x, cmod (RtoC (cos x)) <= 1.
Proof.
  intros. apply cmod_unit. rewrite Cn2_RtoC. generalize (sin2_cos2 x). unfold Rsqr. assert (0 <= sin x * sin x) by apply Rle_0_sqr. lra.
Qed.
Lemma cmod_sin : forall x, cmod (RtoC (sin x)) <= 1.
Proof.
  intros. apply cmod_unit. rewrite Cn2_RtoC. generalize (sin2_cos2 x). unfold Rsqr. assert (0 <= cos x * cos x) by apply Rle_0_sqr. lra.
Qed.

(** ** Arithmetic with errors *)
Section R.
Context {A : Arith} {EN : Env} {AP : Approx}.
Hypothesis laws : approx_ok.

(** The error unit of Near.v for the bound on one amplitude. *)
Definition rtol : Tol := {| tol := step_err |}.

Lemma dlt_pos : 0 <= dlt. Proof. apply laws. Qed.
Lemma dlt_small : dlt <= / 64.
Proof. generalize (ap_small laws), (ap_thr laws). unfold step_err. lra. Qed.
Lemma step_pos : 0 <= step_err.
Proof. generalize (ap_dlt laws), (ap_thr laws). unfold step_err. lra. Qed.

(** [cl n a z]: finite and within [n] operations of [z]. *)
Definition cl (n : R) (a : amp) (z : C) : Prop := close a z (n * dlt).
Lemma cl_mono : forall n m a z, n <= m -> cl n a z -> cl m a z.
Proof. intros n m a z H [F E]. split; auto. generalize dlt_pos. nra. Qed.
Lemma cl_self : forall a, afin a -> cl 0 a (aval a).
Proof. intros a F. split; auto. replace (aval a - aval a)%C with C0 by ring. rewrite cmod_0. lra. Qed.
Lemma cl_fin : forall n a z, cl n a z -> afin a.
Proof. intros n a z [F _]. exact F. Qed.
Lemma cl_mod : forall n a z M, 0 <= n -> cl n a z -> cmod z <= M -> cmod (aval a) <= M + n / 64.
Proof.
  intros n a z M Hn [_ E] H. replace (aval a) with (aval a - z + z)%C by ring.
  eapply Rle_trans; [apply cmod_add|]. generalize dlt_pos dlt_small. intros. nra.
Qed.
Lemma cl_1 : cl 0 amp1 C1.
Proof. destruct (ap_1 laws) as [F E]. rewrite <- E. apply cl_self; auto. Qed.
Lemma cl_i : cl 0 ampi Ci.
Proof. destruct (ap_i laws) as [F E]. rewrite <- E. apply cl_self; auto. Qed.
Lemma cl_opp : forall n a z, cl n a z -> cl n (aopp a) (- z)%C.
Proof.
  intros n a z [F E]. destruct (ap_opp laws a) as [F' E']. split; auto. rewrite E'.
  replace (- aval a - - z)%C with (- (aval a - z))%C by ring. now rewrite cmod_opp.
Qed.
Lemma cl_rs2 : cl 1 ars2 rsqrt2.
Proof. unfold cl. rewrite Rmult_1_l. apply laws. Qed.
Lemma cl_one : forall a z, close a z dlt -> cl 1 a z.
Proof. intros a z H. unfold cl. now rewrite Rmult_1_l. Qed.
Lemma cl_ext : forall n a z z', z = z' -> cl n a z -> cl n a z'.
Proof. intros. subst. auto. Qed.

Section Two.
Variables (n m : R) (a b : amp) (x y : C) (X Y : R).
Hypothesis (Hn : 0 <= n) (Hm : 0 <= m) (Ha : cl n a x) (Hb : cl m b y) (HX : cmod x <= X) (HY : cmod y <= Y).
Hypothesis (SX : X + n / 64 <= 8) (SY : Y + m / 64 <= 8).
Let sa : small a. Proof. split; [apply Ha|]. eapply Rle_trans; [exact (cl_mod n a x X Hn Ha HX)|exact SX]. Qed.
Let sb : small b. Proof. split; [apply Hb|]. eapply Rle_trans; [exact (cl_mod m b y Y Hm Hb HY)|exact SY]. Qed.

Lemma cl_add : cl (n + m + 1) (aadd a b) (x + y)%C.
Proof.
  destruct (ap_add laws a b sa sb) as [F E]. split; auto. destruct Ha as [_ Ea]. destruct Hb as [_ Eb].
  eapply Rle_trans; [apply (cmod_tri _ (aval a + aval b)%C)|].
  assert (H : cmod (aval a + aval b - (x + y))%C <= cmod (aval a - x)%C + cmod (aval b - y)%C).
  { replace (aval a + aval b - (x + y))%C with ((aval a - x) + (aval b - y))%C by ring. apply cmod_add. }
  lra.
Qed.
Lemma cl_sub : cl (n + m + 1) (asub a b) (x - y)%C.
Proof.
  destruct (ap_sub laws a b sa sb) as [F E]. split; auto. destruct Ha as [_ Ea]. destruct Hb as [_ Eb].
  eapply Rle_trans; [apply (cmod_tri _ (aval a - aval b)%C)|].
  assert (H : cmod (aval a - aval b - (x - y))%C <= cmod (aval a - x)%C + cmod (aval b - y)%C).
  { replace (aval a - aval b - (x - y))%C with ((aval a - x) - (aval b - y))%C by ring. apply cmod_sub. }
  lra.
Qed.
Lemma cl_mul : cl (n * Y + (X + n / 64) * m + 1) (amul a b) (x * y)%C.
Proof.
  destruct (ap_mul laws a b sa sb) as [F E]. split; auto.
  assert (Sa := cl_mod n a x X Hn Ha HX). destruct Ha as [_ Ea]. destruct Hb as [_ Eb].
  eapply Rle_trans; [apply (cmod_tri _ (aval a * aval b)%C)|].
  assert (H : cmod (aval a * aval b - x * y)%C <= cmod (aval a - x)%C * cmod y + cmod (aval a) * cmod (aval b - y)%C).
  { replace (aval a * aval b - x * y)%C with ((aval a - x) * y + aval a * (aval b - y))%C by ring.
    eapply Rle_trans; [apply cmod_add|]. rewrite !cmod_mul. lra. }
  assert (P1 := cmod_nonneg (aval a - x)%C). assert (P2 := cmod_nonneg y). assert (P3 := cmod_nonneg (aval a)).
  assert (P4 := cmod_nonneg (aval b - y)%C). assert (D := dlt_pos).
  assert (H1 : cmod (aval a - x)%C * cmod y <= n * dlt * Y) by (apply Rmult_le_compat; auto).
  assert (H2 : cmod (aval a) * cmod (aval b - y)%C <= (X + n / 64) * (m * dlt)) by (apply Rmult_le_compat; auto).
  lra.
Qed.
End Two.

Lemma cl_chalf : forall t, angle_ok t -> cl 1 (chalf t) (RtoC (cos (tval t / 2))).
Proof. intros. apply cl_one. apply laws; auto. Qed.
Lemma cl_shalf : forall t, angle_ok t -> cl 1 (shalf t) (RtoC (sin (tval t / 2))).
Proof. intros. apply cl_one. apply laws; auto. Qed.
Lemma cl_cfull : forall t, angle_ok t -> cl 1 (cfull t) (RtoC (cos (tval t))).
Proof. intros. apply cl_one. apply laws; auto. Qed.
Lemma cl_sfull : forall t, angle_ok t -> cl 1 (sfull t) (RtoC (sin (tval t))).
Proof. intros. apply cl_one. apply laws; auto. Qed.

(** Bounds on one amplitude. *)
Definition tiny : R := 2 * (step_err * step_err).
Lemma tiny_pos : 0 <= tiny. Proof. unfold tiny. generalize step_pos. nra. Qed.
Lemma cl_tiny : forall n a z, 0 <= n <= 45 -> cl n a z -> Cn2 (aval a - z)%C <= tiny.
Proof.
  intros n a z Hn [_ E]. eapply Rle_trans; [apply (Cn2_le _ _ E)|]. unfold tiny, step_err.
  generalize dlt_pos (ap_thr laws). intros. assert (n * dlt * (n * dlt) = n * n * (dlt * dlt)) by ring.
  assert (n * n <= 2025) by nra. assert (0 <= dlt * dlt) by nra. assert (0 <= thr * dlt) by nra. nra.
Qed.
(** A nearly zero amplitude stands for a small one. *)
Lemma nz_parts : forall n a z, 0 <= n <= 32 -> cl n a z -> anz a = true ->
  Rabs (fst z) <= step_err /\ Rabs (snd z) <= step_err.
Proof.
  intros n a z Hn [F E] H. apply (ap_nz laws a F) in H. destruct H as [H1 H2].
  destruct (cmod_parts (aval a - z)%C) as [P1 P2].
  assert (D := dlt_pos). assert (n * dlt <= 32 * dlt) by nra.
  assert (Q1 : Rabs (fst z) <= step_err).
  { replace (fst z) with (fst (aval a) - fst (aval a - z)%C) by (unfold Csub; simpl; ring).
    eapply Rle_trans; [apply Rabs_triang|]. rewrite Rabs_Ropp. unfold step_err. lra. }
  assert (Q2 : Rabs (snd z) <= step_err).
  { replace (snd z) with (snd (aval a) - snd (aval a - z)%C) by (unfold Csub; simpl; ring).
    eapply Rle_trans; [apply Rabs_triang|]. rewrite Rabs_Ropp. unfold step_err. lra. }
  auto.
Qed.
Lemma nz_tiny : forall n a z, 0 <= n <= 32 -> cl n a z -> anz a = true -> Cn2 z <= tiny.
Proof.
  intros n a z Hn C H. destruct (nz_parts n a z Hn C H) as [Q1 Q2].
  apply rabs_le_sq in Q1. apply rabs_le_sq in Q2. unfold tiny, Cn2. lra.
Qed.

(** [good o z]: what is stored under a key whose amplitude should be [z]. *)
Definition good (o : option amp) (z : C) : Prop :=
  match o with Some v => afin v /\ Cn2 (aval v - z)%C <= tiny | None => Cn2 z <= tiny end.
Definition finl (l : sstate) : Prop := Forall (fun kv => afin (snd kv)) l.
(** Finite amplitudes of modulus at most 2. *)
Definition amps (l : sstate) : Prop := Forall (fun kv => afin (snd kv) /\ cmod (aval (snd kv)) <= 2) l.

(** Amplitude of a key. *)
Definition lamp (l : sstate) : qstate := fun k =>
  match hm_get l k with Some v => aval v | None => C0 end.
Lemma lamp_perm : forall l l', NoDup (keys l) -> Permutation l l' -> lamp l = lamp l'.
Proof.
  intros. apply functional_extensionality. intros k. unfold lamp.
  rewrite (hm_get_perm l l') by auto. reflexivity.
Qed.
Lemma good_all : forall l phi, NoDup (keys l) -> (forall k, good (hm_get l k) (phi k)) ->
  finl l /\ forall k, Cn2 (lamp l k - phi k)%C <= tiny.
Proof.
  intros l phi N H. split.
  - apply Forall_forall. intros [k v] Hi. simpl. specialize (H k). rewrite (In_hm_get l k v N Hi) in H. apply H.
  - intros k. specialize (H k). unfold lamp. destruct (hm_get l k); simpl in H; [apply H|].
    replace (C0 - phi k)%C with (- phi k)%C by ring. now rewrite Cn2_opp.
Qed.
Lemma good_cl : forall n v z, 0 <= n <= 45 -> cl n v z -> good (Some v) z.
Proof. intros n v z H C. split; [eapply cl_fin; eauto|eapply cl_tiny; eauto]. Qed.
Lemma good_same : forall o, (forall v, o = Some v -> afin v) -> good o (match o with Some v => aval v | None => C0 end).
Proof.
  intros [v|] F; simpl.
  - split; auto. replace (aval v - aval v)%C with C0 by ring. rewrite Cn2_C0. apply tiny_pos.
  - rewrite Cn2_C0. apply tiny_pos.
Qed.
Lemma good_emo : forall n a b v z, 0 <= n <= 45 -> cl n v z -> (a = true -> Cn2 z <= tiny) -> b = emo a v -> good b z.
Proof.
  intros n a b v z H C T ->. unfold emo. destruct a; simpl; [auto|]. apply (good_cl n); auto.
Qed.
Lemma amps_get : forall l k v, amps l -> hm_get l k = Some v -> afin v /\ cmod (aval v) <= 2.
Proof.
  intros l k v H G. apply hm_get_In in G. unfold amps in H. rewrite Forall_forall in H. apply (H _ G).
Qed.
Lemma amps_fin : forall l, amps l -> finl l.
Proof. intros l. apply Forall_impl. intros kv H. apply H. Qed.
Lemma amps_perm : forall l l', Permutation l l' -> amps l -> amps l'.
Proof. intros l l' P. unfold amps. rewrite !Forall_forall. intros H x Hx. apply H. eapply Permutation_in; [apply Permutation_sym|]; eauto. Qed.

(** ** Queued operations *)
Definition opmat (o : opcode) : mat :=
  match o with
  | OX => mX | OY => mY | OZ => mZ | OS => mS | OSadj => mSadj
  | OT => mT | OTadj => mTadj | ORz th => mRz (tval th)
  end.
Definition opsem (ops : list qop) (psi : qstate) : qstate :=
  fold_left (fun psi o => cgate (fst (fst o)) (opmat (snd o)) (snd (fst o)) psi) ops psi.
Definition opang (P : ang -> Prop) (o : qop) : Prop := match snd o with ORz th => P th | _ => True end.

(** The factor of one operation. *)
Definition aop_factor (o : qop) (k : N) : option amp :=
  if all_set (fst (fst o)) k then
    match snd o with
    | OX => None
    | OY => Some (if bit (flip_bit k (snd (fst o))) (snd (fst o)) then ampi else aopp ampi)
    | OZ => Some (if bit k (snd (fst o)) then aopp amp1 else amp1)
    | OS => Some (if bit k (snd (fst o)) then ampi else amp1)
    | OSadj => Some (if bit k (snd (fst o)) then aopp ampi else amp1)
    | OT => Some (if bit k (snd (fst o)) then aadd ars2 (amul ampi ars2) else amp1)
    | OTadj => Some (if bit k (snd (fst o)) then asub ars2 (amul ampi ars2) else amp1)
    | ORz th => Some (if bit k (snd (fst o)) then aadd (chalf th) (amul ampi (shalf th))
                      else asub (chalf th) (amul ampi (shalf th)))
    end
  else None.
Definition op_factor (o : qop) (k : N) : C :=
  if all_set (fst (fst o)) k then
    match snd o with
    | OX => C1
    | OY => if bit k (snd (fst o)) then (- Ci)%C else Ci
    | _ => opmat (snd o) (bit k (snd (fst o))) (bit k (snd (fst o)))
    end
  else C1.
Definition amulo (v : amp) (f : option amp) : amp := match f with Some p => amul v p | None => v end.
Lemma apply_op_eq : forall o kv,
  apply_op o kv = (akey o (fst kv), amulo (snd kv) (aop_factor o (fst kv))).
Proof.
  intros [[cs t] op] [k v]. unfold apply_op, akey, aop_factor, amulo. simpl.
  destruct (all_set cs k); [|reflexivity]. destruct op; reflexivity.
Qed.
Lemma phase_close : forall n f k t z, 0 <= n <= 10 -> cl n f z -> cmod z <= 1 ->
  forall v, afin v -> cmod (aval v) <= 2 ->
  cl 22 (amul v (if bit k t then f else amp1)) (aval v * (if bit k t then z else C1))%C.
Proof.
  intros n f k t z Hn Hc Hz v F M. destruct (bit k t).
  - apply (cl_mono (0 * 1 + (2 + 0 / 64) * n + 1)); [lra|]. apply cl_mul; auto using cl_self; lra.
  - apply (cl_mono (0 * 1 + (2 + 0 / 64) * 0 + 1)); [lra|]. apply cl_mul; auto using cl_self, cl_1; try lra.
    rewrite cmod_1. lra.
Qed.
Lemma cl_i_mul : forall n a z, 0 <= n <= 10 -> cl n a z -> cmod z <= 1 -> cl (n + 1) (amul ampi a) (Ci * z)%C.
Proof.
  intros n a z Hn H M. apply (cl_mono (0 * 1 + (1 + 0 / 64) * n + 1)); [lra|].
  apply cl_mul; auto using cl_i; try lra. rewrite cmod_i. lra.
Qed.
Lemma cmod_i_mul : forall z, cmod (Ci * z)%C = cmod z.
Proof. intros. rewrite cmod_mul, cmod_i. ring. Qed.
Lemma op_factor_close : forall o k v, opang angle_ok o -> afin v -> cmod (aval v) <= 2 ->
  cl 22 (amulo v (aop_factor o k)) (aval v * op_factor o k)%C.
Proof.
  intros [[cs t] op] k v Ho F M. unfold aop_factor, op_factor. simpl. unfold opang in Ho. simpl in Ho.
  assert (Z1 : cl 22 v (aval v * C1)%C).
  { replace (aval v * C1)%C with (aval v) by ring. apply (cl_mono 0); [lra|]. apply cl_self; auto. }
  destruct (all_set cs k); [|exact Z1].
  assert (C1m : cmod C1 <= 1) by (rewrite cmod_1; lra). assert (Cim : cmod Ci <= 1) by (rewrite cmod_i; lra).
  assert (T2 : cl 2 (amul ampi ars2) (Ci * rsqrt2)%C).
  { eapply cl_mono; [|apply (cl_i_mul 1 _ _ ltac:(lra) cl_rs2 cmod_rsqrt2)]. lra. }
  assert (T2m : cmod (Ci * rsqrt2)%C <= 1) by (rewrite cmod_i_mul; apply cmod_rsqrt2).
  destruct op as [| | | | | | |th]; simpl; unfold amulo.
  - exact Z1.
  - rewrite bit_flip_same. destruct (bit k t); simpl.
    + replace (- Ci)%C with (- Ci)%C by ring. apply (cl_mono (0 * 1 + (2 + 0 / 64) * 0 + 1)); [lra|].
      apply cl_mul; auto using cl_self, cl_opp, cl_i; try lra. rewrite cmod_opp. lra.
    + apply (cl_mono (0 * 1 + (2 + 0 / 64) * 0 + 1)); [lra|]. apply cl_mul; auto using cl_self, cl_i; lra.
  - eapply cl_ext; [|apply (phase_close 0 _ k t (- C1)%C); auto using cl_opp, cl_1; try lra; rewrite cmod_opp; lra].
    unfold mZ, mk2. destruct (bit k t); auto.
  - eapply cl_ext; [|apply (phase_close 0 _ k t Ci); auto using cl_i; lra].
    unfold mS, mPhase, mk2. destruct (bit k t); auto.
  - eapply cl_ext; [|apply (phase_close 0 _ k t (- Ci)%C); auto using cl_opp, cl_i; try lra; rewrite cmod_opp; lra].
    unfold mSadj, mPhase, mk2. destruct (bit k t); auto.
  - eapply cl_ext; [|apply (phase_close 4 _ k t (rsqrt2 + Ci * rsqrt2)%C); auto; try lra].
    + unfold mT, mPhase, mk2, Cis. rewrite cos_PI4, sin_PI4. destruct (bit k t); auto. f_equal. unfold rsqrt2. ceq.
    + apply (cl_mono (1 + 2 + 1)); [lra|]. apply (cl_add 1 2 _ _ _ _ 1 1); auto using cl_rs2, cmod_rsqrt2; lra.
    + apply cmod_unit. apply Req_le. transitivity (2 * Cn2 rsqrt2); [|rewrite Cn2_rsqrt2; lra].
      unfold rsqrt2, Cn2. csimp. ring.
  - eapply cl_ext; [|apply (phase_close 4 _ k t (rsqrt2 - Ci * rsqrt2)%C); auto; try lra].
    + unfold mTadj, mPhase, mk2, Cis. rewrite cos_neg, sin_neg, cos_PI4, sin_PI4. destruct (bit k t); auto. f_equal. unfold rsqrt2. ceq.
    + apply (cl_mono (1 + 2 + 1)); [lra|]. apply (cl_sub 1 2 _ _ _ _ 1 1); auto using cl_rs2, cmod_rsqrt2; lra.
    + apply cmod_unit. apply Req_le. transitivity (2 * Cn2 rsqrt2); [|rewrite Cn2_rsqrt2; lra].
      unfold rsqrt2, Cn2. csimp. ring.
  - assert (Hc := cl_chalf th Ho). assert (Hs := cl_i_mul 1 _ _ ltac:(lra) (cl_shalf th Ho) (cmod_sin _)).
    assert (Hm := cmod_cos (tval th / 2)). assert (Hm' := cmod_sin (tval th / 2)). rewrite <- cmod_i_mul in Hm'.
    destruct (bit k t); simpl.
    + assert (Q := cl_add 1 (1 + 1) _ _ _ _ 1 1 ltac:(lra) ltac:(lra) Hc Hs Hm Hm' ltac:(lra) ltac:(lra)).
      replace (Cis (tval th / 2)) with (RtoC (cos (tval th / 2)) + Ci * RtoC (sin (tval th / 2)))%C by (unfold Cis; ceq).
      apply (cl_mono (0 * 1 + (2 + 0 / 64) * (1 + (1 + 1) + 1) + 1)); [lra|]. apply cl_mul; auto using cl_self; try lra.
      apply cmod_unit. apply Req_le. transitivity (Cn2 (Cis (tval th / 2))); [f_equal; unfold Cis; ceq|apply Cn2_Cis].
    + assert (Q := cl_sub 1 (1 + 1) _ _ _ _ 1 1 ltac:(lra) ltac:(lra) Hc Hs Hm Hm' ltac:(lra) ltac:(lra)).
      replace (Cis (- (tval th / 2))) with (RtoC (cos (tval th / 2)) - Ci * RtoC (sin (tval th / 2)))%C by (unfold Cis; rewrite cos_neg, sin_neg; ceq).
      apply (cl_mono (0 * 1 + (2 + 0 / 64) * (1 + (1 + 1) + 1) + 1)); [lra|]. apply cl_mul; auto using cl_self; try lra.
      apply cmod_unit. apply Req_le. transitivity (Cn2 (Cis (- (tval th / 2)))); [f_equal; unfold Cis; rewrite cos_neg, sin_neg; ceq|apply Cn2_Cis].
Qed.

Lemma apply_op_good : forall o l, NoDup (snd (fst o) :: fst (fst o)) -> opang angle_ok o -> amps l -> forall k,
  good (hm_get (map (apply_op o) l) k) (cgate (fst (fst o)) (opmat (snd o)) (snd (fst o)) (lamp l) k).
Proof.
  intros o l H Ho Hl k.
  rewrite (map_ext _ (fun kv => (akey o (fst kv), amulo (snd kv) (aop_factor o (fst kv)))))
    by (intros; apply apply_op_eq).
  rewrite (hm_get_map l (akey o) (akey o) (fun k v => amulo v (aop_factor o k)))
    by (intros; apply akey_inv; auto).
  assert (E : cgate (fst (fst o)) (opmat (snd o)) (snd (fst o)) (lamp l) k =
    (lamp l (akey o k) * op_factor o (akey o k))%C).
  { destruct o as [[cs t] op]; simpl. simpl in H. inversion H; subst.
    unfold akey, op_factor, cgate, all_set; simpl.
    destruct (forallb (bit k) cs) eqn:E; [|rewrite E; ring].
    destruct op; rewrite ?(forallb_bit_flip cs k t), E by auto; unfold gate1; simpl;
      unfold mX, mY, mZ, mS, mSadj, mT, mTadj, mRz, mPhase, mk2;
      rewrite ?bit_flip_same;
      destruct (bit k t) eqn:B; simpl;
      rewrite ?(flip_as_set k t _ B); simpl;
      rewrite ?(set_bit_id' k t _ B); ring. }
  rewrite E. unfold lamp. destruct (hm_get l (akey o k)) as [v|] eqn:G; simpl.
  - destruct (amps_get _ _ _ Hl G) as [F M]. apply (good_cl 22); [lra|]. apply op_factor_close; auto.
  - replace (C0 * op_factor o (akey o k))%C with C0 by ring. rewrite Cn2_C0. apply tiny_pos.
Qed.

(** ** H and rotations *)
Lemma mch_good : forall cs t m, ~ In t cs -> NoDup (keys m) -> amps m ->
  NoDup (keys (flat_map (mch_entry cs t m) m)) /\
  forall k, good (hm_get (flat_map (mch_entry cs t m) m) k) (cgate cs mH t (lamp m) k).
Proof.
  intros cs t m Hn Nm Hm.
  edestruct (pair_both (fun k => flip_bit k t) (all_set cs) (fun k => bit k t)) with
    (s0 := fun k v => if bit k t then amul (amul v ars2) (aopp amp1) else amul v ars2)
    (s1 := fun k v => if bit k t then amul v ars2 else amul (amul v ars2) amp1)
    (t0 := fun (k : N) v w => anz (aadd v w))
    (t1 := fun (k : N) v w => anz (asub v w))
    (p0 := fun (k : N) v w => amul (aadd v w) ars2)
    (p1 := fun (k : N) v w => amul (asub v w) ars2) (m := m)
    (f := mch_entry cs t m) as [N L]; auto.
  - intros; apply flip_flip.
  - intros; apply flip_ne.
  - intros; unfold all_set; apply forallb_bit_flip; auto.
  - intros; apply bit_flip_same.
  - intros k' v H. unfold mch_entry. now rewrite H.
  - intros k' v H G. unfold mch_entry. rewrite H. rewrite flip_lxor, G.
    destruct (bit k' t) eqn:B; rewrite (flip_as_set k' t _ B), (set_bit_id' k' t _ B); simpl;
      [apply perm_swap|apply Permutation_refl].
  - intros k' v w H G S. unfold mch_entry. rewrite H. rewrite flip_lxor, G, S. reflexivity.
  - intros k' v w H G S. unfold mch_entry. rewrite H. rewrite flip_lxor, lor_one_bit, G, S.
    rewrite (flip_as_set k' t _ S). reflexivity.
  - split; auto. intros k. rewrite L. unfold pair_get, cgate, gate1. fold (all_set cs k).
    destruct (all_set cs k) eqn:A0.
    2:{ apply good_same. intros v G. apply (amps_get _ _ _ Hm G). }
    assert (R2 := cmod_rsqrt2).
    assert (S1 : forall v, afin v -> cmod (aval v) <= 2 -> cl 3 (amul v ars2) (aval v * rsqrt2)%C).
    { intros v F M. apply (cl_mono (0 * 1 + (2 + 0 / 64) * 1 + 1)); [lra|]. apply cl_mul; auto using cl_self, cl_rs2; lra. }
    assert (M2 : forall z, cmod z <= 2 -> cmod (z * rsqrt2)%C <= 2).
    { intros z M. rewrite cmod_mul. assert (P := cmod_nonneg rsqrt2). assert (P' := cmod_nonneg z). nra. }
    assert (S2 : forall v, afin v -> cmod (aval v) <= 2 -> cl 4 (amul (amul v ars2) amp1) (aval v * rsqrt2)%C).
    { intros v F M. replace (aval v * rsqrt2)%C with (aval v * rsqrt2 * C1)%C by ring.
      apply (cl_mono (3 * 1 + (2 + 3 / 64) * 0 + 1)); [lra|].
      apply cl_mul; auto using cl_1; try lra. rewrite cmod_1; lra. }
    assert (S3 : forall v, afin v -> cmod (aval v) <= 2 -> cl 4 (amul (amul v ars2) (aopp amp1)) (- (aval v * rsqrt2))%C).
    { intros v F M. replace (- (aval v * rsqrt2))%C with (aval v * rsqrt2 * - C1)%C by ring.
      apply (cl_mono (3 * 1 + (2 + 3 / 64) * 0 + 1)); [lra|].
      apply cl_mul; auto using cl_1, cl_opp; try lra. rewrite cmod_opp, cmod_1; lra. }
    assert (P1 : forall v w, afin v -> cmod (aval v) <= 2 -> afin w -> cmod (aval w) <= 2 -> cl 1 (aadd v w) (aval v + aval w)%C).
    { intros. apply (cl_mono (0 + 0 + 1)); [lra|]. apply (cl_add _ _ _ _ _ _ 2 2); auto using cl_self; lra. }
    assert (P2 : forall v w, afin v -> cmod (aval v) <= 2 -> afin w -> cmod (aval w) <= 2 -> cl 1 (asub v w) (aval v - aval w)%C).
    { intros. apply (cl_mono (0 + 0 + 1)); [lra|]. apply (cl_sub _ _ _ _ _ _ 2 2); auto using cl_self; lra. }
    assert (P3 : forall n z, cl 1 n z -> cmod z <= 4 -> cl 7 (amul n ars2) (z * rsqrt2)%C).
    { intros n z H M. apply (cl_mono (1 * 1 + (4 + 1 / 64) * 1 + 1)); [lra|]. apply cl_mul; auto using cl_rs2; lra. }
    assert (Tz : forall n z, cl 1 n z -> anz n = true -> Cn2 (z * rsqrt2)%C <= tiny).
    { intros n z H Z. apply (nz_tiny 1 _ _ ltac:(lra) H) in Z. rewrite Cn2_mul, Cn2_rsqrt2. assert (Q := Cn2_nonneg z). lra. }
    assert (Z0 : good None C0) by (simpl; rewrite Cn2_C0; apply tiny_pos).
    unfold lamp, mH, mk2. destruct (bit k t) eqn:B.
    + rewrite (flip_as_set k t true B), (set_bit_id' k t true B). simpl negb.
      destruct (hm_get m k) as [v|] eqn:G1; destruct (hm_get m (set_bit k t false)) as [w|] eqn:G2.
      * destruct (amps_get _ _ _ Hm G1) as [Fv Mv]. destruct (amps_get _ _ _ Hm G2) as [Fw Mw].
        replace (rsqrt2 * aval w + - rsqrt2 * aval v)%C with ((aval w - aval v) * rsqrt2)%C by ring.
        eapply (good_emo 7); [lra| | |reflexivity].
        { apply P3; auto. eapply Rle_trans; [apply cmod_sub|]. lra. }
        { intros Z. eapply Tz; eauto. }
      * destruct (amps_get _ _ _ Hm G1) as [Fv Mv].
        replace (rsqrt2 * C0 + - rsqrt2 * aval v)%C with (- (aval v * rsqrt2))%C by ring. apply (good_cl 4); auto. lra.
      * destruct (amps_get _ _ _ Hm G2) as [Fw Mw]. rewrite bit_set_same.
        replace (rsqrt2 * aval w + - rsqrt2 * C0)%C with (aval w * rsqrt2)%C by ring. apply (good_cl 4); auto. lra.
      * replace (rsqrt2 * C0 + - rsqrt2 * C0)%C with C0 by ring. exact Z0.
    + rewrite (flip_as_set k t false B), (set_bit_id' k t false B). simpl negb.
      destruct (hm_get m k) as [v|] eqn:G1; destruct (hm_get m (set_bit k t true)) as [w|] eqn:G2.
      * destruct (amps_get _ _ _ Hm G1) as [Fv Mv]. destruct (amps_get _ _ _ Hm G2) as [Fw Mw].
        replace (rsqrt2 * aval v + rsqrt2 * aval w)%C with ((aval v + aval w) * rsqrt2)%C by ring.
        eapply (good_emo 7); [lra| | |reflexivity].
        { apply P3; auto. eapply Rle_trans; [apply cmod_add|]. lra. }
        { intros Z. eapply Tz; eauto. }
      * destruct (amps_get _ _ _ Hm G1) as [Fv Mv].
        replace (rsqrt2 * aval v + rsqrt2 * C0)%C with (aval v * rsqrt2)%C by ring. apply (good_cl 3); auto. lra.
      * destruct (amps_get _ _ _ Hm G2) as [Fw Mw]. rewrite bit_set_same.
        replace (rsqrt2 * C0 + rsqrt2 * aval w)%C with (aval w * rsqrt2)%C by ring. apply (good_cl 3); auto. lra.
      * replace (rsqrt2 * C0 + rsqrt2 * C0)%C with C0 by ring. exact Z0.
Qed.

Lemma rot_good : forall m00 m01 m10 z00 z01 z10 cs t m, cl 4 m00 z00 -> cl 4 m01 z01 -> cl 4 m10 z10 ->
  cmod z00 <= 1 -> cmod z01 <= 1 -> cmod z10 <= 1 -> ~ In t cs -> NoDup (keys m) -> amps m ->
  NoDup (keys (flat_map (rot_entry m00 m01 m10 cs t m) m)) /\
  forall k, good (hm_get (flat_map (rot_entry m00 m01 m10 cs t m) m) k) (cgate cs (rotmat z00 z01 z10) t (lamp m) k).
Proof.
  intros m00 m01 m10 z00 z01 z10 cs t m H00 H01 H10 L00 L01 L10 Hn Nm Hm.
  edestruct (pair_both (fun k => flip_bit k t) (all_set cs) (fun k => bit k t)) with
    (s0 := fun (k : N) v => amul v m00)
    (s1 := fun k v => if bit k t then amul v m01 else amul v m10)
    (t0 := fun (k : N) v w => anz (aadd (amul v m00) (amul w m01)))
    (t1 := fun (k : N) v w => anz (aadd (amul v m10) (amul w m00)))
    (p0 := fun (k : N) v w => aadd (amul v m00) (amul w m01))
    (p1 := fun (k : N) v w => aadd (amul v m10) (amul w m00)) (m := m)
    (f := rot_entry m00 m01 m10 cs t m) as [N L]; auto.
  - intros; apply flip_flip.
  - intros; apply flip_ne.
  - intros; unfold all_set; apply forallb_bit_flip; auto.
  - intros; apply bit_flip_same.
  - intros k' v H. unfold rot_entry. now rewrite H.
  - intros k' v H G. unfold rot_entry. rewrite H. rewrite flip_lxor, G.
    destruct (bit k' t) eqn:B; simpl; [apply perm_swap|apply Permutation_refl].
  - intros k' v w H G S. unfold rot_entry. rewrite H. rewrite flip_lxor, G, S. reflexivity.
  - intros k' v w H G S. unfold rot_entry. rewrite H. rewrite flip_lxor, G, S. reflexivity.
  - split; auto. intros k. rewrite L. unfold pair_get, cgate, gate1. fold (all_set cs k).
    destruct (all_set cs k) eqn:A0.
    2:{ apply good_same. intros v G. apply (amps_get _ _ _ Hm G). }
    assert (S1 : forall v a z, afin v -> cmod (aval v) <= 2 -> cl 4 a z -> cmod z <= 1 -> cl 9 (amul v a) (aval v * z)%C).
    { intros v a z F M Ca Mz. apply (cl_mono (0 * 1 + (2 + 0 / 64) * 4 + 1)); [lra|]. apply cl_mul; auto using cl_self; lra. }
    assert (M2 : forall z y, cmod z <= 2 -> cmod y <= 1 -> cmod (z * y)%C <= 2).
    { intros z y M My. rewrite cmod_mul. assert (P := cmod_nonneg y). assert (P' := cmod_nonneg z). nra. }
    assert (S2 : forall v w a b z y, afin v -> cmod (aval v) <= 2 -> afin w -> cmod (aval w) <= 2 ->
      cl 4 a z -> cmod z <= 1 -> cl 4 b y -> cmod y <= 1 -> cl 19 (aadd (amul v a) (amul w b)) (aval v * z + aval w * y)%C).
    { intros. apply (cl_mono (9 + 9 + 1)); [lra|]. apply (cl_add _ _ _ _ _ _ 2 2); auto; lra. }
    assert (Tz : forall n z, cl 19 n z -> anz n = true -> Cn2 z <= tiny).
    { intros n z H Z. apply (nz_tiny 19 _ _ ltac:(lra) H) in Z. auto. }
    assert (Z0 : good None C0) by (simpl; rewrite Cn2_C0; apply tiny_pos).
    unfold lamp, rotmat, mk2. destruct (bit k t) eqn:B.
    + rewrite (flip_as_set k t true B), (set_bit_id' k t true B). simpl negb.
      destruct (hm_get m k) as [v|] eqn:G1; destruct (hm_get m (set_bit k t false)) as [w|] eqn:G2.
      * destruct (amps_get _ _ _ Hm G1) as [Fv Mv]. destruct (amps_get _ _ _ Hm G2) as [Fw Mw].
        replace (z10 * aval w + z00 * aval v)%C with (aval w * z10 + aval v * z00)%C by ring.
        eapply (good_emo 19); [lra| | |reflexivity]; eauto.
      * destruct (amps_get _ _ _ Hm G1) as [Fv Mv].
        replace (z10 * C0 + z00 * aval v)%C with (aval v * z00)%C by ring. apply (good_cl 9); auto. lra.
      * destruct (amps_get _ _ _ Hm G2) as [Fw Mw]. rewrite bit_set_same.
        replace (z10 * aval w + z00 * C0)%C with (aval w * z10)%C by ring. apply (good_cl 9); auto. lra.
      * replace (z10 * C0 + z00 * C0)%C with C0 by ring. exact Z0.
    + rewrite (flip_as_set k t false B), (set_bit_id' k t false B). simpl negb.
      destruct (hm_get m k) as [v|] eqn:G1; destruct (hm_get m (set_bit k t true)) as [w|] eqn:G2.
      * destruct (amps_get _ _ _ Hm G1) as [Fv Mv]. destruct (amps_get _ _ _ Hm G2) as [Fw Mw].
        replace (z00 * aval v + z01 * aval w)%C with (aval v * z00 + aval w * z01)%C by ring.
        eapply (good_emo 19); [lra| | |reflexivity]; eauto.
      * destruct (amps_get _ _ _ Hm G1) as [Fv Mv].
        replace (z00 * aval v + z01 * C0)%C with (aval v * z00)%C by ring. apply (good_cl 9); auto. lra.
      * destruct (amps_get _ _ _ Hm G2) as [Fw Mw]. rewrite bit_set_same.
        replace (z00 * C0 + z01 * aval w)%C with (aval w * z01)%C by ring. apply (good_cl 9); auto. lra.
      * replace (z00 * C0 + z01 * C0)%C with C0 by ring. exact Z0.
Qed.

(** Multiplying each entry by a factor depending on its key. *)
Definition scale_entries (p : N -> option amp) (l : sstate) : sstate :=
  map (fun kv => (fst kv, amulo (snd kv) (p (fst kv)))) l.
Lemma keys_scale_entries : forall p l, keys (scale_entries p l) = keys l.
Proof. intros. unfold scale_entries, keys. rewrite map_map. reflexivity. Qed.
Definition factors (p : N -> option amp) (z : N -> C) : Prop :=
  forall k, match p k with Some a => cl 10 a (z k) /\ cmod (z k) <= 1 | None => z k = C1 end.
Lemma scale_good : forall p z l, factors p z -> amps l -> forall k,
  good (hm_get (scale_entries p l) k) (z k * lamp l k)%C.
Proof.
  intros p z l Hp Hl k. unfold scale_entries.
  rewrite (hm_get_map l (fun k => k) (fun k => k) (fun k v => amulo v (p k))) by auto.
  unfold lamp. destruct (hm_get l k) as [v|] eqn:G; simpl.
  - destruct (amps_get _ _ _ Hl G) as [F M]. specialize (Hp k). replace (z k * aval v)%C with (aval v * z k)%C by ring.
    destruct (p k) as [a|]; unfold amulo.
    + destruct Hp as [Hp Hz]. apply (good_cl 21); [lra|]. apply (cl_mono (0 * 1 + (2 + 0 / 64) * 10 + 1)); [lra|].
      apply cl_mul; auto using cl_self; lra.
    + rewrite Hp. replace (aval v * C1)%C with (aval v) by ring. apply (good_same (Some v)). congruence.
  - replace (z k * C0)%C with C0 by ring. rewrite Cn2_C0. apply tiny_pos.
Qed.

(** ** Vectors *)
Lemma rtol_pos : 0 <= @tol rtol. Proof. apply step_pos. Qed.
Definition nearr (w k : nat) : qstate -> qstate -> Prop := @near rtol w k.
Definition runit (w : nat) : R := @unit_err rtol w.
Lemma runit_pos : forall w, 0 <= runit w.
Proof. intros. apply (@unit_nonneg rtol rtol_pos). Qed.
Lemma near_pw : forall w phi psi, (forall b, In b (basis w) -> Cn2 (phi b - psi b)%C <= tiny) -> nearr w 1 phi psi.
Proof.
  intros w phi psi H. unfold nearr, near. simpl. rewrite Rmult_1_l. apply dist_le; [apply (@unit_nonneg rtol rtol_pos)|].
  rewrite (@unit_sq rtol).
  eapply Rle_trans; [apply (Rsum_const_le _ (fun b => Cn2 (qdiff phi psi b)) tiny (basis w))|].
  - intros b Hb. apply H; auto.
  - rewrite length_basis. unfold tiny. simpl. lra.
Qed.
Lemma baseof_pw : forall m phi psi, (forall k, Cn2 (phi k - psi k)%C <= tiny) ->
  forall b, Cn2 (baseof m phi b - baseof m psi b)%C <= tiny.
Proof.
  intros m phi psi H b. unfold baseof. destruct (inb m b); auto.
  replace (C0 - C0)%C with C0 by ring. rewrite Cn2_C0. apply tiny_pos.
Qed.
Lemma qnorm_dist : forall w a b, qnorm w a <= qnorm w b + dist w a b.
Proof.
  intros. rewrite dist_norm. replace a with (fun x => (b x + qdiff a b x)%C) at 1; [apply qnorm_add|].
  apply functional_extensionality. intros x. unfold qdiff. ring.
Qed.
Lemma qnorm_near : forall w k a b, nearr w k a b -> qnorm w a <= qnorm w b + INR k * runit w.
Proof. intros w k a b H. eapply Rle_trans; [apply (qnorm_dist w a b)|]. unfold nearr, near in H. unfold runit. lra. Qed.
Lemma qnorm_ct : forall w F psi, contraction w F -> qnorm w (F psi) <= qnorm w psi.
Proof. intros w F psi C. apply sqrt_le_1_alt. apply C. Qed.
Lemma amp_le_qnorm : forall w psi b, In b (basis w) -> cmod (psi b) <= qnorm w psi.
Proof.
  intros w psi b Hb. unfold cmod, qnorm. apply sqrt_le_1_alt. unfold norm2, qsum.
  apply (in_split b) in Hb. destruct Hb as [l1 [l2 ->]]. rewrite map_app, Rsum_app. simpl. unfold Rsum at 2. simpl.
  assert (P1 := Rsum_nonneg _ (fun b => Cn2 (psi b)) l1 (fun x _ => Cn2_nonneg _)).
  assert (P2 := Rsum_nonneg _ (fun b => Cn2 (psi b)) l2 (fun x _ => Cn2_nonneg _)).
  unfold Rsum in *. lra.
Qed.
Definition idbound (w : nat) (m : imap nat) : Prop := forall q, has m q -> (q < w)%nat.
Lemma amps_of_norm : forall w m l, im_inj m -> idbound w m -> stok m l -> finl l ->
  qnorm w (baseof m (lamp l)) <= 2 -> amps l.
Proof.
  intros w m l I B [N S] F Q. apply Forall_forall. intros [k v] Hi. simpl.
  unfold finl in F. rewrite Forall_forall in F. split; [apply (F _ Hi)|].
  assert (Lk := S k (In_keys _ _ _ Hi)).
  assert (E : baseof m (lamp l) (from_loc m k) = aval v).
  { unfold baseof. replace (inb m (from_loc m k)) with true.
    - rewrite to_from by auto. unfold lamp. rewrite (In_hm_get l k v N Hi). reflexivity.
    - symmetry. apply inb_spec; auto. apply from_loc_ids. }
  rewrite <- E. eapply Rle_trans; [apply (amp_le_qnorm w)|exact Q].
  apply basis_bits. intros i Hb. apply B. destruct (from_loc_ids m k i Hb) as [l' Hl']. exists l'. exact Hl'.
Qed.

(** ** The operations taken from the queue *)
Lemma uop : forall op, unitary (opmat op).
Proof. destruct op; simpl; auto using uX, uY, uZ, uS, uSadj, uT, uTadj, uRz. Qed.
Definition taken (m : imap nat) (o o' : qop) : Prop :=
  Forall2 (resolved m) (fst (fst o)) (fst (fst o')) /\ resolved m (snd (fst o)) (snd (fst o')) /\ snd o = snd o'.
Lemma taken_weak : forall m ops ops', Forall2 (taken m) ops ops' ->
  Forall2 (fun o o' => Forall2 (resolved m) (fst (fst o)) (fst (fst o')) /\ resolved m (snd (fst o)) (snd (fst o'))) ops ops'.
Proof. induction 1 as [|o o' ops ops' [H1 [H2 _]] H IH]; constructor; auto. Qed.
Lemma ct_op : forall w m o, idbound w m -> opok m o -> contraction w (cgate (fst (fst o)) (opmat (snd o)) (snd (fst o))).
Proof.
  intros w m o B [N H]. inversion N; subst. inversion H; subst. apply ct_cgate; auto using uop.
Qed.
Lemma ct_opsem : forall w m ops, idbound w m -> Forall (opok m) ops -> contraction w (opsem ops).
Proof.
  intros w m ops B. induction 1; [apply ct_id|]. unfold opsem. simpl.
  exact (ct_comp w _ _ (ct_op w m x B H) IHForall).
Qed.
Lemma norm_op : forall w m o psi, idbound w m -> opok m o -> norm2 w (cgate (fst (fst o)) (opmat (snd o)) (snd (fst o)) psi) = norm2 w psi.
Proof. intros w m o psi B [N H]. inversion N; subst. inversion H; subst. apply norm2_cgate; auto using uop. Qed.
Lemma norm_opsem : forall w m ops psi, idbound w m -> Forall (opok m) ops -> norm2 w (opsem ops psi) = norm2 w psi.
Proof.
  intros w m ops psi B H. revert psi. unfold opsem. induction H; intros; simpl; auto.
  rewrite IHForall. eapply norm_op; eauto.
Qed.

Lemma apply_ops_near : forall w m ops ops' l, im_inj m -> idbound w m -> Forall2 (taken m) ops ops' ->
  Forall (opok m) ops -> Forall (opang angle_ok) ops -> stok m l -> finl l ->
  qnorm w (baseof m (lamp l)) + INR (length ops) * runit w <= 2 ->
  finl (map (apply_ops ops') l) /\
  nearr w (length ops) (baseof m (lamp (map (apply_ops ops') l))) (opsem ops (baseof m (lamp l))).
Proof.
  intros w m ops ops' l I B H. revert l. induction H as [|o o' ops ops' [R1 [R2 R3]] H IH]; intros l O An S F Q.
  - unfold apply_ops. simpl. rewrite map_id. split; auto. apply (@near_refl rtol rtol_pos).
  - inversion O as [|? ? [O1 O2] O']; subst. inversion An; subst. cbn [length] in Q. rewrite S_INR in Q.
    assert (Up := runit_pos w). assert (Ip := pos_INR (length ops)).
    assert (E : map (apply_ops (o' :: ops')) l = map (apply_ops ops') (map (apply_op o') l)).
    { rewrite map_map. reflexivity. }
    assert (No : NoDup (snd (fst o') :: fst (fst o'))).
    { eapply (resolved_nodup m (snd (fst o) :: fst (fst o))); auto. }
    assert (Al : amps l) by (eapply amps_of_norm; eauto; nra).
    assert (S1 : stok m (map (apply_op o') l)).
    { replace (map (apply_op o') l) with (map (apply_ops [o']) l) by reflexivity.
      eapply (apply_ops_stok m [o] [o']); auto. constructor; auto. split; auto. }
    assert (Ao : opang angle_ok o') by (unfold opang in *; rewrite <- R3; auto).
    destruct (good_all (map (apply_op o') l) _ (proj1 S1) (apply_op_good o' l No Ao Al)) as [F1 P1].
    assert (N1 : nearr w 1 (baseof m (lamp (map (apply_op o') l))) (cgate (fst (fst o)) (opmat (snd o)) (snd (fst o)) (baseof m (lamp l)))).
    { rewrite R3, <- (baseof_cgate m I _ _ _ _ _ _ R1 R2). apply near_pw. intros b _. apply baseof_pw. exact P1. }
    assert (Q1 := qnorm_near _ _ _ _ N1). assert (Q2 := qnorm_ct w _ (baseof m (lamp l)) (ct_op w m o B (conj O1 O2))).
    simpl (INR 1) in Q1.
    rewrite E. destruct (IH (map (apply_op o') l)) as [F2 N2]; auto; [lra|]. split; auto.
    change (length (o :: ops)) with (1 + length ops)%nat. rewrite Nat.add_comm.
    eapply (@near_trans rtol); [exact N2|]. unfold opsem at 2. simpl.
    apply (@near_ct rtol w 1 (opsem ops)); [eapply ct_opsem; eauto|exact N1].
Qed.
End R.
