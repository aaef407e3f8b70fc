(** * Whole histories with rounding *)
From Coq Require Import Reals NArith List Bool Lia Lra Permutation Arith Sorted FunctionalExtensionality.
From Verif Require Import Cx Arith ArithR IndexMap IndexMapLemmas Bits BitsLemmas Spec QLib QSum Sim SimExp SpecExp
  StateLemmas Loc Abs Gates Gates2 Meas Reg ExpLemmas SpecRun SpecLemmas SimRun RunLemmas SpecAny Any AnyRun
  SpecNear Near NearGates NearGates2 NearExp NearRun NearThms SpecRound Round RoundGates RoundExp RoundReg RoundRun.
Import ListNotations.
Local Open Scope R_scope.

Section RT.
Context {A : Arith} {EN : Env} {AP : Approx}.
Hypothesis laws : approx_ok.
Hypothesis horder_perm : any_order.
Variable w : nat.
Notation wf := inv.
Notation alloc := RoundGates.alloc.
Notation core := RoundGates.core.
Notation base := RoundGates.base.
Notation ids := RoundGates.ids.
Notation abs := RoundGates.abs.
Notation rxin := RoundGates.rxin.
Notation bounds := (RoundGates.bounds w).
Notation cz := RoundGates.cz.

Lemma aexec_app : forall h1 h2 s, aexec s (h1 ++ h2) =
  let* (r1, s1) := aexec s h1 in let* (r2, s2) := aexec s1 h2 in Ok (r1 ++ r2, s2).
Proof.
  induction h1 as [|c h1 IH]; simpl; intros.
  - destruct (aexec s h2) as [[? ?]|]; reflexivity.
  - destruct (arun1 s c) as [[r s1]|]; simpl; auto. rewrite IH. destruct (aexec s1 h1) as [[? ?]|]; simpl; auto.
    destruct (aexec s0 h2) as [[? ?]|]; simpl; auto.
Qed.

Lemma alive_grows : forall c c' b, call_means c c' -> incl (live b) (live (abstep b c)).
Proof.
  intros c c' b M. destruct c; simpl; try apply incl_refl; [|destruct c'; contradiction].
  intros x Hx. apply insert_id_In. auto.
Qed.
Lemma alive_grows_run : forall h h' b, Forall2 call_means h h' -> incl (live b) (live (fold_left abstep h b)).
Proof.
  intros h h' b F. revert b. induction F; intros b; simpl; [apply incl_refl|].
  eapply incl_tran; [eapply alive_grows; eauto|auto].
Qed.

(** The condition that no [ry] acts as its inverse, for a history started with [rx] angles around [G]. *)
Definition clearing (s : sim) (n : nat) (h' : list call) : Prop :=
  Forall (fun c => ~ is_ry c) h' \/
  (exists m, 0 <= m /\ m + rx_total h' + INR (length h') * dlt < PI /\
     step_err < cos ((m + rx_total h' + INR (length h') * dlt) / 2) /\ rxin (fun x => Rabs x <= m) s) \/
  exists G, subgroup G /\ (forall a, G a -> step_err + INR (n + length h') * dlt < Rabs (cos (a / 2))) /\
    Forall (rx_angles G) h' /\ rxin (around G n) s.

Lemma cos_lip : forall x y, Rabs (cos x - cos y) <= Rabs (x - y).
Proof.
  intros x y. destruct (MVT_abs cos (fun z => - sin z) y x) as [c [E _]].
  - intros. apply derivable_pt_lim_cos.
  - rewrite E. assert (S := SIN_bound c). rewrite Rabs_Ropp.
    assert (Rabs (sin c) <= 1) by (apply Rabs_le; lra). assert (P := Rabs_pos (x - y)). nra.
Qed.
Lemma around_far : forall (G : R -> Prop) n m x, (n <= m)%nat -> (forall a, G a -> step_err + INR m * dlt < Rabs (cos (a / 2))) ->
  around G n x -> step_err < Rabs (cos (x / 2)).
Proof.
  intros G n m x L H [g [e [Hg [He ->]]]]. specialize (H g Hg).
  assert (K := cos_lip (g / 2) ((g + e) / 2)). assert (Dl := ap_dlt laws).
  replace (g / 2 - (g + e) / 2) with (- (e / 2)) in K by field. rewrite Rabs_Ropp in K.
  assert (Rabs (e / 2) <= Rabs e).
  { unfold Rdiv. rewrite Rabs_mult, (Rabs_pos_eq (/ 2)) by lra. assert (P := Rabs_pos e). lra. }
  assert (INR n * dlt <= INR m * dlt) by (apply Rmult_le_compat_r; auto; apply le_INR; auto).
  assert (T := Rabs_triang_inv (cos (g / 2)) (cos ((g + e) / 2))).
  assert (T2 := Rabs_triang (cos (g / 2) - cos ((g + e) / 2)) (cos ((g + e) / 2))).
  replace (cos (g / 2) - cos ((g + e) / 2) + cos ((g + e) / 2)) with (cos (g / 2)) in T2 by ring. lra.
Qed.
Lemma rx_total_pos : forall h', 0 <= rx_total h'.
Proof.
  induction h' as [|c h' IH]; [simpl; lra|]. change (0 <= rx_turn c + rx_total h').
  assert (0 <= rx_turn c); [|lra].
  destruct c; simpl; try lra. destruct g; try lra. apply Rabs_pos.
Qed.
Lemma cos_within : forall x m, Rabs x <= m -> m < PI -> cos (m / 2) <= Rabs (cos (x / 2)).
Proof.
  intros x m X M. eapply Rle_trans; [|apply Rle_abs].
  assert (E : cos (x / 2) = cos (Rabs x / 2)).
  { unfold Rabs. destruct (Rcase_abs x); [|reflexivity]. replace (- x / 2) with (- (x / 2)) by field. symmetry. apply cos_neg. }
  rewrite E. assert (P := Rabs_pos x). assert (PP := PI_RGT_0). apply cos_decr_1; lra.
Qed.
Lemma clearing_acts : forall s n c c' h' b, call_means c c' -> b <= lim -> soundB b s -> clearing s n (c' :: h') -> acts_as s c c' = c'.
Proof.
  intros s n c c' h' b M Lb Sd Cl. destruct c; simpl; auto. destruct g; auto. destruct c'; auto. destruct g; auto.
  simpl in M. destruct M as [[_ ->] ->]. f_equal. f_equal. unfold ry_angle.
  destruct (im_get (rx_queue s) t) as [a|] eqn:Ea; auto. destruct (cz a) eqn:Ez; auto. exfalso.
  assert (An : angle_ok a).
  { destruct (sd_rx b s Sd t a Ea) as [F1 F2]. split; auto. lra. }
  assert (K := cz_cos laws a An Ez).
  assert (Fr : step_err < Rabs (cos (tval a / 2))).
  { destruct Cl as [F|[[m [M0 [Lp [Lc R]]]]|[G [SG [H [F R]]]]]].
    - inversion F; subst; simpl in *; tauto.
    - assert (Dl := ap_dlt laws). set (z := m + rx_total (CGate (GRy (tval th)) t :: h') + INR (length (CGate (GRy (tval th)) t :: h')) * dlt) in *.
      assert (Z : m <= z).
      { unfold z. assert (P1 := rx_total_pos (CGate (GRy (tval th)) t :: h')). assert (P2 : 0 <= INR (length (CGate (GRy (tval th)) t :: h')) * dlt) by (apply Rmult_le_pos; [apply pos_INR|auto]). lra. }
      eapply Rlt_le_trans; [exact Lc|]. apply cos_within; [|lra]. eapply Rle_trans; [apply (R t a Ea)|exact Z].
    - eapply (around_far G n); [|exact H|apply (R t a Ea)]; lia. }
  assert (E2 : Rabs (cos (tval a / 2)) * Rabs (cos (tval a / 2)) = cos (tval a / 2) * cos (tval a / 2))
    by (rewrite <- Rabs_mult; apply Rabs_pos_eq; nra).
  assert (P := step_pos laws). nra.
Qed.
Lemma clearing_step : forall s s' n c' h', rkept s s' c' -> clearing s n (c' :: h') -> clearing s' (S n) h'.
Proof.
  intros s s' n c' h' K [F|[[m [M0 [Lp [Lc R]]]]|[G [SG [H [F R]]]]]].
  - left. inversion F; auto.
  - right. left. assert (Dl := ap_dlt laws). exists (m + rx_turn c' + dlt).
    assert (T : 0 <= rx_turn c') by (destruct c'; simpl; try lra; destruct g; try lra; apply Rabs_pos).
    assert (Z : m + rx_total (c' :: h') + INR (length (c' :: h')) * dlt = m + rx_turn c' + dlt + rx_total h' + INR (length h') * dlt).
    { simpl length. rewrite S_INR. change (rx_total (c' :: h')) with (rx_turn c' + rx_total h'). ring. }
    rewrite Z in *. split; [lra|]. split; [auto|]. split; [auto|]. apply (rkept_within laws s s' c' m); auto.
  - right. right. exists G. split; auto. inversion F; subst. split; [|split; auto].
    2: { eapply rkept_around; eauto. }
    intros a Ha. specialize (H a Ha). simpl length in H. replace (n + S (length h'))%nat with (S n + length h')%nat in H by lia. exact H.
Qed.

Lemma budget_left : forall s psi k n j c, bounds s -> norm2 w psi <= 1 -> Cn2 k = 1 ->
  (j + ql s <= n)%nat -> nearr w j (abs s) (scale k psi) -> INR (n + c) * runit w <= 1 -> budget w c s.
Proof.
  intros s psi k n j c Bd Nv K L Nj Q. unfold budget. rewrite <- qnorm_abs by auto.
  assert (Q1 := qnorm_near _ _ _ _ Nj).
  assert (Q2 : qnorm w (scale k psi) <= 1) by (apply qnorm_le_1; rewrite norm2_scale, K, Rmult_1_l; auto).
  assert (I := le_INR (j + (c + ql s)) (n + c) ltac:(lia)).
  assert (M := Rmult_le_compat_r _ _ _ (runit_pos laws w) I). rewrite plus_INR, Rmult_plus_distr_r in M. lra.
Qed.

Lemma turn_pos : forall c, 0 <= turn c.
Proof.
  assert (Dl := ap_dlt laws). destruct c; simpl; try lra. destruct g; try lra; assert (P := Rabs_pos (tval th)); lra.
Qed.
Lemma turns_pos : forall h, 0 <= turns h.
Proof. induction h; simpl; [lra|]. assert (P := turn_pos a). lra. Qed.
Lemma held_mono : forall m m' c, m <= m' -> held m c -> held m' c.
Proof. intros m m' c L H. destruct c; simpl in *; auto; try destruct g; auto; lra. Qed.

Lemma exec_round : forall h h' s bk psi n k b m, abook s bk -> avalid_run bk h -> Forall2 call_means h h' ->
  0 <= b -> b + turns h <= lim -> Forall (held b) h -> soundB b s ->
  (forall q, In q (live (fold_left abstep h bk)) -> (q < w)%nat) ->
  norm2 w psi = 1 -> Cn2 k = 1 ->
  (exists j, (j + ql s <= n)%nat /\ nearr w j (abs s) (scale k psi)) ->
  INR (n + total_rcost bk h) * runit w <= 1 ->
  exists rs s' h'' k' b', aexec s h = Ok (rs, s') /\ Forall2 up_to_ry_sign h' h'' /\ (clearing s m h' -> h'' = h') /\
    abook s' (fold_left abstep h bk) /\ 0 <= b' <= lim /\ soundB b' s' /\ Cn2 k' = 1 /\
    norm2 w (evolve h'' psi) = 1 /\
    exists j, (j + ql s' <= n + total_rcost bk h)%nat /\ nearr w j (abs s') (scale k' (evolve h'' psi)).
Proof.
  induction h as [|c h IH]; intros h' s bk psi n k b m Bk V M B0 Bl Hd Sd Bw Nv K [j [Lj Nj]] Q; inversion M; subst; simpl.
  - exists [], s, [], k, b. rewrite Nat.add_0_r. simpl in Bl. split; [reflexivity|]. split; [constructor|].
    split; [auto|]. split; [auto|]. split; [lra|]. split; [auto|]. split; [auto|]. split; [auto|]. eauto.
  - rename y into c'. rename l' into h'. rename H1 into Mc. rename H3 into Mh.
    destruct V as [V1 V2]. inversion Hd; subst. simpl in Bw, Q. change (b + (turn c + turns h) <= lim) in Bl. assert (Tp := turn_pos c). assert (Tps := turns_pos h).
    assert (Bv : forall q, In q (live bk) -> (q < w)%nat).
    { intros q Hq. apply Bw. eapply alive_grows_run; eauto. eapply alive_grows; eauto. }
    assert (Bd : bounds s) by (intros q Hq; apply Bv; apply (ab_has s bk); auto).
    assert (Qc : budget w (rcost (live bk) c) s).
    { apply (budget_mono laws w _ (rcost (live bk) c + total_rcost (abstep bk c) h)); [lia|].
      eapply (budget_left s psi k n j); eauto. lra. }
    assert (I1 : b <= b + turn c) by lra. assert (I2 : b + turn c <= lim) by lra.
    destruct (one_call horder_perm s bk c Bk V1) as [[r [s1 [E [Bk1 _]]]]|[Ia Ep]].
    2:{ exfalso. destruct (call_empty laws horder_perm w b (b + turn c) I1 I2 c c' s bk Bk V1 Mc Ia Ep Bd Sd Qc) as [i [Ei Qi]].
        assert (Ru := runit_pos laws w).
        assert (Q1 : qnorm w (scale k psi) = 1) by (unfold qnorm; rewrite norm2_scale, K, Nv, Rmult_1_l; apply sqrt_1).
        assert (Q2 := qnorm_dist w (scale k psi) (abs s)). rewrite dist_comm in Q2.
        change (dist w (abs s) (scale k psi) <= INR j * runit w) in Nj.
        assert (Q3 : INR (i + ql s + j) * runit w + runit w <= 1).
        { eapply Rle_trans; [|exact Q]. rewrite <- (Rmult_1_l (runit w)) at 2. rewrite <- Rmult_plus_distr_r, <- S_INR.
          apply Rmult_le_compat_r; auto. apply le_INR. lia. }
        rewrite plus_INR, Rmult_plus_distr_r in Q3.
        assert (Z : runit w = 0) by lra. rewrite Z, Rmult_0_r in *. lra. }
    destruct (call_rmoved laws horder_perm w b (b + turn c) B0 I1 I2 c c' s bk r s1 Bk V1 Mc H1 (Rle_refl _) E Bd Sd Qc)
      as [[kc [F [Kc [Ct [Li [Ve [Sd1 [i [Li1 Ni]]]]]]]]] Rk].
    destruct (IH h' s1 (abstep bk c) (F psi) (n + rcost (live bk) c)%nat (kc * k)%C (b + turn c) (S m))
      as [rs [s2 [h'' [k' [b' [E2 [F2 [St [Bk2 [Bb [Sd2 [K2 [Nv2 Ne2]]]]]]]]]]]]]; auto.
    + lra.
    + lra.
    + eapply Forall_impl; [|exact H2]. intros c0. apply held_mono. lra.
    + rewrite <- (Ve [] psi 0). erewrite means_norm; eauto.
    + rewrite Cn2_mul, Kc, K. lra.
    + exists (i + j)%nat. split; [lia|]. rewrite <- scale_scale, <- Li. eapply (ntrans w); [exact Ni|].
      apply nct; [apply ct_scale; lra|]. apply nct; auto.
    + rewrite <- Nat.add_assoc. exact Q.
    + rewrite E. cbn [bind]. rewrite E2. cbn [bind]. exists (r :: rs), s2, (acts_as s c c' :: h''), k', b'.
      assert (Ee : evolve (acts_as s c c' :: h'') psi = evolve h'' (F psi)) by (unfold evolve; simpl; now rewrite Ve).
      rewrite Ee.
      split; [reflexivity|]. split; [constructor; auto using acts_sign|].
      split.
      { intros Cl. rewrite St by (eapply clearing_step; eauto). f_equal. apply (clearing_acts s m c c' h' b); auto. lra. }
      rewrite Nat.add_assoc. split; [exact Bk2|]. split; [exact Bb|]. split; [exact Sd2|]. split; [exact K2|]. split; auto.
Qed.

(** ** From the start *)
Lemma abs_new : forall g, abs (new_sim g) = ket0.
Proof.
  intros g. set (s' := new_sim g). unfold abs.
  assert (G : forall x, im_get (id_map s') x = None) by (intros; apply im_get_empty).
  assert (I' : im_inj (id_map s')) by (intros i j l; rewrite G; discriminate).
  change (ids s') with (@nil nat). unfold pendl. simpl. unfold core. change (op_queue s') with (@nil qop).
  unfold Round.opsem. simpl. apply functional_extensionality. intros b. unfold base, baseof, ket0.
  assert (Ei : inb (id_map s') b = N.eqb b 0).
  { apply eq_true_iff_eq. rewrite inb_spec by auto. rewrite N.eqb_eq. split.
    - intros H. apply bits_ext. intros i. rewrite bit_0. destruct (bit b i) eqn:Eb; auto.
      destruct (H i Eb) as [l Hl]. rewrite G in Hl. discriminate.
    - intros -> i Hi. rewrite bit_0 in Hi. discriminate. }
  rewrite Ei. destruct (N.eqb_spec b 0); auto. subst b. change (aval amp1 = C1). apply laws.
Qed.
Lemma sound_new : forall g b, soundB b (new_sim g).
Proof.
  intros g b. constructor.
  - constructor; [|constructor]. simpl. apply (ap_1 laws).
  - intros q a. simpl. rewrite im_get_empty. discriminate.
  - intros q a. simpl. rewrite im_get_empty. discriminate.
  - constructor.
Qed.
Lemma clear_clearing : forall g h', clear_of_odd_pi h' -> clearing (new_sim g) 0 h'.
Proof.
  intros g h' [F|[[Lp Lc]|[G [SG [H F]]]]]; [left; auto| |].
  { right. left. exists 0. rewrite !Rplus_0_l. split; [lra|]. split; [auto|]. split; [auto|]. intros q a. simpl. rewrite im_get_empty. discriminate. }
  right. right. exists G. split; auto. split; auto. split; auto.
  intros q a. simpl. rewrite im_get_empty. discriminate.
Qed.

Lemma supported_opsem : forall l ops psi, (forall o, In o ops -> In (snd (fst o)) l) ->
  supported l psi -> supported l (Round.opsem ops psi).
Proof.
  unfold Round.opsem. induction ops; simpl; intros; auto. apply IHops; auto.
  apply supported_cgate; auto.
Qed.
Lemma supported_abs : forall s, wf s -> supported (ids s) (abs s).
Proof.
  intros s W. apply supported_pendl; auto. apply supported_opsem; [|apply supported_baseof].
  intros o Ho. apply ids_In. generalize (i_ops s W). rewrite Forall_forall. intros F.
  destruct (F o Ho) as [_ Al]. inversion Al; auto.
Qed.

(** [runit] written out. *)
Lemma drift_eq : forall n, drift w n = INR n * runit w.
Proof. reflexivity. Qed.

Theorem rounding : forall g h h', avalid_run (mkBook [] true) h -> Forall2 call_means h h' -> angles_fit h ->
  (forall q, In q (live (fold_left abstep h (mkBook [] true))) -> (q < w)%nat) ->
  drift w (total_rcost (mkBook [] true) (h ++ [AState])) <= 1 ->
  exists rs st s h'' phi k,
    aexec (new_sim g) (h ++ [AState]) = Ok (rs ++ [AListed st (length (live (fold_left abstep h (mkBook [] true))))], s) /\
    all_finite st /\ supported (live (fold_left abstep h (mkBook [] true))) phi /\
    listing (values st) (live (fold_left abstep h (mkBook [] true))) phi /\
    Forall2 up_to_ry_sign h' h'' /\ (clear_of_odd_pi h' -> h'' = h') /\ Cn2 k = 1 /\
    dist w phi (scale k (evolve h'' ket0)) <= drift w (total_rcost (mkBook [] true) (h ++ [AState])).
Proof.
  intros g h h' V M [An Hd] Bw Q. set (b0 := mkBook [] true) in *. set (bk := fold_left abstep h b0) in *.
  assert (Tc : total_rcost b0 (h ++ [AState]) = (total_rcost b0 h + 9 * length (live bk))%nat).
  { unfold bk. clear. generalize b0. induction h as [|c h IH]; intros b; simpl; [lia|]. rewrite IH. lia. }
  rewrite drift_eq, Tc in Q. assert (Rp := runit_pos laws w).
  destruct (exec_round h h' (new_sim g) b0 ket0 0 C1 (lim - turns h) 0 (new_abook g) V M)
    as [rs [s1 [h'' [k [b' [E [F2 [St [Bk [Bb [Sd [K [Nv [j [Lj Nj]]]]]]]]]]]]]]]; auto.
  - lra.
  - lra.
  - apply sound_new.
  - apply ket0_norm.
  - apply Cn2_C1.
  - exists 0%nat. split; [unfold ql; simpl; lia|]. rewrite abs_new, scale_1. apply (nrefl laws).
  - eapply Rle_trans; [|exact Q]. apply Rmult_le_compat_r; auto. apply le_INR. lia.
  - fold bk in Bk. simpl in Lj. assert (W : wf s1) by apply Bk.
    assert (Ids : ids s1 = live bk) by (apply (ab_ids s1 bk Bk)).
    assert (Bd : bounds s1) by (intros q Hq; apply Bw; apply (ab_has s1 bk); auto).
    destruct (get_state_r laws horder_perm w b' s1 (proj2 Bb) W) as [st [s2 [E2 [_ [L N]]]]]. rewrite Ids in *.
    destruct N as [Fi [Sd2 [i [Li Ni]]]]; auto.
    { eapply (budget_left s1 (evolve h'' ket0) k (total_rcost b0 h) j); eauto. lra. }
    assert (W2 : wf s2 /\ ids s2 = live bk).
    { destruct (one_call horder_perm s1 bk AState Bk Logic.I) as [[r [s2' [E' [Bk' _]]]]|[[] _]].
      simpl in E'. rewrite E2 in E'. simpl in E'. inversion E'; subst. split; [apply Bk'|apply (ab_ids _ _ Bk')]. }
    destruct W2 as [W2 Ids2].
    exists rs, st, s2, h'', (abs s2), k. split.
    { rewrite aexec_app, E. cbn [bind aexec arun1]. rewrite E2. reflexivity. }
    split; [exact Fi|]. split; [rewrite <- Ids2; apply supported_abs; auto|]. split; [exact L|].
    split; [exact F2|]. split; [intros Cl; apply St; apply clear_clearing; auto|]. split; [exact K|].
    rewrite drift_eq, Tc. eapply Rle_trans; [exact (ntrans w _ _ _ _ _ Ni Nj)|].
    apply Rmult_le_compat_r; auto. apply le_INR. lia.
Qed.
End RT.
