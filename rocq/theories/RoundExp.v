(** * Pauli exponentials with rounding *)
From Coq Require Import Reals NArith List Bool Lia Lra Permutation Arith FunctionalExtensionality Sorted.
From Verif Require Import Cx Arith ArithR IndexMap IndexMapLemmas Bits BitsLemmas Spec QLib QSum Sim SimExp SpecExp
  StateLemmas Loc Abs Gates Gates2 Meas Reg ExpLemmas SpecAny Any AnyRun SpecNear Near NearGates NearGates2 NearExp
  SpecRound Round RoundGates.
Import ListNotations.
Local Open Scope R_scope.

Lemma cmod_sgn : forall b, cmod (sgn b) = 1.
Proof. intros []; unfold sgn; rewrite ?cmod_opp; apply cmod_1. Qed.
Lemma cmod_cpow : forall c n, cmod c = 1 -> cmod (cpow c n) = 1.
Proof. intros c n H. induction n; simpl; [apply cmod_1|]. rewrite cmod_mul, H, IHn. ring. Qed.
Lemma cmod_Cis : forall x, cmod (Cis x) <= 1.
Proof. intros. apply cmod_unit. rewrite Cn2_Cis. lra. Qed.

Section RE.
Context {A : Arith} {EN : Env} {AP : Approx}.
Hypothesis laws : approx_ok.
Hypothesis horder_perm : any_order.
Notation lamp := Round.lamp.

Lemma exp_good : forall cs l th idc pc2 pca m,
  (forall c, In c cs -> ~ In c (map snd l)) -> NoDup (map snd l) -> pmask is_xy l <> 0%N -> NoDup (keys m) -> amps m ->
  let P := (Ci * RtoC (sin th) * cpow Ci (ycount l))%C in
  cl 4 idc (RtoC (cos th)) -> cl 4 pc2 P -> cl 4 pca (if Nat.even (ycount l) then P else (- P)%C) ->
  let r := flat_map (exp_entry cs (pmask is_xy l) (pmask is_yz l) idc pc2 pca m) m in
  NoDup (keys r) /\ forall k, good (hm_get r k) (ctrl_op cs (exp_op th l) (lamp m) k).
Proof.
  intros cs l th idc pc2 pca m Dcs D Hx Nm Hm P Cid Cpc Cpa r.
  set (Pa := if Nat.even (ycount l) then P else (- P)%C) in *.
  set (xy := pmask is_xy l) in *. set (yz := pmask is_yz l) in *.
  set (phi := fun k => N.lxor k xy).
  assert (Pi : forall k, phi (phi k) = k).
  { intros. unfold phi. rewrite N.lxor_assoc, N.lxor_nilpotent, N.lxor_0_r. auto. }
  assert (Pne : forall k, phi k <> k).
  { intros k E. apply Hx. unfold phi in E. apply (f_equal (N.lxor k)) in E.
    rewrite <- N.lxor_assoc, N.lxor_nilpotent in E. rewrite N.lxor_0_l in E. auto. }
  assert (Cp : forall k, all_set cs (phi k) = all_set cs k).
  { intros. unfold all_set. clear - Dcs. revert Dcs. unfold phi, xy. induction cs; simpl; intros; auto.
    rewrite IHcs by auto. f_equal. unfold bit. rewrite N.lxor_spec.
    fold (bit (pmask is_xy l) a). rewrite pmask_out by auto. apply xorb_false_r. }
  assert (Pp : forall k, masked_parity yz (phi k) = xorb (masked_parity yz k) (Nat.odd (ycount l))).
  { intros. unfold phi. rewrite masked_lxor. f_equal. apply xy_yz_parity. auto. }
  set (ca := fun k => if masked_parity yz k then aopp pca else pca).
  set (c2 := fun k => if masked_parity yz k then aopp pc2 else pc2).
  assert (Bo : NoDup (keys r) /\ forall k, hm_get r k = pair_get phi (all_set cs) (fun k => negb (N.ltb k (phi k)))
     (fun k v => amul v idc) (fun k v => amul v (c2 k))
     (fun k v w => anz (aadd (amul v idc) (amul w (ca k)))) (fun k v w => anz (aadd (amul w idc) (amul v (c2 k))))
     (fun k v w => aadd (amul v idc) (amul w (ca k)))
     (fun k v w => aadd (amul w idc) (amul v (c2 k))) m k).
  { apply pair_both; auto.
    - intros k. rewrite Pi. destruct (N.ltb_spec (phi k) k); destruct (N.ltb_spec k (phi k)); auto; exfalso;
        [lia|specialize (Pne k); lia].
    - intros k v H. unfold exp_entry. rewrite H. auto.
    - intros k v H G. unfold exp_entry. rewrite H. fold (phi k). rewrite G. apply Permutation_refl.
    - intros k v w H G S. unfold exp_entry. rewrite H. fold (phi k). rewrite G.
      apply negb_true_iff in S. rewrite S. auto.
    - intros k v w H G S. unfold exp_entry. rewrite H. fold (phi k). rewrite G.
      apply negb_false_iff in S. rewrite S. reflexivity. }
  destruct Bo as [B1 B2]. split; [exact B1|].
  assert (K1 : forall k, cl 4 (ca k) (exp_coef th l k)).
  { intros k. assert (E : exp_coef th l k = if masked_parity yz k then (- Pa)%C else Pa).
    { unfold exp_coef, Pa, P. rewrite cpow_neg. fold yz. rewrite <- Nat.negb_odd.
      destruct (masked_parity yz k); destruct (Nat.odd (ycount l)); simpl; unfold sgn; ring. }
    rewrite E. unfold ca. destruct (masked_parity yz k); auto using cl_opp. }
  assert (K2 : forall k, cl 4 (c2 (phi k)) (exp_coef th l k)).
  { intros k. assert (E : exp_coef th l k = if masked_parity yz (phi k) then (- P)%C else P).
    { rewrite Pp. unfold exp_coef, P. rewrite cpow_neg. fold yz.
      destruct (masked_parity yz k); destruct (Nat.odd (ycount l)); simpl; unfold sgn; ring. }
    rewrite E. unfold c2. destruct (masked_parity yz (phi k)); auto using cl_opp. }
  assert (Kb : forall k, cmod (exp_coef th l k) <= 1).
  { intros k. unfold exp_coef. rewrite !cmod_mul, cmod_i, cmod_sgn, cmod_cpow by (rewrite cmod_opp; apply cmod_i).
    assert (H := cmod_sin th). lra. }
  assert (Ex : forall k, exp_op th l (lamp m) k = (RtoC (cos th) * lamp m k + exp_coef th l k * lamp m (phi k))%C).
  { intros. unfold exp_op, exp_coef. rewrite pauli_product_masks by auto. unfold phi, xy. ring. }
  intros k. rewrite B2. unfold pair_get, ctrl_op. fold (all_set cs k).
  destruct (all_set cs k) eqn:Al.
  2:{ apply good_same; auto. intros v G. apply (amps_get _ _ _ Hm G). }
  assert (S1 : forall v a z, afin v -> cmod (aval v) <= 2 -> cl 4 a z -> cmod z <= 1 -> cl 9 (amul v a) (aval v * z)%C).
  { intros v a z F M Ca Mz. apply (cl_mono laws (0 * 1 + (2 + 0 / 64) * 4 + 1)); [lra|]. apply cl_mul; auto using cl_self; lra. }
  assert (M2 : forall z y, cmod z <= 2 -> cmod y <= 1 -> cmod (z * y)%C <= 2).
  { intros z y M My. rewrite cmod_mul. assert (Q := cmod_nonneg y). assert (Q' := cmod_nonneg z). nra. }
  assert (S2 : forall v w a b z y, afin v -> cmod (aval v) <= 2 -> afin w -> cmod (aval w) <= 2 ->
    cl 4 a z -> cmod z <= 1 -> cl 4 b y -> cmod y <= 1 -> cl 19 (aadd (amul v a) (amul w b)) (aval v * z + aval w * y)%C).
  { intros. apply (cl_mono laws (9 + 9 + 1)); [lra|]. apply (cl_add laws _ _ _ _ _ _ 2 2); auto; lra. }
  assert (Tz : forall n z, cl 19 n z -> anz n = true -> Cn2 z <= tiny).
  { intros n z H Z. apply (nz_tiny laws 19 _ _ ltac:(lra) H) in Z. auto. }
  assert (Mc := cmod_cos th). assert (Me := Kb k). assert (E1 := K1 k). assert (E2 := K2 k).
  rewrite Ex. unfold lamp.
  destruct (hm_get m k) as [v|] eqn:G1; destruct (hm_get m (phi k)) as [w|] eqn:G2.
  - destruct (amps_get _ _ _ Hm G1) as [Fv Mv]. destruct (amps_get _ _ _ Hm G2) as [Fw Mw].
    replace (RtoC (cos th) * aval v + exp_coef th l k * aval w)%C with (aval v * RtoC (cos th) + aval w * exp_coef th l k)%C by ring.
    destruct (negb (N.ltb k (phi k))); eapply (good_emo laws 19); [lra| | |reflexivity|lra| | |reflexivity]; eauto.
  - destruct (amps_get _ _ _ Hm G1) as [Fv Mv].
    replace (RtoC (cos th) * aval v + exp_coef th l k * C0)%C with (aval v * RtoC (cos th))%C by ring.
    apply (good_cl laws 9); auto. lra.
  - destruct (amps_get _ _ _ Hm G2) as [Fw Mw].
    replace (RtoC (cos th) * C0 + exp_coef th l k * aval w)%C with (aval w * exp_coef th l k)%C by ring.
    apply (good_cl laws 9); auto. lra.
  - simpl. replace (RtoC (cos th) * C0 + exp_coef th l k * C0)%C with C0 by ring. rewrite Cn2_C0. apply tiny_pos; auto.
Qed.

Variable w : nat.
Variable B : R.
Hypothesis B_lim : B <= lim.
Notation wf := inv.
Notation nst := (RoundGates.nst w B).
Notation ncs := (RoundGates.ncs w B).
Notation bounds := (RoundGates.bounds w).
Notation alloc := RoundGates.alloc.
Notation angB := (angle_le B).

Lemma ncs_put : forall s st F Fl, wf s -> op_queue s = [] -> stok (id_map s) st ->
  (amps (state s) -> forall k, good (hm_get st k) (Fl k)) ->
  (forall b, baseof (id_map s) Fl b = F (base s) b) -> (bounds s -> contraction w F) ->
  ncs 1 s (with_state s st) F.
Proof.
  intros s st F Fl W Qe So H Hb Ct. constructor.
  - constructor; reflexivity.
  - destruct W; constructor; simpl; auto.
  - intros Bd Sd Q. split; auto.
    assert (Am : amps (state s)).
    { apply (amps_of_norm w (id_map s)); auto; try apply W; try apply Sd.
      apply (budget_norm laws) in Q. unfold core, base in Q. rewrite Qe in Q. exact Q. }
    destruct (good_all _ _ (proj1 So) (H Am)) as [F2 P2].
    split; [destruct Sd; constructor; simpl; auto|]. exists 1%nat. split; [unfold ql; simpl; lia|].
    unfold core. simpl. rewrite Qe. simpl. unfold base at 1. simpl. apply near_pw; auto. intros b _. rewrite <- Hb.
    apply baseof_pw; auto.
Qed.

Definition expcost (n : nat) : nat := (9 * n + 1)%nat.

Lemma mcexp_n : forall s cs ps theta ts, wf s -> NoDup (cs ++ ts) -> Forall (alloc s) (cs ++ ts) ->
  (length ps <= length ts)%nat -> angB theta ->
  exists s', mcexp s cs ps theta ts = Ok s' /\
    nst (expcost (length (cs ++ ts))) s s' (ctrl_op cs (exp_op (tval theta) (combine ps ts))).
Proof.
  intros s cs ps theta ts W D Al L An. unfold mcexp. apply Forall_app in Al as A'. destruct A' as [Ac At].
  set (th := tval theta).
  assert (Ao : angle_ok theta) by (eapply angB_ok; eauto).
  destruct (flush_two_n laws horder_perm w B B_lim s cs ts W Ac At) as [s1 [s2 [E1 [E2 [G2 [Q2 [N2 L2]]]]]]].
  rewrite E1. cbn [bind]. rewrite E2. cbn [bind].
  assert (W2 : wf s2) by apply G2.
  assert (Ac2 : Forall (alloc s2) cs) by (eapply nst_Forall; eauto).
  assert (At2 : Forall (alloc s2) ts) by (eapply nst_Forall; eauto).
  destruct (amapM_find s2 cs Ac2) as [cs' [E3 R3]]. rewrite E3. cbn [bind].
  destruct (amapM_find s2 ts At2) as [ts' [E4 R4]]. rewrite E4. cbn [bind].
  assert (D' : NoDup (cs' ++ ts')).
  { eapply (resolved_nodup (id_map s2) (cs ++ ts)); eauto; [apply W2|]. apply Forall2_app; auto. }
  assert (Ad : adjacent_dup (sort_nat (cs' ++ ts')) = None).
  { apply adjacent_dup_none. apply sorted_le_lt; [apply sort_nat_sorted|].
    eapply Permutation_NoDup; [apply Permutation_sym, sort_nat_perm|auto]. }
  rewrite Ad.
  pose proof (exp_masks_ok ps [] ts' 0%N 0%N 0) as EM. rewrite <- (Forall2_len _ _ _ _ _ R4) in EM. specialize (EM L).
  simpl in EM. rewrite EM. cbn [bind]. clear EM.
  destruct (NoDup_app_inv _ _ _ D') as [Dc [Dt Dx]].
  destruct (NoDup_app_inv _ _ _ D) as [_ [_ Dx0]].
  set (l' := combine ps ts') in *.
  assert (Dl : NoDup (map snd l')) by (apply nodup_combine_snd; auto).
  assert (Dcl : forall c, In c cs' -> ~ In c (map snd l')).
  { intros c Hc Hi. apply in_combine_snd in Hi. eapply Dx; eauto. }
  assert (R5 : Forall2 (fun p p' => fst p = fst p' /\ resolved (id_map s2) (snd p) (snd p')) (combine ps ts) l')
    by (apply Forall2_combine; auto).
  assert (Ct : bounds s2 -> contraction w (ctrl_op cs (exp_op th (combine ps ts)))).
  { intros Bd. apply ct_exp; auto. intros q Hq. apply Bd. rewrite Forall_forall in At2. apply At2; auto. }
  assert (Fin : forall st, stok (id_map s2) st ->
    (amps (state s2) -> forall k, good (hm_get st k) (ctrl_op cs' (exp_op th l') (lamp (state s2)) k)) ->
    nst (expcost (length (cs ++ ts))) s (with_state s2 st) (ctrl_op cs (exp_op th (combine ps ts)))).
  { intros st So Hl. eapply (nst_seq laws w B _ _ 1); [exact G2| |unfold expcost; rewrite app_length; lia].
    assert (C : ncs 1 s2 (with_state s2 st) (ctrl_op cs (exp_op th (combine ps ts)))).
    { eapply ncs_put; eauto. intros b. rewrite (baseof_ctrl_exp (id_map s2) cs cs' (combine ps ts) l'); auto. apply W2. }
    apply (ncs_abs w B _ _ _ _ _ C); auto.
    intros psi. apply pendl_commute.
    intros q U phi Hq. destruct (in_dec Nat.eq_dec q (cs ++ ts)) as [Hi|Hi].
    - left. apply no_pend_pm. apply N2. apply in_app_or in Hi. auto.
    - right. rewrite in_app_iff in Hi. apply ctrl_exp_gate1; [tauto|].
      intro Hx. apply in_combine_snd in Hx. tauto. }
  destruct (i_st s2 W2) as [S1 S2].
  assert (Ci1 : cl 1 (cfull theta) (RtoC (cos th))) by (apply cl_cfull; auto).
  assert (Cs1 : cl 2 (amul ampi (sfull theta)) (Ci * RtoC (sin th))%C).
  { apply (cl_mono laws (0 * 1 + (1 + 0 / 64) * 1 + 1)); [lra|].
    apply cl_mul; auto using cl_i; try lra; try apply cmod_sin; [apply cl_one, ap_sfull; auto|rewrite cmod_i; lra]. }
  assert (Mc := cmod_cos th). assert (Ms := cmod_sin th).
  assert (Mi : cmod (Ci * RtoC (sin th))%C <= 1) by (rewrite cmod_mul, cmod_i; lra).
  destruct (N.eqb_spec (pmask is_xy l') 0).
  - assert (Y0 : ycount l' = 0%nat).
    { clear - e Dl. induction l' as [|[p t] l IH]; auto. simpl in *. inversion Dl; subst.
      destruct p; simpl in *; auto.
      - exfalso. apply (f_equal (fun k => bit k t)) in e. rewrite bit_set_same, bit_0 in e. discriminate.
      - exfalso. apply (f_equal (fun k => bit k t)) in e. rewrite bit_set_same, bit_0 in e. discriminate. }
    set (pc1 := aadd (amul ampi (sfull theta)) (cfull theta)).
    set (idc1 := asub (aadd (cfull theta) (cfull theta)) pc1).
    assert (Cp1 : cl 4 pc1 (Cis th)).
    { replace (Cis th) with (Ci * RtoC (sin th) + RtoC (cos th))%C by (unfold Cis; ceq).
      apply (cl_mono laws (2 + 1 + 1)); [lra|]. apply (cl_add laws _ _ _ _ _ _ 1 1); auto; lra. }
    assert (Cd1 : cl 8 idc1 (Cis (- th))).
    { replace (Cis (- th)) with (RtoC (cos th) + RtoC (cos th) - Cis th)%C by (unfold Cis; rewrite cos_neg, sin_neg; ceq).
      apply (cl_mono laws (3 + 4 + 1)); [lra|]. apply (cl_sub laws _ _ _ _ _ _ 2 1); auto; try lra.
      - apply (cl_mono laws (1 + 1 + 1)); [lra|]. apply (cl_add laws _ _ _ _ _ _ 1 1); auto; lra.
      - eapply Rle_trans; [apply cmod_add|]. lra.
      - apply cmod_Cis. }
    assert (Zs : forall n a x, 0 <= n <= 32 -> cl n a (Cis x) -> anz a = false).
    { intros n0 a x Hn H. apply not_true_iff_false. intros Z. apply (nz_tiny laws _ _ _ Hn H) in Z. rewrite Cn2_Cis in Z.
      unfold tiny in Z. assert (Sm := ap_small laws). assert (Sp := step_pos laws). nra. }
    rewrite (Zs 4 _ _ ltac:(lra) Cp1), (Zs 8 _ _ ltac:(lra) Cd1). eexists; split; [reflexivity|].
    assert (Eq : map (fun iv => if all_set cs' (fst iv)
         then (fst iv, amul (snd iv) (if masked_parity (pmask is_yz l') (fst iv) then idc1 else pc1))
         else iv) (state s2) =
       scale_entries (fun k => if all_set cs' k then Some (if masked_parity (pmask is_yz l') k then idc1 else pc1) else None) (state s2)).
    { apply map_ext. intros [k v]. simpl. destruct (all_set cs' k); auto. }
    rewrite Eq. apply Fin.
    + unfold stok. rewrite keys_scale_entries. auto.
    + intros Am k.
      assert (Fc : factors (fun k => if all_set cs' k then Some (if masked_parity (pmask is_yz l') k then idc1 else pc1) else None)
        (fun k => if all_set cs' k then (if masked_parity (pmask is_yz l') k then Cis (- th) else Cis th) else C1)).
      { intros j. cbv beta. destruct (all_set cs' j); auto. destruct (masked_parity (pmask is_yz l') j); split; auto using cmod_Cis.
        - eapply cl_mono; [auto| |exact Cd1]. lra.
        - eapply cl_mono; [auto| |exact Cp1]. lra. }
      match goal with |- good _ ?z => replace z with
        ((if all_set cs' k then (if masked_parity (pmask is_yz l') k then Cis (- th) else Cis th) else C1) * lamp (state s2) k)%C end.
      { apply (scale_good laws _ _ (state s2) Fc Am). }
      unfold ctrl_op. fold (all_set cs' k). destruct (all_set cs' k); [|ring].
      unfold exp_op. rewrite pauli_product_masks by auto. rewrite e, Y0, N.lxor_0_r. simpl.
      destruct (masked_parity (pmask is_yz l') k); unfold sgn, Cis; rewrite ?cos_neg, ?sin_neg;
        destruct (lamp (state s2) k); ceq.
  - eexists; split; [reflexivity|].
    set (m := hm_collect (state s2)).
    assert (P : Permutation m (state s2)) by (eapply collect_perm; eauto; apply W2).
    assert (Sm : stok (id_map s2) m) by (apply stok_collect; auto; apply W2).
    set (u := match (ycount l' mod 4)%nat with 1%nat => ampi | 2%nat => aopp amp1 | 3%nat => aopp ampi | _ => amp1 end).
    assert (Cu : cl 0 u (cpow Ci (ycount l'))).
    { rewrite cpow_mod4. unfold u. destruct (ycount l' mod 4)%nat as [|[|[|[|x]]]]; auto using cl_1, cl_i, cl_opp. }
    assert (Cp2 : cl 3 (amul (amul ampi (sfull theta)) u) (Ci * RtoC (sin th) * cpow Ci (ycount l'))%C).
    { apply (cl_mono laws (2 * 1 + (1 + 2 / 64) * 0 + 1)); [lra|]. apply cl_mul; auto; try lra.
      rewrite cmod_cpow; [lra|apply cmod_i]. }
    apply Fin.
    + apply exp_stok; auto. apply Forall_forall. intros x Hx. apply in_combine_snd in Hx.
      pose proof (resolved_locs _ _ _ R4) as F. rewrite Forall_forall in F. auto.
    + intros Am. rewrite <- (lamp_perm m (state s2)) by (auto; apply Sm).
      apply exp_good; auto; try apply Sm.
      * eapply amps_perm; [apply Permutation_sym|]; eauto.
      * eapply cl_mono; [auto| |exact Ci1]. lra.
      * eapply cl_mono; [auto| |exact Cp2]. lra.
      * apply (cl_mono laws 3); [lra|]. destruct (Nat.even (ycount l')); auto using cl_opp.
Qed.
End RE.
