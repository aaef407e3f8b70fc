(** * Pauli exponentials up to the amplitudes dropped below the threshold

    The exponential of ExpLemmas.v again, for every threshold. *)
From Coq Require Import Reals NArith List Bool Lia Lra Permutation Arith FunctionalExtensionality Sorted.
From Verif Require Import Cx Arith ArithR IndexMap IndexMapLemmas Bits BitsLemmas Spec QLib QSum Sim SimExp SpecExp
  StateLemmas Loc Abs Gates Gates2 Meas Reg ExpLemmas SpecLemmas SpecNear Near NearGates NearGates2.
Import ListNotations.
Local Open Scope R_scope.

Lemma qdiff_pauli : forall l a b, pauli_product l (qdiff a b) = qdiff (pauli_product l a) (pauli_product l b).
Proof.
  induction l as [|[p t] l IH]; intros; simpl; auto. rewrite IH.
  apply functional_extensionality. intros k. unfold qdiff, gate1. destruct (bit k t); ring.
Qed.
Lemma qdiff_ctrl_exp : forall cs th l a b,
  ctrl_op cs (exp_op th l) (qdiff a b) = qdiff (ctrl_op cs (exp_op th l) a) (ctrl_op cs (exp_op th l) b).
Proof.
  intros. apply functional_extensionality. intros k. unfold ctrl_op, exp_op. rewrite qdiff_pauli.
  unfold qdiff. destruct (forallb (bit k) cs); ring.
Qed.
Lemma ct_exp : forall n cs ps th ts, NoDup (cs ++ ts) -> (forall q, In q ts -> (q < n)%nat) ->
  contraction n (ctrl_op cs (exp_op th (combine ps ts))).
Proof.
  intros. constructor; intros; [apply qdiff_ctrl_exp|]. rewrite norm2_exp; auto. lra.
Qed.

Section NE.
Context {T : Tol} {EN : Env}.
Hypothesis horder_perm : horder_ok.
Hypothesis tol_lo : 0 <= tol.
Hypothesis tol_hi : tol <= 1 / 2.
Variable w : nat.

Notation ncs := (NearGates.ncs w).
Notation nst := (NearGates.nst w).
Notation flush_two_n := (NearGates2.flush_two_n horder_perm tol_lo tol_hi w).

Definition expcost (n : nat) : nat := 3 * n + 1.

Lemma mcexp_n : forall s cs ps th ts, wf s -> NoDup (cs ++ ts) -> Forall (alloc s) (cs ++ ts) ->
  (length ps <= length ts)%nat ->
  exists s', mcexp s cs ps th ts = Ok s' /\
    nst (expcost (length (cs ++ ts))) s s' (ctrl_op cs (exp_op th (combine ps ts))).
Proof.
  intros s cs ps th ts W D A L. unfold mcexp. apply Forall_app in A as A'. destruct A' as [Ac At].
  destruct (flush_two_n s cs ts W Ac At) as [s1 [s2 [E1 [E2 [G2 [Q2 [N2 L2]]]]]]].
  rewrite E1. cbn [bind]. rewrite E2. cbn [bind].
  assert (W2 : wf s2) by apply (ns_wf w _ _ _ _ G2).
  assert (Ac2 : Forall (alloc s2) cs) by (eapply nst_Forall; eauto).
  assert (At2 : Forall (alloc s2) ts) by (eapply nst_Forall; eauto).
  destruct (mapM_find_ok s2 cs Ac2) as [cs' [E3 R3]]. rewrite E3. cbn [bind].
  destruct (mapM_find_ok s2 ts At2) as [ts' [E4 R4]]. rewrite E4. cbn [bind].
  assert (D' : NoDup (cs' ++ ts')).
  { eapply (resolved_nodup (id_map s2) (cs ++ ts)); eauto; [apply W2|]. apply Forall2_app; auto. }
  assert (Ad : adjacent_dup (sort_nat (cs' ++ ts')) = None).
  { apply adjacent_dup_none. apply sorted_le_lt; [apply sort_nat_sorted|].
    eapply Permutation_NoDup; [apply Permutation_sym, sort_nat_perm|auto]. }
  rewrite Ad.
  pose proof (exp_masks_ok ps [] ts' 0%N 0%N 0) as EM. rewrite <- (Forall2_len _ _ _ _ _ R4) in EM. specialize (EM L).
  simpl in EM. rewrite EM. cbn [bind]. clear EM.
  destruct (NoDup_app_inv _ _ _ D') as [Dc [Dt Dx]].
  destruct (NoDup_app_inv _ _ _ D) as [_ [_ Dx0]].
  set (l' := combine ps ts') in *.
  assert (Dl : NoDup (map snd l')) by (apply nodup_combine_snd; auto).
  assert (Dcl : forall c, In c cs' -> ~ In c (map snd l')).
  { intros c Hc Hi. apply in_combine_snd in Hi. eapply Dx; eauto. }
  assert (R5 : Forall2 (fun p p' => fst p = fst p' /\ resolved (id_map s2) (snd p) (snd p')) (combine ps ts) l')
    by (apply Forall2_combine; auto).
  assert (Fin : forall st, st_ok (id_map s2) st ->
    (forall k, lamp st k = ctrl_op cs' (exp_op th l') (lamp (state s2)) k \/
       (lamp st k = C0 /\ @anz RArith (ctrl_op cs' (exp_op th l') (lamp (state s2)) k) = true)) ->
    nst (expcost (length (cs ++ ts))) s (with_state s2 st) (ctrl_op cs (exp_op th (combine ps ts)))).
  { intros st So Hl. eapply (NearGates2.nst_seq tol_lo w) with (k := 1%nat); [exact G2| |].
    2: { unfold expcost. rewrite app_length. lia. }
    assert (Ct : forall s0, id_map s0 = id_map s2 -> bounds w s0 -> contraction w (ctrl_op cs (exp_op th (combine ps ts)))).
    { intros s0 Es B. apply ct_exp; auto. intros q Hq. apply B. rewrite Forall_forall in At2.
      unfold alloc. rewrite Es. apply At2; auto. }
    assert (C : ncs 1 s2 (with_state s2 st) (ctrl_op cs (exp_op th (combine ps ts)))).
    { assert (Es : with_state s2 st = with_state (with_ops s2 []) st).
      { clear - Q2. destruct s2; simpl in *; subst; reflexivity. }
      rewrite Es. apply (NearGates.ncs_state tol_lo w); eauto.
      intros b. assert (Ec : core s2 = baseof (id_map s2) (lamp (state s2))) by (unfold core; rewrite Q2; reflexivity). rewrite Ec.
      rewrite <- (baseof_ctrl_exp (id_map s2) cs cs' (combine ps ts) l'); auto; [|apply W2].
      unfold baseof. destruct (inb (id_map s2) b); auto.
      destruct (Hl (to_loc (id_map s2) b)) as [Hk|[Hk Hz]]; auto. right. split; auto.
      apply anz_small; auto. }
    apply (NearGates2.ncs_abs w _ _ _ _ _ C); eauto.
    intros psi. apply pendl_commute.
    intros q U phi Hq. destruct (in_dec Nat.eq_dec q (cs ++ ts)) as [Hi|Hi].
    - left. apply no_pend_pm. apply N2. apply in_app_or in Hi. auto.
    - right. rewrite in_app_iff in Hi. apply ctrl_exp_gate1; [tauto|].
      intro Hx. apply in_combine_snd in Hx. tauto. }
  destruct (wf_st s2 W2) as [S1 S2].
  destruct (N.eqb_spec (pmask is_xy l') 0).
  - assert (Y0 : ycount l' = 0%nat).
    { clear - e Dl. induction l' as [|[p t] l IH]; auto. simpl in *. inversion Dl; subst.
      destruct p; simpl in *; auto.
      - exfalso. apply (f_equal (fun k => bit k t)) in e. rewrite bit_set_same, bit_0 in e. discriminate.
      - exfalso. apply (f_equal (fun k => bit k t)) in e. rewrite bit_set_same, bit_0 in e. discriminate. }
    assert (P1 : @aadd RArith (amul ampi (@sfull RArith th)) (@cfull RArith th) = Cis th) by (unfold Cis; toC; ceq).
    assert (P2 : @asub RArith (aadd (@cfull RArith th) (@cfull RArith th)) (Cis th) = Cis (- th))
      by (unfold Cis; toC; rewrite cos_neg, sin_neg; ceq).
    rewrite P1, P2.
    assert (Zs : forall x, @anz RArith (Cis x) = false).
    { intros x. apply not_true_iff_false. intros H. apply anz_small in H; auto. rewrite Cn2_Cis in H. nra. }
    rewrite !Zs. eexists; split; [reflexivity|].
    assert (Eq : map (fun iv => if all_set cs' (fst iv)
         then (fst iv, @amul RArith (snd iv) (if masked_parity (pmask is_yz l') (fst iv) then Cis (- th) else Cis th))
         else iv) (state s2) =
       scale_entries (fun k => if all_set cs' k then (if masked_parity (pmask is_yz l') k then Cis (- th) else Cis th) else C1) (state s2)).
    { apply map_ext. intros [k v]. simpl. destruct (all_set cs' k); auto. f_equal. aring. }
    rewrite Eq. apply Fin.
    + unfold st_ok. rewrite keys_scale_entries. auto.
    + intros k. left. rewrite lamp_scale_entries.
      unfold ctrl_op. fold (all_set cs' k). destruct (all_set cs' k); [|ring].
      unfold exp_op. rewrite pauli_product_masks by auto. rewrite e, Y0, N.lxor_0_r. simpl.
      destruct (masked_parity (pmask is_yz l') k); unfold sgn, Cis; rewrite ?cos_neg, ?sin_neg;
        destruct (lamp (state s2) k); ceq.
  - eexists; split; [reflexivity|].
    set (m := hm_collect (state s2)).
    assert (P : Permutation m (state s2)) by (apply hm_collect_perm; auto).
    assert (Nm : NoDup (keys m)) by (eapply perm_nodup_keys; [apply Permutation_sym; eauto | auto]).
    pose proof (exp_entry_both cs' l' th m Dcl Dl n Nm) as B. cbv zeta in B.
    rewrite cpow_mod4 in B. destruct B as [B1 [B2 B3]].
    apply Fin.
    + split; [exact B1|]. intros k Hk i Hi. destruct (B2 k i Hk Hi) as [Hl|[k' [Hk' Hi']]].
      * apply in_combine_snd in Hl. destruct (resolved_in _ _ _ _ R4 Hl) as [q [_ Hq]]. exists q. exact Hq.
      * eapply S2; eauto. eapply Permutation_in; [apply perm_keys; exact P|auto].
    + rewrite <- (lamp_perm _ _ Nm P). exact B3.
Qed.
End NE.
