(** * Measurement and release with rounding: the simulator's side *)
From Coq Require Import Reals NArith List Bool Lia Lra Permutation Arith FunctionalExtensionality.
From Verif Require Import Cx Arith ArithR IndexMap IndexMapLemmas Bits BitsLemmas Spec QLib QSum Sim SimExp SpecRun SpecAny
  StateLemmas Loc Abs Gates Gates2 Meas Reg Any AnyRun SpecNear Near NearGates NearGates2 NearThms SpecRound Round RoundGates RoundReg SpecLedger.
Import ListNotations.
Local Open Scope R_scope.
Local Notation lamp := Round.lamp (only parsing).
Local Notation base := RoundGates.base (only parsing).
Local Notation core := RoundGates.core (only parsing).
Local Notation pm := RoundGates.pm (only parsing).
Local Notation abs := RoundGates.abs (only parsing).
Local Notation ids := RoundGates.ids (only parsing).
Local Notation alloc := RoundGates.alloc (only parsing).
Local Notation frame := RoundGates.frame (only parsing).
Local Notation no_pend := RoundGates.no_pend (only parsing).
Local Notation rxin := RoundGates.rxin (only parsing).

Lemma rabs_bt : forall x y, Rabs x <= y -> - y <= x <= y.
Proof. intros x y H. assert (K := Rle_abs x). assert (K2 := Rle_abs (- x)). rewrite Rabs_Ropp in K2. lra. Qed.

(** ** Lengths *)
Lemma pw_dist : forall w e phi psi, 0 <= e -> (forall b, In b (basis w) -> cmod (phi b - psi b)%C <= e) ->
  dist w phi psi <= e * sqrt (2 ^ w).
Proof.
  intros w e phi psi E H. unfold dist. apply Rsqr_incr_0_var.
  2:{ apply Rmult_le_pos; auto. apply sqrt_pos. }
  unfold Rsqr. rewrite sqrt_sqrt by apply norm2_nonneg.
  replace (e * sqrt (2 ^ w) * (e * sqrt (2 ^ w))) with (e * e * (sqrt (2 ^ w) * sqrt (2 ^ w))) by ring.
  rewrite sqrt_sqrt by (apply pow_le; lra).
  unfold norm2, qsum, basis. rewrite map_map.
  assert (G : forall l, (forall x, In x l -> In (N.of_nat x) (basis w)) ->
     Rsum (map (fun x => Cn2 (qdiff phi psi (N.of_nat x))) l) <= e * e * INR (length l)).
  { induction l as [|x l IH]; intros Hl; [unfold Rsum; simpl; lra|]. unfold Rsum in *. cbn [map fold_right length]. rewrite S_INR.
    assert (K := Cn2_le _ _ (H (N.of_nat x) (Hl x (or_introl eq_refl)))). unfold qdiff at 1.
    specialize (IH (fun y Hy => Hl y (or_intror Hy))). lra. }
  eapply Rle_trans; [apply G|].
  - intros x Hx. unfold basis. apply in_map. exact Hx.
  - rewrite seq_length, pow_INR. simpl (INR 2). replace (1 + 1) with 2 by ring. lra.
Qed.

Section RM.
Context {A : Arith} {EN : Env} {AP : Approx} {PP : ApproxP}.
Hypothesis laws : approx_ok.
Hypothesis plaws : approx_p_ok.
Hypothesis horder_perm : any_order.
Variable w : nat.
Notation wf := inv.
Notation bounds := (RoundGates.bounds w).
Notation nst := (RoundGates.nst w).

(** ** Sums over entries *)
Definition vals (P : N -> bool) (st : sstate) : R :=
  Rsum (map (fun iv : N * amp => if P (fst iv) then Cn2 (aval (snd iv)) else 0) st).
Lemma vals_pos : forall P st, 0 <= vals P st.
Proof.
  intros P st. unfold vals, Rsum. induction st as [|iv st IH]; simpl; [lra|].
  assert (K : 0 <= if P (fst iv) then Cn2 (aval (snd iv)) else 0) by (destruct (P (fst iv)); [apply Cn2_nonneg|lra]). lra.
Qed.
Lemma fold_prob : forall (P : N -> bool) (st : sstate) acc x a, amps st -> pclose acc x a -> 0 <= x -> 0 <= a ->
  x + vals P st <= 4 -> a + 2 * INR (length st) * perr <= 4 ->
  pclose (fold_left (fun acc iv => if P (fst iv) then padd acc (psqr (snd iv)) else acc) st acc)
    (x + vals P st) (a + 2 * INR (length st) * perr).
Proof.
  assert (E0 := pp_err plaws).
  induction st as [|[k v] st IH]; intros acc x a Am [Fa Ha] X0 A0 S L.
  - unfold vals, Rsum. simpl. split; auto. rewrite Rplus_0_r. lra.
  - inversion Am as [|? ? [Fv Cv] Am']; subst. simpl in Fv, Cv. cbn [fold_left fst snd length] in *. rewrite S_INR in *.
    assert (Ev : vals P ((k, v) :: st) = (if P k then Cn2 (aval v) else 0) + vals P st) by reflexivity.
    rewrite Ev in *. assert (Vp := vals_pos P st). assert (Ip := pos_INR (length st)).
    assert (Pn : 0 <= INR (length st) * perr) by (apply Rmult_le_pos; auto).
    destruct (P k).
    + assert (Cp := Cn2_nonneg (aval v)). destruct (pp_sqr plaws v Fv Cv) as [Fs Hs].
      assert (Ba : Rabs (pval acc) <= 8) by (apply Rabs_le; apply rabs_bt in Ha; lra).
      assert (Bs : Rabs (pval (psqr v)) <= 8) by (apply Rabs_le; apply rabs_bt in Hs; lra).
      destruct (pp_add plaws _ _ Fa Fs Ba Bs) as [Fp Hp].
      destruct (IH (padd acc (psqr v)) (x + Cn2 (aval v)) (a + 2 * perr)) as [Fr Hr]; auto; try lra.
      * split; auto. apply Rabs_le. apply rabs_bt in Ha. apply rabs_bt in Hs. apply rabs_bt in Hp. lra.
      * split; auto. replace (x + (Cn2 (aval v) + vals P st)) with (x + Cn2 (aval v) + vals P st) by ring. lra.
    + destruct (IH acc x a) as [Fr Hr]; auto; try lra.
      * split; auto.
      * split; auto. rewrite Rplus_0_l. lra.
Qed.

Lemma vals_born : forall m (st : sstate) (P Q : N -> bool), im_inj m -> stok m st -> idbound w m ->
  (forall b, P (to_loc m b) = Q b) ->
  vals P st = qsum w (fun b => if Q b then Cn2 (baseof m (lamp st) b) else 0).
Proof.
  intros m st P Q I [D L] B HP.
  transitivity (Rsum (map (fun k => if P k then Cn2 (lamp st k) else 0) (keys st))).
  { unfold vals, keys. rewrite map_map. apply Rsum_map_ext. intros [k v] H. simpl.
    unfold Round.lamp. rewrite (In_hm_get _ _ _ D H). reflexivity. }
  transitivity (Rsum (map (fun b => if Q b then Cn2 (baseof m (lamp st) b) else 0)
                          (map (from_loc m) (keys st)))).
  - rewrite map_map. apply Rsum_map_ext. intros k Hk. rewrite <- HP. unfold baseof.
    assert (Hi : inb m (from_loc m k) = true) by (apply inb_spec; auto; apply from_loc_ids).
    rewrite Hi, (to_from m I k) by (apply L; auto). reflexivity.
  - apply Rsum_supp.
    + apply NoDup_map_inj; auto. intros x y Hx Hy E.
      rewrite <- (to_from m I x), <- (to_from m I y), E; auto.
    + apply basis_nodup.
    + intros b Hb. assert (Hb' : baseof m (lamp st) b <> C0).
      { intro E. apply Hb. rewrite E. destruct (Q b); auto using Cn2_C0. }
      unfold baseof in Hb'. destruct (inb m b) eqn:Ei; [|tauto].
      assert (Ei' := Ei). unfold inb in Ei'. apply N.eqb_eq in Ei'.
      rewrite inb_spec in Ei by auto. split.
      * intros _. apply basis_bits. intros i Hi. destruct (Ei i Hi) as [l E]. apply B. exists l; auto.
      * intros _. apply in_map_iff. exists (to_loc m b). split; auto.
        destruct (in_dec N.eq_dec (to_loc m b) (keys st)); auto.
        exfalso. apply Hb'. apply lamp_out; auto.
Qed.
Lemma entries_le : forall m (st : sstate), im_inj m -> stok m st -> idbound w m -> INR (length st) <= 2 ^ w.
Proof.
  intros m st I [D L] B.
  assert (K : (length (map (from_loc m) (keys st)) <= length (basis w))%nat).
  { apply NoDup_incl_length.
    - apply NoDup_map_inj; auto. intros x y Hx Hy E. rewrite <- (to_from m I x), <- (to_from m I y), E; auto.
    - intros b Hb. apply in_map_iff in Hb. destruct Hb as [k [<- Hk]]. apply basis_bits. intros i Hi.
      apply B. destruct (from_loc_ids m k i Hi) as [l E]. exists l; auto. }
  unfold basis, keys in K. rewrite !map_length, seq_length in K. apply le_INR in K. rewrite pow_INR in K. simpl in K. exact K.
Qed.

(** ** The probability of odd parity and the projection *)
Lemma check_joint_r : forall b s qs locs, b <= lim -> wf s -> NoDup qs -> Forall2 (resolved (id_map s)) qs locs ->
  exists p s', check_joint_probability s locs = Ok (p, s') /\ frame s s' /\ wf s' /\ op_queue s' = [] /\
    (bounds s -> soundB b s -> budget w 0 s -> 2 * 2 ^ w * perr <= 4 ->
       soundB b s' /\ amps (state s') /\ nearr w (ql s) (core s') (core s) /\
       pclose p (born w qs (core s')) (2 * 2 ^ w * perr)).
Proof.
  intros b s qs locs Lb W D R. unfold check_joint_probability.
  destruct (take_ops_ok s W) as [ops' [E1 [Tk S1]]]. rewrite E1. cbn [bind].
  eexists _, _. split; [reflexivity|]. change (state (with_ops s [])) with (state s).
  set (st := map (apply_ops ops') (state s)) in *.
  split; [constructor; reflexivity|].
  split; [destruct W; constructor; auto; simpl; unfold QUEUE_LIMIT; try constructor; lia|].
  split; [reflexivity|]. intros Bd Sd Q Ep.
  destruct (taken_near laws w b Lb s 0 ops' W Tk Bd Sd Q S1) as [F1 [Am N1]]. fold st in F1, Am, N1.
  assert (Ec : core (with_state (with_ops s []) st) = baseof (id_map s) (lamp st)) by reflexivity.
  rewrite Ec. split; [destruct Sd; constructor; simpl; auto|]. split; [exact Am|]. split; [exact N1|].
  assert (Ev : vals (masked_parity (mask_of locs)) st = born w qs (baseof (id_map s) (lamp st))).
  { apply vals_born; auto; try apply W. intros b0. unfold masked_parity.
    rewrite mask_parity by (eapply resolved_nodup; eauto; apply W). apply par_to_loc; auto. apply W. }
  assert (Qn : qnorm w (baseof (id_map s) (lamp st)) <= 2).
  { eapply Rle_trans; [apply (qnorm_near _ _ _ _ N1)|]. exact Q. }
  assert (Bl := born_le_norm w qs (baseof (id_map s) (lamp st))).
  assert (Qs := qnorm_sq w (baseof (id_map s) (lamp st))). assert (Qp := qnorm_nonneg w (baseof (id_map s) (lamp st))).
  assert (Le : INR (length st) <= 2 ^ w) by (apply (entries_le (id_map s)); auto; apply W).
  assert (E0 := pp_err plaws). assert (Lp : INR (length st) * perr <= 2 ^ w * perr) by (apply Rmult_le_compat_r; auto).
  destruct (fold_prob (masked_parity (mask_of locs)) st prb0 0 0) as [Fp Hp]; auto; try lra.
  - destruct (pp_0 plaws) as [F0 V0]. split; auto. rewrite V0, Rminus_0_r, Rabs_R0. lra.
  - rewrite Ev. nra.
  - rewrite Ev in Hp. split; [exact Fp|]. rewrite !Rplus_0_l in Hp. lra.
Qed.

Lemma joint_collapse_r : forall b s qs locs v p, b <= lim -> wf s -> op_queue s = [] -> NoDup qs ->
  Forall2 (resolved (id_map s)) qs locs ->
  let s' := joint_collapse s locs v p in let p' := if v then p else pcompl p in
  frame s s' /\ wf s' /\ op_queue s' = [] /\
  (forall k, In k (keys (state s')) -> par locs k = v) /\
  (bounds s -> amps (state s) -> soundB b s -> pfin p' -> 0 < pval p' -> perr <= pval p' <= 2 ->
     soundB b s' /\
     dist w (core s') (scale (RtoC (/ sqrt (pval p'))) (proj qs v (core s))) <= runit w * / sqrt (pval p')).
Proof.
  intros b s qs locs v p Lb W Q D R s' p'.
  split; [constructor; reflexivity|].
  set (c := pscale p') in *.
  set (P := fun k => Bool.eqb (masked_parity (mask_of locs) k) v).
  assert (E : state s' = flat_map (fun iv : N * amp => if P (fst iv) then [(fst iv, amul (snd iv) c)] else []) (state s))
    by reflexivity.
  assert (K : keys (state s') = filter P (keys (state s))).
  { rewrite E. apply (keys_flat_map_filter P (fun _ v => amul v c)). }
  split; [|split; [exact Q|split]].
  2:{ rewrite K. intros k Hk. apply filter_In in Hk. destruct Hk as [_ Hk]. unfold P, masked_parity in Hk.
      rewrite mask_parity in Hk by (eapply resolved_nodup; eauto; apply W). apply eqb_prop; auto. }
  - destruct W; constructor; auto.
    + destruct i_st as [S1 S2]. split.
      * rewrite K. apply NoDup_filter. auto.
      * rewrite K. intros k Hk. apply filter_In in Hk. apply S2. tauto.
  - intros Bd Am Sd Fp P0 [P1 P2].
    assert (Sq : 0 < / sqrt (pval p')) by (apply Rinv_0_lt_compat, sqrt_lt_R0; auto).
    split.
    + destruct Sd; constructor; auto. rewrite E. unfold finl in *. rewrite Forall_forall. intros kv Hk.
      apply in_flat_map in Hk. destruct Hk as [[k x] [Hx Hk]]. simpl in Hk. destruct (P k); [|destruct Hk].
      destruct Hk as [<-|[]]. simpl. unfold amps in Am. rewrite Forall_forall in Am. destruct (Am _ Hx) as [Fx Cx].
      apply (pp_scale plaws x p'); auto.
    + assert (Dl := ap_dlt laws).
      eapply Rle_trans; [apply (pw_dist w (dlt * / sqrt (pval p')))|].
      * apply Rmult_le_pos; lra.
      * intros b0 _. unfold RoundGates.core. change (op_queue s') with (op_queue s). rewrite Q. unfold Round.opsem. cbn [fold_left].
        unfold RoundGates.base, baseof, scale, proj. change (id_map s') with (id_map s).
        assert (Lm : lamp (state s') (to_loc (id_map s) b0) =
          if P (to_loc (id_map s) b0) then match hm_get (state s) (to_loc (id_map s) b0) with Some x => aval (amul x c) | None => C0 end else C0).
        { rewrite E. unfold Round.lamp. rewrite (hm_get_flat_map_filter P (fun _ v => amul v c)).
          destruct (P (to_loc (id_map s) b0)); auto. destruct (hm_get (state s) (to_loc (id_map s) b0)); reflexivity. }
        rewrite Lm. unfold P, masked_parity. rewrite mask_parity by (eapply resolved_nodup; eauto; apply W).
        rewrite (par_to_loc _ _ _ _ (i_inj s W) R).
        assert (Z : forall z : C, cmod (z - z)%C <= dlt * / sqrt (pval p')).
        { intros z. replace (z - z)%C with C0 by ring. rewrite cmod_0. apply Rmult_le_pos; lra. }
        assert (Z0 : (RtoC (/ sqrt (pval p')) * C0)%C = C0) by ring.
        destruct (inb (id_map s) b0); destruct (Bool.eqb (par qs b0) v); try (rewrite Z0; apply Z).
        unfold Round.lamp. destruct (hm_get (state s) (to_loc (id_map s) b0)) as [x|] eqn:Hx; [|rewrite Z0; apply Z].
        destruct (amps_get _ _ _ Am Hx) as [Fx Cx]. destruct (pp_scale plaws x p' Fx Cx Fp P0 (conj P1 P2)) as [_ Hs].
        replace (RtoC (/ sqrt (pval p')) * aval x)%C with (aval x * RtoC (/ sqrt (pval p')))%C by ring. exact Hs.
      * unfold runit, unit_err, tol, rtol. rewrite sqrt_mult by (try apply pow_le; lra).
        assert (S1 : 0 <= sqrt (2 ^ w)) by apply sqrt_pos.
        assert (S2 : 1 <= sqrt 2) by (rewrite <- sqrt_1 at 1; apply sqrt_le_1_alt; lra).
        assert (St : dlt <= step_err) by (unfold step_err; assert (T := ap_thr laws); lra).
        replace (dlt * / sqrt (pval p') * sqrt (2 ^ w)) with (dlt * 1 * sqrt (2 ^ w) * / sqrt (pval p')) by ring.
        apply Rmult_le_compat_r; [lra|]. rewrite <- Rmult_assoc. apply Rmult_le_compat_r; auto.
        apply Rmult_le_compat; lra.
Qed.

Lemma abs_frame : forall s s', frame s s' -> abs s' = pendl (pm s) (ids s) (core s').
Proof.
  intros s s' F. unfold RoundGates.abs. rewrite (RoundGates.frame_ids _ _ F). apply pendl_ext. intros. apply RoundGates.frame_pm; auto.
Qed.
Lemma born_abs : forall s qs, bounds s -> (forall q, In q qs -> no_pend s q) -> born w qs (abs s) = born w qs (core s).
Proof.
  intros s qs Bd H. unfold RoundGates.abs. apply born_pendl; auto using RoundGates.upm.

  - intros q Hq. apply Bd. apply ids_In; auto.
  - intros. apply RoundGates.no_pend_pm; auto.
Qed.
Lemma no_pend_frame : forall s s' q, frame s s' -> no_pend s q -> no_pend s' q.
Proof. intros s s' q [] [? [? ?]]. repeat split; congruence. Qed.

(** What is left after computing the probability in the flushed state [s1] (of [s]). *)
Lemma check_after_flush : forall b s s1 qs locs, b <= lim -> wf s -> NoDup qs ->
  nst b (9 * length qs) s s1 (fun x => x) -> (forall q, In q qs -> no_pend s1 q) ->
  Forall2 (resolved (id_map s1)) qs locs ->
  exists p s3, check_joint_probability s1 locs = Ok (p, s3) /\ frame s1 s3 /\ wf s3 /\ op_queue s3 = [] /\
    (forall q, In q qs -> no_pend s3 q) /\
    (bounds s -> soundB b s -> budget w (9 * length qs) s -> 2 * 2 ^ w * perr <= 4 ->
       soundB b s3 /\ amps (state s3) /\ (exists j, (j <= 9 * length qs + ql s)%nat /\ nearr w j (abs s3) (abs s)) /\
       pclose p (born w qs (abs s3)) (2 * 2 ^ w * perr)).
Proof.
  intros b s s1 qs locs Lb W D G1 N1 R1.
  assert (W1 : wf s1) by (eapply ns_wf; eauto).
  destruct (check_joint_r b s1 qs locs Lb W1 D R1) as [p [s3 [E3 [F3 [W3 [Q3 H3]]]]]].
  exists p, s3. split; [exact E3|]. split; [exact F3|]. split; [exact W3|]. split; [exact Q3|].
  assert (N3 : forall q, In q qs -> no_pend s3 q) by (intros; eapply no_pend_frame; eauto).
  split; [exact N3|]. intros Bd Sd Q Ep.
  destruct (ns_near _ _ _ _ _ _ G1 Bd Sd Q) as [Ct M1].
  assert (Bd1 : bounds s1) by (eapply RoundGates.bounds_id; [|exact Bd]; eapply ns_id; eauto).
  assert (Q1 : budget w 0 s1).
  { eapply (budget_mva laws w b _ 0 s s1 (fun x => x)); eauto; [eapply ns_id; eauto|]. rewrite Nat.add_0_r. exact Q. }
  destruct M1 as [Sd1 [j [Lj Nj]]]. destruct (H3 Bd1 Sd1 Q1 Ep) as [Sd3 [Am [Nc Pc]]].
  assert (Bd3 : bounds s3) by (eapply RoundGates.bounds_id; [|exact Bd1]; apply F3).
  split; [exact Sd3|]. split; [exact Am|]. split.
  - exists (ql s1 + j)%nat. split; [lia|]. eapply (ntrans w); [|exact Nj]. rewrite (abs_frame s1 s3 F3).
    unfold RoundGates.abs. apply nct; [apply ct_pm; exact Bd1|]. exact Nc.
  - rewrite born_abs; auto.
Qed.
Lemma collapse_after : forall b s3 qs locs v p, b <= lim -> wf s3 -> op_queue s3 = [] -> NoDup qs ->
  Forall2 (resolved (id_map s3)) qs locs -> (forall q, In q qs -> no_pend s3 q) ->
  let s' := joint_collapse s3 locs v p in let p' := if v then p else pcompl p in
  bounds s3 -> amps (state s3) -> soundB b s3 -> pfin p' -> 0 < pval p' -> perr <= pval p' <= 2 ->
  soundB b s' /\
  dist w (abs s') (scale (RtoC (/ sqrt (pval p'))) (proj qs v (abs s3))) <= runit w * / sqrt (pval p').
Proof.
  intros b s3 qs locs v p Lb W Q D R N s' p' Bd Am Sd Fp P0 P1.
  destruct (joint_collapse_r b s3 qs locs v p Lb W Q D R) as [F4 [W4 [Q4 [_ H4]]]]. fold s' p' in F4, W4, Q4, H4.
  destruct (H4 Bd Am Sd Fp P0 P1) as [Sd4 D4]. split; [exact Sd4|].
  rewrite (abs_frame s3 s' F4). unfold RoundGates.abs. rewrite proj_pendl.
  - rewrite <- pendl_scale. eapply Rle_trans; [apply ct_dist; apply ct_pm; exact Bd|exact D4].
  - intros. apply RoundGates.no_pend_pm; auto.
Qed.

(** ** Measurement *)
Lemma joint_measure_r : forall b s qs, b <= lim -> wf s -> NoDup qs -> Forall (alloc s) qs ->
  exists p r s', joint_measure s qs = Ok (r, s') /\ r = plt (fst (draw (rng s))) p /\ rng s' = snd (draw (rng s)) /\
    op_queue s' = [] /\ (forall q, In q qs -> no_pend s' q) /\
    (exists locs, Forall2 (resolved (id_map s')) qs locs /\ forall k, In k (keys (state s')) -> par locs k = r) /\
    id_map s' = id_map s /\ wf s' /\ (forall G, symm G -> rxin G s -> rxin G s') /\
    (bounds s -> soundB b s -> budget w (9 * length qs) s -> 2 * 2 ^ w * perr <= 4 ->
     exists phi, (exists j, (j <= 9 * length qs + ql s)%nat /\ nearr w j phi (abs s)) /\
       pclose p (born w qs phi) (2 * 2 ^ w * perr) /\
       let p' := if r then p else pcompl p in
       (pfin p' -> 0 < pval p' -> perr <= pval p' <= 2 -> soundB b s' /\
          dist w (abs s') (scale (RtoC (/ sqrt (pval p'))) (proj qs r phi)) <= runit w * / sqrt (pval p'))).
Proof.
  intros b s qs Lb W D Al. unfold joint_measure.
  destruct (maybe_flush_n laws horder_perm w b Lb qs s W Al) as [s1 [E1 [G1 [L1 [_ D1]]]]].
  rewrite E1. cbn [bind]. rewrite acheck by auto. cbn [bind].
  assert (A1 : Forall (alloc s1) qs) by (eapply nst_Forall; eauto).
  destruct (amapM_find s1 qs A1) as [locs [E2 R2]]. rewrite E2. cbn [bind].
  assert (Rg : rng s1 = rng s) by (eapply ns_rng; eauto). rewrite Rg.
  destruct (draw (rng s)) as [x g] eqn:Ed. cbn [fst snd].
  assert (C1 : exists p s3, check_joint_probability (with_rng s1 g) locs = Ok (p, s3) /\ rng s3 = g /\
     frame (with_rng s1 g) s3 /\ wf s3 /\ op_queue s3 = [] /\ (forall q, In q qs -> no_pend s3 q) /\
     (bounds s -> soundB b s -> budget w (9 * length qs) s -> 2 * 2 ^ w * perr <= 4 ->
       soundB b s3 /\ amps (state s3) /\ (exists j, (j <= 9 * length qs + ql s)%nat /\ nearr w j (abs s3) (abs s)) /\
       pclose p (born w qs (abs s3)) (2 * 2 ^ w * perr))).
  { assert (G2 : nst b (9 * length qs) (with_rng s g) (with_rng s1 g) (fun x => x)).
    { destruct G1 as [K1 K2 K3 K4 K5]. constructor; auto.
      - destruct K3; constructor; auto.
      - intros Bd Sd Q. destruct (K5 Bd) as [H1 [H2 H3]]; [destruct Sd; constructor; auto|exact Q|].
        split; [exact H1|]. split; [destruct H2; constructor; auto|exact H3]. }
    assert (W2 : wf (with_rng s g)) by (destruct W; constructor; auto).
    destruct (check_after_flush b (with_rng s g) (with_rng s1 g) qs locs Lb W2 D G2 D1 R2) as [p [s3 [E3 [F3 [W3 [Q3 [N3 H3]]]]]]].
    exists p, s3. split; [exact E3|]. split; [destruct F3; auto|]. split; [exact F3|]. split; [exact W3|]. split; [exact Q3|]. split; [exact N3|].
    intros Bd Sd Q Ep. apply H3; auto. destruct Sd; constructor; auto. }
  destruct C1 as [p [s3 [E3 [Rg3 [F3 [W3 [Q3 [N3 H3]]]]]]]]. rewrite E3. cbn [bind].
  exists p. eexists _, _. split; [reflexivity|]. split; [reflexivity|]. set (r := plt x p).
  assert (I3 : id_map s3 = id_map s1) by (destruct F3; auto).
  assert (R3 : Forall2 (resolved (id_map s3)) qs locs) by (rewrite I3; auto).
  destruct (joint_collapse_r b s3 qs locs r p Lb W3 Q3 D R3) as [F4 [W4 [Q4 [Z4 _]]]].
  assert (I1 : id_map s1 = id_map s) by (eapply ns_id; eauto).
  split; [destruct F4; congruence|]. split; [exact Q4|].
  split; [intros; eapply no_pend_frame; eauto|].
  split; [exists locs; split; [destruct F4; rewrite fr_id; exact R3|exact Z4]|].
  split; [destruct F4; congruence|]. split; [exact W4|]. split.
  { intros G SG N. destruct F4. eapply (RoundGates.rxin_eq _ s3); [exact fr_rx|]. destruct F3.
    eapply (RoundGates.rxin_eq _ s1); [exact fr_rx0|]. exact (ns_norx _ _ _ _ _ _ G1 G SG N). }
  intros Bd Sd Q Ep. destruct (H3 Bd Sd Q Ep) as [Sd3 [Am [Nj Pc]]].
  exists (abs s3). split; [exact Nj|]. split; [exact Pc|]. cbv zeta. intros Fp P0 P1.
  apply (collapse_after b s3 qs locs r p); auto.
  eapply RoundGates.bounds_id; [|exact Bd]. congruence.
Qed.

(** ** Forced collapse *)
Lemma force_collapse_r : forall b s v q, b <= lim -> wf s -> alloc s q ->
  exists p s', force_collapse s v q = Ok (if v then p else pcompl p, s') /\ rng s' = rng s /\ op_queue s' = [] /\
    id_map s' = id_map s /\ wf s' /\ (forall G, symm G -> rxin G s -> rxin G s') /\
    (bounds s -> soundB b s -> budget w 9 s -> 2 * 2 ^ w * perr <= 4 ->
     exists phi, (exists j, (j <= 9 + ql s)%nat /\ nearr w j phi (abs s)) /\
       pclose p (born w [q] phi) (2 * 2 ^ w * perr) /\
       let p' := if v then p else pcompl p in
       (pfin p' -> thr < pval p' -> perr <= pval p' <= 2 -> soundB b s' /\
          dist w (abs s') (scale (RtoC (/ sqrt (pval p'))) (proj [q] v phi)) <= runit w * / sqrt (pval p'))).
Proof.
  intros b s v q Lb W Al. unfold force_collapse.
  destruct (maybe_flush_n laws horder_perm w b Lb [q] s W) as [s1 [E1 [G1 [L1 [_ D1]]]]]; [repeat constructor; auto|].
  rewrite E1. cbn [bind].
  assert (A1 : Forall (alloc s1) [q]) by (eapply nst_Forall; eauto). inversion A1 as [|? ? [loc El] _]; subst.
  rewrite (afind _ _ _ El). cbn [bind].
  assert (R1 : Forall2 (resolved (id_map s1)) [q] [loc]) by (repeat constructor; auto).
  destruct (check_after_flush b s s1 [q] [loc] Lb W (nodup1 q) G1 D1 R1) as [p [s3 [E3 [F3 [W3 [Q3 [N3 H3]]]]]]].
  rewrite E3. cbn [bind]. exists p. eexists. split; [reflexivity|].
  assert (I3 : id_map s3 = id_map s1) by (destruct F3; auto).
  assert (I1 : id_map s1 = id_map s) by (eapply ns_id; eauto).
  assert (Rg1 : rng s1 = rng s) by (eapply ns_rng; eauto).
  assert (R3 : Forall2 (resolved (id_map s3)) [q] [loc]) by (rewrite I3; auto).
  destruct (joint_collapse_r b s3 [q] [loc] v p Lb W3 Q3 (nodup1 q) R3) as [F4 [W4 [Q4 [_ _]]]].
  change (joint_collapse s3 [loc] v p) with (collapse s3 loc v p) in *.
  set (cnd := (v && negb (pnz p)) || (negb v && negb (pnz (pcompl p)))).
  set (s4 := if cnd then collapse s3 loc v p else s3).
  assert (F14 : frame s1 s4).
  { unfold s4. destruct cnd; [|apply F3]. eapply frame_trans; [apply F3|exact F4]. }
  split; [destruct F14; congruence|]. split; [unfold s4; destruct cnd; auto|].
  split; [destruct F14; congruence|]. split; [unfold s4; destruct cnd; auto|]. split.
  { intros G SG N. destruct F14. eapply (RoundGates.rxin_eq _ s1); [exact fr_rx|]. exact (ns_norx _ _ _ _ _ _ G1 G SG N). }
  intros Bd Sd Q Ep. destruct (H3 Bd Sd Q Ep) as [Sd3 [Am [Nj Pc]]].
  exists (abs s3). split; [exact Nj|]. split; [exact Pc|]. set (p' := if v then p else pcompl p). intros Fp P0 P1.
  assert (T0 := ap_thr laws).
  assert (Ec : cnd = true).
  { assert (Z : pnz p' = false).
    { destruct (pnz p') eqn:Z; auto. apply (pp_nz plaws p' Fp) in Z. rewrite Rabs_pos_eq in Z by lra. lra. }
    unfold cnd, p' in *. destruct v; rewrite Z; simpl; auto. }
  unfold s4. rewrite Ec. change (collapse s3 loc v p) with (joint_collapse s3 [loc] v p).
  apply (collapse_after b s3 [q] [loc] v p); auto; try lra.
  - apply nodup1.
  - eapply RoundGates.bounds_id; [|exact Bd]. congruence.
  - fold p'. lra.
Qed.

(** ** release *)
Lemma release_last_r : forall b s q, wf s -> ids s = [q] ->
  exists s', release s q = Ok s' /\ rng s' = rng s /\ soundB b s' /\ ql s' = 0%nat /\ (forall G, rxin G s') /\ abs s' = ket0.
Proof.
  intros b s q W E. unfold release.
  assert (L : length (im_iter (id_map s)) = 1%nat).
  { unfold RoundGates.ids in E. apply (f_equal (@length nat)) in E. unfold im_keys in E. rewrite map_length in E. exact E. }
  rewrite L. cbn [Nat.eqb bind]. eexists; split; [reflexivity|]. set (s' := with_id_map _ _).
  assert (G : forall x, im_get (id_map s') x = None).
  { intros x. unfold s'. simpl. rewrite im_get_remove. destruct (Nat.eqb_spec q x); auto.
    destruct (im_get (id_map s) x) eqn:Ex; auto. exfalso.
    assert (Hx : In x (ids s)) by (apply RoundGates.ids_In; exists n0; auto). rewrite E in Hx.
    destruct Hx as [Hx|[]]; congruence. }
  assert (NP : forall x, no_pend s' x).
  { intros x. unfold s', RoundGates.no_pend. simpl. rewrite !im_get_empty. auto using bit_0. }
  assert (I' : im_inj (id_map s')) by (intros i j l; rewrite G; discriminate).
  split; [reflexivity|]. split.
  { constructor.
    - constructor; [|constructor]. simpl. apply (ap_1 laws).
    - intros x a. destruct (NP x) as [_ [Hx _]]. rewrite Hx. discriminate.
    - intros x a. destruct (NP x) as [_ [_ Hx]]. rewrite Hx. discriminate.
    - constructor. }
  split; [reflexivity|]. split.
  { intros P x a. destruct (NP x) as [_ [Hx _]]. rewrite Hx. discriminate. }
  unfold RoundGates.abs. rewrite pendl_I by (intros; apply RoundGates.no_pend_pm; auto).
  unfold RoundGates.core. change (op_queue s') with (@nil qop). unfold Round.opsem. simpl.
  apply functional_extensionality. intros b0. unfold RoundGates.base, baseof, ket0.
  assert (Ei : inb (id_map s') b0 = N.eqb b0 0).
  { apply eq_true_iff_eq. rewrite inb_spec by auto. rewrite N.eqb_eq. split.
    - intros H. apply bits_ext. intros i. rewrite bit_0. destruct (bit b0 i) eqn:Eb; auto.
      destruct (H i Eb) as [l Hl]. rewrite G in Hl. discriminate.
    - intros -> i Hi. rewrite bit_0 in Hi. discriminate. }
  rewrite Ei. destruct (N.eqb_spec b0 0); auto. subst.
  assert (Et : to_loc (id_map s') 0 = 0%N).
  { apply to_loc_char; [exact I'| |].
    - intros i Hi. rewrite bit_0 in Hi. discriminate.
    - intros i l. rewrite G. discriminate. }
  rewrite Et. change (aval amp1 = C1). apply laws.
Qed.

Definition aclear_loc (l : nat) (st : sstate) : sstate :=
  map (fun iv => (if bit (fst iv) l then set_bit (fst iv) l false else fst iv, snd iv)) st.
Lemma ahm_get_clear : forall l r st, (forall k, In k (keys st) -> bit k l = r) ->
  forall k, hm_get (aclear_loc l st) k = if bit k l then None else hm_get st (set_bit k l r).
Proof.
  intros l r st. induction st as [|[k0 v0] st IH]; intros H k; simpl.
  - destruct (bit k l); auto.
  - rewrite clear_key. rewrite IH by (intros; apply H; right; auto).
    assert (B0 : bit k0 l = r) by (apply H; left; auto).
    destruct (N.eqb_spec (set_bit k0 l false) k).
    + subst k. rewrite bit_set_same, set_set_same, set_bit_id' by auto. rewrite N.eqb_refl. reflexivity.
    + destruct (bit k l) eqn:Bk; auto. destruct (N.eqb_spec k0 (set_bit k l r)); auto.
      exfalso. apply n. rewrite e, set_set_same. apply set_bit_id'. auto.
Qed.
Lemma aclear_id : forall l st, (forall k, In k (keys st) -> bit k l = false) -> aclear_loc l st = st.
Proof.
  intros. unfold aclear_loc. rewrite <- (map_id st) at 2. apply map_ext_in. intros [k v] Hk. simpl.
  rewrite (H k) by (eapply In_keys; eauto). reflexivity.
Qed.

Lemma release_r : forall b s q, b <= lim -> wf s -> alloc s q -> length (ids s) <> 1%nat ->
  exists r s1 s', joint_measure s [q] = Ok (r, s1) /\ release s q = Ok s' /\ rng s' = rng s1 /\
    ql s' = 0%nat /\ (forall G, rxin G s1 -> rxin G s') /\ (soundB b s1 -> soundB b s') /\
    abs s' = drop_qubit q r (abs s1).
Proof.
  intros b s q Lb W Al L. unfold release.
  assert (L' : Nat.eqb (length (im_iter (id_map s))) 1 = false).
  { apply Nat.eqb_neq. unfold RoundGates.ids, im_keys in L. rewrite map_length in L. exact L. }
  rewrite L'.
  assert (Mj : measure s q = joint_measure s [q]).
  { unfold measure, joint_measure, check_for_duplicates. simpl.
    destruct (maybe_flush_queue s [q] LHRxRy) as [s1|e]; simpl; auto. destruct (find_qubit s1 q); simpl; auto. }
  rewrite Mj.
  destruct (joint_measure_r b s [q] Lb W (nodup1 q)) as
    [p [r [s1 [E1 [_ [_ [Q1 [N1 [[locs [F1 K1]] [I1 [W1 [_ _]]]]]]]]]]]]; [repeat constructor; auto|].
  inversion F1; subst. inversion H3; subst. clear H3. rename y into loc.
  unfold resolved in H1. rewrite E1. cbn [bind]. rewrite (afind _ _ _ H1). cbn [bind].
  assert (KB : forall k, In k (keys (state s1)) -> bit k loc = r).
  { intros k Hk. rewrite <- (K1 k Hk). unfold par. simpl. now rewrite xorb_false_r. }
  exists r, s1.
  assert (Es : (if r then with_state s1 (map (fun iv => (if bit (fst iv) loc then set_bit (fst iv) loc false else fst iv, snd iv)) (state s1)) else s1) =
    with_state s1 (aclear_loc loc (state s1))).
  { destruct r; auto. rewrite aclear_id by auto. destruct s1; reflexivity. }
  rewrite Es. eexists. split; [reflexivity|]. split; [reflexivity|].
  set (s' := with_id_map _ _).
  assert (G : forall x, im_get (id_map s') x = if Nat.eqb q x then None else im_get (id_map s1) x)
    by (intros x; exact (im_get_remove (id_map s1) q x)).
  assert (Ah : forall x, alloc s' x <-> alloc s x /\ x <> q).
  { intros x. unfold RoundGates.alloc, has. rewrite G, I1. destruct (Nat.eqb_spec q x).
    - subst. split; [intros [? ?]; discriminate|intros [_ ?]; congruence].
    - split; [intros; split; auto|tauto]. }
  assert (I' : im_inj (id_map s')).
  { intros i j l. rewrite !G. destruct (Nat.eqb q i); destruct (Nat.eqb q j); try discriminate. apply (i_inj s1 W1). }
  assert (Nq : no_pend s1 q) by (apply N1; left; auto).
  split; [reflexivity|]. split; [unfold ql; change (op_queue s') with (op_queue s1); rewrite Q1; reflexivity|].
  split; [intros P H; exact H|]. split.
  { intros [S1 S2 S3 S4]. constructor; auto. change (state s') with (aclear_loc loc (state s1)). unfold aclear_loc, finl in *.
    rewrite Forall_map. simpl. exact S1. }
  assert (B : base s' = drop_qubit q r (base s1)).
  { apply functional_extensionality. intros b0. unfold RoundGates.base, baseof, drop_qubit.
    destruct (bit b0 q) eqn:Bq.
    - assert (Ei : inb (id_map s') b0 = false).
      { apply not_true_iff_false. rewrite inb_spec by auto. intros H. destruct (H q Bq) as [l Hl].
        rewrite G, Nat.eqb_refl in Hl. discriminate. }
      rewrite Ei. reflexivity.
    - assert (Ei : inb (id_map s') b0 = inb (id_map s1) (set_bit b0 q r)).
      { apply eq_true_iff_eq. rewrite !inb_spec by (auto; apply W1). split; intros H i Hi.
        - rewrite bit_set in Hi. destruct (Nat.eqb_spec q i); [subst; eauto|].
          destruct (H i Hi) as [l Hl]. rewrite G in Hl. destruct (Nat.eqb_spec q i); [congruence|eauto].
        - destruct (Nat.eqb_spec q i); [congruence|].
          destruct (H i) as [l Hl]; [rewrite bit_set_other; auto|]. exists l. rewrite G.
          destruct (Nat.eqb_spec q i); congruence. }
      rewrite Ei. destruct (inb (id_map s1) (set_bit b0 q r)); auto.
      change (state s') with (aclear_loc loc (state s1)). unfold Round.lamp.
      rewrite (ahm_get_clear loc r) by auto.
      assert (Bl : bit (to_loc (id_map s') b0) loc = false).
      { apply bit_to_loc_out. intros i. rewrite G. destruct (Nat.eqb_spec q i); [discriminate|].
        intros E. apply n. eapply (i_inj s1 W1); eauto. }
      rewrite Bl.
      assert (Et : to_loc (id_map s1) (set_bit b0 q r) = set_bit (to_loc (id_map s') b0) loc r).
      { apply to_loc_char; [apply W1| |].
        - intros i Hi. rewrite bit_set in Hi. destruct (Nat.eqb_spec loc i); [subst; eauto|].
          destruct (to_loc_locs (id_map s') b0 i Hi) as [x Hx]. exists x. rewrite G in Hx.
          destruct (Nat.eqb q x); [discriminate|auto].
        - intros i l Hl. rewrite !bit_set. destruct (Nat.eqb_spec loc l); destruct (Nat.eqb_spec q i); auto.
          + exfalso. subst. apply n. eapply (i_inj s1 W1); eauto.
          + exfalso. subst. congruence.
          + apply bit_to_loc; auto. rewrite G. destruct (Nat.eqb_spec q i); [congruence|auto]. }
      rewrite Et. reflexivity. }
  unfold RoundGates.abs, RoundGates.core. change (op_queue s') with (op_queue s1). rewrite Q1. unfold Round.opsem. cbn [fold_left]. rewrite B.
  change (pm s') with (pm s1).
  rewrite pendl_drop by (rewrite RoundGates.ids_In, Ah; tauto). f_equal.
  rewrite (pendl_perm _ (ids s1) (q :: ids s')).
  - simpl. rewrite (RoundGates.no_pend_pm s1 q Nq), gate1_I. reflexivity.
  - apply NoDup_Permutation.
    + apply RoundGates.ids_nodup.
    + constructor; [rewrite RoundGates.ids_In, Ah; tauto|apply RoundGates.ids_nodup].
    + intros x. simpl. rewrite !RoundGates.ids_In, Ah.
      assert (A1 : alloc s1 x <-> alloc s x) by (unfold RoundGates.alloc; rewrite I1; tauto). rewrite A1.
      destruct (Nat.eq_dec x q); [subst|]; intuition; subst; auto; tauto.
  - apply RoundGates.ids_nodup.
Qed.
End RM.
