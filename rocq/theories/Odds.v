(** * The odds of measurement results with rounding: proofs *)
From Coq Require Import Reals NArith List Bool Lia Lra Permutation Arith.
From Verif Require Import Cx Arith ArithR IndexMap IndexMapLemmas Bits BitsLemmas Spec QLib QSum Sim SimExp SpecExp
  StateLemmas Loc Abs Gates Gates2 Meas Reg SpecRun SpecLemmas SimRun RunLemmas SpecAny Any AnyRun
  SpecNear SpecRound Round RoundThms SpecLedger RoundLedger LedgerBound SpecOdds.
From Verif Require SpecChance Chance.
Import ListNotations.
Local Open Scope R_scope.

Section Odds.
Context {A : Arith} {EN : Env} {AP : Approx} {PP : ApproxP}.
Hypothesis laws : approx_ok.
Hypothesis plaws : approx_p_ok.
Hypothesis horder_perm : any_order.
Variable w : nat.

(** ** Calls that draw samples *)
Lemma asks_none : forall l c', asks l c' = None -> draws_sample l c' = false.
Proof. intros l c' E. destruct c'; simpl in *; try discriminate; auto. now destruct (remove_id q l). Qed.
Lemma asks_some : forall l c' qs, asks l c' = Some qs -> draws_sample l c' = true.
Proof. intros l c' qs E. destruct c'; simpl in *; try discriminate; auto. now destruct (remove_id q l). Qed.
Lemma vstep_quiet : forall l psi x c', asks l c' = None -> vstep l psi x c' = vstep l psi 0 c'.
Proof. intros l psi x c' E. destruct c'; simpl in *; try discriminate; auto. now destruct (remove_id q l). Qed.
Lemma reply_quiet : forall pe de l psi x c' r, asks l c' = None -> reply_within w pe de l psi x c' r = reply_within w pe de l psi 0 c' r.
Proof. intros pe de l psi x c' r E. destruct c'; simpl in *; try discriminate; auto. Qed.
Lemma projects_quiet : forall l psi x c', asks l c' = None -> not_forced c' -> projects l psi x c' = None.
Proof. intros l psi x c' E N. destruct c'; simpl in *; try discriminate; auto; [|contradiction]. now destruct (remove_id q l). Qed.
Lemma projects_asks : forall l psi x c' qs, asks l c' = Some qs -> projects l psi x c' = Some (qs, outcome l qs psi x).
Proof.
  intros l psi x c' qs E. destruct c'; simpl in *; try discriminate; try (injection E as <-; reflexivity).
  destruct (remove_id q l); [discriminate|]. now injection E as <-.
Qed.
Lemma vstep_told : forall l psi x c' qs, asks l c' = Some qs -> vstep l psi x c' = told l psi c' qs (outcome l qs psi x).
Proof.
  intros l psi x c' qs E. destruct c'; simpl in *; try discriminate; try (injection E as <-; reflexivity).
  destruct (remove_id q l); [discriminate|]. now injection E as <-.
Qed.
Lemma reply_told : forall pe de l psi x c' qs r, asks l c' = Some qs -> reply_within w pe de l psi x c' r ->
  r = match c' with CRelease _ => AUnit | _ => ABit (outcome l qs psi x) end.
Proof.
  intros pe de l psi x c' qs r E R. destruct c'; simpl in *; try discriminate; auto; now injection E as <-.
Qed.

(** ** Samples in a box *)
Variables p t : R.
Lemma side_outcome : forall l qs psi x r, 0 <= t -> fst (side t (born (width l) qs psi) r) <= x < snd (side t (born (width l) qs psi) r) ->
  outcome l qs psi x = r /\ t <= Rabs (x - born (width l) qs psi).
Proof.
  intros l qs psi x r T0 H. unfold outcome. destruct r; cbn [side fst snd] in H; destruct (Rlt_dec x _); try lra; split; auto.
  - rewrite Rabs_left1 by lra. lra.
  - rewrite Rabs_pos_eq by lra. lra.
Qed.

Lemma in_box : forall P b psi v g, 0 <= t -> In v (ways p t b psi P) -> SpecChance.inside (samples g) (ranges v) ->
  exists h h', branch P h h' /\ forall u, u < t ->
    (narrow w b h' -> Forall not_forced h' -> decided w p u (mkMachine b psi g) h') /\
    (forall rs, replies_within w u (mkMachine b psi g) h' rs -> along w u b psi P (results v) rs) /\
    (forall s s' rs, replies_within w u (mkMachine b psi g) h' rs -> aexec s h = Ok (rs, s') -> perform s P = Ok (rs, s')).
Proof.
  induction P as [|c c' k IH]; intros b psi v g T0 Iv Ib.
  - simpl in Iv. destruct Iv as [<-|[]]. exists [], []. split; [constructor|]. intros u Ut. split; [simpl; auto|]. split.
    + intros [|]; simpl; auto.
    + intros s s' rs _ E. simpl in *. exact E.
  - cbn [ways] in Iv. destruct (asks (live b) c') as [qs|] eqn:Ea.
    + assert (X : exists r v', p < chance (live b) qs r psi /\ In v' (ways p t (bstep b c') (told (live b) psi c' qs r) (go_on c' k r)) /\
                   v = mkWay (r :: results v') (chance (live b) qs r psi * weight v') (side t (born (width (live b)) qs psi) r :: ranges v')).
      { apply in_flat_map in Iv. destruct Iv as [r [_ Iv]]. destruct (Rlt_dec p _) as [L|]; [|destruct Iv].
        apply in_map_iff in Iv. destruct Iv as [v' [<- I']]. exists r, v'. auto. }
      destruct X as (r & v' & Lc & Iv' & ->). cbn [ranges SpecChance.inside results] in *.
      destruct (side t (born (width (live b)) qs psi) r) as [lo hi] eqn:Es. destruct Ib as [Ib1 Ib2].
      assert (Sd := side_outcome (live b) qs psi (samples g 0%nat) r T0). rewrite Es in Sd. destruct (Sd Ib1) as [Eo Di].
      assert (Go : exists r', go_on c' k r = k r') by (destruct c'; simpl; eauto). destruct Go as [r' Gr].
      rewrite Gr in *.
      destruct (IH r' (bstep b c') (told (live b) psi c' qs r) v' (snd (draw g)) T0 Iv' Ib2) as (h & h' & Br & Re).
      assert (Ms : mstep1 sampled (mkMachine b psi g) c' = mkMachine (bstep b c') (told (live b) psi c' qs r) (snd (draw g))).
      { unfold mstep1, sampled. cbn [bk vec mgen]. rewrite (asks_some _ _ _ Ea), (vstep_told _ _ _ _ _ Ea).
        change (pval (fst (draw g))) with (samples g 0%nat). rewrite Eo. reflexivity. }
      exists (c :: h), (c' :: h'). split; [apply branch_call with r; rewrite Gr; exact Br|]. intros u Ut. destruct (Re u Ut) as (D & Al & Pf). split; [|split].
      * intros [N1 N2] F. assert (F1 := Forall_inv F). apply Forall_inv_tail in F. cbn [decided bk vec mgen]. split; [exact N1|].
        change (fst (sampled g)) with (samples g 0%nat). rewrite (projects_asks _ _ _ _ _ Ea), Eo, Ms. split; [|apply D; auto].
        split; [lra|]. destruct c'; try (simpl in Ea; discriminate); try (eapply Rlt_le_trans; [exact Ut|exact Di]).
      * intros [|r0 rs] R; cbn [replies_within] in R; [contradiction|]. cbn [bk vec mgen] in R. destruct R as [R1 R2].
        cbn [along]. rewrite Ea. rewrite Ms in R2. rewrite Gr. split; [|apply Al; exact R2].
        rewrite (reply_told _ _ _ _ _ _ _ _ Ea R1). change (fst (sampled g)) with (samples g 0%nat). rewrite Eo. reflexivity.
      * intros s s' [|r0 rs] R E; cbn [replies_within] in R; [contradiction|]. cbn [bk vec mgen] in R. destruct R as [R1 R2].
        rewrite Ms in R2. cbn [aexec] in E. cbn [perform]. destruct (arun1 s c) as [[r1 s1]|]; cbn [bind] in *; [|discriminate].
        destruct (aexec s1 h) as [[rs1 s2]|] eqn:E2; cbn [bind] in *; [|discriminate]. injection E as -> -> ->.
        cbn [fst snd]. assert (Gb : go_on c' k (bit_in r0) = k r').
        { rewrite (reply_told _ _ _ _ _ _ _ _ Ea R1). change (fst (sampled g)) with (samples g 0%nat). rewrite Eo. rewrite <- Gr.
          destruct c'; simpl in *; try discriminate; reflexivity. }
        rewrite Gb, (Pf s1 s' rs R2 E2). reflexivity.
    + assert (Go : forall r, go_on c' k r = k false) by (intros r; destruct c'; simpl in *; try discriminate; reflexivity).
      rewrite Go in Iv.
      destruct (IH false (bstep b c') (vstep (live b) psi 0 c') v g T0 Iv Ib) as (h & h' & Br & Re).
      assert (Ms : mstep1 sampled (mkMachine b psi g) c' = mkMachine (bstep b c') (vstep (live b) psi 0 c') g).
      { unfold mstep1, sampled. cbn [bk vec mgen]. rewrite (asks_none _ _ Ea), (vstep_quiet _ _ _ _ Ea). reflexivity. }
      exists (c :: h), (c' :: h'). split; [apply branch_call with false; rewrite Go; exact Br|]. intros u Ut. destruct (Re u Ut) as (D & Al & Pf). split; [|split].
      * intros [N1 N2] F. assert (F1 := Forall_inv F). apply Forall_inv_tail in F. cbn [decided bk vec mgen]. split; [exact N1|].
        rewrite (projects_quiet _ _ _ _ Ea), Ms by auto. split; [exact I|]. apply D; auto.
      * intros [|r0 rs] R; cbn [replies_within] in R; [contradiction|]. cbn [bk vec mgen] in R. destruct R as [R1 R2].
        cbn [along]. rewrite Ea. rewrite Ms in R2. rewrite Go. split; [|apply Al; exact R2]. rewrite (reply_quiet _ _ _ _ _ _ _ Ea) in R1. exact R1.
      * intros s s' [|r0 rs] R E; cbn [replies_within] in R; [contradiction|]. cbn [bk vec mgen] in R. destruct R as [R1 R2].
        rewrite Ms in R2. cbn [aexec] in E. cbn [perform]. destruct (arun1 s c) as [[r1 s1]|]; cbn [bind] in *; [|discriminate].
        destruct (aexec s1 h) as [[rs1 s2]|] eqn:E2; cbn [bind] in *; [|discriminate]. injection E as -> -> ->.
        cbn [fst snd]. rewrite Go, (Pf s1 s' rs R2 E2). reflexivity.
Qed.

Lemma along_mono : forall u u' P b psi os rs, u <= u' -> along w u b psi P os rs -> along w u' b psi P os rs.
Proof.
  intros u u' P. induction P as [|c c' k IH]; intros b psi os [|r rs] Hu H; cbn [along] in *; auto.
  assert (G : forall r, exists r', go_on c' k r = k r') by (intros r0; destruct c'; simpl; eauto).
  destruct (asks (live b) c') as [qs|].
  - destruct os as [|o os]; auto. destruct H as [H1 H2]. split; auto. destruct (G o) as [r' E]. rewrite E in *. apply IH; auto.
  - destruct H as [H1 H2]. split; [eapply within_mono; eauto|]. destruct (G false) as [r' E]. rewrite E in *. apply IH; auto.
Qed.

Lemma in_box_run : forall m P v g, 0 < p <= 1 -> 0 <= t -> t <= 1 / 2 -> t <= p / 2 -> thr + t <= p -> plan_fits w m p t P ->
  In v (ways p t (mkBook [] true) ket0 P) -> SpecChance.inside (samples g) (ranges v) ->
  exists rs s, perform (new_sim g) P = Ok (rs, s) /\ along w t (mkBook [] true) ket0 P (results v) rs.
Proof.
  intros m P v g Hp T0 T1 T2 T3 F Iv Ib.
  destruct (in_box P _ _ v g T0 Iv Ib) as (h & h' & Br & Re). destruct (F h h' Br) as (V & M & An & Cl & Na & Nf & _ & Wo).
  destruct (Re _ Wo) as (D & Al & Pf).
  destruct (measuring_bound laws plaws horder_perm w p Hp g (worst w (total_lcost (mkBook [] true) h) (total_pcount h) p) h h' V M An Cl) as (rs & s & E & R);
    [apply D; auto|lra|lra|lra|lra|].
  exists rs, s. split; [apply (Pf _ _ _ R E)|]. eapply along_mono; [|apply Al; exact R]. lra.
Qed.
(** ** Plans whose branches are valid *)
Definition sane (m : nat) (b : book) (P : plan) : Prop :=
  forall h h', branch P h h' -> avalid_run b h /\ Forall2 call_stands h h' /\ narrow w b h' /\ (total_pcount h <= m)%nat /\
    Forall not_forced h'.
Lemma some_branch : forall P, exists h h', branch P h h'.
Proof.
  induction P as [|c c' k IH]; [exists [], []; constructor|].
  assert (G : exists r', go_on c' k false = k r') by (destruct c'; simpl; eauto). destruct G as [r' G].
  destruct (IH r') as (h & h' & Br). exists (c :: h), (c' :: h'). apply branch_call with false. rewrite G. exact Br.
Qed.
Lemma sane_call : forall m b c c' k, sane m b (Call c c' k) ->
  avalid b c /\ call_stands c c' /\ not_forced c' /\ (forall q, In q (live b) -> (q < w)%nat) /\ (pcount c <= m)%nat /\
  forall r, sane (m - pcount c) (bstep b c') (go_on c' k r).
Proof.
  intros m b c c' k H.
  assert (X : forall r h h', branch (go_on c' k r) h h' -> avalid b c /\ call_stands c c' /\ not_forced c' /\ (forall q, In q (live b) -> (q < w)%nat) /\
    (pcount c <= m)%nat /\
    avalid_run (bstep b c') h /\ Forall2 call_stands h h' /\ narrow w (bstep b c') h' /\ (total_pcount h <= m - pcount c)%nat /\ Forall not_forced h').
  { intros r h h' Br. destruct (H _ _ (branch_call c c' k r h h' Br)) as ([V1 V2] & M & [N1 N2] & L & F).
    assert (M1 : call_stands c c' /\ Forall2 call_stands h h') by (inversion M; auto). destruct M1 as [M1 M2].
    assert (F1 := Forall_inv F). apply Forall_inv_tail in F. unfold total_pcount in *. cbn [fold_right] in L.
    rewrite (stands_book c c' b M1). rewrite (stands_book c c' b M1) in N2.
    do 4 (split; [assumption|]). split; [lia|]. do 3 (split; [assumption|]). split; [lia|assumption]. }
  destruct (some_branch (go_on c' k false)) as (h & h' & Br).
  destruct (X false h h' Br) as (X1 & X2 & X3 & X4 & X5 & _).
  do 5 (split; [assumption|]). intros r h1 h1' Br1. destruct (X r h1 h1' Br1) as (_ & _ & _ & _ & _ & Y). exact Y.
Qed.
Lemma fits_sane : forall m P, plan_fits w m p t P -> sane m (mkBook [] true) P.
Proof. intros m P F h h' Br. destruct (F h h' Br) as (V & M & _ & _ & N & Nf & L & _). auto 6. Qed.

Lemma asks_pcount : forall b c c' qs, call_stands c c' -> asks (live b) c' = Some qs -> pcount c = 1%nat.
Proof. intros b c c' qs M E. destruct c', c; simpl in *; try discriminate; try contradiction; reflexivity. Qed.

(** The exact vector stays of length one. *)
Notation ok l psi := (vec_ok w l psi).
Lemma ok_ket0 : ok [] ket0.
Proof. split; [apply ket0_supported|apply ket0_norm]. Qed.
Lemma ok_quiet : forall b c c' psi, call_stands c c' -> not_forced c' -> avalid b c -> (forall q, In q (live b) -> (q < w)%nat) ->
  ok (live b) psi -> asks (live b) c' = None -> ok (live (bstep b c')) (vstep (live b) psi 0 c').
Proof.
  intros b c c' psi M Nf V Bw O E.
  assert (D : call_means c c' \/ exists q, c' = CRelease q).
  { destruct c, c'; simpl in *; try contradiction; try discriminate; auto; eauto. }
  destruct D as [D|[q ->]].
  - rewrite (means_book c c' b D). exact (vec_step w b c c' psi 0 D V Bw O).
  - simpl in *. destruct (remove_id q (live b)) eqn:Er; [|discriminate]. apply ok_ket0.
Qed.
Lemma ok_told : forall b c c' psi qs r, call_stands c c' -> avalid b c -> (forall q, In q (live b) -> (q < w)%nat) ->
  ok (live b) psi -> asks (live b) c' = Some qs -> 0 < chance (live b) qs r psi -> ok (live (bstep b c')) (told (live b) psi c' qs r).
Proof.
  intros b c c' psi qs r M V Bw O E C. assert (Vc := vec_collapsed w (live b) qs r psi O Bw C).
  destruct c'; simpl in E; try discriminate; cbn [told bstep].
  - destruct (remove_id q (live b)) as [|y ys] eqn:Er; [discriminate|]. injection E as <-. cbn [live]. rewrite <- Er.
    destruct c; simpl in M; try contradiction. subst. simpl in V. destruct Vc as [V1 V2].
    split; [apply supported_drop; auto|]. rewrite norm2_drop; auto. intros x Hx. apply collapsed_value; auto.
  - exact Vc.
  - exact Vc.
Qed.
Lemma ok_born : forall l psi qs, ok l psi -> (forall q, In q l -> (q < w)%nat) -> 0 <= born (width l) qs psi <= 1.
Proof.
  intros l psi qs O Bw. split; [apply born_nonneg|]. rewrite (vec_born w l) by auto. destruct O as [_ N]. rewrite <- N. apply born_le_norm.
Qed.
Lemma chance_sum : forall l qs psi, chance l qs true psi + chance l qs false psi = 1.
Proof. intros. unfold chance. lra. Qed.

(** ** Boxes *)

Definition unit_box (x : SpecChance.box) : Prop := Forall (fun r => 0 <= fst r /\ fst r <= snd r /\ snd r <= 1) x.
Definition extend (l qs : list nat) (psi : qstate) (r : bool) (v : way) : way :=
  mkWay (r :: results v) (chance l qs r psi * weight v) (side t (born (width l) qs psi) r :: ranges v).
Definition half (b : book) (psi : qstate) (c' : call) (k : bool -> plan) (qs : list nat) (r : bool) : list way :=
  if Rlt_dec p (chance (live b) qs r psi)
  then map (extend (live b) qs psi r) (ways p t (bstep b c') (told (live b) psi c' qs r) (go_on c' k r))
  else [].
Lemma ways_asks : forall b psi c c' k qs, asks (live b) c' = Some qs ->
  ways p t b psi (Call c c' k) = half b psi c' k qs true ++ half b psi c' k qs false.
Proof. intros b psi c c' k qs E. cbn [ways]. rewrite E. cbn [flat_map]. rewrite app_nil_r. reflexivity. Qed.
Lemma go_k : forall c' k r, exists r', go_on c' k r = k r'.
Proof. intros c' k r. destruct c'; simpl; eauto. Qed.

Lemma boxes_apart : forall P b psi, 0 <= t ->
  ForallOrdPairs (fun u v => forall xs, ~ (SpecChance.inside xs (ranges u) /\ SpecChance.inside xs (ranges v))) (ways p t b psi P).
Proof.
  intros P. induction P as [|c c' k IH]; intros b psi T0.
  - simpl. constructor; constructor.
  - destruct (asks (live b) c') as [qs|] eqn:E.
    + rewrite (ways_asks _ _ _ _ _ _ E).
      assert (H : forall r, ForallOrdPairs (fun u v => forall xs, ~ (SpecChance.inside xs (ranges u) /\ SpecChance.inside xs (ranges v))) (half b psi c' k qs r)).
      { intros r. unfold half. destruct (Rlt_dec p _); [|constructor]. destruct (go_k c' k r) as [r' G]. rewrite G.
        specialize (IH r' (bstep b c') (told (live b) psi c' qs r) T0).
        induction IH as [|v vs Hv _ IHv]; [constructor|]. cbn [map]. constructor; [|exact IHv].
        clear IHv. induction Hv as [|u us Hu _ IHu]; constructor; auto.
        intros xs. cbn [ranges SpecChance.inside extend]. destruct (side t _ r) as [lo hi]. intros [[_ H1] [_ H2]]. apply (Hu _ (conj H1 H2)). }
      apply Chance.FOP_app; auto.
      intros u v Hu Hv xs [I1 I2]. unfold half in Hu, Hv. destruct (Rlt_dec p (chance (live b) qs true psi)); [|destruct Hu].
      destruct (Rlt_dec p (chance (live b) qs false psi)); [|destruct Hv].
      apply in_map_iff in Hu. destruct Hu as (u' & <- & _). apply in_map_iff in Hv. destruct Hv as (v' & <- & _).
      cbn [ranges SpecChance.inside extend side] in I1, I2. destruct I1 as [I1 _], I2 as [I2 _]. lra.
    + cbn [ways]. rewrite E. destruct (go_k c' k false) as [r' G]. rewrite G. apply IH. exact T0.
Qed.

(** ** Sums *)
Lemma total_app : forall f E u v, total f E (u ++ v) = total f E u + total f E v.
Proof. intros f E u v. unfold total. induction u as [|x u IH]; cbn; [ring|]. rewrite IH. ring. Qed.
Lemma total_ext : forall f g E l, Forall (fun v => f v <= g v) l -> total f E l <= total g E l.
Proof.
  intros f g E l H. unfold total. induction H as [|v l Hv _ IH]; cbn; [lra|]. destruct (E (results v)); lra.
Qed.
Lemma total_nonneg : forall f E l, Forall (fun v => 0 <= f v) l -> 0 <= total f E l.
Proof. intros f E l H. unfold total. induction H as [|v l Hv _ IH]; cbn; [lra|]. destruct (E (results v)); lra. Qed.
Lemma total_split : forall f E l, total f (fun _ => true) l = total f E l + total f (fun x => negb (E x)) l.
Proof. intros f E l. unfold total. induction l as [|v l IH]; cbn; [ring|]. rewrite IH. destruct (E (results v)); cbn; ring. Qed.
Lemma total_extend : forall x (f : way -> R) (h : way -> way) E r l, (forall v, results (h v) = r :: results v) -> (forall v, f (h v) = x * f v) ->
  total f E (map h l) = x * total f (fun os => E (r :: os)) l.
Proof.
  intros x f h E r l H1 H2. unfold total. induction l as [|v l IH]; cbn; [ring|]. rewrite IH, H1, H2. destruct (E (r :: results v)); ring.
Qed.
Definition E_all : list bool -> bool := fun _ => true.

(** A length of ranges that is right up to [ep]. *)
Variables (len : R * R -> R) (ep : R).
Hypothesis len_ok : forall r, 0 <= fst r -> fst r <= snd r -> snd r <= 1 -> 0 <= len r /\ Rabs (len r - (snd r - fst r)) <= ep.
Hypothesis ep_ok : 0 <= ep <= t.
Definition meas (v : way) : R := fold_right (fun r x => len r * x) 1 (ranges v).
Lemma side_len : forall l qs psi r, 0 <= t <= p -> p < chance l qs r psi -> 0 <= born (width l) qs psi <= 1 ->
  0 <= fst (side t (born (width l) qs psi) r) /\ fst (side t (born (width l) qs psi) r) <= snd (side t (born (width l) qs psi) r) /\
  snd (side t (born (width l) qs psi) r) <= 1 /\
  0 <= len (side t (born (width l) qs psi) r) /\
  chance l qs r psi - t - ep <= len (side t (born (width l) qs psi) r) <= chance l qs r psi.
Proof.
  intros l qs psi r T0 L B. assert (X : 0 <= fst (side t (born (width l) qs psi) r) /\ fst (side t (born (width l) qs psi) r) <= snd (side t (born (width l) qs psi) r) /\
    snd (side t (born (width l) qs psi) r) <= 1 /\ snd (side t (born (width l) qs psi) r) - fst (side t (born (width l) qs psi) r) = chance l qs r psi - t).
  { unfold chance in *. destruct r; cbn [side fst snd]; (split; [|split; [|split]]); lra. }
  destruct X as (X1 & X2 & X3 & X4). destruct (len_ok _ X1 X2 X3) as [Y1 Y2]. rewrite X4 in Y2. assert (Z := Rabs_def2 _ _ (Rle_lt_trans _ _ (ep + 1) Y2 ltac:(lra))).
  assert (Z1 := Rle_abs (len (side t (born (width l) qs psi) r) - (chance l qs r psi - t))).
  assert (Z2 := Rle_abs (- (len (side t (born (width l) qs psi) r) - (chance l qs r psi - t)))). rewrite Rabs_Ropp in Z2.
  do 4 (split; [assumption|]). lra.
Qed.

(** Weights and volumes of the two halves of a measurement. *)
Lemma weight_half : forall b psi c' k qs r E, total weight E (half b psi c' k qs r) =
  if Rlt_dec p (chance (live b) qs r psi)
  then chance (live b) qs r psi * total weight (fun os => E (r :: os)) (ways p t (bstep b c') (told (live b) psi c' qs r) (go_on c' k r))
  else 0.
Proof.
  intros. unfold half. destruct (Rlt_dec p _); [|reflexivity]. apply total_extend; reflexivity.
Qed.
Lemma volume_half : forall b psi c' k qs r E, total meas E (half b psi c' k qs r) =
  if Rlt_dec p (chance (live b) qs r psi)
  then len (side t (born (width (live b)) qs psi) r) * total meas (fun os => E (r :: os)) (ways p t (bstep b c') (told (live b) psi c' qs r) (go_on c' k r))
  else 0.
Proof.
  intros. unfold half. destruct (Rlt_dec p _); [|reflexivity]. apply total_extend; [reflexivity|].
  reflexivity.
Qed.

(** Every box lies in the unit cube, and is no larger than the weight. *)
Lemma boxes_fit : forall P m b psi, 0 <= t <= p -> sane m b P -> ok (live b) psi ->
  Forall (fun v => unit_box (ranges v) /\ 0 <= meas v <= weight v) (ways p t b psi P).
Proof.
  intros P. induction P as [|c c' k IH]; intros m b psi T0 Sn O.
  - simpl. repeat constructor; unfold meas; simpl; lra.
  - destruct (sane_call _ _ _ _ _ Sn) as (V & M & Nf & Bw & _ & Sn').
    destruct (asks (live b) c') as [qs|] eqn:E.
    + rewrite (ways_asks _ _ _ _ _ _ E). assert (Bb := ok_born (live b) psi qs O Bw).
      assert (H : forall r, Forall (fun v => unit_box (ranges v) /\ 0 <= meas v <= weight v) (half b psi c' k qs r)).
      { intros r. unfold half. destruct (Rlt_dec p _) as [L|]; [|constructor]. destruct (go_k c' k r) as [r' G].
        specialize (Sn' r). rewrite G in *. apply Forall_map.
        eapply Forall_impl; [|apply (IH r' _ (bstep b c') (told (live b) psi c' qs r) T0 Sn')].
        - destruct (side_len (live b) qs psi r T0 L Bb) as (S1 & S2 & S3 & S4 & S5). intros v [U [V0 V1]]. split.
          + constructor; auto.
          + unfold meas in *. cbn [extend ranges weight fold_right].
            split; [apply Rmult_le_pos; lra|]. apply Rmult_le_compat; lra.
        - apply (ok_told b c); auto. lra. }
      apply Forall_app. split; apply H.
    + cbn [ways]. rewrite E. specialize (Sn' false). destruct (go_k c' k false) as [r' G]. rewrite G in *. eapply IH; eauto.
      apply (ok_quiet b c); auto.
Qed.

(** The weights of all sequences add up to one if none is left out, and to no more otherwise. *)
Lemma weight_nonneg : forall P m b psi, 0 <= p -> sane m b P -> ok (live b) psi ->
  Forall (fun v => 0 <= weight v) (ways p t b psi P).
Proof.
  intros P. induction P as [|c c' k IH]; intros m b psi P0 Sn O.
  - simpl. repeat constructor. simpl. lra.
  - destruct (sane_call _ _ _ _ _ Sn) as (V & M & Nf & Bw & _ & Sn').
    destruct (asks (live b) c') as [qs|] eqn:E.
    + rewrite (ways_asks _ _ _ _ _ _ E).
      assert (H : forall r, Forall (fun v => 0 <= weight v) (half b psi c' k qs r)).
      { intros r. unfold half. destruct (Rlt_dec p _) as [L|]; [|constructor]. destruct (go_k c' k r) as [r' G].
        specialize (Sn' r). rewrite G in *. apply Forall_map.
        eapply Forall_impl; [|apply (IH r' _ (bstep b c') (told (live b) psi c' qs r) P0 Sn')].
        - intros v V0. cbn [extend weight]. apply Rmult_le_pos; lra.
        - apply (ok_told b c); auto. lra. }
      apply Forall_app. split; apply H.
    + cbn [ways]. rewrite E. specialize (Sn' false). destruct (go_k c' k false) as [r' G]. rewrite G in *. eapply IH; eauto.
      apply (ok_quiet b c); auto.
Qed.
Lemma weight_le : forall P m b psi, 0 <= p -> sane m b P -> ok (live b) psi -> total weight E_all (ways p t b psi P) <= 1.
Proof.
  intros P. induction P as [|c c' k IH]; intros m b psi P0 Sn O.
  - unfold total. simpl. lra.
  - destruct (sane_call _ _ _ _ _ Sn) as (V & M & Nf & Bw & _ & Sn').
    destruct (asks (live b) c') as [qs|] eqn:E.
    + rewrite (ways_asks _ _ _ _ _ _ E), total_app, !weight_half. assert (Cs := chance_sum (live b) qs psi).
      assert (Bb := ok_born (live b) psi qs O Bw).
      assert (H : forall r, (if Rlt_dec p (chance (live b) qs r psi) then chance (live b) qs r psi * total weight (fun os => E_all (r :: os))
          (ways p t (bstep b c') (told (live b) psi c' qs r) (go_on c' k r)) else 0) <= chance (live b) qs r psi).
      { intros r. assert (0 <= chance (live b) qs r psi) by (unfold chance; destruct r; lra).
        destruct (Rlt_dec p _) as [L|]; [|lra]. destruct (go_k c' k r) as [r' G]. specialize (Sn' r). rewrite G in *.
        assert (Hw := IH r' _ (bstep b c') (told (live b) psi c' qs r) P0 Sn' ltac:(apply (ok_told b c); auto; lra)).
        change (fun os => E_all (r :: os)) with E_all. rewrite <- (Rmult_1_r (chance _ _ _ _)) at 2. apply Rmult_le_compat_l; lra. }
      assert (H1 := H true). assert (H2 := H false). lra.
    + cbn [ways]. rewrite E. specialize (Sn' false). destruct (go_k c' k false) as [r' G]. rewrite G in *. eapply IH; eauto.
      apply (ok_quiet b c); auto.
Qed.

(** What the boxes lack. *)
Lemma volume_lost : forall P m b psi, 0 <= t <= p -> sane m b P -> ok (live b) psi ->
  total weight E_all (ways p t b psi P) - total meas E_all (ways p t b psi P) <= INR m * (2 * (t + ep)).
Proof.
  intros P. induction P as [|c c' k IH]; intros m b psi T0 Sn O.
  - unfold total, meas. simpl. assert (0 <= INR m) by apply pos_INR. assert (0 <= INR m * (2 * (t + ep))) by (apply Rmult_le_pos; lra). lra.
  - destruct (sane_call _ _ _ _ _ Sn) as (V & M & Nf & Bw & Pc & Sn').
    destruct (asks (live b) c') as [qs|] eqn:E.
    + rewrite (ways_asks _ _ _ _ _ _ E), !total_app, !weight_half, !volume_half. assert (Cs := chance_sum (live b) qs psi).
      assert (Bb := ok_born (live b) psi qs O Bw). rewrite (asks_pcount b c c' qs M E) in *.
      set (L := INR (m - 1) * (2 * (t + ep))).
      assert (L0 : 0 <= L) by (apply Rmult_le_pos; [apply pos_INR|lra]).
      assert (H : forall r, (if Rlt_dec p (chance (live b) qs r psi) then chance (live b) qs r psi * total weight (fun os => E_all (r :: os))
          (ways p t (bstep b c') (told (live b) psi c' qs r) (go_on c' k r)) else 0) -
        (if Rlt_dec p (chance (live b) qs r psi) then len (side t (born (width (live b)) qs psi) r) * total meas (fun os => E_all (r :: os))
          (ways p t (bstep b c') (told (live b) psi c' qs r) (go_on c' k r)) else 0) <= chance (live b) qs r psi * L + (t + ep)).
      { intros r. assert (C0 : 0 <= chance (live b) qs r psi) by (unfold chance; destruct r; lra).
        assert (C1 : 0 <= chance (live b) qs r psi * L) by (apply Rmult_le_pos; lra).
        destruct (Rlt_dec p _) as [Lp|]; [|lra]. destruct (go_k c' k r) as [r' G]. specialize (Sn' r). rewrite G in *.
        assert (O' : ok (live (bstep b c')) (told (live b) psi c' qs r)) by (apply (ok_told b c); auto; lra).
        assert (Hw := IH r' _ (bstep b c') (told (live b) psi c' qs r) T0 Sn' O').
        assert (Hl := weight_le (k r') _ (bstep b c') (told (live b) psi c' qs r) ltac:(lra) Sn' O').
        assert (Hf := boxes_fit (k r') _ (bstep b c') (told (live b) psi c' qs r) T0 Sn' O').
        assert (Hv : total meas E_all (ways p t (bstep b c') (told (live b) psi c' qs r) (k r')) <=
                     total weight E_all (ways p t (bstep b c') (told (live b) psi c' qs r) (k r'))).
        { apply total_ext. eapply Forall_impl; [|exact Hf]. cbv beta. intros v [_ Hv]. lra. }
        assert (Hn : 0 <= total meas E_all (ways p t (bstep b c') (told (live b) psi c' qs r) (k r'))).
        { apply total_nonneg. eapply Forall_impl; [|exact Hf]. cbv beta. intros v [_ Hv']. lra. }
        change (fun os => E_all (r :: os)) with E_all.
        set (W := total weight E_all _) in *. set (Vv := total meas E_all _) in *. set (x := chance (live b) qs r psi) in *.
        fold L in Hw. assert (x * (W - Vv) <= x * L) by (apply Rmult_le_compat_l; lra). destruct (side_len (live b) qs psi r T0 Lp Bb) as (_ & _ & _ & _ & S5 & _). fold x in S5. set (y := len _) in *.
        assert ((x - t - ep) * Vv <= y * Vv) by (apply Rmult_le_compat_r; lra). assert ((t + ep) * Vv <= (t + ep) * 1) by (apply Rmult_le_compat_l; lra). lra. }
      assert (H1 := H true). assert (H2 := H false).
      assert (X : INR m * (2 * (t + ep)) = L + 2 * (t + ep)).
      { unfold L. replace m with (S (m - 1)) at 1 by lia. rewrite S_INR. ring. }
      assert (chance (live b) qs true psi * L + chance (live b) qs false psi * L = L) by (rewrite <- Rmult_plus_distr_r, Cs; ring).
      lra.
    + cbn [ways]. rewrite E. specialize (Sn' false). destruct (go_k c' k false) as [r' G]. rewrite G in *.
      assert (H := IH r' _ (bstep b c') (vstep (live b) psi 0 c') T0 Sn' ltac:(apply (ok_quiet b c); auto)).
      assert (INR (m - pcount c) <= INR m) by (apply le_INR; lia).
      assert (INR (m - pcount c) * (2 * (t + ep)) <= INR m * (2 * (t + ep))) by (apply Rmult_le_compat_r; lra). lra.
Qed.
End Odds.

(** ** Sequences left out *)
Section LeftOut.
Context {A : Arith} {EN : Env} {AP : Approx} {PP : ApproxP}.
Variable w : nat.
Notation sane := (sane w).
Notation ok l psi := (vec_ok w l psi).

Lemma weight_all : forall t P m b psi, sane m b P -> ok (live b) psi -> total weight E_all (ways 0 t b psi P) = 1.
Proof.
  intros t P. induction P as [|c c' k IH]; intros m b psi Sn O.
  - unfold total. simpl. ring.
  - destruct (sane_call w _ _ _ _ _ Sn) as (V & M & Nf & Bw & _ & Sn').
    destruct (asks (live b) c') as [qs|] eqn:E.
    + rewrite (ways_asks _ _ _ _ _ _ _ _ E), total_app, !weight_half. assert (Cs := chance_sum (live b) qs psi).
      assert (Bb := ok_born w (live b) psi qs O Bw).
      assert (H : forall r, (if Rlt_dec 0 (chance (live b) qs r psi) then chance (live b) qs r psi * total weight (fun os => E_all (r :: os))
          (ways 0 t (bstep b c') (told (live b) psi c' qs r) (go_on c' k r)) else 0) = chance (live b) qs r psi).
      { intros r. assert (0 <= chance (live b) qs r psi) by (unfold chance; destruct r; lra).
        destruct (Rlt_dec 0 _) as [L|]; [|lra]. destruct (go_k c' k r) as [r' G]. specialize (Sn' r). rewrite G in *.
        change (fun os => E_all (r :: os)) with E_all.
        rewrite (IH r' _ (bstep b c') (told (live b) psi c' qs r) Sn' ltac:(apply (ok_told w b c); auto; lra)). ring. }
      rewrite !H. exact Cs.
    + cbn [ways]. rewrite E. specialize (Sn' false). destruct (go_k c' k false) as [r' G]. rewrite G in *. eapply IH; eauto.
      apply (ok_quiet w b c); auto.
Qed.
Lemma weight_kept : forall p t P m b psi E, 0 <= p < 1 / 2 -> sane m b P -> ok (live b) psi ->
  total weight E (ways p t b psi P) <= total weight E (ways 0 0 b psi P) <= total weight E (ways p t b psi P) + INR m * p.
Proof.
  intros p t P. induction P as [|c c' k IH]; intros m b psi E P0 Sn O.
  - unfold total. simpl. assert (0 <= INR m * p) by (apply Rmult_le_pos; [apply pos_INR|lra]). lra.
  - destruct (sane_call w _ _ _ _ _ Sn) as (V & M & Nf & Bw & Pc & Sn').
    destruct (asks (live b) c') as [qs|] eqn:Ea.
    + rewrite !(ways_asks _ _ _ _ _ _ _ _ Ea), !total_app, !weight_half. assert (Cs := chance_sum (live b) qs psi).
      assert (Bb := ok_born w (live b) psi qs O Bw). rewrite (asks_pcount b c c' qs M Ea) in *.
      set (L := INR (m - 1) * p). assert (L0 : 0 <= L) by (apply Rmult_le_pos; [apply pos_INR|lra]).
      assert (X : INR m * p = L + p).
      { unfold L. replace m with (S (m - 1)) at 1 by lia. rewrite S_INR. ring. }
      assert (H : forall r,
        let a := if Rlt_dec p (chance (live b) qs r psi) then chance (live b) qs r psi * total weight (fun os => E (r :: os))
          (ways p t (bstep b c') (told (live b) psi c' qs r) (go_on c' k r)) else 0 in
        let z := if Rlt_dec 0 (chance (live b) qs r psi) then chance (live b) qs r psi * total weight (fun os => E (r :: os))
          (ways 0 0 (bstep b c') (told (live b) psi c' qs r) (go_on c' k r)) else 0 in
        a <= z /\ (if Rlt_dec p (chance (live b) qs r psi) then z <= a + chance (live b) qs r psi * L else z <= chance (live b) qs r psi)).
      { intros r a z. unfold a, z. clear a z. assert (C0 : 0 <= chance (live b) qs r psi) by (unfold chance; destruct r; lra).
        specialize (Sn' r). destruct (go_k c' k r) as [r' G]. rewrite G in *.
        destruct (Rlt_dec 0 (chance (live b) qs r psi)) as [Lz|Lz].
        2:{ destruct (Rlt_dec p _); lra. }
        assert (O' : ok (live (bstep b c')) (told (live b) psi c' qs r)) by (apply (ok_told w b c); auto; lra).
        assert (N0 : 0 <= total weight (fun os => E (r :: os)) (ways 0 0 (bstep b c') (told (live b) psi c' qs r) (k r'))).
        { apply total_nonneg. eapply (weight_nonneg w); eauto. lra. }
        assert (N1 : total weight (fun os => E (r :: os)) (ways 0 0 (bstep b c') (told (live b) psi c' qs r) (k r')) <= 1).
        { assert (W := weight_all 0 (k r') _ (bstep b c') (told (live b) psi c' qs r) Sn' O').
          rewrite (total_split weight (fun os => E (r :: os))) in W.
          assert (0 <= total weight (fun x => negb (E (r :: x))) (ways 0 0 (bstep b c') (told (live b) psi c' qs r) (k r'))); [|lra].
          apply total_nonneg. eapply (weight_nonneg w); eauto. lra. }
        destruct (Rlt_dec p _) as [Lp|Lp].
        - destruct (IH r' _ (bstep b c') (told (live b) psi c' qs r) (fun os => E (r :: os)) P0 Sn' O') as [I1 I2]. fold L in I2.
          set (x := chance (live b) qs r psi) in *. set (y := total weight _ (ways 0 0 _ _ _)) in *. set (u := total weight _ (ways p t _ _ _)) in *.
          assert (x * u <= x * y) by (apply Rmult_le_compat_l; lra). assert (x * y <= x * (u + L)) by (apply Rmult_le_compat_l; lra). lra.
        - set (x := chance (live b) qs r psi) in *. set (y := total weight _ (ways 0 0 _ _ _)) in *.
          assert (0 <= x * y) by (apply Rmult_le_pos; lra). assert (x * y <= x * 1) by (apply Rmult_le_compat_l; lra). lra. }
      destruct (H true) as [H1 H2], (H false) as [H3 H4]. cbv zeta in *. clear H.
      split; [lra|].
      assert (CL : chance (live b) qs true psi * L + chance (live b) qs false psi * L = L) by (rewrite <- Rmult_plus_distr_r, Cs; ring).
      assert (C1 : 0 <= chance (live b) qs true psi * L) by (apply Rmult_le_pos; [unfold chance|]; lra).
      assert (C2 : 0 <= chance (live b) qs false psi * L) by (apply Rmult_le_pos; [unfold chance|]; lra).
      destruct (Rlt_dec p (chance (live b) qs true psi)), (Rlt_dec p (chance (live b) qs false psi)); lra.
    + cbn [ways]. rewrite Ea. specialize (Sn' false). destruct (go_k c' k false) as [r' G]. rewrite G in *.
      assert (H := IH r' _ (bstep b c') (vstep (live b) psi 0 c') E P0 Sn' ltac:(apply (ok_quiet w b c); auto)).
      assert (INR (m - pcount c) <= INR m) by (apply le_INR; lia).
      assert (INR (m - pcount c) * p <= INR m * p) by (apply Rmult_le_compat_r; lra). lra.
Qed.
End LeftOut.

(** ** Together *)
Section Together.
Context {A : Arith} {EN : Env} {AP : Approx} {PP : ApproxP}.

Theorem odds_measure : forall w m p t P E len ep, 0 <= t <= p -> 0 <= ep <= t ->
  (forall r, 0 <= fst r -> fst r <= snd r -> snd r <= 1 -> 0 <= len r /\ Rabs (len r - (snd r - fst r)) <= ep) -> plan_fits w m p t P ->
  let W := ways p t (mkBook [] true) ket0 P in
  total weight E W - INR m * (2 * (t + ep)) <= total (meas len) E W <= total weight E W.
Proof.
  intros w m p t P E len ep T0 E0 Lo F W. assert (Sn := fits_sane w p t m P F). assert (O := ok_ket0 w : vec_ok w (live (mkBook [] true)) ket0).
  assert (Hf := boxes_fit w p t len ep Lo E0 P m _ _ T0 Sn O). fold W in Hf.
  assert (Hl := volume_lost w p t len ep Lo E0 P m _ _ T0 Sn O). fold W in Hl.
  assert (U : forall E, total (meas len) E W <= total weight E W).
  { intros E'. apply total_ext. eapply Forall_impl; [|exact Hf]. cbv beta. intros v [_ H]. lra. }
  split; [|apply U]. assert (U' := U (fun x => negb (E x))).
  assert (S1 := total_split weight E W). assert (S2 := total_split (meas len) E W).
  change (fun _ : list bool => true) with E_all in S1, S2. lra.
Qed.

Lemma volume_meas : forall v, volume_of v = meas (fun r => snd r - fst r) v.
Proof.
  intros v. unfold volume_of, meas. induction (ranges v) as [|[lo hi] l IH]; cbn; [reflexivity|]. now rewrite IH.
Qed.
Lemma total_same : forall f g E l, (forall v, f v = g v) -> total f E l = total g E l.
Proof. intros f g E l H. unfold total. f_equal. apply map_ext. intros v. now rewrite H. Qed.
Theorem odds_volume : forall w m p t P E, 0 <= t <= p -> plan_fits w m p t P ->
  let W := ways p t (mkBook [] true) ket0 P in
  total weight E W - INR m * (2 * t) <= total volume_of E W <= total weight E W.
Proof.
  intros w m p t P E T0 F W. rewrite (total_same volume_of (meas (fun r => snd r - fst r)) E W volume_meas).
  assert (H := odds_measure w m p t P E (fun r => snd r - fst r) 0 T0 ltac:(lra)). cbv zeta in H. fold W in H. rewrite Rplus_0_r in H.
  apply H; auto. intros r H1 H2 H3. rewrite Rminus_eq_0, Rabs_R0. lra.
Qed.

(** Numbers below a bound. *)
Definition lower (x : R) (k : nat) : bool := if Rlt_dec (INR k) x then true else false.
Lemma count_lower : forall x n, 0 <= x <= INR n -> x <= INR (length (filter (lower x) (seq 0 n))) < x + 1.
Proof.
  intros x. induction n as [|n IH]; intros B.
  - simpl in *. lra.
  - replace (S n) with (n + 1)%nat at 1 by lia. replace (S n) with (n + 1)%nat at 1 by lia.
    rewrite seq_app, filter_app, app_length, plus_INR. cbn [seq filter Nat.add]. rewrite S_INR in B.
    unfold lower at 2 4. destruct (Rlt_dec (INR n) x) as [L|L].
    + assert (F : filter (lower x) (seq 0 n) = seq 0 n).
      { assert (G : forall l, (forall k, In k l -> lower x k = true) -> filter (lower x) l = l).
        { induction l as [|k l IHl]; intros Hl; [reflexivity|]. cbn. rewrite (Hl k) by (left; reflexivity). f_equal. apply IHl. intros; apply Hl; right; auto. }
        apply G. intros k Hk. apply in_seq in Hk. unfold lower. destruct (Rlt_dec _ _) as [|N]; auto. exfalso. apply N.
        apply Rle_lt_trans with (INR n); auto. apply le_INR. lia. }
      rewrite F, seq_length. simpl. lra.
    + simpl. rewrite Rplus_0_r. apply IH. lra.
Qed.
Lemma filter_split : forall (f g h : nat -> bool) l, (forall k, f k = andb (g k) (negb (h k))) -> (forall k, h k = true -> g k = true) ->
  (length (filter f l) + length (filter h l) = length (filter g l))%nat.
Proof.
  intros f g h l H1 H2. induction l as [|k l IH]; [reflexivity|]. cbn. rewrite H1. specialize (H2 k).
  destruct (g k), (h k); cbn; try lia; try (specialize (H2 eq_refl); discriminate).
Qed.
Lemma grid_ok : forall N, (0 < N)%nat -> forall r, 0 <= fst r -> fst r <= snd r -> snd r <= 1 ->
  0 <= grid N r /\ Rabs (grid N r - (snd r - fst r)) <= / INR N.
Proof.
  intros N H0 [lo hi] B1 B2 B3. cbn [fst snd] in *. unfold grid. assert (N0 : 0 < INR N) by (apply lt_0_INR; lia).
  assert (I0 : 0 < / INR N) by (apply Rinv_0_lt_compat; lra).
  assert (S : (length (filter (fun k => in_range (lo, hi) (INR k / INR N)) (seq 0 N)) + length (filter (lower (INR N * lo)) (seq 0 N)) =
    length (filter (lower (INR N * hi)) (seq 0 N)))%nat).
  { assert (Q : forall k y, INR k / INR N < y <-> INR k < INR N * y).
    { intros k y. split; intros Hk.
      - apply (Rmult_lt_compat_l (INR N)) in Hk; auto. replace (INR N * (INR k / INR N)) with (INR k) in Hk by (field; lra). exact Hk.
      - apply (Rmult_lt_reg_l (INR N)); auto. replace (INR N * (INR k / INR N)) with (INR k) by (field; lra). exact Hk. }
    apply filter_split.
    - intros k. unfold in_range, lower. cbn [fst snd]. assert (Q1 := Q k lo). assert (Q2 := Q k hi).
      destruct (Rle_dec lo (INR k / INR N)), (Rlt_dec (INR k / INR N) hi), (Rlt_dec (INR k) (INR N * hi)), (Rlt_dec (INR k) (INR N * lo)); cbn; try reflexivity; exfalso; lra.
    - intros k. unfold lower. destruct (Rlt_dec (INR k) (INR N * lo)); [|discriminate]. intros _.
      assert (INR N * lo <= INR N * hi) by (apply Rmult_le_compat_l; lra). destruct (Rlt_dec _ _); auto. lra. }
  assert (X1 : 0 <= INR N * lo <= INR N) by (split; [apply Rmult_le_pos; lra|]; rewrite <- (Rmult_1_r (INR N)) at 2; apply Rmult_le_compat_l; lra).
  assert (X2 : 0 <= INR N * hi <= INR N) by (split; [apply Rmult_le_pos; lra|]; rewrite <- (Rmult_1_r (INR N)) at 2; apply Rmult_le_compat_l; lra).
  assert (C1 := count_lower _ _ X1). assert (C2 := count_lower _ _ X2).
  apply (f_equal INR) in S. rewrite plus_INR in S.
  set (a := INR (length (filter (fun k => in_range (lo, hi) (INR k / INR N)) (seq 0 N)))) in *.
  assert (A0 : 0 <= a) by apply pos_INR. split; [unfold Rdiv; apply Rmult_le_pos; lra|].
  replace (a / INR N - (hi - lo)) with ((a - INR N * (hi - lo)) * / INR N) by (field; lra).
  rewrite Rabs_mult, (Rabs_pos_eq (/ INR N)) by lra. rewrite <- (Rmult_1_l (/ INR N)) at 2. apply Rmult_le_compat_r; [lra|].
  apply Rabs_le. lra.
Qed.
Theorem odds_share : forall w m p t P E N, 0 <= t <= p -> (0 < N)%nat -> / INR N <= t -> plan_fits w m p t P ->
  let W := ways p t (mkBook [] true) ket0 P in
  total weight E W - INR m * (2 * (t + / INR N)) <= total (share_of N) E W <= total weight E W.
Proof.
  intros w m p t P E N T0 N0 Nt F W. assert (0 < / INR N) by (apply Rinv_0_lt_compat; apply lt_0_INR; lia).
  exact (odds_measure w m p t P E (grid N) (/ INR N) T0 ltac:(lra) (grid_ok N N0) F).
Qed.
End Together.
