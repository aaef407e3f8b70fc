(** * The backend and the runner refine the ideal machine *)
From Coq Require Import String Reals NArith ZArith List Bool Lia Lra Arith.
From Verif Require Import Cx Bits Arith ArithR IndexMap Sim SimExp SimApply Spec SpecExp SpecRun SimRun Gates RunLemmas RunProps RunThms SimProps Text Backend SpecBackend
  BackLemmas BackSem BackStore BackThms Runner SpecRunner SpecIdeal.
Import ListNotations.
Local Open Scope R_scope.
Local Open Scope list_scope.

Section Refine.
Context {T : Tol} {EN : Env} {D : Doubles} {SW : Shows} {RN : Rand}.
Hypothesis EW : exact_world.
Let Ho : order_ok := proj1 (proj2 EW).
Variable G : R -> Prop.
Hypothesis SG : subgroup G.

Record rel (b : back) (m : ideal) : Prop := {
  rl_st : st (bsim b) (bb_live (i_book m)) (i_psi m);
  rl_max : bmax b = bb_max (i_book m);
  rl_gen : rng (bsim b) = i_gen m;
  rl_rx : rxin G (bsim b);
  rl_used : length (bres b) = i_used m;
  rl_res : forall i, nth i (bres b) false = i_res m i;
  rl_out : bout b = i_out m
}.
Lemma rel0 : forall g, rel (back_default g) (ideal0 g).
Proof.
  intros g. split; try reflexivity.
  - apply new_st. exact EW.
  - intros q a H. destruct q; discriminate.
  - intros [|i]; reflexivity.
Qed.
Lemma rel_put : forall b m s k psi g, rel b m -> st s (bb_live k) psi -> rng s = g -> rxin G s ->
  rel (upd b s (bb_max k)) (put m k psi g).
Proof. intros b m s k psi g R S E X. destruct R. split; auto. Qed.
Lemma len_grow_max : forall r i, length (grow_res r i) = Nat.max (length r) (S i).
Proof. intros r i. unfold grow_res. rewrite app_length, repeat_length. lia. Qed.
Lemma len_set : forall r i v, (i < length r)%nat -> length (set_res r i v) = length r.
Proof. intros r i v H. unfold set_res. rewrite !app_length, firstn_length, skipn_length. simpl. lia. Qed.
Lemma rel_store : forall b m i v, rel b m -> rel (with_res b (set_res (grow_res (bres b) i) i v)) (store i v m).
Proof.
  intros b m i v R. destruct R. split; auto; cbn [with_res bres store i_used i_res].
  - rewrite len_set by apply len_grow. rewrite len_grow_max. congruence.
  - intros j. rewrite nth_set by apply len_grow. rewrite nth_grow, Nat.eqb_sym. destruct (Nat.eqb j i); auto.
Qed.
Lemma rel_touch : forall b m i, rel b m -> rel (with_res b (grow_res (bres b) i)) (touch m i).
Proof.
  intros b m i R. destruct R. split; auto; cbn [with_res bres touch i_used i_res].
  - rewrite len_grow_max. congruence.
  - intros j. rewrite nth_grow. auto.
Qed.
Lemma rel_say : forall b m t, rel b m -> rel (with_out b (bout b ++ t)) (say t m).
Proof. intros b m t R. destruct R. split; auto. cbn. congruence. Qed.

(** What one call must satisfy. *)
Definition simulates (c : bcall) (b : back) (m : ideal) : Prop :=
  match bcall1 c b with
  | BOk r b' => exists m', istep m c (IGo r m') /\ rel b' m'
  | BErr e o => istep m c (IHalt e o)
  end.
Lemma book_eta : forall m, mkBBook (bb_max (i_book m)) (bb_live (i_book m)) = i_book m.
Proof. intros m. destruct (i_book m). reflexivity. Qed.
Lemma sim_op : forall c b m F, bop c = Some F -> rel b m -> bvalid (i_book m) c -> y_free b c -> bangles G c -> simulates c b m.
Proof.
  intros c b m F E R V Y A. unfold simulates.
  assert (Eb : bbstep (i_book m) c = mkBBook (Nat.max (bb_max (i_book m)) (top (bnames c))) (opened (bb_max (i_book m)) (bb_live (i_book m)) (bnames c)))
    by (destruct c; try discriminate E; reflexivity).
  destruct (op_does EW G SG b (bb_live (i_book m)) (i_psi m) c F) as (s' & E1 & S1 & K1 & K2); auto.
  - rewrite (rl_max _ _ R), book_eta. exact V.
  - apply R.
  - rewrite E1. exists (put m (bbstep (i_book m) c) (F (i_psi m)) (i_gen m)). split.
    + unfold istep. assert (X : ideal_step m c = IGo VUnit (put m (bbstep (i_book m) c) (F (i_psi m)) (i_gen m))) by (unfold ideal_step; rewrite E; reflexivity).
      destruct c; try (symmetry; exact X); discriminate E.
    + rewrite Eb, (rl_max _ _ R). rewrite (rl_max _ _ R) in S1.
      exact (rel_put b m s' (mkBBook _ _) _ _ R S1 (eq_trans K1 (rl_gen _ _ R)) (K2 (rl_rx _ _ R))).
Qed.
Lemma top1 : forall q, top [q] = S q.
Proof. intros q. reflexivity. Qed.
Lemma rel_samples : forall b m s k psi, rel b m -> st s (bb_live k) psi -> samples G (bsim b) s ->
  rel (upd b s (bb_max k)) (put m k psi (snd (draw (i_gen m)))).
Proof. intros b m s k psi R S [S1 S2]. apply rel_put; auto; [rewrite S1, (rl_gen _ _ R); reflexivity|apply S2, R]. Qed.
Lemma rel_keeps : forall b m s k psi, rel b m -> st s (bb_live k) psi -> keeps G (bsim b) s ->
  rel (upd b s (bb_max k)) (put m k psi (i_gen m)).
Proof. intros b m s k psi R S [S1 S2]. apply rel_put; auto; [rewrite S1; apply R|apply S2, R]. Qed.

Lemma alloc_rel : forall b m, rel b m -> exists b', rt_qubit_allocate b = BOk (fresh_id (bb_live (i_book m))) b' /\
  rel b' (put m (bbstep (i_book m) QAlloc) (i_psi m) (i_gen m)).
Proof.
  intros b m R. destruct (st_call EW G SG (bsim b) _ _ CAlloc (rl_st _ _ R)) as (r & s' & E & Rp & S' & K1 & K2); simpl; auto.
  cbn [reply_ok] in Rp. subst r. cbn [bstep live effective vstep draws_sample rx_angles] in *.
  unfold rt_qubit_allocate, bbind, simcall. rewrite E. eexists. split; [reflexivity|]. cbn [with_max with_sim bsim bres bmax bout].
  rewrite (rl_max _ _ R). exact (rel_put b m s' (mkBBook _ _) _ _ R S' (eq_trans K1 (rl_gen _ _ R)) (K2 I (rl_rx _ _ R))).
Qed.
Lemma array_rel : forall n b m, rel b m -> exists b', rt_allocate_array n b = BOk (fresh_ids n (bb_live (i_book m))) b' /\
  rel b' (put m (bbstep (i_book m) (QAllocArray n)) (i_psi m) (i_gen m)).
Proof.
  induction n; intros b m R; cbn [rt_allocate_array fresh_ids].
  - exists b. split; [reflexivity|]. cbn [bbstep alloc_max grow]. rewrite book_eta. destruct R. split; auto.
  - destruct (alloc_rel b m R) as (b1 & E1 & R1). destruct (IHn b1 _ R1) as (b2 & E2 & R2). unfold bbind. rewrite E1. cbn [put i_book bbstep bb_live grow] in E2.
    rewrite E2. eexists. split; [reflexivity|]. exact R2.
Qed.
Lemma release_rel : forall qs b m, rel b m -> NoDup qs -> incl qs (bb_live (i_book m)) -> exists b', rt_release_array qs b = BOk tt b' /\
  rel b' (put m (bbstep (i_book m) (QReleaseArray qs)) (snd (fst (fold_left discard qs (bb_live (i_book m), i_psi m, i_gen m))))
              (snd (fold_left discard qs (bb_live (i_book m), i_psi m, i_gen m)))).
Proof.
  induction qs as [|q qs IH]; intros b m R N I; unfold rt_release_array in *; cbn [bfor fold_right].
  - exists b. split; [reflexivity|]. cbn [bbstep fold_left fst snd]. rewrite book_eta. destruct R. split; auto.
  - inversion N as [|? ? Nq N']; subst. assert (Iq : In q (bb_live (i_book m))) by (apply I; simpl; auto).
    destruct (st_call EW G SG (bsim b) _ _ (CRelease q) (rl_st _ _ R)) as (r & s' & E & Rp & S' & K1 & K2); simpl; auto.
    { intros bk El. rewrite El. exact Iq. }
    rewrite live_release in S'. cbn [effective vstep draws_sample rx_angles] in *. rewrite (rl_gen _ _ R) in S', K1.
    change (fold_left discard (q :: qs)) with (fun a => fold_left discard qs (discard a q)). cbv beta. set (d := discard (bb_live (i_book m), i_psi m, i_gen m) q).
    assert (R1 : rel (with_sim b s') (put m (mkBBook (bb_max (i_book m)) (remove_id q (bb_live (i_book m)))) (snd (fst d)) (snd d))).
    { assert (Eu : with_sim b s' = upd b s' (bb_max (mkBBook (bb_max (i_book m)) (remove_id q (bb_live (i_book m)))))).
      { unfold with_sim, upd. cbn [bb_max]. rewrite (rl_max _ _ R). reflexivity. }
      rewrite Eu. apply rel_put; auto; [| |apply K2; [exact Logic.I|apply R]]; unfold d, discard; cbn [bb_live]; destruct (remove_id q (bb_live (i_book m))); auto. }
    destruct (IH (with_sim b s') _ R1 N') as (b2 & E2 & R2).
    { intros x Hx. cbn [put i_book bb_live]. apply BackLemmas.remove_id_In; [apply I; simpl; auto|intros ->; contradiction]. }
    assert (Eq : rt_qubit_release q b = BOk tt (with_sim b s')) by (unfold rt_qubit_release, simdo, bbind, simcall; rewrite E; reflexivity).
    change (fold_right (fun x k => bbind (rt_qubit_release x) (fun _ => k)) (bret tt) qs) with (bfor qs rt_qubit_release).
    unfold bbind. rewrite Eq, E2.
    eexists. split; [reflexivity|]. cbn [put i_book bb_live bb_max i_psi i_gen] in R2.
    assert (Ed : (remove_id q (bb_live (i_book m)), snd (fst d), snd d) = d).
    { unfold d, discard. destruct (remove_id q (bb_live (i_book m))); reflexivity. }
    rewrite Ed in R2. exact R2.
Qed.

Lemma sim_call : forall c b m, rel b m -> ivalid m c -> y_free b c -> bangles G c -> simulates c b m.
Proof.
  intros c b m R V Y A.
  destruct (bop c) as [F|] eqn:Eo.
  { apply (sim_op c b m F Eo R); auto. destruct c; try discriminate Eo; exact V. }
  assert (S := rl_st _ _ R). assert (Em := rl_max _ _ R). assert (Eg := rl_gen _ _ R).
  destruct c; try discriminate Eo; clear Eo; cbn [ivalid bvalid bnames] in V; unfold simulates; cbn [bcall1].
  - (* reset *) destruct (reset_st EW G SG q b _ _ (ltac:(rewrite Em; apply V; simpl; auto)) S) as (r & s' & Er & E1 & S1 & K1).
    unfold vunit, bbind. rewrite E1. eexists. split; [reflexivity|]. cbn [bbstep bnames bb_live].
    rewrite top1, Em in *. rewrite <- Eg, <- Er. rewrite Eg. exact (rel_samples b m s' (mkBBook _ _) _ R S1 K1).
  - (* mresetz *) destruct (mresetz_st EW G SG q i b _ _ (ltac:(rewrite Em; apply V; simpl; auto)) S) as (r & s' & Er & E1 & S1 & K1).
    unfold vunit, bbind. rewrite E1. eexists. split; [reflexivity|]. cbn [bbstep bnames bb_live].
    rewrite top1, Em in *. rewrite <- Eg, <- Er. rewrite Eg. exact (rel_store _ _ i r (rel_samples b m s' (mkBBook _ _) _ R S1 K1)).
  - (* mz *) destruct (mz_st EW G SG q i b _ _ (ltac:(rewrite Em; apply V; simpl; auto)) S) as (r & s' & Er & E1 & S1 & K1).
    unfold vunit, bbind. rewrite E1. eexists. split; [reflexivity|]. cbn [bbstep bnames bb_live].
    rewrite top1, Em in *. rewrite <- Eg, <- Er. rewrite Eg. exact (rel_store _ _ i r (rel_samples b m s' (mkBBook _ _) _ R S1 K1)).
  - (* read *) unfold bbind, qis_read_result, bbind, expand, get_res, bret. cbn [with_res bres]. rewrite nth_grow, (rl_res _ _ R).
    eexists. split; [reflexivity|]. apply rel_touch; auto.
  - (* write *) unfold vunit, rt_write_result, bbind, expand, put_res, bret. cbn [with_res bres bsim bmax bout].
    eexists. split; [reflexivity|]. exact (rel_store b m i v R).
  - (* m *) destruct (m_st EW G SG q b _ _ (ltac:(rewrite Em; apply V; simpl; auto)) S) as (r & s' & Er & E1 & S1 & K1).
    unfold bbind. rewrite E1. eexists. split; [cbn [istep]; unfold ideal_step; cbn [bop]; cbn [bbstep bnames bb_live]; rewrite Em in Er; rewrite <- Eg, <- Er; reflexivity|].
    rewrite top1, Em, Eg in *. exact (rel_samples b m s' (mkBBook _ _) _ R S1 K1).
  - (* measure *) destruct V as (V1 & V2 & V3). destruct (measure_st EW G SG ps qs b _ _ V3 V1 (ltac:(rewrite Em; exact V2)) S) as (r & s' & E1 & Hr & S1 & K1).
    unfold bbind. rewrite E1. rewrite Em in *.
    assert (Er : truly _ (Rlt_dec (fst (draw (i_gen m))) (one_prob (width (opened (bb_max (i_book m)) (bb_live (i_book m)) (map snd (paired ps qs)))) (paired ps qs) (i_psi m))) = r).
    { unfold truly. rewrite Eg in Hr. destruct (Rlt_dec _ _) as [H|H]; destruct r; auto; [symmetry; apply Hr; exact H|]. exfalso. apply H, Hr. reflexivity. }
    eexists. split; [cbn [istep]; unfold ideal_step; cbn [bop bbstep bnames bb_live]; rewrite Er; reflexivity|].
    exact (rel_samples b m s' (mkBBook _ _) _ R S1 K1).
  - (* is_zero *) destruct (is_zero_st EW G SG q b _ _ (ltac:(rewrite Em; apply V; simpl; auto)) S) as (v & s' & E1 & Hv & S1 & K1).
    unfold bbind. rewrite E1. rewrite Em in *.
    assert (Ev : truly _ (Req_EM_T (born (width (opened (bb_max (i_book m)) (bb_live (i_book m)) [q])) [q] (i_psi m)) 0) = v).
    { unfold truly. destruct (Req_EM_T _ _) as [H|H]; destruct v; auto; [symmetry; apply Hv; exact H|]. exfalso. apply H, Hv. reflexivity. }
    eexists. split; [cbn [istep]; unfold ideal_step; cbn [bop bbstep bnames bb_live]; rewrite Ev; reflexivity|].
    rewrite top1. exact (rel_keeps b m s' (mkBBook _ _) _ R S1 K1).
  - (* assert *) destruct V as (V1 & V2 & V3). destruct (assert_st EW G SG ps qs result prob msg tolerance b _ _ V3 V1 (ltac:(rewrite Em; exact V2)) S) as [A1 A2].
    unfold vunit, bbind. rewrite Em in *. cbn [istep]. unfold ideal_step. cbn [bop bbstep bnames bb_live].
    match type of A2 with ?x < ?y -> _ => destruct (Rlt_dec x y) as [H|H] end.
    + rewrite (A2 H). rewrite (rl_out _ _ R). reflexivity.
    + destruct (A1 (Rnot_lt_le _ _ H)) as (s' & E1 & S1 & K1). rewrite E1. eexists. split; [reflexivity|]. exact (rel_keeps b m s' (mkBBook _ _) _ R S1 K1).
  - (* alloc *) destruct (alloc_rel b m R) as (s' & E1 & R1). unfold bbind. rewrite E1. eexists. split; [reflexivity|]. exact R1.
  - (* array *) destruct (array_rel n b m R) as (s' & E1 & R1). unfold bbind. rewrite E1. eexists. split; [reflexivity|]. exact R1.
  - (* release *) destruct (release_rel [q] b m R) as (s' & E1 & R1); [repeat constructor; auto|intros x [<- | []]; exact V|].
    unfold vunit, bbind. cbn [rt_release_array bfor fold_right] in E1. unfold bbind in E1.
    destruct (rt_qubit_release q b) as [[] b1|] eqn:E; [|discriminate]. inversion E1; subst. cbn [istep]. unfold ideal_step. cbn [bop fold_left] in *.
    destruct (discard (bb_live (i_book m), i_psi m, i_gen m) q) as [[l' psi'] g']. eexists. split; [reflexivity|]. exact R1.
  - (* release array *) destruct V as [V1 V2]. destruct (release_rel qs b m R V1 V2) as (s' & E1 & R1).
    unfold vunit, bbind. rewrite E1. cbn [istep]. unfold ideal_step. cbn [bop] in *.
    destruct (fold_left discard qs (bb_live (i_book m), i_psi m, i_gen m)) as [[l' psi'] g']. eexists. split; [reflexivity|]. exact R1.
  - (* string *) unfold bbind, rt_qubit_to_string, bret. eexists. split; [reflexivity|]. exact R.
  - (* capture *) destruct (st_call EW G SG (bsim b) _ _ CState S) as (r & s' & E & Rp & S' & K1 & K2); simpl; auto.
    destruct Rp as (lst & c & -> & Hc & L). cbn [bstep live effective vstep draws_sample rx_angles] in *.
    unfold bbind, api_capture, bbind, simcall. rewrite E. unfold bret. cbn [fst snd]. exists m. split; [exists lst, c; auto|].
    destruct R. split; auto. cbn. congruence. 
  - (* dump *) destruct location as [|loc]; [|unfold vunit, bbind, qis_dumpmachine; rewrite (rl_out _ _ R); reflexivity].
    destruct (st_call EW G SG (bsim b) _ _ CDump S) as (r & s' & E & Rp & S' & K1 & K2); [intros; exact Logic.I|exact Logic.I|intros []|].
    destruct Rp as (lst & c & -> & Hc & L). cbn [bstep live effective vstep draws_sample rx_angles] in *.
    set (t := (if Nat.eqb (i_used m) 0 then [] else lit "Global Results: "%string ++ show_results (map (i_res m) (seq 0 (i_used m))) ++ [NL])).
    assert (Ed : qis_dumpmachine 0 b = BOk tt (with_out (with_sim b s') (bout b ++ t ++ show_dump lst))).
    { unfold qis_dumpmachine. assert (Er : bres b = map (i_res m) (seq 0 (i_used m))).
      { apply nth_ext with (d := false) (d' := false); [rewrite map_length, seq_length; apply R|]. intros k Hk. rewrite (rl_res _ _ R).
        rewrite (rl_used _ _ R) in Hk. rewrite nth_indep with (d' := i_res m 0) by (rewrite map_length, seq_length; exact Hk).
        rewrite map_nth, seq_nth by exact Hk. reflexivity. }
      unfold t. rewrite <- Er. assert (Eu := rl_used _ _ R). destruct (bres b) as [|v rs] eqn:Eb.
      - rewrite <- Eu. cbn [length Nat.eqb app]. unfold bbind, bret, simcall, emit. rewrite E. cbn. reflexivity.
      - rewrite <- Eu. cbn [length Nat.eqb]. unfold bbind, bret, simcall, emit. cbn [with_out bsim]. rewrite E. cbn [with_sim with_out bsim bout bres bmax].
        rewrite <- !app_assoc. reflexivity. }
    unfold vunit, bbind. rewrite Ed. unfold bret. eexists. split; [exists lst, c; split; [auto|]; split; [auto|]; reflexivity|].
    fold t. destruct R. split; auto; cbn; congruence.
  - (* result *) unfold vunit, bbind, rt_result_record, bbind, recorded. cbn [istep]. unfold ideal_step. cbn [bop]. assert (Eu := rl_used _ _ R). rewrite <- Eu.
    destruct (bres b) as [|v rs] eqn:Eb; cbn [length Nat.eqb].
    + unfold emit, bret. eexists. split; [reflexivity|]. apply rel_say; auto.
    + unfold bbind, expand, get_res, emit, bret. cbn [with_res bres]. rewrite nth_grow, (rl_res _ _ R). eexists. split; [reflexivity|].
      exact (rel_say _ _ _ (rel_touch b m i R)).
  - (* legacy *) unfold vunit, bbind, rt_result_record_legacy, bbind, recorded. cbn [istep]. unfold ideal_step. cbn [bop]. assert (Eu := rl_used _ _ R). rewrite <- Eu.
    destruct (bres b) as [|v rs] eqn:Eb; cbn [length Nat.eqb].
    + unfold emit, bret. eexists. split; [reflexivity|]. apply rel_say; auto.
    + unfold bbind, expand, get_res, emit, bret. cbn [with_res bres]. rewrite nth_grow, (rl_res _ _ R). eexists. split; [reflexivity|].
      exact (rel_say _ _ _ (rel_touch b m i R)).
  - (* record *) unfold vunit, bbind, emit, bret. eexists. split; [reflexivity|]. apply rel_say; auto.
  - (* fail *) unfold rt_fail. rewrite (rl_out _ _ R). reflexivity.
  - (* init *) unfold vunit, bbind, rt_initialize, bret. eexists. split; [reflexivity|].
    assert (R0 := rel0 (rng (bsim b))). destruct R0, R. split; auto.
Qed.

Lemma run_rel : forall P : bcall -> Prop, (forall c, P c -> bangles G c) -> ((forall c, P c -> turns_y c = None) \/ forall a, G a -> cos (a / 2) <> 0) ->
  forall p fuel l b m t, isafe P p fuel l m t -> rel b m -> irun p fuel l m t (observed (run_from p fuel l (mkWorld b t))).
Proof.
  intros P CA CY p. induction fuel as [|fuel IH]; intros l b m t Sf R.
  - cbn [run_from observed wback]. rewrite (rl_out _ _ R). constructor.
  - cbn [run_from isafe] in *. destruct (pstep p l) as [mem|c k|lo hi k|] eqn:Ep.
    + cbn [observed wback wtgen]. rewrite (rl_out _ _ R), (rl_gen _ _ R). apply ir_done. exact Ep.
    + destruct Sf as (Pc & V & Sf). cbn [wback wtgen].
      assert (Y : y_free b c).
      { intros q a Hq Ha. destruct CY as [CY|CY]; [rewrite (CY _ Pc) in Hq; discriminate|]. apply CY. exact (rl_rx _ _ R q a Ha). }
      assert (X := sim_call c b m R V Y (CA _ Pc)). unfold simulates in X. destruct (bcall1 c b) as [r b'|e o].
      * destruct X as (m' & I & R'). eapply ir_call; [exact Ep|exact I|]. apply IH; auto.
      * cbn [observed]. eapply ir_halt; [exact Ep|exact X].
    + unfold draw_int. cbn [wback wtgen]. destruct (Z.ltb_spec hi lo) as [H|H].
      * cbn [observed]. rewrite (rl_out _ _ R). eapply ir_range; [exact Ep|exact H].
      * destruct (draw_range lo hi t) as [z t'] eqn:Ed. eapply ir_draw; [exact Ep|exact H|]. rewrite Ed. cbn [fst snd].
        specialize (Sf H). apply IH; auto.
    + cbn [observed wback]. rewrite (rl_out _ _ R). apply ir_trap. exact Ep.
Qed.
End Refine.

Section Theorems.
Context {T : Tol} {EN : Env} {D : Doubles} {SW : Shows} {RN : Rand}.
Lemma fresh_ideal : exact_world -> forall P f fuel mem g t, careful P -> isafe P (fprog f) fuel (pstart (fprog f) mem) (ideal0 g) t ->
  irun (fprog f) fuel (pstart (fprog f) mem) (ideal0 g) t (observed (fresh_run f fuel mem g t)).
Proof.
  intros EW P f fuel mem g t [C|(G & SG & GY & C)] Sf; unfold fresh_run.
  - apply (run_rel EW (fun _ => True) allG P); auto; [|apply rel0; exact EW]. intros c _. apply bangles_all.
  - apply (run_rel EW G SG P); auto. apply rel0. exact EW.
Qed.
Lemma istep_det : forall m c x y, c <> QCapture /\ c <> QDump 0 -> istep m c x -> istep m c y -> x = y.
Proof. intros m c x y [N1 N2] X Y. destruct c; try (cbn in X, Y; congruence). destruct location; [congruence|]. cbn in X, Y. congruence. Qed.
Lemma irun_det : forall P p, lists_nothing P -> forall fuel l m t o o', isafe P p fuel l m t -> irun p fuel l m t o -> irun p fuel l m t o' -> o = o'.
Proof.
  intros P p LN fuel l m t o o' Sf H. revert o'. induction H; intros o' H'; inversion H'; subst; try congruence; try lia;
    cbn [isafe] in Sf;
    repeat match goal with H1 : pstep p ?l = _, H2 : pstep p ?l = _ |- _ => rewrite H1 in H2; inversion H2; clear H2; subst end; try congruence; try lia.
  all: match goal with Q : pstep _ _ = _ |- _ => rewrite Q in Sf end.
  all: try (destruct Sf as (Pc & _ & Sf)).
  all: try match goal with A : istep ?m ?c ?x, B : istep ?m ?c ?y |- _ =>
    let X := fresh in assert (X := istep_det _ _ _ _ (LN _ Pc) A B); inversion X; subst end; auto.
Qed.
Lemma shots_ideal : exact_world -> forall P f fuel, careful P -> (forall mem g t, isafe P (fprog f) fuel (pstart (fprog f) mem) (ideal0 g) t) ->
  forall n mem g t recs m' g' t', shots_of f fuel n mem g t recs m' g' t' -> ishots (fprog f) fuel n mem g t recs m' g' t'.
Proof.
  intros EW P f fuel C Sf n mem g t recs m' g' t' H. induction H; [constructor|].
  assert (X := fresh_ideal EW P f fuel m g t C (Sf m g t)). rewrite H in X. cbn [observed] in X. eapply is_more; [exact X|exact IHshots_of].
Qed.
End Theorems.
