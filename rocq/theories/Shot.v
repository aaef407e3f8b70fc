(** * What a shot prints with rounding: proofs *)
From Coq Require Import String List NArith ZArith Reals Bool Lia Lra.
From Verif Require Import Cx Bits Arith ArithR Sim SimExp Spec SpecExp SpecRun SimRun SpecAny Any SpecNear SpecRound SpecLedger SpecRoundR RoundR
  RunLemmas Text Backend SpecBackend Runner SpecRunner SpecIdeal SpecChance SpecOdds BackAny SpecShot BackAnyR Boxes.
From Verif Require AnyRun Odds RoundLedger LedgerBound RunThms Chance.
Import ListNotations.
Local Open Scope R_scope.
Local Open Scope list_scope.

(** ** The same calls with two kinds of numbers *)
Section Pair.
Context {A : Arith} {AP : Approx} {PH : Phases} {D : Doubles} {T : Tol}.
Notation RA := (@RArith T).

Definition heard (r : @areply A) (r' : @areply RA) : Prop :=
  match r, r' with AUnit, AUnit => True | AId q, AId q' => q = q' | ABit v, ABit v' => v = v' | _, _ => False end.
Definition alike (c : @acall A) (c' : @acall RA) : Prop :=
  match c, c' with
  | AGate _ _, AGate _ _ | AMc _ _ _, AMc _ _ _ | APhase _ _ _, APhase _ _ _ | AExp _ _ _, AExp _ _ _
  | AMcExp _ _ _ _, AMcExp _ _ _ _ | AAlloc, AAlloc | ASwap _ _, ASwap _ _ => True
  | ARelease q, ARelease q' | AMeasure q, AMeasure q' => q = q'
  | AJointMeasure qs, AJointMeasure qs' => qs = qs'
  | _, _ => False
  end.
Inductive para {X} : @tree A X -> @tree RA X -> Prop :=
| para_leaf : forall x, para (Leaf x) (Leaf x)
| para_renew : forall t t', para t t' -> para (Renew t) (Renew t')
| para_ask : forall o c c' k k', alike c c' -> (forall r r', heard r r' -> para (k r) (k' r')) -> para (Ask o c k) (Ask o c' k').
Lemma para_bind : forall X Y (t : @tree A X) t' (f : X -> @tree A Y) f', para t t' -> (forall x, para (f x) (f' x)) -> para (tbind t f) (tbind t' f').
Proof. intros X Y t t' f f' H F. induction H; cbn [tbind]; [apply F|constructor; auto|constructor; auto]. Qed.

Definition prel {X} (m : @W A X) (m' : @W RA X) : Prop := forall k, para (m k) (m' k).
Lemma pr_bind : forall X Y (m : @W A X) m' (f : X -> @W A Y) f', prel m m' -> (forall x, prel (f x) (f' x)) -> prel (wbind m f) (wbind m' f').
Proof. intros X Y m m' f f' H F k. apply para_bind; [apply H|]. intros [x k'|e o]; [apply F|constructor]. Qed.
Lemma pr_ret : forall X (x : X), prel (wret x) (wret x).
Proof. intros X x k. constructor. Qed.
Lemma pr_same : forall X (f : desk -> answer X), prel (fun k => Leaf (f k)) (fun k => Leaf (f k)).
Proof. intros X f k. constructor. Qed.
Lemma pr_ask : forall c c' X (f : areply -> @W A X) f', alike c c' -> (forall r r', heard r r' -> prel (f r) (f' r')) -> prel (wbind (ask c) f) (wbind (ask c') f').
Proof. intros c c' X f f' H F k. cbn. constructor; auto. intros r r' Hr. apply F. exact Hr. Qed.
Lemma pr_do : forall c c', alike c c' -> prel (ask_do c) (ask_do c').
Proof. intros c c' H. apply pr_ask; auto. intros. apply pr_ret. Qed.
Lemma pr_bit : forall c c', alike c c' -> prel (ask_bit c) (ask_bit c').
Proof. intros c c' H. apply pr_ask; auto. intros r r' Hr. destruct r, r'; simpl in Hr; try contradiction; subst; apply pr_ret. Qed.
Lemma pr_for : forall X (l : list X) f f', (forall x, prel (f x) (f' x)) -> prel (wfor l f) (wfor l f').
Proof. intros X l f f' H. induction l as [|x l IH]; [apply pr_ret|]. apply pr_bind; auto. Qed.
Lemma pr_alloc : forall n, prel (a_alloc_times n) (a_alloc_times n).
Proof.
  induction n as [|n IH]; [apply pr_ret|]. simpl. apply pr_ask; [exact I|]. intros r r' _. apply pr_bind; [|auto]. intros k. constructor.
Qed.
Lemma pr_ensure : forall q, prel (a_ensure q) (a_ensure q).
Proof. intros q k. apply pr_alloc. Qed.

Ltac pgo := repeat first
  [ apply pr_ret | apply pr_ensure | apply pr_same | (apply pr_do; first [exact I|reflexivity]) | (apply pr_bit; reflexivity)
  | (apply pr_for; intros) | (apply pr_bind; [|intros]) ].
Lemma pr_gate : forall g g' q, prel (a_gate g q) (a_gate g' q).
Proof. intros. unfold a_gate. pgo. Qed.
Lemma pr_c1 : forall g g' c q, prel (a_c1 g c q) (a_c1 g' c q).
Proof. intros. unfold a_c1. pgo. Qed.
Lemma pr_ctl : forall g g' cs q, prel (a_ctl g cs q) (a_ctl g' cs q).
Proof. intros. unfold a_ctl. pgo. Qed.
Lemma pr_rzz : forall th th' a b, prel (a_rzz th a b) (a_rzz th' a b).
Proof. intros. unfold a_rzz. apply pr_bind; [apply pr_c1|intros]. apply pr_bind; [apply pr_gate|intros]. apply pr_c1. Qed.
Ltac pgs := repeat (apply pr_bind; [first [apply pr_rzz|apply pr_gate]|intros]); first [apply pr_rzz|apply pr_gate].
Lemma pr_r : forall p th th' q, prel (a_r p th q) (a_r p th' q).
Proof. intros [] th th' q; first [apply pr_gate|apply pr_ret]. Qed.
Lemma pr_r_ctl : forall cs p th th' q, prel (@a_r_ctl A PH cs p th q) (@a_r_ctl RA (PhasesR T) cs p th' q).
Proof.
  intros cs [] th th' q; try apply pr_ctl. destruct cs as [|c cs]; [apply pr_ret|]. unfold a_r_ctl. pgo.
Qed.
Lemma pr_recorded : forall i, prel (a_recorded i) (a_recorded i).
Proof.
  intros i k. unfold a_recorded. destruct (dres k); [constructor|]. cbn. constructor.
Qed.
Lemma pr_allocate : prel a_qubit_allocate a_qubit_allocate.
Proof. apply pr_ask; [exact I|]. intros r r' Hr. destruct r, r'; simpl in Hr; try contradiction; subst; intros k; cbv zeta; apply para_leaf. Qed.
Lemma pr_allocate_array : forall n, prel (a_allocate_array n) (a_allocate_array n).
Proof. induction n as [|n IH]; simpl; [apply pr_ret|]. apply pr_bind; [apply pr_allocate|intros]. apply pr_bind; [auto|intros]. apply pr_ret. Qed.
Lemma pr_unit : forall m m', prel m m' -> prel (wunit m) (wunit m').
Proof. intros. unfold wunit. apply pr_bind; [auto|intros]. apply pr_ret. Qed.

Theorem pr_call : forall c, prel (@acall1 A PH D c) (@acall1 RA (PhasesR T) D (real_call c)).
Proof.
  destruct c; cbn [acall1 real_call]; try apply pr_unit.
  - apply pr_gate.
  - apply pr_c1.
  - unfold a_c2. pgo.
  - apply pr_ctl.
  - unfold a_sx. pgs.
  - unfold a_rxx. pgs.
  - unfold a_ryy. pgs.
  - apply pr_rzz.
  - apply pr_r.
  - apply pr_r.
  - apply pr_r_ctl.
  - apply pr_r_ctl.
  - unfold a_exp. pgo.
  - unfold a_exp_adj, a_exp. pgo.
  - unfold a_exp_ctl. pgo.
  - unfold a_exp_ctladj, a_exp_ctl. pgo.
  - unfold a_swap. pgo.
  - unfold a_reset. pgo. match goal with |- context [if ?v then _ else _] => destruct v end; pgo.
  - unfold a_mresetz. pgo. match goal with |- context [if ?v then _ else _] => destruct v end; pgo.
  - unfold a_mz. pgo.
  - unfold a_read_result. pgo.
  - unfold a_write_result. pgo.
  - unfold a_m. pgo.
  - unfold a_measure. apply pr_bind; [|intros; pgo]. apply pr_bind; [|intros].
    + unfold a_map_to_z_basis. destruct (Nat.eqb _ _); [|apply pr_same]. pgo.
      match goal with |- prel (a_to_z ?x) _ => destruct x as [[] ?] end; unfold a_to_z; pgo.
    + pgo. match goal with |- prel (a_from_z ?x) _ => destruct x as [[] ?] end; unfold a_from_z; pgo.
  - apply pr_bind; [apply pr_allocate|intros; pgo].
  - apply pr_bind; [apply pr_allocate_array|intros; pgo].
  - unfold a_qubit_release. pgo.
  - unfold a_release_array, a_qubit_release. pgo.
  - unfold a_qubit_to_string. pgo.
  - pgo.
  - unfold a_result_record. apply pr_bind; [apply pr_recorded|intros; apply pr_same].
  - unfold a_result_record_legacy. apply pr_bind; [apply pr_recorded|intros; apply pr_same].
  - apply pr_same.
  - apply pr_same.
  - intros k. constructor. constructor.
Qed.

Theorem pr_shot : forall (TG : ThreadGen) (p : aprogram) fuel l k t,
  para (@shot_tree A PH D TG p fuel l k t) (@shot_tree RA (PhasesR T) D TG (real_program p) fuel l k t).
Proof.
  intros TG p. induction fuel as [|n IH]; intros l k t; [constructor|]. cbn [shot_tree].
  change (@astep RA D (real_program p) l) with (@real_step A AP D T _ _ (astep p l)). destruct (astep p l) as [m|c f|lo hi f|]; cbn [real_step]; try constructor.
  - apply para_bind; [apply pr_call|]. intros [r k'|e o]; [apply IH|constructor].
  - destruct (hi <? lo)%Z; [constructor|]. destruct (tg_range lo hi t) as [z t']. apply IH.
Qed.

(** ** The label of a sequence of results *)
Fixpoint leaf {X} (b : book) (t : @tree A X) (os : list bool) : option X :=
  match t with
  | Leaf x => Some x
  | Renew t1 => leaf b t1 os
  | Ask _ c k =>
    if adraws (live b) c then
      match os with [] => None | o :: os1 => leaf (abstep b c) (k (reply_to (live b) c o)) os1 end
    else leaf (abstep b c) (k (reply_to (live b) c false)) os
  end.
Lemma alike_book : forall b c c', alike c c' -> bstep b (plain_call c') = abstep b c.
Proof. intros b c c' H. destruct c, c'; simpl in *; try contradiction; subst; reflexivity. Qed.
Lemma alike_asks : forall l c c', alike c c' -> adraws l c = match asks l (plain_call c') with Some _ => true | None => false end.
Proof. intros l c c' H. destruct c, c'; simpl in *; try contradiction; subst; try reflexivity. destruct (remove_id _ l); reflexivity. Qed.
Lemma alike_heard : forall l c c' v, alike c c' -> heard (reply_to l c v) (reply_to l c' v).
Proof. intros l c c' v H. destruct c, c'; simpl in *; try contradiction; auto. Qed.
Lemma plain_of : forall c : @acall RA, acall_of (plain_call c) = c.
Proof. destruct c; simpl; try reflexivity; destruct g; reflexivity. Qed.
(** The plan does not ask for the result where there is none. *)
Lemma go_plan : forall X b c c' (k : @areply A -> @tree A X) k' v, alike c c' ->
  go_on (plain_call c') (fun r => plan_of (abstep b c) (k (reply_to (live b) c r)) (k' (reply_to (live b) c' r))) v =
  plan_of (abstep b c) (k (reply_to (live b) c v)) (k' (reply_to (live b) c' v)).
Proof. intros X b c c' k k' v H. destruct c, c'; simpl in *; try contradiction; reflexivity. Qed.
Lemma reply_quiet_to : forall l c c', alike c c' -> asks l (plain_call c') = None -> forall v, reply_to l c v = reply_to l c false.
Proof. intros l c c' H E v. destruct c, c'; simpl in *; try contradiction; try discriminate; reflexivity. Qed.
Lemma reply_quiet_to' : forall l c c', alike c c' -> asks l (plain_call c') = None -> forall v, reply_to l c' v = reply_to l c' false.
Proof. intros l c c' H E v. destruct c, c'; simpl in *; try contradiction; try discriminate; reflexivity. Qed.

(** ** The simulator follows the tree *)
Section Follow.
Context {EN : @Env A} {PP : ApproxP}.
Lemma along_play : forall w u X (t : @tree A (answer X)) t', para t t' -> settled t -> forall b psi os rs s s',
  perform s (plan_of b t t') = Ok (rs, s') -> along w u b psi (plan_of b t t') os rs ->
  leaf b t os = Some (fst (play s t)) /\ snd (play s t) = s'.
Proof.
  intros w u X t t' H. induction H as [x|t t' H IH|o c c' k k' Ha Hk IH]; intros St b psi os rs s s' E Al.
  - split; [reflexivity|]. cbn in E |- *. congruence.
  - destruct St.
  - cbn [plan_of perform] in E. destruct (arun1 s c) as [[r s1]|] eqn:Er; cbn [bind fst snd] in E; [|discriminate].
    destruct (perform s1 _) as [[rs1 s2]|] eqn:E1; cbn [bind fst snd] in E; [|discriminate]. injection E as <- <-.
    rewrite go_plan in E1 by exact Ha. cbn [plan_of along] in Al. cbn [leaf play]. rewrite Er. rewrite (alike_asks _ _ _ Ha).
    rewrite (alike_book b _ _ Ha) in Al. destruct (asks (live b) (plain_call c')) as [qs|] eqn:Ea.
    + destruct os as [|v os]; [destruct Al|]. destruct Al as [R Al]. rewrite go_plan in Al by exact Ha.
      assert (Er' : r = reply_to (live b) c v /\ reply_to (live b) c (bit_in r) = reply_to (live b) c v /\ reply_to (live b) c' (bit_in r) = reply_to (live b) c' v).
      { subst r. destruct c, c'; simpl in Ha, Ea; try contradiction; try discriminate; simpl; auto. }
      destruct Er' as (-> & X1 & X2). rewrite X1, X2 in E1.
      eapply (IH _ _ (alike_heard (live b) c c' v Ha)); [apply St|exact E1|exact Al].
    + destruct Al as [R Al]. rewrite go_plan in Al by exact Ha. rewrite (reply_quiet_to _ _ _ Ha Ea), (reply_quiet_to' _ _ _ Ha Ea) in E1.
      assert (Er' : r = reply_to (live b) c false).
      { destruct c, c'; simpl in Ha, Ea, R; try contradiction; try discriminate; simpl; auto. }
      rewrite Er'. eapply (IH _ _ (alike_heard (live b) c c' false Ha)); [apply St|exact E1|exact Al].
Qed.
End Follow.

(** ** So does the exact machine *)
Section Exact.
Context {EN' : @Env RA}.
Lemma exact_follow : forall X (t : @tree A (answer X)) t', para t t' -> settled t -> forall b psi v g, In v (ways 0 0 b psi (plan_of b t t')) ->
  inside (samples_of g) (ranges v) ->
  exists h h', branch (plan_of b t t') h h' /\
    forall rs s s', replies_ok draw (mkMachine b psi g) h' rs -> exec s h' = Ok (rs, s') -> leaf b t (results v) = Some (fst (play s t')).
Proof.
  intros X t t' H. induction H as [x|t t' H IH|o c c' k k' Ha Hk IH]; intros St b psi v g Iv Ib.
  - simpl in Iv. destruct Iv as [<-|[]]. exists [], []. split; [constructor|]. reflexivity.
  - destruct St.
  - cbn [plan_of ways] in Iv. cbn [plan_of]. rewrite (alike_book b _ _ Ha) in Iv. cbn [leaf play]. rewrite (alike_asks _ _ _ Ha).
    destruct (asks (live b) (plain_call c')) as [qs|] eqn:Ea.
    + apply in_flat_map in Iv. destruct Iv as [r [_ Iv]]. destruct (Rlt_dec 0 _) as [L|]; [|destruct Iv].
      apply in_map_iff in Iv. destruct Iv as [v' [<- I']]. cbn [results ranges inside] in *. rewrite go_plan in I' by exact Ha.
      destruct (side 0 (born (width (live b)) qs psi) r) as [lo hi] eqn:Es. destruct Ib as [Ib1 Ib2].
      assert (Sd := Odds.side_outcome 0 (live b) qs psi (samples_of g 0%nat) r (Rle_refl 0)). rewrite Es in Sd. destruct (Sd Ib1) as [Eo _].
      destruct (IH _ _ (alike_heard (live b) c c' r Ha) (St _) (abstep b c) _ v' (snd (draw g)) I' Ib2) as (h & h' & Br & Re).
      exists (c :: h), (plain_call c' :: h'). split; [apply branch_call with r; rewrite go_plan by exact Ha; exact Br|].
      intros [|r0 rs] s s' R E; cbn [replies_ok] in R; [contradiction|]. cbn [bk vec mgen] in R. destruct R as [R1 R2].
      assert (Ms : mstep1 draw (mkMachine b psi g) (plain_call c') = mkMachine (abstep b c) (told (live b) psi (plain_call c') qs r) (snd (draw g))).
      { unfold mstep1. cbn [bk vec mgen]. destruct (draw g) as [x g1] eqn:Ed. rewrite (Odds.asks_some _ _ _ Ea), (Odds.vstep_told _ _ _ _ _ Ea), (alike_book b _ _ Ha).
        unfold samples_of in Eo. cbn [gen_after] in Eo. rewrite Ed in Eo. cbn [fst] in Eo. rewrite Eo. reflexivity. }
      rewrite Ms in R2. cbn [exec] in E. rewrite run1_of, plain_of in E.
      destruct (arun1 s c') as [[r1 s1]|]; cbn [bind] in E; [|discriminate].
      destruct (exec s1 h') as [[rs1 s2]|] eqn:E2; cbn [bind] in E; [|discriminate]. injection E as E3 E4 E5. subst rs1 s2.
      assert (Er : r1 = reply_to (live b) c' r).
      { change (fst (draw g)) with (samples_of g 0%nat) in R1.
        destruct c, c'; simpl in Ha, Ea; try contradiction; try discriminate; simpl in R1; try (injection Ea as <-; rewrite Eo in R1);
          rewrite <- E3 in R1; destruct r1; simpl in R1 |- *; try discriminate; try reflexivity; now injection R1 as ->. }
      rewrite Er. apply (Re rs s1 s' R2 E2).
    + rewrite go_plan in Iv by exact Ha.
      destruct (IH _ _ (alike_heard (live b) c c' false Ha) (St _) (abstep b c) _ v g Iv Ib) as (h & h' & Br & Re).
      exists (c :: h), (plain_call c' :: h'). split; [apply branch_call with false; rewrite go_plan by exact Ha; exact Br|].
      intros [|r0 rs] s s' R E; cbn [replies_ok] in R; [contradiction|]. cbn [bk vec mgen] in R. destruct R as [R1 R2].
      assert (Ms : mstep1 draw (mkMachine b psi g) (plain_call c') = mkMachine (abstep b c) (vstep (live b) psi 0 (plain_call c')) g).
      { unfold mstep1. cbn [bk vec mgen]. destruct (draw g) as [x g1]. rewrite (Odds.asks_none _ _ Ea), (Odds.vstep_quiet _ _ _ _ Ea), (alike_book b _ _ Ha).
        reflexivity. }
      rewrite Ms in R2. cbn [exec] in E. rewrite run1_of, plain_of in E.
      destruct (arun1 s c') as [[r1 s1]|]; cbn [bind] in E; [|discriminate].
      destruct (exec s1 h') as [[rs1 s2]|] eqn:E2; cbn [bind] in E; [|discriminate]. injection E as E3 E4 E5. subst rs1 s2.
      assert (Er : r1 = reply_to (live b) c' false).
      { destruct c, c'; simpl in Ha, Ea; try contradiction; try discriminate; simpl in R1; rewrite <- E3 in R1; destruct r1; simpl in R1 |- *; try discriminate; try reflexivity;
          now injection R1 as ->. }
      rewrite Er. apply (Re rs s1 s' R2 E2).
Qed.
End Exact.
End Pair.

(** ** Boxes of samples *)
Lemma ways_cover : forall {A : Arith} (P : plan) b psi xs, unit_samples xs -> Exists (fun v => inside xs (ranges v)) (ways 0 0 b psi P).
Proof.
  intros A P. induction P as [|c c' k IH]; intros b psi xs U.
  - constructor. exact I.
  - destruct (asks (live b) c') as [qs|] eqn:E.
    + rewrite (Odds.ways_asks 0 0 b psi c c' k qs E). assert (U0 := U 0%nat). assert (U1 : unit_samples (fun n => xs (S n))) by (intros n; apply U).
      assert (X : forall r, 0 < SpecLedger.chance (live b) qs r psi -> fst (side 0 (born (width (live b)) qs psi) r) <= xs 0%nat < snd (side 0 (born (width (live b)) qs psi) r) ->
        Exists (fun v => inside xs (ranges v)) (Odds.half 0 0 b psi c' k qs r)).
      { intros r C S. unfold Odds.half. destruct (Rlt_dec 0 _); [|contradiction]. destruct (Odds.go_k c' k r) as [r' G]. rewrite G.
        assert (H := IH r' (bstep b c') (told (live b) psi c' qs r) _ U1). apply Exists_exists in H. destruct H as (v & I1 & I2).
        apply Exists_exists. exists (Odds.extend 0 (live b) qs psi r v). split; [apply in_map; exact I1|]. unfold Odds.extend. cbn [ranges inside].
        destruct (side 0 (born (width (live b)) qs psi) r) as [lo hi]. split; [exact S|exact I2]. }
      apply Exists_app. destruct (Rlt_dec (xs 0%nat) (born (width (live b)) qs psi)) as [L|L].
      * left. apply X; cbn [side fst snd]; unfold SpecLedger.chance; lra.
      * right. apply X; cbn [side fst snd]; unfold SpecLedger.chance; lra.
    + cbn [ways]. rewrite E. destruct (Odds.go_k c' k false) as [r' G]. rewrite G. apply IH. exact U.
Qed.
Lemma early_strip : forall {A : Arith} {AP : Approx} {T : Tol} {EN : Env} {EN' : @Env (@RArith T)} X (t : @tree A (answer X)) t', para t t' -> early t ->
  exists t1 t1', para t1 t1' /\ settled t1 /\ (forall b, plan_of b t t' = plan_of b t1 t1') /\ (forall b os, leaf b t os = leaf b t1 os) /\
    (forall g, play (new_sim g) t = play (new_sim g) t1) /\ (forall g, play (new_sim g) t' = play (new_sim g) t1').
Proof.
  intros A AP T EN EN' X t t' H. induction H as [x|t t' H IH|o c c' k k' Ha Hk IH]; intros Ea.
  - exists (Leaf x), (Leaf x). split; [constructor|]. auto 6.
  - destruct (IH Ea) as (t1 & t1' & H1 & H2 & H3 & H4 & H5 & H6). exists t1, t1'. split; [exact H1|]. split; [exact H2|]. split; [exact H3|].
    split; [exact H4|]. split; [exact H5|exact H6].
  - exists (Ask o c k), (Ask o c' k'). split; [constructor; auto|]. auto 6.
Qed.
Lemma stands_valid : forall {A : Arith} {AP : Approx} c c' b, call_stands c c' -> avalid b c -> valid b c' /\ unit_call c'.
Proof.
  intros A AP c c' b M V. destruct c, c'; simpl in M; try contradiction; simpl in *; intuition subst; auto.
Qed.
Lemma stands_proper : forall {A : Arith} {AP : Approx} h h' b, Forall2 call_stands h h' -> avalid_run b h -> valid_run b h' /\ Forall unit_call h'.
Proof.
  intros A AP h h' b F. revert b. induction F as [|c c' h h' M F IH]; intros b V; simpl in *; [auto|]. destruct V as [V1 V2].
  destruct (stands_valid c c' b M V1) as [X1 X2]. rewrite (RoundLedger.stands_book c c' b M). destruct (IH _ V2) as [Y1 Y2]. auto.
Qed.

(** ** Together *)
(** The samples used along a sequence of results. *)
Lemma perform_rng : forall {A : Arith} {EN : Env} {AP : Approx} {PP : ApproxP}, any_order -> forall w q t u (P : plan) m b psi v s rs s',
  Odds.sane w m b P -> AnyRun.abook s b -> In v (ways q t b psi P) -> along w u b psi P (results v) rs -> perform s P = Ok (rs, s') ->
  rng s' = gen_at (length (ranges v)) (rng s).
Proof.
  intros A EN AP PP O w q t u P. induction P as [|c c' k IH]; intros m b psi v s rs s' Sn B Iv Al E.
  - cbn in Iv, E. destruct Iv as [<-|[]]. cbn. congruence.
  - destruct (Odds.sane_call w _ _ _ _ _ Sn) as (V & M & Nf & Bw & _ & Sn'). cbn [perform] in E.
    destruct (AnyRun.one_call O s b c B V) as [(r & s1 & E1 & B1 & Rp & Rg)|[_ E1]]; rewrite E1 in E; cbn [bind fst snd] in E; [|discriminate].
    destruct (perform s1 _) as [[rs1 s2]|] eqn:E2; cbn [bind fst snd] in E; [|discriminate]. injection E as <- <-.
    cbn [ways along] in Iv, Al. rewrite <- (RoundLedger.stands_book c c' b M) in B1. destruct (asks (live b) c') as [qs|] eqn:Ea.
    + assert (Dr : adraws (live b) c = true) by (destruct c, c'; simpl in M, Ea |- *; try contradiction; try discriminate; try reflexivity; subst; destruct (remove_id _ _); congruence).
      rewrite Dr in Rg. apply in_flat_map in Iv. destruct Iv as (o & _ & Iv). destruct (Rlt_dec q _); [|destruct Iv].
      apply in_map_iff in Iv. destruct Iv as (v' & <- & Iv). cbn [results ranges length] in *. destruct Al as [R Al].
      destruct (Odds.go_k c' k o) as [r' G]. rewrite G in *.
      assert (Gb : go_on c' k (bit_in r) = k r') by (rewrite <- G; destruct c'; simpl in Ea |- *; try discriminate; try reflexivity; rewrite R; reflexivity).
      rewrite Gb in E2. cbn [gen_at]. rewrite <- Rg. eapply (IH r'); [rewrite <- G; apply (Sn' o)|exact B1|exact Iv|exact Al|exact E2].
    + assert (Dr : adraws (live b) c = false) by (destruct c, c'; simpl in M, Ea |- *; try contradiction; try discriminate; try reflexivity; subst; destruct (remove_id _ _); congruence).
      rewrite Dr in Rg. destruct Al as [R Al]. destruct (Odds.go_k c' k false) as [r' G]. rewrite G in *.
      assert (Gb : go_on c' k (bit_in r) = k r') by (rewrite <- G; destruct c'; simpl in Ea |- *; try discriminate; try reflexivity).
      rewrite Gb in E2. rewrite <- Rg. eapply (IH r'); [rewrite <- G; apply (Sn' false)|exact B1|exact Iv|exact Al|exact E2].
Qed.

Section All.
Context {A : Arith} {EN : Env} {AP : Approx} {PP : ApproxP} {PH : Phases} {D : Doubles} {SW : Shows}.
Context {T : Tol} {EN' : @Env (@RArith T)} {RN : @Rand T EN'}.
Hypothesis laws : approx_ok.
Hypothesis plaws : approx_p_ok.
Hypothesis horder_perm : any_order.
Hypothesis EW : exact_world.
Hypothesis every : all_samples.

Lemma exact_same : forall c : @acallb A D, @exact_call _ (ApproxR T 0) D (real_call c) = exact_call c.
Proof. destruct c; simpl; try reflexivity; destruct g; reflexivity. Qed.
Theorem same_shot : forall (p : aprogram) mem fuel l k t s,
  shot_end (fst (@play _ EN' _ s (@shot_tree (@RArith T) (PhasesR T) D (thread_of RN) (real_program p) fuel l k t))) =
  ending (run_from (exact_program p mem) fuel l (mkWorld (back_of s k) t)).
Proof.
  intros p mem. induction fuel as [|n IH]; intros l k t s; [reflexivity|]. cbn [shot_tree run_from].
  change (pstep (exact_program p mem) l) with (exact_step (astep p l)).
  change (@astep _ D (real_program p) l) with (@real_step A AP D T _ _ (astep p l)). destruct (astep p l) as [m|c f|lo hi f|]; cbn [exact_step real_step].
  - reflexivity.
  - rewrite play_bind by reflexivity. assert (H := same_call (real_call c) s k). rewrite exact_same in H. unfold bres_of in H. cbn [wback].
    rewrite <- H. unfold PhR. destruct (play s (@acall1 _ (PhasesR T) D (real_call c) k)) as [[r k'|e o] s']; cbn [fst snd]; [apply (IH (f r) k' t s')|reflexivity].
  - unfold draw_int. cbn [wback wtgen]. destruct (hi <? lo)%Z; [reflexivity|]. change (@tg_range (thread_of RN) lo hi t) with (draw_range lo hi t).
    destruct (draw_range lo hi t) as [z t']. apply (IH (f z) k t' s).
  - reflexivity.
Qed.

Definition label (p : aprogram) (fuel : nat) (mem : amem p) (t : tgen) (os : list bool) : ended (amem p) :=
  match leaf (mkBook [] true) (tree_a p fuel mem t) os with Some a => shot_end a | None => EMore [] end.
Definition leaves_of (q u : R) (p : aprogram) (fuel : nat) (mem : amem p) (t : tgen) : list (box * ended (amem p)) :=
  map (fun v => (ranges v, label p fuel mem t (results v))) (ways q u (mkBook [] true) ket0 (plan_for p fuel mem t)).
Lemma mass_total : forall q u p fuel mem t f E,
  mass f E (leaves_of q u p fuel mem t) =
  total (fun v => f (ranges v)) (fun os => E (label p fuel mem t os)) (ways q u (mkBook [] true) ket0 (plan_for p fuel mem t)).
Proof. intros. unfold mass, leaves_of, total. rewrite map_map. reflexivity. Qed.

Variables (w m : nat) (q u : R) (p : aprogram) (fuel : nat) (mem : amem p) (t : tgen).
Hypothesis fits : shot_fits w m q u p fuel mem t.

(** The machine's numbers. *)
Lemma shot_in_box : 0 < q <= 1 -> 0 <= u <= 1 / 2 -> u <= q / 2 -> thr + u <= q -> forall g y,
  In y (leaves_of q u p fuel mem t) -> inside (samples g) (fst y) ->
  ends p fuel mem g t = snd y /\ rng (snd (@shot A EN PH D (thread_of RN) p fuel mem g t)) = gen_at (length (fst y)) g.
Proof.
  intros Hq Hu Uq Tu g y Iy Ib. apply in_map_iff in Iy. destruct Iy as (v & <- & Iv). cbn [fst snd] in *. destruct fits as (Ea & F & _).
  destruct (Odds.in_box_run laws plaws horder_perm w q u m _ v g Hq (proj1 Hu) (proj2 Hu) Uq Tu F Iv Ib) as (rs & s & E & Al).
  destruct (early_strip (EN := EN) (EN' := EN') _ _ _ (pr_shot (thread_of RN) p fuel (astart p mem) desk0 t) Ea) as (t1 & t1' & P1 & S1 & H3 & H4 & H5 & _).
  assert (Rg := perform_rng horder_perm w q u u _ m _ _ v _ _ _ (Odds.fits_sane w q u m _ F) (AnyRun.new_abook g) Iv Al E).
  unfold plan_for, tree_a, tree_r in E, Al. rewrite H3 in E, Al. unfold ends, shot, label, tree_a. rewrite H4, H5.
  destruct (along_play w u _ t1 t1' P1 S1 _ _ _ _ _ _ E Al) as [Lf Sn]. rewrite Lf, Sn. split; [reflexivity|exact Rg].
Qed.
(** Exact numbers. *)
Lemma exact_in_box : forall g y, In y (leaves_of 0 0 p fuel mem t) -> inside (samples_of g) (fst y) ->
  shot_end (fst (@play _ EN' _ (new_sim g) (tree_r p fuel mem t))) = snd y.
Proof.
  intros g y Iy Ib. apply in_map_iff in Iy. destruct Iy as (v & <- & Iv). cbn [fst snd] in *. destruct fits as (Ea & F & No).
  destruct (early_strip (EN := EN) (EN' := EN') _ _ _ (pr_shot (thread_of RN) p fuel (astart p mem) desk0 t) Ea) as (t1 & t1' & P1 & S1 & H3 & H4 & _ & H6).
  unfold plan_for, tree_a, tree_r in Iv. rewrite H3 in Iv. destruct (exact_follow _ t1 t1' P1 S1 _ _ v g Iv Ib) as (h & h' & Br & Re).
  assert (Br' : branch (plan_for p fuel mem t) h h') by (unfold plan_for, tree_a, tree_r; rewrite H3; exact Br).
  destruct (F h h' Br') as (V & M & _). destruct (stands_proper h h' _ M V) as [V' U'].
  destruct (RunThms.history_thm EW g h' (conj V' U')) as (rs & s & h2 & E & _ & Nh & R & _). rewrite (Nh (No h h' Br')) in R.
  assert (L := Re rs _ s R E). unfold label, tree_a, tree_r. rewrite H4, H6, L. reflexivity.
Qed.
Lemma mass_label : forall (f : box -> R) (E : ended (amem p) -> bool) (ls : list (box * ended (amem p))) ws,
  Forall2 (fun leaf w => f (fst leaf) = fst w /\ snd leaf = snd w) ls ws -> mass f E ls = chance_of E ws.
Proof.
  intros f E ls ws F. unfold mass, chance_of. induction F as [|y v ls ws [E1 E2] F IH]; cbn; [reflexivity|]. rewrite IH, E1, E2. reflexivity.
Qed.
Lemma exact_total : forall (P : bcall -> Prop) (E : ended (amem p) -> bool), careful P -> lists_nothing P ->
  sound P (exact_program p mem) fuel (pstart (exact_program p mem) mem) path0 t ->
  chance_of E (chances (exact_program p mem) fuel (pstart (exact_program p mem) mem) path0 t) =
  total weight (fun os => E (label p fuel mem t os)) (ways 0 0 (mkBook [] true) ket0 (plan_for p fuel mem t)).
Proof.
  intros P E CP LN Sd. destruct fits as (Ea & F & No).
  set (f := {| fname := EmptyString; fparams := 0; fvoid := true; fbody := true; fattrs := []; fprog := exact_program p mem |}).
  destruct (Chance.shot_tiles EW P f fuel mem t CP LN Sd) as (ls & [T1 T2] & Fl).
  assert (Hl : Forall2 (fun leaf v => volume (fst leaf) = fst v /\ snd leaf = snd v) ls (chances (exact_program p mem) fuel (pstart (exact_program p mem) mem) path0 t)).
  { clear - T1. change (fprog f) with (exact_program p mem) in T1.
    induction T1 as [|y wy ls ws [E1 E2] T1 IH]; constructor; auto. rewrite Rmult_1_r in E1. auto. }
  transitivity (mass volume E (ls : list (box * ended (amem p)))); [symmetry; exact (mass_label volume E ls _ Hl)|].
  assert (Sn := Odds.fits_sane w q u m _ F). assert (O := Odds.ok_ket0 w : RoundLedger.vec_ok w (live (mkBook [] true)) ket0).
  set (W0 := ways 0 0 (mkBook [] true) ket0 (plan_for p fuel mem t)).
  assert (Lo : forall r : R * R, 0 <= fst r -> fst r <= snd r -> snd r <= 1 -> 0 <= snd r - fst r /\ Rabs (snd r - fst r - (snd r - fst r)) <= 0).
  { intros r B1 B2 B3. rewrite Rminus_eq_0, Rabs_R0. lra. }
  assert (Z : 0 <= 0 <= 0) by lra.
  assert (Hf := Odds.boxes_fit w 0 0 (fun r => snd r - fst r) 0 Lo Z _ m _ _ Z Sn O). fold W0 in Hf.
  assert (Hv := Odds.volume_lost w 0 0 (fun r => snd r - fst r) 0 Lo Z _ m _ _ Z Sn O). fold W0 in Hv.
  assert (Pa : partition (map fst (leaves_of 0 0 p fuel mem t))).
  { unfold leaves_of. rewrite map_map. cbn [fst]. fold W0. split; [|split].
    - apply Forall_map. eapply Forall_impl; [|exact Hf]. intros v [U _]. exact U.
    - assert (Ap := Odds.boxes_apart 0 0 (plan_for p fuel mem t) (mkBook [] true) ket0 (Rle_refl 0)). fold W0 in Ap.
      clear - Ap. induction Ap as [|v vs Hv _ IH]; cbn [map]; constructor; auto. apply Forall_map. exact Hv.
    - intros xs U. assert (C := ways_cover (plan_for p fuel mem t) (mkBook [] true) ket0 xs U). fold W0 in C.
      apply Exists_exists in C. destruct C as (v & I1 & I2). apply Exists_exists. exists (ranges v). split; [apply in_map_iff; eauto|exact I2]. }
  assert (Agree : mass volume E (ls : list (box * ended (amem p))) = mass volume E (leaves_of 0 0 p fuel mem t)).
  { apply (one_volume (ls : list (box * ended (amem p))) (leaves_of 0 0 p fuel mem t) T2 Pa).
    intros xs l1 l2 U I1 I2 B1 B2. destruct (every xs U) as [g Hg].
    assert (Gi : forall b ys, (forall n, ys n = xs n) -> inside xs b -> inside ys b).
    { clear. intros b. revert xs. induction b as [|[lo hi] b IH]; intros xs ys Hy Hb; [exact Logic.I|]. destruct Hb as [H1 H2]. split; [rewrite Hy; exact H1|].
      apply (IH (fun n => xs (S n))); auto. }
    assert (Hx := exact_in_box g l2 I2 (Gi _ _ Hg B2)). rewrite Forall_forall in Fl.
    assert (Hy := proj1 (Chance.observed_gen _ _ _ _ (Fl l1 I1 g (Gi _ _ Hg B1)))). transitivity (ending (fresh_run f fuel mem g t)); [symmetry; exact Hy|]. rewrite <- Hx. unfold tree_r. rewrite (same_shot p mem). reflexivity. }
  rewrite Agree. rewrite mass_total. fold W0.
    rewrite (Odds.total_same (fun v => volume (ranges v)) (Odds.meas (fun r => snd r - fst r)) _ W0 Odds.volume_meas).
    assert (Up : forall E0, total (Odds.meas (fun r => snd r - fst r)) E0 W0 <= total weight E0 W0).
    { intros E0. apply Odds.total_ext. eapply Forall_impl; [|exact Hf]. cbv beta. intros v [_ H]. lra. }
    set (E1 := fun os => E (label p fuel mem t os)).
    assert (U1 := Up E1). assert (U2 := Up (fun x => negb (E1 x))).
    assert (S1 := Odds.total_split weight E1 W0). assert (S2 := Odds.total_split (Odds.meas (fun r => snd r - fst r)) E1 W0).
    change (fun _ : list bool => true) with Odds.E_all in S1, S2. rewrite Rplus_0_l, Rmult_0_r, Rmult_0_r in Hv. lra.
Qed.

Lemma weight_any : forall p0 t0 t1 E (P : plan) b psi, total weight E (ways p0 t0 b psi P) = total weight E (ways p0 t1 b psi P).
Proof.
  intros p0 t0 t1 E P. revert E. induction P as [|c c' k IH]; intros E b psi; [reflexivity|]. destruct (asks (live b) c') as [qs|] eqn:Ea.
  - rewrite (Odds.ways_asks p0 t0 b psi c c' k qs Ea), (Odds.ways_asks p0 t1 b psi c c' k qs Ea), !Odds.total_app.
    assert (H : forall r, total weight E (Odds.half p0 t0 b psi c' k qs r) = total weight E (Odds.half p0 t1 b psi c' k qs r)).
    { intros r. rewrite !Odds.weight_half. destruct (Rlt_dec _ _); [|reflexivity]. destruct (Odds.go_k c' k r) as [r' G]. rewrite G. now rewrite (IH r'). }
    now rewrite !H.
  - cbn [ways]. rewrite Ea. destruct (Odds.go_k c' k false) as [r' G]. rewrite G. apply IH.
Qed.
Theorem shot_odds : forall (P : bcall -> Prop) len ep, careful P -> lists_nothing P ->
  sound P (exact_program p mem) fuel (pstart (exact_program p mem) mem) path0 t ->
  0 <= q < 1 / 2 -> 0 <= u <= q -> 0 <= ep <= u ->
  (forall r, 0 <= fst r -> fst r <= snd r -> snd r <= 1 -> 0 <= len r /\ Rabs (len r - (snd r - fst r)) <= ep) ->
  1 - INR m * q <= kept q p fuel mem t <= 1 /\
  forall E : ended (amem p) -> bool,
    let odds := mass (fun b => fold_right (fun r x => len r * x) 1 b) E (leaves_of q u p fuel mem t) in
    let exact := chance_of E (chances (exact_program p mem) fuel (pstart (exact_program p mem) mem) path0 t) in
    odds <= exact <= odds + (1 - kept q p fuel mem t) + INR m * (2 * (u + ep)).
Proof.
  intros P len ep CP LN Sd Hq Hu Hep Hlen. destruct fits as (Ea & F & No). assert (Sn := Odds.fits_sane w q u m _ F).
  assert (K := fun E1 => Odds.weight_kept w q u (plan_for p fuel mem t) m (mkBook [] true) ket0 E1 Hq Sn (Odds.ok_ket0 w)).
  assert (Al := Odds.weight_all w 0 (plan_for p fuel mem t) m (mkBook [] true) ket0 Sn (Odds.ok_ket0 w)).
  assert (Kp : kept q p fuel mem t = total weight Odds.E_all (ways q u (mkBook [] true) ket0 (plan_for p fuel mem t))) by apply weight_any.
  assert (Ka := K Odds.E_all). rewrite <- Kp in Ka. split; [lra|]. intros E odds exact.
  unfold exact, odds. rewrite (exact_total P E CP LN Sd), mass_total. set (E1 := fun os => E (label p fuel mem t os)).
  assert (H1 := Odds.odds_measure w m q u (plan_for p fuel mem t) E1 len ep Hu Hep Hlen F). cbv zeta in H1.
  assert (K1 := K E1). assert (K2 := K (fun os => negb (E1 os))).
  assert (S1 := Odds.total_split weight E1 (ways q u (mkBook [] true) ket0 (plan_for p fuel mem t))).
  assert (S2 := Odds.total_split weight E1 (ways 0 0 (mkBook [] true) ket0 (plan_for p fuel mem t))).
  change (fun _ : list bool => true) with Odds.E_all in S1, S2.
  change (Odds.meas len) with (fun v => fold_right (fun r x => len r * x) 1 (ranges v)) in H1. lra.
Qed.
Lemma leaves_apart : 0 <= u <= q -> apart (map fst (leaves_of q u p fuel mem t)).
Proof.
  intros Hu. destruct fits as (Ea & F & No). assert (Sn := Odds.fits_sane w q u m _ F). unfold leaves_of. rewrite map_map. cbn [fst]. split.
  - apply Forall_map. assert (H := Odds.boxes_fit w q u (fun r => snd r - fst r) 0). eapply Forall_impl; [|apply H with (m := m); auto; try lra].
    + intros v [U _]. exact U.
    + intros r B1 B2 B3. rewrite Rminus_eq_0, Rabs_R0. lra.
    + apply Odds.ok_ket0.
  - assert (Ap := Odds.boxes_apart q u (plan_for p fuel mem t) (mkBook [] true) ket0 (proj1 Hu)).
    clear - Ap. induction Ap as [|v vs Hv _ IH]; cbn [map]; constructor; auto. apply Forall_map. exact Hv.
Qed.
End All.
