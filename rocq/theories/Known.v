(** * Keeping track of known qubits is right, over any arithmetic *)
From Coq Require Import NArith List Bool Lia Permutation Arith ListDec.
From Verif Require Import Arith IndexMap IndexMapLemmas Bits BitsLemmas Spec QLib QSum Sim SimExp SimApply StateLemmas
  Loc Abs Reg Meas ExpLemmas ApplyLemmas RunLemmas SpecRun SpecAny Any AnyRun SpecSettled Settled Text Backend BackAny SpecKnown.
Import ListNotations.

Section Known.
Context {AR : Arith} {EN : Env}.
Hypothesis horder_perm : any_order.
Hypothesis not_below : forall g, plt (fst (draw g)) prb0 = false.

Ltac okay H := repeat match type of H with
  | bind ?m _ = Ok _ => let E := fresh "E" in destruct m eqn:E; cbn [bind] in H; [|discriminate H]
  end.

Lemma F2_impl {X Y} : forall (P Q : X -> Y -> Prop), (forall x y, P x y -> Q x y) -> forall a b, Forall2 P a b -> Forall2 Q a b.
Proof. intros P Q H a b F. induction F; constructor; auto. Qed.

(** ** Several known qubits *)
Definition at_all (s : sim) (locs : list nat) (vs : list bool) : Prop := Forall2 (fun l v => exists q, at_ q l v s) locs vs.
Definition odd_of (vs : list bool) : bool := fold_right xorb false vs.
Lemma cjp_even : forall s locs vs p s', NoDup locs -> at_all s locs vs -> odd_of vs = false ->
  check_joint_probability s locs = Ok (p, s') -> p = prb0.
Proof.
  intros s locs vs p s' D F Od H. unfold check_joint_probability in H. okay H. destruct x as [ops s1].
  assert (T : take_ops s = Ok (ops, s1)) by exact E. unfold take_ops in E. okay E. injection E as -> <-.
  injection H as <- _. cbn [state with_ops].
  assert (S : Forall2 (fun l v => showing l v (map (apply_ops ops) (state s))) locs vs).
  { eapply F2_impl; [|exact F]. intros l v [q A]. destruct (take_at q l v s ops _ A T) as [_ K]. exact K. }
  revert S. generalize (map (apply_ops ops) (state s)). intros st S.
  assert (P : forall k, In k (keys st) -> masked_parity (mask_of locs) k = false).
  { intros k Hk. unfold masked_parity. rewrite mask_parity by auto. rewrite <- Od. unfold par, odd_of. clear - S Hk.
    induction S; simpl; auto. rewrite IHS. f_equal. apply H. auto. }
  clear - P. generalize prb0. induction st as [|[k v] st IH]; intros acc; simpl; auto.
  rewrite (P k) by (left; auto). apply IH. intros k' Hk. apply P. right. auto.
Qed.
Lemma ready_even : forall s qs vs s1 locs, inv s -> NoDup qs -> Forall2 (fun q v => settled q v s) qs vs ->
  maybe_flush_queue s qs LHRxRy = Ok s1 -> mapM (find_qubit s1) qs = Ok locs -> NoDup locs /\ at_all s1 locs vs.
Proof.
  intros s qs vs s1 locs W D F E E1.
  destruct (amaybe horder_perm qs s W) as [s1' [E' [K _]]]. assert (s1' = s1) by congruence. subst s1'.
  assert (Fl : Forall2 (fun q l => im_get (id_map s1) q = Some l) qs locs).
  { apply mapM_ok in E1. eapply F2_impl; [|exact E1]. intros q l. apply find_at. }
  split.
  - clear - D Fl K. pose proof (i_inj _ (k_inv _ _ K)) as J. induction Fl; inversion D; subst; constructor; auto.
    intros Hi. apply H2. clear - Hi Fl J H. induction Fl; [destruct Hi|]. destruct Hi as [->|Hi]; [left; eapply J; eauto|right; auto].
  - assert (F1 : Forall2 (fun q v => settled q v s1) qs vs).
    { eapply F2_impl; [|exact F]. intros q v [l A]. exists l. eapply maybe_at; eauto. }
    clear - F1 Fl. revert locs Fl. induction F1 as [|q v qs vs [l A] F1 IH]; intros locs Fl; inversion Fl; subst; constructor; auto.
    + exists q. pose proof (a_loc _ _ _ _ A). assert (l = y) by congruence. subst. auto.
    + apply IH. auto.
Qed.
Lemma prob_even : forall s qs vs p s', inv s -> NoDup qs ->
  Forall2 (fun q v => settled q v s) qs vs -> odd_of vs = false -> joint_probability s qs = Ok (p, s') -> p = prb0.
Proof.
  intros s qs vs p s' W D F Od H. unfold joint_probability in H. okay H.
  destruct (ready_even s qs vs _ _ W D F E E1) as [Dl Al]. eapply cjp_even; eauto.
Qed.
Lemma measure_even : forall s qs vs b s', inv s -> NoDup qs ->
  Forall2 (fun q v => settled q v s) qs vs -> odd_of vs = false -> joint_measure s qs = Ok (b, s') -> b = false.
Proof.
  intros s qs vs b s' W D F Od H. unfold joint_measure in H. okay H. destruct (draw (rng x)) as [y g] eqn:Dr. okay H.
  destruct (ready_even s qs vs _ _ W D F E E1) as [Dl Al]. destruct x2 as [p s3]. injection H as <- _.
  rewrite (cjp_even (with_rng x g) x1 vs p s3 Dl); auto.
  - replace y with (fst (draw (rng x))) by now rewrite Dr. apply not_below.
  - eapply F2_impl; [|exact Al]. intros l v [q A]. exists q. apply at_rng. auto.
Qed.

(** ** One call *)
Record knows (k : known) (s : sim) : Prop := mkKnows {
  kn_book : abook s (kbook k); kn_val : forall q v, kval k q = Some v -> settled q v s }.
Lemma new_knows : forall g, knows nothing (new_sim g).
Proof. intros g. split; [apply new_abook|]. intros q v H. discriminate. Qed.

Lemma parity_of : forall k s qs v, knows k s -> parity_known (kval k) qs = Some v -> exists vs,
  Forall2 (fun q x => settled q x s) qs vs /\ odd_of vs = v.
Proof.
  intros k s qs v K. revert v. induction qs as [|q qs IH]; intros v H; simpl in H.
  - injection H as <-. exists []. split; [constructor|reflexivity].
  - destruct (kval k q) as [x|] eqn:E; [|discriminate]. destruct (parity_known (kval k) qs) as [w|]; [|discriminate]. injection H as <-.
    destruct (IH w eq_refl) as [vs [F O]]. exists (x :: vs). split; [constructor; auto; apply (kn_val _ _ K); auto|simpl; now rewrite O].
Qed.
Lemma controls_of : forall k s cs w, knows k s -> controls_known (kval k) cs = Some w -> ctl cs w s.
Proof.
  intros k s cs w K H. unfold controls_known in H.
  assert (B : forall v c, is_known (kval k) v c = true -> settled c v s).
  { intros v c Hc. apply (kn_val _ _ K). unfold is_known in Hc. destruct (kval k c) as [u|]; [|discriminate]. apply eqb_prop in Hc. congruence. }
  destruct (existsb (is_known (kval k) false) cs) eqn:Ex.
  - injection H as <-. apply existsb_exists in Ex. destruct Ex as [c [Hc Ec]]. exists c. auto.
  - destruct (forallb (is_known (kval k) true) cs) eqn:Fa; [|discriminate]. injection H as <-. simpl. apply Forall_forall. intros c Hc.
    rewrite forallb_forall in Fa. auto.
Qed.
Lemma not_turned : forall ps ts x, turned_by ps ts x = false ->
  forall j, nth_error ts j = Some x -> nth_error ps j <> Some PX_ /\ nth_error ps j <> Some PY_.
Proof.
  intros ps. induction ps as [|p ps IH]; intros ts x H j Ej; [destruct j; split; discriminate|].
  destruct ts as [|t ts]; [destruct j; discriminate|]. unfold turned_by in H. simpl in H. apply orb_false_iff in H. destruct H as [H1 H2].
  destruct j as [|j]; simpl in Ej |- *; [|eapply IH; eauto]. injection Ej as ->. rewrite Nat.eqb_refl, andb_true_r in H1.
  split; intros X; injection X as ->; discriminate.
Qed.
(** A value that is known after the call was known of the same qubit before, unless the call made it known. *)
Lemma learned_from : forall f c a x v, learned f c a x = Some v ->
  settles c a x v \/ (exists q r, f q = Some r /\ spares q c /\ renamed q c = x /\ value_after q r c = v) \/
  (exists g cs r w, c = AMc g cs x /\ inverting g = true /\ f x = Some r /\ controls_known f cs = Some w /\ xorb r w = v) \/
  (exists g cs, c = AMc g cs x /\ f x = Some v /\ controls_known f cs = Some false) \/
  exists cs ps th ts, c = AMcExp cs ps th ts /\ f x = Some v /\ controls_known f cs = Some false.
Proof.
  intros f c a x v H. destruct c; simpl in H |- *; try (right; left; exists x, v; solve [auto]).
  - right. left. destruct (diagonal g) eqn:Dg.
    + exists x, v. assert (Ig : inverting g = false) by (destruct g; auto; discriminate). rewrite Ig, andb_false_r. auto.
    + unfold note in H. destruct (Nat.eqb_spec x t) as [->|N].
      * destruct (inverting g) eqn:Ig; [|discriminate]. destruct (f t) as [w|] eqn:Ef; [|discriminate]. injection H as <-.
        exists t, w. rewrite Nat.eqb_refl. auto.
      * exists x, v. destruct (Nat.eqb_spec t x); [congruence|]. auto.
  - right. destruct (diagonal g) eqn:Dg; [left; exists x, v; auto|]. unfold note in H. destruct (Nat.eqb_spec x t) as [->|N]; [|left; exists x, v; auto].
    right. destruct (f t) as [r|] eqn:Ef; [|discriminate]. destruct (controls_known f cs) as [w|] eqn:Ec; [|discriminate].
    destruct (inverting g) eqn:Ig; [injection H as <-; left; exists g, cs, r, w; auto|]. right. left. destruct w; [discriminate|].
    injection H as <-. exists g, cs. auto.
  - right. left. exists x, v. destruct (turned_by ps ts x) eqn:T; [discriminate|]. split; auto. split; auto. apply not_turned; auto.
  - right. destruct (controls_known f cs) as [[]|] eqn:Ec.
    + left. exists x, v. destruct (turned_by ps ts x) eqn:T; [discriminate|]. split; auto. split; auto. apply not_turned; auto.
    + right. right. right. do 4 eexists. eauto.
    + left. exists x, v. destruct (turned_by ps ts x) eqn:T; [discriminate|]. split; auto. split; auto. apply not_turned; auto.
  - right. left. exists x, v. destruct (one_of _ x) eqn:T; [discriminate|]. split; auto. split; auto. intros Hi.
    apply not_true_iff_false in T. apply T. unfold one_of. apply existsb_exists. exists x. split; auto. apply Nat.eqb_refl.
  - destruct a; try (right; left; exists x, v; solve [auto]). unfold note in H. destruct (Nat.eqb_spec x q) as [->|N].
    + left. right. injection H as <-. auto.
    + right. left. exists x, v. auto.
  - right. left. exists x, v. unfold note in H. destruct (Nat.eqb_spec x q); [discriminate|]. auto.
  - right. left. exists (if Nat.eqb x a0 then b else if Nat.eqb x b then a0 else x), v. split; auto. split; auto. split; auto.
    destruct (Nat.eqb_spec x a0) as [->|N1].
    + destruct (Nat.eqb_spec a0 b); [auto|]. rewrite Nat.eqb_refl. auto.
    + destruct (Nat.eqb_spec x b) as [->|N2]; [rewrite Nat.eqb_refl; auto|].
      destruct (Nat.eqb_spec a0 x); [congruence|]. destruct (Nat.eqb_spec b x); [congruence|]. auto.
  - destruct a; try (right; left; exists x, v; solve [auto]). unfold note in H. destruct (Nat.eqb_spec x q) as [->|N].
    + left. left. injection H as <-. auto.
    + right. left. exists x, v. auto.
Qed.
Lemma one_known : forall k s c a s', knows k s -> avalid (kbook k) c -> arun1 s c = Ok (a, s') ->
  tells k c a /\ knows (kstep k c a) s'.
Proof.
  intros k s c a s' K V H. pose proof (kn_book _ _ K) as B. pose proof (ab_inv _ _ B) as W.
  destruct (one_call horder_perm s _ c B V) as [[a' [s1 [E' [B1 [Rp _]]]]]|[_ X]]; [|congruence].
  assert (a' = a /\ s1 = s') as [-> ->] by (split; congruence). clear E'.
  assert (Sy : forall q r, kval k q = Some r -> spares q c -> settled (renamed q c) (value_after q r c) s' /\ says (live (kbook k)) (fst (draw (rng s))) q r c a).
  { intros q r Hq Sp. eapply (one_at horder_perm s (kbook k) c q r a s' B V Sp); auto. apply (kn_val _ _ K); auto. }
  split.
  - split; auto. destruct c; auto; simpl in Rp.
    + destruct Rp as [b ->]. intros Hq. destruct (Sy q false Hq I) as [_ X]. simpl in X. rewrite X by auto. apply not_below.
    + destruct Rp as [b ->]. intros Hq. destruct (parity_of _ _ _ _ K Hq) as [vs [F Od]]. destruct V as [D _].
      cbn [arun1] in H. okay H. destruct x as [b' s2]. injection H as -> ->. eapply measure_even; eauto.
    + destruct Rp as [p ->]. intros Hq. destruct (parity_of _ _ _ _ K Hq) as [vs [F Od]]. destruct V as [D _].
      cbn [arun1] in H. okay H. destruct x as [p' s2]. injection H as -> ->. eapply prob_even; eauto.
    + destruct Rp as [b ->]. intros Hq. destruct (Sy q false Hq I) as [_ X]. simpl in X. auto.
    + destruct Rp as [p ->]. intros Hq. destruct (Sy q false Hq I) as [_ X]. simpl in X. auto.
    + destruct Rp as [st [-> _]]. intros q v Hq. destruct (Sy q v Hq I) as [_ X]. exact X.
    + destruct Rp as [st [-> _]]. intros q v Hq. destruct (Sy q v Hq I) as [_ X]. exact X.
  - split; [exact B1|]. intros x v Hx. cbn [kstep kval] in Hx. apply learned_from in Hx.
    destruct Hx as [[[-> ->]|[-> [-> ->]]]|[[q [r [Hq [Sp [<- <-]]]]]|[(g & cs & r & w & -> & Ig & Hx & Ec & <-)|[(g & cs & -> & Hx & Ec)|(cs & ps & th & ts & -> & Hx & Ec)]]]]; cbn [arun1] in H.
    + okay H. destruct x0 as [b s2]. injection H as -> ->. exact (measured_at horder_perm s _ x v s' B V E).
    + pose proof (fresh_at s W) as F. destruct (allocate s) as [s2 y] eqn:Ea. cbn in F. injection H as -> ->. exact F.
    + apply (Sy q r Hq Sp).
    + unfold aquietly in H. destruct (amc_call g s cs x) as [s2|] eqn:Em; [|discriminate]. cbn [bind] in H. injection H as <- <-.
      eapply (mc_turn horder_perm); [exact Ig| |apply (kn_val _ _ K); exact Hx|exact Em]. eapply controls_of; eauto.
    + unfold aquietly in H. destruct (amc_call g s cs x) as [s2|] eqn:Em; [|discriminate]. cbn [bind] in H. injection H as <- <-.
      eapply (mc_idle horder_perm); [|apply (kn_val _ _ K); exact Hx|exact Em]. eapply controls_of; eauto.
    + unfold aquietly in H. destruct (mcexp s cs ps th ts) as [s2|] eqn:Em; [|discriminate]. cbn [bind] in H. injection H as <- <-.
      eapply (exp_idle horder_perm); [|apply (kn_val _ _ K); exact Hx|exact Em]. eapply controls_of; eauto.
Qed.
Theorem known_calls : forall h k s rs s', knows k s -> avalid_run (kbook k) h -> aexec s h = Ok (rs, s') -> all_tell k h rs.
Proof.
  induction h as [|c h IH]; intros k s rs s' K V H; cbn [aexec] in H; [injection H as <- _; exact I|].
  destruct V as [V1 V2]. okay H. destruct x as [a s1]. okay H. destruct x as [rs1 s2]. injection H as <- <-.
  destruct (one_known k s c a s1 K V1 E) as [T K1]. split; auto. eapply IH; eauto.
Qed.
Lemma targets_dec : forall b qs, {targets_ok b qs} + {~ targets_ok b qs}.
Proof.
  intros b qs. unfold targets_ok. destruct (ListDec.NoDup_dec Nat.eq_dec qs); [|right; tauto].
  destruct (ListDec.incl_dec Nat.eq_dec qs (live b)); [left|right]; tauto.
Qed.
Lemma avalid_dec : forall b c, {avalid b c} + {~ avalid b c}.
Proof.
  intros b c. pose proof (fun q => in_dec Nat.eq_dec q (live b)) as In1. pose proof (targets_dec b) as T1. destruct c; simpl; auto.
  - destruct (T1 ts); [|right; tauto]. destruct (le_dec (length ps) (length ts)); [left|right]; tauto.
  - destruct (T1 (cs ++ ts)); [|right; tauto]. destruct (le_dec (length ps) (length ts)); [left|right]; tauto.
  - destruct (T1 (ctl_list cs ++ ts)); [|right; tauto]. destruct (Nat.eq_dec rows (Nat.pow 2 (length ts))); [|right; tauto].
    destruct (Nat.eq_dec cols rows); [|right; tauto]. destruct (tidy b); [left; tauto|right; intros X; destruct X as [_ [_ [_ X]]]; discriminate].
  - destruct (In1 a); [|right; tauto]. destruct (In1 b0); [left|right]; tauto.
Qed.
Theorem known_play : forall X (t : tree (answer X)) k s, knows k s -> may k t (fst (play s t)).
Proof.
  intros X t. induction t as [x|o c f IH|t IH]; intros k s K; cbn [play].
  - constructor.
  - destruct (avalid_dec (kbook k) c) as [V|V]; [|apply may_misuse; auto].
    destruct (one_call horder_perm s (kbook k) c (kn_book _ _ K) V) as [[a [s1 [E _]]]|[Ap E]]; rewrite E.
    + destruct (one_known k s c a s1 K V E) as [T K1]. eapply may_ask; [exact T|]. apply IH. exact K1.
    + apply may_empty. exact Ap.
  - apply may_renew. apply IH. apply new_knows.
Qed.
End Known.

(** ** Functions of the backend *)
Section Backend.
Context {AR : Arith} {EN : Env}.
Lemma ensured : forall q d, q < dmax d -> a_ensure q d = Leaf (Fine tt d).
Proof. intros q d H. unfold a_ensure. replace (S q - dmax d) with 0 by lia. reflexivity. Qed.
Lemma may_end : forall X k (x y : answer X), may k (Leaf y) x -> x = y.
Proof. intros X k x y H. inversion H. reflexivity. Qed.
Lemma may_measure : forall X k o q (f : areply -> tree (answer X)) x, In q (live (kbook k)) -> may k (Ask o (AMeasure q) f) x ->
  exists r, (kval k q = Some false -> r = false) /\ may (mkKnown (kbook k) (note (kval k) q (Some r))) (f (ABit r)) x.
Proof.
  intros X k o q f x Hq H. inversion H; subst; [|contradiction|simpl in *; contradiction].
  match goal with T : tells _ _ _ |- _ => destruct T as [[r ->] T]; exists r; split; [exact T|assumption] end.
Qed.
Lemma may_x : forall X k o q (f : areply -> tree (answer X)) x, In q (live (kbook k)) -> may k (Ask o (AGate AX q) f) x ->
  may (mkKnown (kbook k) (note (kval k) q (option_map negb (kval k q)))) (f AUnit) x.
Proof.
  intros X k o q f x Hq H. inversion H; subst; [|contradiction|simpl in *; contradiction].
  match goal with T : tells _ _ _ |- _ => destruct T as [-> _]; assumption end.
Qed.
Lemma reset_known : forall X (f : W X) k d x q, q < dmax d -> In q (live (kbook k)) ->
  may k (wbind (a_reset q) (fun _ => f) d) x -> exists k', kbook k' = kbook k /\ kval k' q = Some false /\ may k' (f d) x.
Proof.
  intros X f k d x q Hd Hq H. unfold wbind, a_reset, wbind in H. rewrite (ensured q d Hd) in H. cbn in H.
  apply may_measure in H; auto. destruct H as [r [_ H]]. destruct r; cbn in H.
  - apply may_x in H; auto. eexists. split; [|split; [|exact H]]; auto. cbn. unfold note. rewrite !Nat.eqb_refl. reflexivity.
  - eexists. split; [|split; [|exact H]]; auto. cbn. unfold note. rewrite Nat.eqb_refl. reflexivity.
Qed.
Lemma mresetz_known : forall X (f : W X) k d x q i, q < dmax d -> In q (live (kbook k)) ->
  may k (wbind (a_mresetz q i) (fun _ => f) d) x -> exists k' r, kbook k' = kbook k /\ kval k' q = Some false /\
    (kval k q = Some false -> r = false) /\ may k' (f (mkDesk (set_res (grow_res (dres d) i) i r) (dmax d) (dout d))) x.
Proof.
  intros X f k d x q i Hd Hq H. unfold wbind, a_mresetz, wbind in H. rewrite (ensured q d Hd) in H. cbn in H.
  apply may_measure in H; auto. destruct H as [r [T H]]. destruct r; cbn in H.
  - apply may_x in H; auto. eexists. exists true. split; [|split; [|split; [|exact H]]]; auto. cbn. unfold note. rewrite !Nat.eqb_refl. reflexivity.
  - eexists. exists false. split; [|split; [|split; [|exact H]]]; auto. cbn. unfold note. rewrite Nat.eqb_refl. reflexivity.
Qed.
Lemma mz_known : forall X (f : W X) k d x q i, q < dmax d -> In q (live (kbook k)) -> kval k q = Some false ->
  may k (wbind (a_mz q i) (fun _ => f) d) x -> exists k', kbook k' = kbook k /\ kval k' q = Some false /\
    may k' (f (mkDesk (set_res (grow_res (dres d) i) i false) (dmax d) (dout d))) x.
Proof.
  intros X f k d x q i Hd Hq Kq H. unfold wbind, a_mz, wbind in H. rewrite (ensured q d Hd) in H. cbn in H.
  apply may_measure in H; auto. destruct H as [r [T H]]. rewrite (T Kq) in H. cbn in H.
  eexists. split; [|split; [|exact H]]; auto. cbn. unfold note. rewrite Nat.eqb_refl. reflexivity.
Qed.
End Backend.
