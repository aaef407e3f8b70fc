(** * Classical programs run exactly, over any arithmetic *)
From Coq Require Import NArith List Bool Lia Permutation Arith.
From Verif Require Import Arith IndexMap IndexMapLemmas Bits BitsLemmas Spec QLib QSum Sim SimExp SimApply StateLemmas
  Loc Abs Reg Meas ExpLemmas ApplyLemmas RunLemmas SpecRun SpecAny Any AnyRun SpecSettled Settled SpecClassical.
Import ListNotations.

Section Classical.
Context {AR : Arith} {EN : Env}.
Hypothesis horder_perm : any_order.
Variable turned : nat -> amp -> Prop.
Hypothesis K : turns_ok turned.
Hypothesis Sm : samples_proper.

Ltac okay H := repeat match type of H with
  | bind ?m _ = Ok _ => let E := fresh "E" in destruct m eqn:E; cbn [bind] in H; [|discriminate H]
  | bind ?m _ = Ok _ => fail 1
  end.

(** ** Queued operations with their locations *)
Definition same_op (m : imap nat) (o o' : qop) : Prop :=
  Forall2 (resolved m) (fst (fst o)) (fst (fst o')) /\ resolved m (snd (fst o)) (snd (fst o')) /\ snd o' = snd o.
Lemma take_res : forall s, inv s -> exists ops, take_ops s = Ok (ops, with_ops s []) /\ Forall2 (same_op (id_map s)) (op_queue s) ops.
Proof.
  intros s W.
  assert (H : forall l, Forall (opok (id_map s)) l -> exists ops,
    mapM (fun '(ctls, target, op) => let* (t, cs) := resolve_and_check_qubits s target ctls in Ok (cs, t, op)) l = Ok ops /\
    Forall2 (same_op (id_map s)) l ops).
  { induction 1 as [|[[cs t] op] l [O1 O2] O' IH]; simpl; [exists []; auto|]. simpl in O1, O2.
    destruct (aresolve s t cs O1 O2) as [t' [cs' [E [R1 R2]]]]. destruct IH as [ops [E' F]].
    exists ((cs', t', op) :: ops). rewrite E. simpl. rewrite E'. simpl. split; auto. constructor; auto. split; auto. }
  destruct (H (op_queue s) (i_ops s W)) as [ops [E F]].
  exists ops. unfold take_ops. rewrite E. simpl. split; auto.
Qed.
Lemma res_fun : forall (m : imap nat) a b c, Forall2 (resolved m) a b -> Forall2 (resolved m) a c -> b = c.
Proof.
  intros m a b c H. revert c. induction H as [|x y a b H1 _ IH]; intros c G; inversion G; subst; auto. f_equal; [|auto].
  unfold resolved in *. congruence.
Qed.
Lemma same_fun : forall m l a b, Forall2 (same_op m) l a -> Forall2 (same_op m) l b -> a = b.
Proof.
  intros m l a b H. revert b. induction H as [|o p l a [H1 [H2 H3]] _ IH]; intros b G; inversion G as [|? p' ? ? [G1 [G2 G3]]]; subst; auto.
  f_equal; [|auto]. destruct p as [[c t] o1], p' as [[c' t'] o2]. simpl in *. rewrite (res_fun _ _ _ _ H1 G1). unfold resolved in *. congruence.
Qed.
Lemma same_more : forall (m m' : imap nat) l a, (forall q v, im_get m q = Some v -> im_get m' q = Some v) -> Forall2 (same_op m) l a -> Forall2 (same_op m') l a.
Proof.
  intros m m' l a E H. induction H as [|o p l a [H1 [H2 H3]] _ IH]; constructor; auto. split; [|split; auto].
  - induction H1; constructor; auto. apply E; auto.
  - apply E; auto.
Qed.

(** ** The state is one basis state *)
Definition good (m : bits) (im : imap nat) (iv : N * amp) : Prop :=
  turned (angle m) (snd iv) /\ forall q l, im_get im q = Some l -> bit (fst iv) l = value m q.
Definition one (m : bits) (s : sim) : Prop :=
  exists iv ops, state s = [iv] /\ Forall2 (same_op (id_map s)) (op_queue s) ops /\ good m (id_map s) (apply_ops ops iv).
Definition quiet (s : sim) : Prop := forall q, calm s q.
Record cl (m : bits) (s : sim) : Prop := mkCl { c_book : abook s (bbook m); c_calm : quiet s; c_one : one m s }.

Lemma cl_inv : forall m s, cl m s -> inv s. Proof. intros m s C. apply (ab_inv _ _ (c_book _ _ C)). Qed.
(** With nothing queued. *)
Definition bare (m : bits) (s : sim) : Prop := exists iv, state s = [iv] /\ good m (id_map s) iv.
Lemma bare_one : forall m s, op_queue s = [] -> bare m s -> one m s.
Proof. intros m s Q [iv [E G]]. exists iv, []. rewrite Q. split; auto. Qed.
Lemma one_bare : forall m s, op_queue s = [] -> one m s -> bare m s.
Proof. intros m s Q (iv & ops & E & F & G). rewrite Q in F. inversion F; subst. exists iv. auto. Qed.
(** Flushing the queue. *)
Lemma taken : forall m s, inv s -> one m s -> exists iv ops, take_ops s = Ok (ops, with_ops s []) /\ map (apply_ops ops) (state s) = [iv] /\ good m (id_map s) iv.
Proof.
  intros m s W (iv & ops & E & F & G). destruct (take_res s W) as (ops' & T & F'). assert (ops' = ops) by (eapply same_fun; eauto). subst ops'.
  exists (apply_ops ops iv), ops. split; auto. rewrite E. split; auto.
Qed.
Lemma flush_one_op : forall m s s', inv s -> one m s -> flush_ops s = Ok s' -> bare m s' /\ op_queue s' = [] /\ id_map s' = id_map s.
Proof.
  intros m s s' W O H. unfold flush_ops in H. destruct (op_queue s) eqn:Q.
  - injection H as <-. split; [apply one_bare; auto|auto].
  - destruct (taken m s W O) as (iv & ops & T & E & G). rewrite T in H. cbn [bind] in H. injection H as <-. split; [|split; reflexivity].
    exists iv. auto.
Qed.
Lemma flush_quiet : forall lv qs s, quiet s -> flush_queue s qs lv = flush_ops s.
Proof.
  intros lv qs s Nq. unfold flush_queue.
  assert (E : foldM (flush_one lv) qs s = Ok s).
  { induction qs as [|t qs IH]; simpl; auto. destruct (Nq t) as [H [X Y]]. unfold flush_one at 1. rewrite H. cbn [bind].
    assert (E1 : flush_rx s t = Ok s) by (unfold flush_rx; rewrite X; auto).
    assert (E2 : flush_ry s t = Ok s) by (unfold flush_ry; rewrite Y; auto).
    destruct lv; cbn [bind]; rewrite ?E1; cbn [bind]; rewrite ?E2; cbn [bind]; auto. }
  rewrite E. reflexivity.
Qed.
Lemma maybe_quiet : forall qs s, quiet s -> maybe_flush_queue s qs LHRxRy = Ok s.
Proof. intros qs s Q. apply tidy_flush. apply Forall_forall. auto. Qed.

(** ** Gates *)
Definition code_of (g : agate) : opcode := match g with AX => OX | AY => OY | AZ => OZ | AS => OS | ASadj => OSadj | _ => OX end.
Lemma apply_ops_snoc : forall ops o iv, apply_ops (ops ++ [o]) iv = apply_op o (apply_ops ops iv).
Proof. intros. unfold apply_ops. rewrite fold_left_app. reflexivity. Qed.
Lemma set_bits : forall (im : imap nat) cs cs' k f, Forall2 (resolved im) cs cs' -> (forall q l, im_get im q = Some l -> bit k l = f q) ->
  all_set cs' k = forallb f cs.
Proof. intros im cs cs' k f F H. unfold all_set. induction F as [|x y cs cs' R _ IH]; simpl; auto. rewrite IH. f_equal. apply H. exact R. Qed.
Lemma op_good : forall m im g cs t cs' t' iv, classical_gate g = true -> im_inj im -> Forall2 (resolved im) cs cs' -> resolved im t t' ->
  good m im iv -> good (if forallb (value m) cs then apply_gate g t m else m) im (apply_op (cs', t', code_of g) iv).
Proof.
  intros m im g cs t cs' t' [k a] Cg J F R [G1 G2]. simpl in G1, G2. unfold apply_op. cbn [fst]. rewrite (set_bits im cs cs' k (value m) F G2).
  destruct (forallb (value m) cs); [|split; assumption].
  assert (Bt : bit k t' = value m t) by (apply G2; exact R).
  assert (Fl : forall q l, im_get im q = Some l -> bit (flip_bit k t') l = set_value (value m) t (negb (value m t)) q).
  { intros q l E. unfold set_value. destruct (Nat.eqb_spec q t) as [->|Nq].
    - assert (l = t') by (unfold resolved in R; congruence). subst l. rewrite bit_flip_same, Bt. reflexivity.
    - rewrite bit_flip_other; [apply G2; auto|]. intros ->. apply Nq. eapply J; eauto. }
  assert (Kp : forall q l, im_get im q = Some l -> bit k l = set_value (value m) t (if value m t then true else false) q).
  { intros q l E. replace (if value m t then true else false) with (value m t) by (destruct (value m t); reflexivity). unfold set_value. destruct (Nat.eqb_spec q t) as [->|]; apply G2; auto. }
  destruct g; try discriminate; cbn [code_of]; unfold x_transform, y_transform, z_transform, s_transform, sadj_transform, phase_transform, apply_gate;
    cbn [fst snd flips xorb turned_by angle value]; split; cbn [fst snd angle value]; auto.
  - rewrite Nat.add_0_r. exact G1.
  - assert (E : bit (flip_bit k t') t' = negb (value m t)) by (rewrite bit_flip_same, Bt; reflexivity). rewrite E.
    destruct (value m t); cbn [negb]; [apply (tn_mi _ K); exact G1|apply (tn_i _ K); exact G1].
  - rewrite Bt. destruct (value m t); [apply (tn_neg _ K); exact G1|rewrite Nat.add_0_r; apply (tn_keep _ K); exact G1].
  - rewrite Bt. destruct (value m t); [apply (tn_i _ K); exact G1|rewrite Nat.add_0_r; apply (tn_keep _ K); exact G1].
  - rewrite Bt. destruct (value m t); [apply (tn_mi _ K); exact G1|rewrite Nat.add_0_r; apply (tn_keep _ K); exact G1].
Qed.
Lemma enqueue_one : forall m s g cs t s', inv s -> quiet s -> one m s -> classical_gate g = true -> NoDup (t :: cs) -> Forall (has (id_map s)) (t :: cs) ->
  enqueue_op s t cs (code_of g) = Ok s' -> one (if forallb (value m) cs then apply_gate g t m else m) s' /\ quiet s'.
Proof.
  intros m s g cs t s' W Q O Cg D F H. unfold enqueue_op in H.
  assert (X : exists s1, (if N.eqb (N.of_nat (length (op_queue s))) QUEUE_LIMIT then flush_ops s else Ok s) = Ok s1 /\ inv s1 /\ quiet s1 /\ one m s1 /\ id_map s1 = id_map s).
  { destruct (N.eqb_spec (N.of_nat (length (op_queue s))) QUEUE_LIMIT).
    - destruct (aflush_ops s W) as [s1 [E [Kp [L Qe]]]]. exists s1. split; auto. split; [apply Kp|]. destruct (flush_one_op m s s1 W O E) as (B & Q1 & M1).
      split; [intros q; eapply less_calm; eauto|]. split; [apply bare_one; auto|auto].
    - exists s. auto. }
  destruct X as (s1 & E & W1 & Q1 & (iv & ops & Es & Fo & G) & M1). rewrite E in H. cbn [bind] in H. injection H as <-. rewrite <- M1 in F.
  destruct (aresolve s1 t cs D F) as (t' & cs' & _ & R1 & R2). split; [|exact Q1].
  exists iv, (ops ++ [(cs', t', code_of g)]). split; [exact Es|]. split.
  - cbn [op_queue with_ops id_map]. apply Forall2_app; [exact Fo|]. constructor; [|constructor]. split; auto.
  - rewrite apply_ops_snoc. cbn [id_map with_ops]. apply op_good; auto. apply (i_inj _ W1).
Qed.
Lemma neg_one : forall m s v w, one m s -> quiet s -> (forall q, im_get v q = None) -> (forall q, im_get w q = None) ->
  one m (with_rx (with_ry s v) w) /\ quiet (with_rx (with_ry s v) w).
Proof. intros m s v w O Q V W. split; [exact O|]. intros q. destruct (Q q). split; auto. Qed.
Lemma gate_one : forall m s g t s', inv s -> quiet s -> one m s -> classical_gate g = true -> has (id_map s) t ->
  agate_call g s t = Ok s' -> one (apply_gate g t m) s' /\ quiet s'.
Proof.
  intros m s g t s' W Q O Cg Ht H.
  assert (En : forall s1, inv s1 -> quiet s1 -> one m s1 -> id_map s1 = id_map s -> enqueue_op s1 t [] (code_of g) = Ok s' -> one (apply_gate g t m) s' /\ quiet s').
  { intros s1 W1 Q1 O1 M E. apply (enqueue_one m s1 g [] t s'); auto; [repeat constructor; auto|]. rewrite M. repeat constructor; auto. }
  assert (Qy : forall q, im_get (im_update (ry_queue s) t tneg) q = None) by (intros q; apply upd_none; apply (Q q)).
  assert (Qx : forall q, im_get (im_update (rx_queue s) t tneg) q = None) by (intros q; apply upd_none; apply (Q q)).
  destruct (neg_ry s t W) as [Ky _]. destruct (neg_rx s t W) as [Kx _].
  destruct g; try discriminate; cbn [agate_call] in H.
  - unfold gate_x in H. cbn [h_flag with_ry] in H. rewrite (proj1 (Q t)) in H. eapply En; [..|exact H]; auto; [apply Ky|].
    intros q. destruct (Q q) as (A & B & _). split; auto.
  - unfold gate_y in H. eapply En; [..|exact H]; auto; [apply Kx|]. intros q. destruct (Q q) as (A & _ & B). split; auto.
  - unfold gate_z in H. cbn [h_flag with_ry with_rx rx_queue] in H. rewrite (proj1 (Q t)) in H. eapply En; [..|exact H]; auto.
    + destruct (neg_rx _ t (k_inv _ _ Ky)) as [Kz _]. apply Kz.
    + intros q. destruct (Q q) as (A & _ & _). split; auto.
  - unfold gate_s, gate_diag in H. rewrite (maybe_quiet _ _ Q) in H. eapply En; [..|exact H]; auto.
  - unfold gate_sadj, gate_diag in H. rewrite (maybe_quiet _ _ Q) in H. eapply En; [..|exact H]; auto.
Qed.
Lemma quiet_rx : forall s q, quiet s -> im_contains (rx_queue s) q = false.
Proof. intros s q Q. unfold im_contains. rewrite (proj1 (proj2 (Q q))). reflexivity. Qed.
Lemma quiet_ry : forall s q, quiet s -> im_contains (ry_queue s) q = false.
Proof. intros s q Q. unfold im_contains. rewrite (proj2 (proj2 (Q q))). reflexivity. Qed.
Lemma quiet_weight : forall s q, quiet s -> pend_weight s q = 0.
Proof. intros s q Q. unfold pend_weight. rewrite quiet_rx, quiet_ry, (proj1 (Q q)) by auto. reflexivity. Qed.
Lemma quiet_weights : forall s cs, quiet s -> fold_left (fun acc c => acc + pend_weight s c) cs 0 = 0.
Proof. intros s cs Q. induction cs; simpl; auto. rewrite quiet_weight; auto. Qed.
Lemma mc_one : forall m s g cs t s', inv s -> quiet s -> one m s -> classical_gate g = true -> NoDup (t :: cs) -> Forall (has (id_map s)) (t :: cs) ->
  amc_call g s cs t = Ok s' -> one (if forallb (value m) cs then apply_gate g t m else m) s' /\ quiet s'.
Proof.
  intros m s g cs t s' W Q O Cg D F H.
  assert (En : forall s1, inv s1 -> quiet s1 -> one m s1 -> id_map s1 = id_map s -> enqueue_op s1 t cs (code_of g) = Ok s' ->
    one (if forallb (value m) cs then apply_gate g t m else m) s' /\ quiet s').
  { intros s1 W1 Q1 O1 M E. apply (enqueue_one m s1 g cs t s'); auto. rewrite M. auto. }
  assert (Sg : cs = [] -> agate_call g s t = Ok s' -> one (if forallb (value m) cs then apply_gate g t m else m) s' /\ quiet s').
  { intros -> E. eapply gate_one; eauto. apply (Forall_inv F). }
  destruct g; try discriminate; cbn [amc_call] in H.
  - destruct cs as [|c0 rest]; [apply Sg; auto|]. unfold gate_mcx in H. rewrite quiet_ry in H by auto. cbn [bind] in H.
    assert (E : (match rest with [] => if im_contains (ry_queue s) c0 || im_contains (rx_queue s) c0 || (bit (h_flag s) c0 && negb (bit (h_flag s) t))
                   then flush_queue s (c0 :: rest) LHRxRy else Ok s | _ :: _ => maybe_flush_queue s (c0 :: rest) LHRxRy end) = Ok s).
    { destruct rest; [|apply maybe_quiet; auto]. rewrite quiet_ry, quiet_rx, (proj1 (Q c0)) by auto. reflexivity. }
    rewrite E in H. cbn [bind] in H. rewrite (proj1 (Q t)) in H. eapply En; [..|exact H]; auto.
  - destruct cs as [|c0 rest]; [apply Sg; auto|]. unfold gate_mcy in H. rewrite maybe_quiet in H by auto. cbn [bind] in H.
    rewrite quiet_rx in H by auto. cbn [bind] in H. rewrite (proj1 (Q t)) in H. cbn [bind] in H. eapply En; [..|exact H]; auto.
  - destruct cs as [|c0 rest]; [apply Sg; auto|]. unfold gate_mcz in H. cbv zeta in H. rewrite quiet_weights, quiet_weight in H by auto.
    cbn [Nat.add Nat.eqb] in H. rewrite flush_quiet in H by auto. destruct (aflush_ops s W) as [s1 [E [Kp [L Qe]]]]. rewrite E in H. cbn [bind] in H.
    destruct (flush_one_op m s s1 W O E) as (B & Q1 & M1).
    assert (Q' : quiet s1) by (intros q; eapply less_calm; eauto).
    rewrite flush_quiet in H by auto. unfold flush_ops in H. rewrite Q1 in H. cbn [bind] in H.
    eapply En; [..|exact H]; auto; [apply Kp|apply bare_one; auto].
  - unfold gate_mcs, gate_mcdiag in H. rewrite !(maybe_quiet _ _ Q) in H. cbn [bind] in H. rewrite (maybe_quiet _ _ Q) in H. eapply En; [..|exact H]; auto.
  - unfold gate_mcsadj, gate_mcdiag in H. rewrite !(maybe_quiet _ _ Q) in H. cbn [bind] in H. rewrite (maybe_quiet _ _ Q) in H. eapply En; [..|exact H]; auto.
Qed.

(** ** Measurement *)
Lemma odd_par : forall (im : imap nat) qs locs k f, Forall2 (resolved im) qs locs -> (forall q l, im_get im q = Some l -> bit k l = f q) ->
  par locs k = odd f qs.
Proof. intros im qs locs k f F H. unfold par, odd. induction F as [|x y qs locs R _ IH]; simpl; auto. rewrite IH. f_equal. apply H. exact R. Qed.
Lemma locs_nodup : forall (im : imap nat) qs locs, im_inj im -> NoDup qs -> Forall2 (resolved im) qs locs -> NoDup locs.
Proof.
  intros im qs locs J D F. induction F as [|x y qs locs R F IH]; [constructor|]. inversion D; subst. constructor; auto.
  intros Hy. apply H1. clear IH D H2. induction F as [|x' y' qs locs R' F IH]; [destruct Hy|]. destruct Hy as [->|Hy].
  - left. eapply J; eauto.
  - right. apply IH; auto. intros HH. apply H1. right. auto.
Qed.
Definition told (m : bits) (s s' : sim) (qs locs : list nat) : Prop :=
  op_queue s' = [] /\ id_map s' = id_map s /\ h_flag s' = h_flag s /\ rx_queue s' = rx_queue s /\ ry_queue s' = ry_queue s /\ rng s' = rng s /\
  exists k a, state s' = [(k, a)] /\ good m (id_map s) (k, a) /\ masked_parity (mask_of locs) k = odd (value m) qs.
Lemma cjp_one : forall m s qs locs p s', inv s -> one m s -> NoDup qs -> Forall2 (resolved (id_map s)) qs locs ->
  check_joint_probability s locs = Ok (p, s') -> p = sure (odd (value m) qs) /\ told m s s' qs locs.
Proof.
  intros m s qs locs p s' W O D F H. unfold check_joint_probability in H. destruct (taken m s W O) as ([k a] & ops & T & E & G).
  rewrite T in H. cbn [bind state with_ops] in H. rewrite E in H. injection H as <- <-.
  assert (Mp : masked_parity (mask_of locs) k = odd (value m) qs).
  { unfold masked_parity. rewrite mask_parity by (eapply locs_nodup; eauto; apply (i_inj _ W)). apply (odd_par (id_map s)); auto. apply G. }
  split.
  - cbn [fold_left fst snd]. rewrite Mp. destruct (odd (value m) qs); [|reflexivity]. cbn [sure]. apply (tn_sqr _ K (angle m)). apply G.
  - repeat (split; [reflexivity|]). exists k, a. auto.
Qed.
Lemma collapse_one : forall m s s' qs locs v, quiet s -> told m s s' qs locs -> v = odd (value m) qs ->
  let s2 := joint_collapse s' locs v (sure (odd (value m) qs)) in op_queue s2 = [] /\ id_map s2 = id_map s /\ bare m s2 /\ quiet s2.
Proof.
  intros m s s' qs locs v Q (T1 & T2 & T3 & T4 & T5 & _ & k & a & T6 & T7 & T8) -> s2. split; [exact T1|]. split; [exact T2|]. split.
  - exists (k, amul a (pscale (pcompl prb0))). split.
    + unfold s2, joint_collapse. cbn [state with_state]. rewrite T6. cbn [flat_map fst snd]. rewrite T8. rewrite Bool.eqb_reflx. cbn [app].
      destruct (odd (value m) qs); reflexivity.
    + change (id_map s2) with (id_map s'). rewrite T2. destruct T7 as [G1 G2]. split; [|exact G2]. apply (tn_scale _ K). exact G1.
  - intros q. destruct (Q q) as (A & B & C). split; [|split]; unfold s2, joint_collapse; cbn [h_flag rx_queue ry_queue with_state]; congruence.
Qed.
Lemma told_bare : forall m s s' qs locs, quiet s -> told m s s' qs locs -> bare m s' /\ quiet s'.
Proof.
  intros m s s' qs locs Q (T1 & T2 & T3 & T4 & T5 & _ & k & a & T6 & T7 & T8). split.
  - exists (k, a). rewrite T2. auto.
  - intros q. destruct (Q q) as (A & B & C). split; [|split]; congruence.
Qed.
Lemma sample_sure : forall g v, plt (fst (draw g)) (sure v) = v.
Proof. intros g v. destruct (Sm g) as [A B]. destruct v; auto. Qed.
Lemma one_rng : forall m s g, one m s -> one m (with_rng s g). Proof. auto. Qed.
Lemma inv_rng : forall s g, inv s -> inv (with_rng s g). Proof. intros s g []. split; auto. Qed.
Lemma quiet_rng : forall s g, quiet s -> quiet (with_rng s g). Proof. intros s g Q q. apply Q. Qed.
Lemma odd1 : forall f q, odd f [q] = f q. Proof. intros. simpl. apply xorb_false_r. Qed.
Lemma found : forall s qs locs, mapM (find_qubit s) qs = Ok locs -> Forall2 (resolved (id_map s)) qs locs.
Proof.
  intros s qs locs H. apply mapM_ok in H. induction H; constructor; auto. apply find_at. auto.
Qed.
Lemma measure_one : forall m s q b s', inv s -> quiet s -> one m s -> measure s q = Ok (b, s') ->
  b = value m q /\ op_queue s' = [] /\ id_map s' = id_map s /\ bare m s' /\ quiet s'.
Proof.
  intros m s q b s' W Q O H. unfold measure in H. rewrite maybe_quiet in H by auto. cbn [bind] in H. okay H. apply find_at in E. rename x into loc.
  destruct (draw (rng s)) as [y g] eqn:Dr. okay H. destruct x as [p s3]. cbv zeta in H. injection H as <- <-.
  destruct (cjp_one m (with_rng s g) [q] [loc] p s3) as [-> T]; auto using inv_rng; [apply nd1|].
  assert (Ev : plt y (sure (odd (value m) [q])) = odd (value m) [q]) by (replace y with (fst (draw (rng s))) by (rewrite Dr; auto); apply sample_sure).
  rewrite Ev. unfold collapse. destruct (collapse_one m (with_rng s g) s3 [q] [loc] _ (quiet_rng _ _ Q) T eq_refl) as (A & B & C & D).
  split; [apply odd1|]. auto.
Qed.
Lemma joint_one : forall m s qs b s', inv s -> quiet s -> one m s -> NoDup qs -> joint_measure s qs = Ok (b, s') ->
  b = odd (value m) qs /\ op_queue s' = [] /\ id_map s' = id_map s /\ bare m s' /\ quiet s'.
Proof.
  intros m s qs b s' W Q O D H. unfold joint_measure in H. rewrite maybe_quiet in H by auto. cbn [bind] in H. okay H. apply found in E0. rename x0 into locs.
  destruct (draw (rng s)) as [y g] eqn:Dr. okay H. destruct x0 as [p s3]. cbv zeta in H. injection H as <- <-.
  destruct (cjp_one m (with_rng s g) qs locs p s3) as [-> T]; auto using inv_rng.
  assert (Ev : plt y (sure (odd (value m) qs)) = odd (value m) qs) by (replace y with (fst (draw (rng s))) by (rewrite Dr; auto); apply sample_sure).
  rewrite Ev. destruct (collapse_one m (with_rng s g) s3 qs locs _ (quiet_rng _ _ Q) T eq_refl) as (A & B & C & D').
  split; [reflexivity|]. auto.
Qed.
Lemma prob_one : forall m s qs p s', inv s -> quiet s -> one m s -> NoDup qs -> joint_probability s qs = Ok (p, s') ->
  p = sure (odd (value m) qs) /\ op_queue s' = [] /\ bare m s' /\ quiet s'.
Proof.
  intros m s qs p s' W Q O D H. unfold joint_probability in H. rewrite maybe_quiet in H by auto. cbn [bind] in H. okay H. apply found in E0.
  destruct (cjp_one m s qs _ p s' W O D E0 H) as [-> T]. split; auto. split; [apply T|]. eapply told_bare; eauto.
Qed.
Lemma force_one : forall m s v q p s', inv s -> quiet s -> one m s -> force_collapse s v q = Ok (p, s') ->
  p = sure (Bool.eqb v (value m q)) /\ op_queue s' = [] /\ bare m s' /\ quiet s'.
Proof.
  intros m s v q p s' W Q O H. unfold force_collapse in H. rewrite maybe_quiet in H by auto. cbn [bind] in H. okay H. apply find_at in E. rename x into loc.
  destruct x0 as [p0 s2]. cbv zeta in H. injection H as <- <-.
  destruct (cjp_one m s [q] [loc] p0 s2) as [-> T]; auto; [apply nd1|].
  pose proof (told_bare m s s2 _ _ Q T) as [Tb Tq].
  rewrite odd1 in *. destruct v, (value m q) eqn:Ev; cbn [sure Bool.eqb andb orb negb]; rewrite ?(tn_compl _ K), ?(tn_zero _ K), ?(tn_one _ K); cbn [negb].
  - split; auto. destruct (collapse_one m s s2 [q] [loc] true Q T) as (A & B & C & D'); [rewrite odd1; auto|]. rewrite odd1, Ev in *. auto.
  - split; auto. split; auto. apply T.
  - split; auto. split; auto. apply T.
  - split; auto. destruct (collapse_one m s s2 [q] [loc] false Q T) as (A & B & C & D'); [rewrite odd1; auto|]. rewrite odd1, Ev in *. auto.
Qed.

(** ** Allocation, release, exchange *)
Lemma alloc_one : forall m s, inv s -> quiet s -> one m s ->
  one (mkBits (bbook m) (set_value (value m) (snd (allocate s)) false) (angle m)) (fst (allocate s)) /\ quiet (fst (allocate s)).
Proof.
  intros m s W Q (iv & ops & E & F & G). destruct (aalloc s W) as [K1 [_ [W' [_ [v [G' [V _]]]]]]]. set (q := snd (allocate s)) in *. split; [|exact Q].
  assert (Mo : forall x l, im_get (id_map s) x = Some l -> im_get (id_map (fst (allocate s))) x = Some l).
  { intros x l Hx. rewrite G'. destruct (Nat.eqb_spec q x) as [Eq|]; auto. exfalso. apply K1. rewrite Eq. exists l. auto. }
  exists iv, ops. split; [exact E|]. split; [eapply same_more; [exact Mo|exact F]|]. destruct G as [G1 G2]. split; [exact G1|].
  intros x l Hx. rewrite G' in Hx. cbn [value]. unfold set_value. rewrite (Nat.eqb_sym x q). destruct (Nat.eqb_spec q x); [|apply G2; auto].
  injection Hx as <-. destruct (bit (fst (apply_ops ops iv)) v) eqn:B; auto. exfalso. apply V.
  destruct (atake s W) as (ops' & T & [_ St]). destruct (take_res s W) as (ops2 & T2 & F2). assert (ops' = ops2) by congruence. subst ops2.
  assert (ops' = ops) by (eapply same_fun; eauto). subst ops'. rewrite E in St. apply (St (fst (apply_ops ops iv))); [left; auto|exact B].
Qed.
Lemma release_one : forall m s q s' b', inv s -> quiet s -> one m s -> has (id_map s) q -> release s q = Ok s' -> abook s' b' ->
  one (mkBits b' (value m) (match live b' with [] => 0 | _ => angle m end)) s' /\ quiet s'.
Proof.
  intros m s q s' b' W Q O Hq H B. unfold release in H.
  destruct (Nat.eqb_spec (length (im_iter (id_map s))) 1) as [E1|E1].
  - cbn [bind id_map with_id_map] in H. injection H as <-.
    assert (E2 : length (im_keys (id_map s)) = 1) by (unfold im_keys; rewrite map_length; auto).
    apply (length_one _ _ q) in E2; [|apply im_keys_In; auto].
    assert (No : forall x l, im_get (im_remove (id_map s) q) x = Some l -> False).
    { intros x l Hx. rewrite im_get_remove in Hx. destruct (Nat.eqb_spec q x); [discriminate|].
      assert (P : In x (im_keys (id_map s))) by (apply im_keys_In; exists l; auto). rewrite E2 in P. destruct P as [P|[]]. congruence. }
    assert (Lb : live b' = []).
    { destruct (live b') as [|x l] eqn:El; auto. exfalso. destruct (proj2 (ab_has _ _ x B)) as [v Hv]; [rewrite El; left; auto|]. eapply No. exact Hv. }
    rewrite Lb. split.
    + apply bare_one; [reflexivity|]. exists (0%N, amp1). split; [reflexivity|]. split; [apply (tn_1 _ K)|]. intros x l Hx. exfalso. eapply No. exact Hx.
    + intros x. split; [apply bit_0|]. split; apply im_get_empty.
  - okay H. rename x into s2. okay E. destruct x as [r s1]. okay E. rename x into loc. destruct (measure_one m s q r s1 W Q O E0) as (-> & Qe & Mp & (iv & Es & G1 & G2) & Q1).
    apply find_at in E2. injection E as <-. injection H as <-.
    assert (Lb : live b' <> []).
    { intros El. apply E1. assert (Sub : forall x, In x (im_keys (id_map s)) -> x = q).
      { intros x Hx. destruct (Nat.eq_dec x q); auto. exfalso. apply im_keys_In in Hx. destruct Hx as [l Hl].
        assert (Hh : In x (live b')); [|rewrite El in Hh; destruct Hh]. apply (ab_has _ _ x B). exists l.
        destruct (value m q); cbn [id_map with_id_map with_state]; rewrite im_get_remove; (destruct (Nat.eqb_spec q x); [congruence|]); rewrite Mp; auto. }
      pose proof (im_keys_nodup (id_map s)) as ND. apply im_keys_In in Hq. rewrite <- (map_length fst). change (length (im_keys (id_map s)) = 1).
      destruct (im_keys (id_map s)) as [|x [|y l]]; [destruct Hq|auto|]. exfalso. inversion ND; subst. apply H1. left.
      rewrite (Sub x), (Sub y); auto; simpl; auto. }
    assert (En : forall v, match live b' with [] => v | _ => angle m end = angle m) by (intros v; destruct (live b'); congruence). rewrite En.
    assert (J : im_inj (id_map s1)) by (rewrite Mp; apply (i_inj _ W)).
    split.
    + apply bare_one; [destruct (value m q); exact Qe|]. exists (set_bit (fst iv) loc false, snd iv). split.
      * destruct (value m q) eqn:Ev; cbn [state with_id_map with_state]; rewrite Es; cbn [map]; rewrite ?clear_key; auto.
        f_equal. destruct iv as [k a]. cbn [fst snd]. f_equal. symmetry. apply set_bit_id'. rewrite <- Ev. apply (G2 q). exact E2.
      * split; [exact G1|]. cbn [fst value]. intros x l Hx.
        assert (Hx' : im_get (im_remove (id_map s1) q) x = Some l) by (destruct (value m q); exact Hx). rewrite im_get_remove in Hx'.
        destruct (Nat.eqb_spec q x); [discriminate|]. rewrite bit_set_other; [apply G2; auto|]. intros ->. apply n. eapply J; eauto.
    + intros x. destruct (Q1 x) as (A1 & A2 & A3). destruct (value m q); split; auto.
Qed.
Lemma swap_one : forall m s x y s', inv s -> quiet s -> one m s -> has (id_map s) x -> has (id_map s) y -> swap_qubit_ids s x y = Ok s' ->
  one (mkBits (bbook m) (fun q => if Nat.eqb q x then value m y else if Nat.eqb q y then value m x else value m q) (angle m)) s' /\ quiet s'.
Proof.
  intros m s x y s' W Q O Hx Hy H. unfold swap_qubit_ids in H. destruct (aflush_ops s W) as [s1 [F [Kp [L Qe]]]]. rewrite F in H. cbn [bind] in H.
  destruct (flush_one_op m s s1 W O F) as ((iv & Es & G1 & G2) & Q1 & M1).
  assert (Q' : quiet s1) by (intros q; eapply less_calm; eauto).
  cbv zeta in H. match type of H with bind (find_qubit ?x x) _ = _ => set (s4 := x) in * end.
  okay H. rename x0 into la, x1 into lb. injection H as <-. apply find_at in E, E0. change (id_map s4) with (id_map s1) in E, E0.
  set (s5 := with_id_map _ _) in *.
  assert (G : forall i, im_get (id_map s5) i = im_get (id_map s1) (sw x y i)).
  { intros i. unfold s5. simpl. rewrite !im_get_update. unfold sw.
    destruct (Nat.eqb_spec i x); destruct (Nat.eqb_spec i y); destruct (Nat.eqb_spec x i);
    destruct (Nat.eqb_spec y i); subst; try congruence; simpl; rewrite ?E, ?E0; simpl; congruence. }
  assert (H5 : forall i, bit (h_flag s5) i = bit (h_flag s1) (sw x y i)).
  { intros i. unfold s5. simpl. rewrite !bit_set. unfold sw.
    repeat match goal with |- context[Nat.eqb ?x ?y] => destruct (Nat.eqb_spec x y) end; subst; congruence. }
  split.
  - apply bare_one; [exact Q1|]. exists iv. split; [exact Es|]. split; [exact G1|]. intros q l Hq. rewrite G in Hq. rewrite (G2 _ _ Hq).
    cbn [value]. unfold sw. destruct (Nat.eqb q x); auto. destruct (Nat.eqb q y); auto.
  - intros q. destruct (Q' (sw x y q)) as (A1 & A2 & A3). split; [rewrite H5; auto|]. split.
    + rewrite <- A2. apply get_swap_entries.
    + rewrite <- A3. apply get_swap_entries.
Qed.

(** ** Listing the state *)
Lemma pack_bits : forall f l j, bit (pack f l) j = match nth_error l j with Some q => f q | None => false end.
Proof.
  intros f. induction l as [|q l IH]; intros j; [destruct j; apply bit_0|]. cbn [pack nth_error]. destruct j as [|j].
  - change (nth_error (q :: l) 0) with (Some q). unfold bit. change (N.of_nat 0) with 0%N. rewrite N.add_comm. destruct (f q); [apply N.testbit_odd_0|cbn [N.b2n]; rewrite N.add_0_r; apply N.testbit_even_0].
  - cbn [nth_error]. rewrite <- IH. unfold bit. rewrite Nat2N.inj_succ, N.add_comm.
    destruct (f q); [apply N.testbit_odd_succ; lia|cbn [N.b2n]; rewrite N.add_0_r; apply N.testbit_even_succ; lia].
Qed.
Lemma place_one : forall m n ks s s', inv s -> aquiet s -> Forall (has (id_map s)) ks -> bare m s ->
  foldM place_key (enumerate_from n ks) s = Ok s' -> bare m s'.
Proof.
  intros m n ks. revert n. induction ks as [|x ks IH]; intros n s s' W Q F A H; cbn [enumerate_from foldM] in H; [congruence|].
  inversion F as [|? ? [cur Hc] F']; subst. destruct (aplace_key s n x cur W Q Hc) as [s1 [E [[-> _]|R]]]; rewrite E in H; cbn [bind] in H.
  - eapply IH; eauto.
  - assert (W1 : inv s1) by (eapply arelabel_inv; eauto). eapply IH; [exact W1| | | |exact H].
    + destruct Q as [Q1 Q2]. destruct R. split; [congruence|]. intros y. unfold calm. rewrite ar_h, ar_rx, ar_ry. apply Q2.
    + eapply Forall_impl; [|exact F']. intros y. apply (arelabel_has _ _ _ _ y R).
    + destruct A as ([k a] & Es & G1 & G2). exists (swap_bits cur n k, a). rewrite (ar_st _ _ _ _ R), Es. split; [reflexivity|]. split; [exact G1|].
      intros q l Hq. rewrite (ar_id _ _ _ _ R) in Hq. destruct (im_get (id_map s) q) as [l0|] eqn:E0; [|discriminate]. injection Hq as <-.
      cbn [fst]. rewrite bit_swap_bits, sw_sw. apply G2. exact E0.
Qed.
Lemma canon_one : forall m s s' ks, inv s -> quiet s -> one m s -> canonicalize s = Ok (s', ks) ->
  op_queue s' = [] /\ quiet s' /\ exists a, state s' = [(pack (value m) (im_keys (id_map s)), a)] /\ turned (angle m) a /\ bare m s'.
Proof.
  intros m s s' ks W Q O H. destruct (acanon horder_perm s W) as (s2 & E & P & N2 & [_ Sm2]). assert (s2 = s') by congruence. subst s2. clear E.
  destruct (pl_quiet _ _ P) as [Qe Q']. split; [exact Qe|]. split; [exact Q'|].
  unfold canonicalize in H. cbv zeta in H. set (k0 := im_keys (id_map s)) in *. rewrite flush_quiet in H by auto.
  destruct (aflush_ops s W) as [s1 [F [Kp [L Qe1]]]]. rewrite F in H. cbn [bind] in H. okay H. injection H as -> _.
  destruct (flush_one_op m s s1 W O F) as (B1 & Q1 & M1).
  assert (B : bare m s').
  { eapply place_one; [apply Kp| | |exact B1|exact E].
    - split; auto. intros q. eapply less_calm; eauto.
    - apply Forall_forall. intros x Hx. rewrite M1. apply im_keys_In. exact Hx. }
  destruct B as ([k a] & Es & G1 & G2). exists a. split; [|split; [exact G1|exists (k, a); split; auto; split; auto]].
  rewrite Es in Sm2 |- *. apply Forall_inv in Sm2. cbn [fst] in Sm2. f_equal. f_equal. apply bits_ext. intros i. rewrite pack_bits.
  destruct (nth_error k0 i) as [q|] eqn:Ei; [apply (G2 q); apply N2; auto|].
  destruct (bit k i) eqn:Bi; auto. apply (bits_small k (length k0) i) in Bi; auto. apply nth_error_None in Ei. lia.
Qed.

(** ** One call, and programs *)
Lemma bits_book : forall m c, bbook (bits_step m c) = abstep (bbook m) c.
Proof. intros m c. destruct c; try reflexivity. simpl. destruct (forallb _ _); reflexivity. Qed.
Lemma step_one : forall m s c r s', cl m s -> avalid (bbook m) c -> classical c -> arun1 s c = Ok (r, s') -> abook s' (abstep (bbook m) c) ->
  areply_ok (live (bbook m)) c r ->
  one (bits_step m c) s' /\ quiet s' /\ bits_reply turned m c r.
Proof.
  intros m s c r s' C V Cc H B' Rk. pose proof (cl_inv _ _ C) as W. destruct C as [B Q O].
  assert (Eta : one (mkBits (bbook m) (value m) (angle m)) s' -> one m s') by (intros; destruct m; auto).
  assert (Bk : forall b, bare m s' -> op_queue s' = [] -> one (mkBits b (value m) (angle m)) s').
  { intros b (iv & Es & G) Qe. apply bare_one; auto. exists iv. split; auto. }
  destruct c; try contradiction Cc; cbn [arun1 avalid] in H, V.
  - unfold aquietly in H. okay H. injection H as <- <-. destruct (gate_one m s g t x) as [A1 A2]; auto. apply (ab_has _ _ t B). auto.
  - unfold aquietly in H. okay H. injection H as <- <-. destruct V as [D I]. destruct (mc_one m s g cs t x) as [A1 A2]; auto.
    apply Forall_forall. intros y Hy. apply (ab_has _ _ y B). auto.
  - destruct (allocate s) as [s1 q1] eqn:Ea. injection H as <- <-. pose proof (alloc_one m s W Q O) as A. rewrite Ea in A. cbn [fst snd] in A.
    simpl in Rk. injection Rk as ->. destruct A as [A1 A2]. split; [exact A1|]. split; [exact A2|reflexivity].
  - unfold aquietly in H. okay H. injection H as <- <-. destruct (release_one m s q x _ W Q O (proj2 (ab_has _ _ q B) V) E B') as [A1 A2]. split; [exact A1|]. split; [exact A2|reflexivity].
  - unfold aquietly in H. okay H. injection H as <- <-. destruct V as [V1 V2].
    destruct (swap_one m s a b x W Q O (proj2 (ab_has _ _ a B) V1) (proj2 (ab_has _ _ b B) V2) E) as [A1 A2]. split; [exact A1|]. split; [exact A2|reflexivity].
  - okay H. destruct x as [b s1]. injection H as <- <-. destruct (measure_one m s q b s1 W Q O E) as (-> & A1 & _ & A2 & A3).
    split; [apply Bk; auto|]. split; [exact A3|reflexivity].
  - okay H. destruct x as [b s1]. injection H as <- <-. destruct (joint_one m s qs b s1 W Q O (proj1 V) E) as (-> & A1 & _ & A2 & A3).
    split; [apply Bk; auto|]. split; [exact A3|reflexivity].
  - okay H. destruct x as [b s1]. injection H as <- <-. destruct (prob_one m s qs b s1 W Q O (proj1 V) E) as (-> & A1 & A2 & A3).
    split; [apply Bk; auto|]. split; [exact A3|reflexivity].
  - unfold qubit_is_zero in H. okay H. destruct x as [b s1]. okay E. destruct x as [p s2]. injection E as <- <-. injection H as <- <-.
    destruct (prob_one m s [q] p s2 W Q O (nd1 q) E0) as (-> & A1 & A2 & A3).
    split; [apply Bk; auto|]. split; [exact A3|]. cbn [bits_reply]. rewrite odd1. destruct (value m q); cbn [sure negb]; f_equal; [apply (tn_one _ K)|apply (tn_zero _ K)].
  - okay H. destruct x as [p s1]. injection H as <- <-. destruct (force_one m s v q p s1 W Q O E) as (-> & A1 & A2 & A3).
    split; [apply Bk; auto|]. split; [exact A3|reflexivity].
  - unfold get_state in H. okay H. destruct x as [[st n] s1]. okay E. destruct x as [s2 ks]. injection E as <- <- <-. injection H as <- <-.
    destruct (canon_one m s s2 ks W Q O E0) as (A1 & A2 & a & A3 & A4 & A5). split; [apply Bk; auto|]. split; [exact A2|].
    destruct Rk as (st & Rk & _). injection Rk as <- Rl. cbn [bits_reply]. exists a. rewrite Rl, A3, (ab_ids _ _ B). split; auto.
  - unfold dump in H. okay H. destruct x as [st s1]. okay E. destruct x as [s2 ks]. cbv zeta in E. injection E as <- <-. injection H as <- <-.
    destruct (canon_one m s s2 ks W Q O E0) as (A1 & A2 & a & A3 & A4 & A5). split; [|split; [exact A2|]].
    + apply Bk; [|exact A1]. destruct A5 as (iv & Es & G). exists iv. split; [|exact G]. cbn [state with_state]. rewrite Es. reflexivity.
    + cbn [bits_reply]. exists a. rewrite A3, (ab_ids _ _ B). split; auto.
Qed.
Theorem run_one : forall h m s, cl m s -> avalid_run (bbook m) h -> Forall classical h ->
  exists rs s', aexec s h = Ok (rs, s') /\ bits_replies turned m h rs /\ cl (bits_run m h) s'.
Proof.
  induction h as [|c h IH]; intros m s C V F; cbn [aexec].
  - exists [], s. split; [reflexivity|]. split; [exact Logic.I|exact C].
  - destruct V as [V1 V2]. inversion F as [|? ? F1 F2]; subst. destruct (one_call horder_perm s (bbook m) c (c_book _ _ C) V1) as [(r & s1 & E & B' & Rk & _)|[Ia _]].
    + destruct (step_one m s c r s1 C V1 F1 E B' Rk) as (A1 & A2 & A3). rewrite E. cbn [bind].
      destruct (IH (bits_step m c) s1) as (rs & s2 & E2 & R2 & C2); auto.
      * split; auto. rewrite bits_book. exact B'.
      * rewrite bits_book. exact V2.
      * rewrite E2. cbn [bind]. exists (r :: rs), s2. split; auto. split; [split; auto|exact C2].
    + destruct c; try contradiction Ia. contradiction F1.
Qed.
Lemma new_cl : forall g, cl no_bits (new_sim g).
Proof.
  intros g. split; [apply new_abook| |].
  - intros q. split; [apply bit_0|]. split; apply im_get_empty.
  - apply bare_one; [reflexivity|]. exists (0%N, amp1). split; [reflexivity|]. split; [apply (tn_1 _ K)|]. intros q l H.
    cbn in H. rewrite im_get_empty in H. discriminate.
Qed.
Theorem classical_thm : forall g h, avalid_run (bbook no_bits) h -> Forall classical h ->
  exists rs s, aexec (new_sim g) h = Ok (rs, s) /\ bits_replies turned no_bits h rs.
Proof. intros g h V F. destruct (run_one h no_bits (new_sim g) (new_cl g) V F) as (rs & s & E & R & _). eauto. Qed.
End Classical.
