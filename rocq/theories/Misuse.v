(** * What bad identifiers in the operation queue do; the bound on the queue

    Nothing here assumes a reachable state or valid arguments. *)
From Coq Require Import NArith List Bool Arith Lia Permutation.
From Verif Require Import Arith IndexMap Bits Sim SimExp SimApply IndexMapLemmas.
Import ListNotations.

Section Frame.
Context {AR : Arith} {EN : Env}.

Definition allocd (s : sim) (q : nat) : Prop := im_get (id_map s) q <> None.
Definition bad_ids (s : sim) (ids : list nat) : Prop := ~ NoDup ids \/ exists q, In q ids /\ ~ allocd s q.
Definition stuck (s : sim) : Prop := exists cs t o, In (cs, t, o) (op_queue s) /\ bad_ids s (cs ++ [t]).

Record frame (s s' : sim) : Prop := mkFrame {
  fr_keys : forall q, allocd s' q <-> allocd s q;
  fr_stuck : stuck s -> state s' = state s /\ exists tl, op_queue s' = op_queue s ++ tl;
  fr_len : (N.of_nat (length (op_queue s)) <= 10000)%N -> (N.of_nat (length (op_queue s')) <= 10000)%N }.

Lemma bad_ids_frame : forall s s' l, (forall q, allocd s' q <-> allocd s q) -> bad_ids s l -> bad_ids s' l.
Proof. intros s s' l H [N|[q [I Q]]]; [left; auto|right; exists q; split; auto]. rewrite H. auto. Qed.
Lemma stuck_frame : forall s s', frame s s' -> stuck s -> stuck s'.
Proof.
  intros s s' [K F _] X. pose proof (F X) as [_ [tl Q]]. destruct X as [cs [t [o [I B]]]]. exists cs, t, o. split.
  - rewrite Q. apply in_or_app. auto.
  - eapply bad_ids_frame; eauto.
Qed.
Lemma frame_refl : forall s, frame s s.
Proof. intros s. split; [reflexivity|intros _; split; auto; exists []; rewrite app_nil_r; auto|auto]. Qed.
Lemma frame_trans : forall a b c, frame a b -> frame b c -> frame a c.
Proof.
  intros a b c F G. split.
  - intros q. rewrite (fr_keys _ _ G). apply (fr_keys _ _ F).
  - intros X. destruct (fr_stuck _ _ F X) as [E [t1 Q]]. destruct (fr_stuck _ _ G (stuck_frame _ _ F X)) as [E' [t2 Q']].
    split; [congruence|]. exists (t1 ++ t2). rewrite Q', Q, app_assoc. auto.
  - intros L. apply (fr_len _ _ G), (fr_len _ _ F), L.
Qed.
(** Changing only the pending single-qubit gates or the generator. *)
Lemma frame_eq : forall s s', id_map s' = id_map s -> state s' = state s -> op_queue s' = op_queue s -> frame s s'.
Proof.
  intros s s' H1 H2 H3. split.
  - intros q. unfold allocd. rewrite H1. tauto.
  - intros _. split; auto. exists []. rewrite app_nil_r. auto.
  - rewrite H3. auto.
Qed.

(** ** Checks *)
Lemma check_dup_from_ok : forall ids seen, check_dup_from seen ids = Ok tt -> NoDup ids /\ forall x, In x ids -> ~ In x seen.
Proof.
  induction ids as [|x ids IH]; simpl; intros seen H; [split; [constructor|tauto]|].
  destruct (existsb (Nat.eqb x) seen) eqn:E; [discriminate|]. destruct (IH _ H) as [N D]. split.
  - constructor; auto. intros I. apply (D _ I). simpl; auto.
  - intros y [<-|I].
    + intros I. assert (existsb (Nat.eqb x) seen = true); [|congruence]. apply existsb_exists. exists x. split; auto. apply Nat.eqb_refl.
    + intros I'. apply (D _ I). simpl; auto.
Qed.
Lemma check_dup_ok : forall ids u, check_for_duplicates ids = Ok u -> NoDup ids.
Proof. intros ids [] H. apply check_dup_from_ok in H. tauto. Qed.
Lemma find_qubit_ok : forall s q l, find_qubit s q = Ok l -> allocd s q.
Proof. intros s q l. unfold find_qubit, allocd. destruct (im_get (id_map s) q); [discriminate|]. discriminate. Qed.
Lemma mapM_ok_in {X Y} : forall (f : X -> res Y) l ys x, mapM f l = Ok ys -> In x l -> exists y, f x = Ok y.
Proof.
  induction l as [|a l IH]; simpl; intros ys x H I; [tauto|].
  destruct (f a) as [y|] eqn:E; simpl in H; [|discriminate]. destruct (mapM f l) as [zs|] eqn:E2; simpl in H; [|discriminate].
  destruct I as [<-|I]; eauto.
Qed.
Lemma resolve_ok : forall s t cs r, resolve_and_check_qubits s t cs = Ok r -> ~ bad_ids s (cs ++ [t]).
Proof.
  intros s t cs r. unfold resolve_and_check_qubits. destruct (check_for_duplicates (cs ++ [t])) as [u|] eqn:E1; simpl; [|discriminate].
  destruct (find_qubit s t) as [lt|] eqn:E2; simpl; [|discriminate].
  destruct (mapM (find_qubit s) cs) as [ls|] eqn:E3; simpl; [|discriminate]. intros _ [N|[q [I Q]]].
  - apply N. eapply check_dup_ok; eauto.
  - apply in_app_or in I. destruct I as [I|[<-|[]]].
    + destruct (mapM_ok_in _ _ _ _ E3 I) as [y Hy]. apply Q. eapply find_qubit_ok; eauto.
    + apply Q. eapply find_qubit_ok; eauto.
Qed.
Lemma take_ops_ok : forall s ops s', take_ops s = Ok (ops, s') -> s' = with_ops s [] /\ ~ stuck s.
Proof.
  intros s ops s'. unfold take_ops.
  match goal with |- context[mapM ?f ?l] => destruct (mapM f l) as [os|] eqn:E end; simpl; [|discriminate].
  intros H. inversion H; subst. split; auto. intros [cs [t [o [I B]]]].
  destruct (mapM_ok_in _ _ _ _ E I) as [y Hy]. simpl in Hy.
  destruct (resolve_and_check_qubits s t cs) as [r|] eqn:R; simpl in Hy; [|discriminate].
  eapply resolve_ok; eauto.
Qed.

(** A queue that was taken. *)
Lemma frame_taken : forall s s', ~ stuck s -> id_map s' = id_map s -> op_queue s' = [] -> frame s s'.
Proof.
  intros s s' X H1 H2. split.
  - intros q. unfold allocd. rewrite H1. tauto.
  - tauto.
  - rewrite H2. intros _. simpl. lia.
Qed.
Lemma flush_ops_frame : forall s s', flush_ops s = Ok s' -> frame s s' /\ ~ stuck s /\ op_queue s' = [].
Proof.
  intros s s'. unfold flush_ops. destruct (op_queue s) as [|o l] eqn:Q.
  - intros H. inversion H; subst. split; [apply frame_refl|]. split; auto. intros [cs [t [o [I _]]]]. rewrite Q in I. destruct I.
  - destruct (take_ops s) as [[ops s1]|] eqn:E; simpl; [|discriminate]. destruct (take_ops_ok _ _ _ E) as [-> X].
    intros H. inversion H; subst. split; [apply frame_taken; auto|]. auto.
Qed.
Lemma enqueue_frame : forall s t cs o s', enqueue_op s t cs o = Ok s' -> frame s s' /\ (bad_ids s (cs ++ [t]) -> stuck s').
Proof.
  intros s t cs o s'. unfold enqueue_op.
  destruct (N.eqb_spec (N.of_nat (length (op_queue s))) QUEUE_LIMIT) as [L|L].
  - destruct (flush_ops s) as [s1|] eqn:E; simpl; [|discriminate]. intros H. inversion H; subst.
    destruct (flush_ops_frame _ _ E) as [F [X Q]]. split.
    + split; simpl; [intros q; apply (fr_keys _ _ F)|tauto|rewrite Q; simpl; lia].
    + intros B. exists cs, t, o. split; [simpl; apply in_or_app; simpl; auto|].
      eapply bad_ids_frame; [|exact B]. intros q. apply (fr_keys _ _ F).
  - simpl. intros H. inversion H; subst. split.
    + split; simpl; [reflexivity|intros _; split; eauto|]. intros L'. rewrite app_length, Nat2N.inj_add. simpl.
      unfold QUEUE_LIMIT in L. lia.
    + intros B. exists cs, t, o. split; [simpl; apply in_or_app; simpl; auto|]. exact B.
Qed.

(** ** Automation *)
Ltac inv H := inversion H; subst; clear H.
Ltac bindH H :=
  match type of H with
  | bind ?m _ = Ok _ =>
      let x := fresh "x" in let E := fresh "E" in
      destruct m as [x|] eqn:E; simpl in H; [|discriminate]
  end.
Lemma bind_frame {X} : forall s (m : res X) (f : X -> res sim) (g : X -> sim) s',
  bind m f = Ok s' -> (forall x, m = Ok x -> frame s (g x)) -> (forall x s', f x = Ok s' -> frame (g x) s') -> frame s s'.
Proof. intros s m f g s' H H1 H2. destruct m as [x|]; simpl in H; [|discriminate]. eapply frame_trans; eauto. Qed.

Lemma apply_mch_frame : forall s cs t s', apply_mch s cs t = Ok s' -> frame s s' /\ ~ stuck s /\ ~ bad_ids s (cs ++ [t]) /\ op_queue s' = [].
Proof.
  intros s cs t s'. unfold apply_mch. intros H. bindH H. destruct x as [t' cs']. bindH H. destruct x as [ops s1].
  inv H. destruct (take_ops_ok _ _ _ E0) as [-> X]. split; [apply frame_taken; auto|]. split; auto. split; auto. eapply resolve_ok; eauto.
Qed.
Definition framed2 (f : sim -> list nat -> nat -> res sim) : Prop :=
  forall s cs t s', f s cs t = Ok s' -> frame s s'.
Lemma mcrotation_frame : forall px py, framed2 px -> framed2 py -> forall s cs th t b s',
  mcrotation_with px py s cs th t b = Ok s' -> frame s s'.
Proof.
  intros px py Hx Hy s cs th t b s'. unfold mcrotation_with. intros H.
  destruct (anz (rot_m00 th)).
  - bindH H. assert (F : frame s x) by (destruct b; [eapply Hy|eapply Hx]; eauto).
    bindH H. destruct x0 as [t' cs'].
    match type of H with (if ?c then _ else _) = _ => destruct c end.
    + inv H. auto.
    + bindH H. destruct x0 as [ops s1]. destruct (take_ops_ok _ _ _ E1) as [-> X]. inv H.
      eapply frame_trans; [exact F|]. apply frame_taken; auto.
  - destruct (anz (rot_m01 th b)).
    + match type of H with (if ?c then _ else _) = _ => destruct c end.
      * bindH H. destruct x as [ops s1]. destruct (take_ops_ok _ _ _ E) as [-> X]. bindH H. destruct x as [t' cs']. inv H.
        apply frame_taken; auto.
      * inv H. apply frame_refl.
    + bindH H. destruct x as [t' cs']. bindH H. destruct x as [ops s1]. destruct (take_ops_ok _ _ _ E0) as [-> X]. inv H.
      apply frame_taken; auto.
Qed.
Ltac tr := eapply frame_trans; [|eassumption || (eapply enqueue_frame; eassumption)].
Lemma gate_x_frame : forall s t s', gate_x s t = Ok s' -> frame s s'.
Proof.
  intros s t s'. unfold gate_x. intros H.
  match type of H with (if ?c then _ else _) = _ => destruct c end; tr; apply frame_eq; auto.
Qed.
Lemma gate_y_frame : forall s t s', gate_y s t = Ok s' -> frame s s'.
Proof. intros s t s'. unfold gate_y. intros H. tr; apply frame_eq; auto. Qed.
Lemma gate_z_frame : forall s t s', gate_z s t = Ok s' -> frame s s'.
Proof.
  intros s t s'. unfold gate_z. intros H.
  match type of H with (if ?c then _ else _) = _ => destruct c end; tr; apply frame_eq; auto.
Qed.
Lemma flush_rx_frame : forall s t s', flush_rx s t = Ok s' -> frame s s'.
Proof.
  intros s t s'. unfold flush_rx. destruct (im_get (rx_queue s) t); intros H; [|inv H; apply frame_refl].
  bindH H. inv H. eapply frame_trans; [|apply (frame_eq x); auto].
  eapply mcrotation_frame; [| |exact E]; intros ? ? ? ? Hr; [eapply gate_x_frame|eapply gate_y_frame]; eauto.
Qed.
Lemma flush_ry_frame : forall s t s', flush_ry s t = Ok s' -> frame s s'.
Proof.
  intros s t s'. unfold flush_ry. destruct (im_get (ry_queue s) t); intros H; [|inv H; apply frame_refl].
  bindH H. inv H. eapply frame_trans; [|apply (frame_eq x); auto].
  eapply mcrotation_frame; [| |exact E]; intros ? ? ? ? Hr; [eapply gate_x_frame|eapply gate_y_frame]; eauto.
Qed.
Lemma flush_one_frame : forall lv s t s', flush_one lv s t = Ok s' -> frame s s'.
Proof.
  intros lv s t s'. unfold flush_one. intros H. bindH H.
  assert (F : frame s x).
  { destruct (bit (h_flag s) t); [|inv E; apply frame_refl]. bindH E. inv E.
    eapply frame_trans; [apply apply_mch_frame in E0; apply E0|]. apply frame_eq; auto. }
  eapply frame_trans; [exact F|]. destruct lv.
  - inv H. apply frame_refl.
  - eapply flush_rx_frame; eauto.
  - bindH H. eapply frame_trans; [eapply flush_rx_frame; eauto|eapply flush_ry_frame; eauto].
Qed.
Lemma foldM_frame {X} : forall (f : sim -> X -> res sim), (forall s x s', f s x = Ok s' -> frame s s') ->
  forall l s s', foldM f l s = Ok s' -> frame s s'.
Proof.
  intros f Hf. induction l as [|x l IH]; simpl; intros s s' H; [inv H; apply frame_refl|].
  bindH H. eapply frame_trans; eauto.
Qed.
Lemma flush_queue_frame : forall s qs lv s', flush_queue s qs lv = Ok s' -> frame s s' /\ ~ stuck s /\ op_queue s' = [].
Proof.
  intros s qs lv s'. unfold flush_queue. intros H. bindH H.
  assert (F : frame s x) by (eapply foldM_frame; [|exact E]; intros; eapply flush_one_frame; eauto).
  destruct (flush_ops_frame _ _ H) as [F' [X Q]]. split; [eapply frame_trans; eauto|]. split; auto.
  intros Y. apply X. eapply stuck_frame; eauto.
Qed.
Lemma maybe_flush_frame : forall s qs lv s', maybe_flush_queue s qs lv = Ok s' -> frame s s'.
Proof.
  intros s qs lv s'. unfold maybe_flush_queue. destruct (existsb (has_queued_hrxy s) qs).
  - intros H. apply flush_queue_frame in H. tauto.
  - intros H. inv H. apply frame_refl.
Qed.
(** The result of a gate with bad identifiers. *)
Lemma bad_back : forall s s' l, frame s s' -> bad_ids s l -> bad_ids s' l.
Proof. intros s s' l F. apply bad_ids_frame. apply (fr_keys _ _ F). Qed.
Definition checked2 (f : sim -> list nat -> nat -> res sim) : Prop :=
  forall s cs t s', f s cs t = Ok s' -> frame s s' /\ (bad_ids s (cs ++ [t]) -> stuck s').
Ltac ifs H := match type of H with (if ?c then _ else _) = _ => destruct c end.
Lemma gate_x_bad : forall s t s', gate_x s t = Ok s' -> frame s s' /\ (bad_ids s [t] -> stuck s').
Proof.
  intros s t s' H. split; [eapply gate_x_frame; eauto|]. intros B. unfold gate_x in H. ifs H; apply (enqueue_frame _ _ _ _ _ H); exact B.
Qed.
Lemma gate_y_bad : forall s t s', gate_y s t = Ok s' -> frame s s' /\ (bad_ids s [t] -> stuck s').
Proof.
  intros s t s' H. split; [eapply gate_y_frame; eauto|]. intros B. unfold gate_y in H. apply (enqueue_frame _ _ _ _ _ H); exact B.
Qed.
Lemma gate_z_bad : forall s t s', gate_z s t = Ok s' -> frame s s' /\ (bad_ids s [t] -> stuck s').
Proof.
  intros s t s' H. split; [eapply gate_z_frame; eauto|]. intros B. unfold gate_z in H. ifs H; apply (enqueue_frame _ _ _ _ _ H); exact B.
Qed.
Lemma bad_ids_perm : forall s l l', Permutation l l' -> bad_ids s l -> bad_ids s l'.
Proof.
  intros s l l' P [N|[q [I Q]]].
  - left. intros X. apply N. eapply Permutation_NoDup; [apply Permutation_sym, P|auto].
  - right. exists q. split; auto. eapply Permutation_in; eauto.
Qed.
Lemma mcx_checked : checked2 gate_mcx.
Proof.
  intros s cs t s' H. unfold gate_mcx in H. destruct cs as [|c0 rest]; [apply gate_x_bad; auto|].
  bindH H. assert (F : frame s x). { destruct (im_contains (ry_queue s) t); [apply flush_queue_frame in E; tauto|inv E; apply frame_refl]. }
  bindH H. assert (F' : frame x x0).
  { destruct rest.
    - ifs E0; [apply flush_queue_frame in E0; tauto|inv E0; apply frame_refl].
    - eapply maybe_flush_frame; eauto. }
  pose proof (frame_trans _ _ _ F F') as G.
  assert (K : forall o, enqueue_op x0 t (c0 :: rest) o = Ok s' -> frame s s' /\ (bad_ids s ((c0 :: rest) ++ [t]) -> stuck s')).
  { intros o Ho. destruct (enqueue_frame _ _ _ _ _ Ho) as [F1 B1]. split; [eapply frame_trans; eauto|]. intros B. apply B1. eapply bad_back; eauto. }
  ifs H; [|eauto]. destruct rest as [|c1 rest]; [|eauto]. ifs H; [|eauto].
  destruct (enqueue_frame _ _ _ _ _ H) as [F1 B1]. split; [eapply frame_trans; eauto|]. intros B. apply B1.
  eapply bad_ids_perm; [|eapply bad_back; eauto]. simpl. apply perm_swap.
Qed.
Lemma mcy_checked : checked2 gate_mcy.
Proof.
  intros s cs t s' H. unfold gate_mcy in H. destruct cs as [|c0 rest]; [apply gate_y_bad; auto|].
  bindH H. apply maybe_flush_frame in E.
  bindH H. assert (F' : frame x x0). { ifs E0; [apply flush_queue_frame in E0; tauto|inv E0; apply frame_refl]. }
  bindH H. assert (F2 : frame x0 x1). { ifs E1; [apply enqueue_frame in E1; tauto|inv E1; apply frame_refl]. }
  pose proof (frame_trans _ _ _ E (frame_trans _ _ _ F' F2)) as G.
  destruct (enqueue_frame _ _ _ _ _ H) as [F1 B1]. split; [eapply frame_trans; eauto|]. intros B. apply B1. eapply bad_back; eauto.
Qed.

Lemma swap_ctl_bad : forall s cs t hc, In hc cs -> bad_ids s (cs ++ [t]) ->
  bad_ids s (map (fun c => if Nat.eqb c hc then t else c) cs ++ [hc]).
Proof.
  intros s cs t hc I [N|[q [Iq Q]]].
  - left. intros X. apply N.
    assert (G : NoDup cs /\ ~ In t cs).
    { clear N. apply NoDup_remove in X. rewrite app_nil_r in X. destruct X as [X NI].
      revert I X NI. induction cs as [|c cs IH]; simpl; intros I X NI; [tauto|]. inversion X; subst.
      destruct (Nat.eqb_spec c hc) as [->|D].
      - (* first occurrence: the rest must not contain hc *)
        assert (NH : ~ In hc cs). { intros J. apply H1. apply in_map_iff. exists hc. rewrite Nat.eqb_refl. auto. }
        assert (M : map (fun c => if c =? hc then t else c) cs = cs).
        { clear - NH. induction cs as [|c cs IH]; simpl; auto. destruct (Nat.eqb_spec c hc) as [->|]; [exfalso; apply NH; simpl; auto|].
          rewrite IH; auto. intros J. apply NH. simpl; auto. }
        rewrite M in *. split; [constructor; auto|]. intros [J|J]; [subst; apply NI; simpl; auto|]. apply H1. auto.
      - destruct I as [J|I]; [congruence|]. destruct IH as [A B]; auto.
        split.
        + constructor; auto. intros J. apply H1. apply in_map_iff. exists c. split; auto. destruct (Nat.eqb_spec c hc); congruence.
        + intros [J|J]; [|auto]. subst c. apply H1. apply in_map_iff. exists hc. rewrite Nat.eqb_refl. auto. }
    destruct G as [A B]. clear - A B. induction cs as [|c cs IH]; simpl; [repeat constructor; auto|].
    inversion A; subst. constructor.
    + intros J. apply in_app_or in J. destruct J as [J|[J|[]]]; [auto|]. subst. apply B. simpl; auto.
    + apply IH; auto. intros J. apply B. simpl; auto.
  - right. exists q. split; auto. apply in_app_or in Iq. apply in_or_app. destruct Iq as [Iq|[<-|[]]].
    + destruct (Nat.eqb_spec q hc) as [->|D]; [right; simpl; auto|]. left. apply in_map_iff. exists q. split; auto.
      destruct (Nat.eqb_spec q hc); congruence.
    + left. apply in_map_iff. exists hc. rewrite Nat.eqb_refl. auto.
Qed.
Lemma mcz_checked : checked2 gate_mcz.
Proof.
  intros s cs t s' H. unfold gate_mcz in H. destruct cs as [|c0 rest]; [apply gate_z_bad; auto|].
  remember (c0 :: rest) as cs eqn:Ecs. cbv zeta in H. ifs H.
  - destruct (find (fun c => bit (h_flag s) c) cs) as [hc|] eqn:Ef.
    + destruct (enqueue_frame _ _ _ _ _ H) as [F1 B1]. split; auto. intros B. apply B1.
      apply find_some in Ef. destruct Ef as [I _]. apply swap_ctl_bad; auto.
    + exact (enqueue_frame _ _ _ _ _ H).
  - bindH H. bindH H. apply flush_queue_frame in E. apply flush_queue_frame in E0.
    assert (G : frame s x0) by (eapply frame_trans; [apply E|apply E0]).
    destruct (enqueue_frame _ _ _ _ _ H) as [F1 B1]. split; [eapply frame_trans; eauto|]. intros B. apply B1. eapply bad_back; eauto.
Qed.
Lemma diag_checked : forall o s t s', gate_diag o s t = Ok s' -> frame s s' /\ (bad_ids s [t] -> stuck s').
Proof.
  intros o s t s' H. unfold gate_diag in H. bindH H. apply maybe_flush_frame in E.
  destruct (enqueue_frame _ _ _ _ _ H) as [F1 B1]. split; [eapply frame_trans; eauto|]. intros B. apply B1. simpl. eapply bad_back; eauto.
Qed.
Lemma mcdiag_checked : forall o, checked2 (gate_mcdiag o).
Proof.
  intros o s cs t s' H. unfold gate_mcdiag in H. bindH H. bindH H. apply maybe_flush_frame in E, E0.
  pose proof (frame_trans _ _ _ E E0) as G.
  destruct (enqueue_frame _ _ _ _ _ H) as [F1 B1]. split; [eapply frame_trans; eauto|]. intros B. apply B1. eapply bad_back; eauto.
Qed.
Lemma gate_h_frame : forall s t s', gate_h s t = Ok s' -> frame s s'.
Proof.
  intros s t s' H. unfold gate_h in H. cbv zeta in H. bindH H. inv H. eapply frame_trans; [|apply (frame_eq x); auto].
  ifs E.
  - eapply frame_trans; [|apply flush_queue_frame in E; apply E]. apply frame_eq; auto.
  - inv E. apply frame_eq; auto.
Qed.
Lemma gate_rx_frame : forall s th t s', gate_rx s th t = Ok s' -> frame s s'.
Proof.
  intros s th t s' H. unfold gate_rx in H. bindH H. inv H. eapply frame_trans; [|apply (frame_eq x); auto].
  ifs E; [apply flush_queue_frame in E; tauto|inv E; apply frame_refl].
Qed.
Lemma gate_ry_frame : forall s th t s', gate_ry s th t = Ok s' -> frame s s'.
Proof. intros s th t s' H. unfold gate_ry in H. inv H. apply frame_eq; auto. Qed.
Lemma mch_checked : checked2 gate_mch.
Proof.
  intros s cs t s' H. unfold gate_mch in H. bindH H. bindH H. apply flush_queue_frame in E. destruct E as [F [X _]].
  assert (F' : frame x x0). { ifs E0; [apply flush_queue_frame in E0; tauto|inv E0; apply frame_refl]. }
  apply apply_mch_frame in H. destruct H as [F2 [_ [B _]]]. split; [eapply frame_trans; [eapply frame_trans|]; eauto|].
  intros B'. exfalso. apply B. eapply bad_back; [|exact B']. eapply frame_trans; eauto.
Qed.
(** A controlled rotation with bad identifiers that returns did nothing to the state of the queue. *)
Lemma mcrotation_bad : forall s cs th t b s', mcrotation s cs th t b = Ok s' -> bad_ids s (cs ++ [t]) -> s' = s /\ anz (rot_m01 th b) = true.
Proof.
  intros s cs th t b s' H B. unfold mcrotation, mcrotation_with in H.
  destruct (anz (rot_m00 th)).
  - exfalso. bindH H. assert (F : frame s x) by (destruct b; [eapply mcy_checked|eapply mcx_checked]; eauto).
    bindH H. destruct x0 as [t' cs']. apply resolve_ok in E0. apply E0. eapply bad_back; eauto.
  - destruct (anz (rot_m01 th b)).
    + ifs H.
      * exfalso. bindH H. destruct x as [ops s1]. destruct (take_ops_ok _ _ _ E) as [-> X]. bindH H. apply resolve_ok in E0. apply E0. exact B.
      * inv H. auto.
    + exfalso. bindH H. destruct x as [t' cs']. apply resolve_ok in E. tauto.
Qed.
Lemma mcrot_frame : forall s cs th t b s', mcrotation s cs th t b = Ok s' -> frame s s'.
Proof.
  intros. eapply mcrotation_frame; eauto; intros ? ? ? ? Hr; [eapply mcx_checked|eapply mcy_checked]; eauto.
Qed.
Lemma mcrx_frame : forall s cs th t s', gate_mcrx s cs th t = Ok s' -> frame s s'.
Proof.
  intros s cs th t s' H. unfold gate_mcrx in H. bindH H. bindH H. apply flush_queue_frame in E. destruct E as [F _].
  assert (F' : frame x x0). { ifs E0; [apply flush_queue_frame in E0; tauto|]. ifs E0; [apply flush_queue_frame in E0; tauto|inv E0; apply frame_refl]. }
  apply mcrot_frame in H. eapply frame_trans; [eapply frame_trans|]; eauto.
Qed.
Lemma mcry_frame : forall s cs th t s', gate_mcry s cs th t = Ok s' -> frame s s'.
Proof.
  intros s cs th t s' H. unfold gate_mcry in H. bindH H. bindH H. apply flush_queue_frame in E. destruct E as [F _].
  assert (F' : frame x x0). { ifs E0; [apply flush_queue_frame in E0; tauto|]. ifs E0; [apply flush_queue_frame in E0; tauto|inv E0; apply frame_refl]. }
  apply mcrot_frame in H. eapply frame_trans; [eapply frame_trans|]; eauto.
Qed.
Lemma mcrx_bad : forall s cs th t s', gate_mcrx s cs th t = Ok s' -> bad_ids s (cs ++ [t]) -> anz (rot_m01 th false) = true.
Proof.
  intros s cs th t s' H B. unfold gate_mcrx in H. bindH H. bindH H. apply flush_queue_frame in E. destruct E as [F _].
  assert (F' : frame x x0). { ifs E0; [apply flush_queue_frame in E0; tauto|]. ifs E0; [apply flush_queue_frame in E0; tauto|inv E0; apply frame_refl]. }
  apply mcrotation_bad in H; [tauto|]. eapply bad_back; [|exact B]. eapply frame_trans; eauto.
Qed.
Lemma mcry_bad : forall s cs th t s', gate_mcry s cs th t = Ok s' -> bad_ids s (cs ++ [t]) -> anz (rot_m01 th true) = true.
Proof.
  intros s cs th t s' H B. unfold gate_mcry in H. bindH H. bindH H. apply flush_queue_frame in E. destruct E as [F _].
  assert (F' : frame x x0). { ifs E0; [apply flush_queue_frame in E0; tauto|]. ifs E0; [apply flush_queue_frame in E0; tauto|inv E0; apply frame_refl]. }
  apply mcrotation_bad in H; [tauto|]. eapply bad_back; [|exact B]. eapply frame_trans; eauto.
Qed.
(** Setting the state after the queue was flushed. *)
Lemma frame_state : forall s st, ~ stuck s -> frame s (with_state s st).
Proof. intros s st X. split; simpl; [reflexivity|tauto|auto]. Qed.
Lemma no_queue : forall s, op_queue s = [] -> ~ stuck s.
Proof. intros s Q [cs [t [o [I _]]]]. rewrite Q in I. destruct I. Qed.
Lemma mcphase_checked : forall s cs p t s', gate_mcphase s cs p t = Ok s' -> frame s s' /\ ~ bad_ids s (cs ++ [t]) /\ ~ stuck s.
Proof.
  intros s cs p t s' H. unfold gate_mcphase in H. bindH H. bindH H. apply flush_queue_frame in E, E0.
  destruct E as [F [X _]]. destruct E0 as [F' [X' Q]]. bindH H. destruct x1 as [t' cs']. inv H. apply resolve_ok in E.
  split; [|split; auto].
  - eapply frame_trans; [eapply frame_trans; eauto|]. apply frame_state. apply no_queue; auto.
  - intros B. apply E. eapply bad_back; [|exact B]. eapply frame_trans; eauto.
Qed.
Lemma adjacent_none_nodup : forall l, adjacent_dup (sort_nat l) = None -> NoDup l.
Proof.
  assert (A : forall l x, In x (sort_nat l) <-> In x l).
  { assert (I1 : forall l x y, In y (insert_nat x l) <-> y = x \/ In y l).
    { induction l as [|z l IH]; simpl; intros x y; [split; intros [?|?]; auto|]. destruct (x <=? z); simpl; [intuition|].
      rewrite IH. intuition. }
    induction l as [|y l IH]; simpl; intros x; [tauto|]. rewrite I1, IH. intuition. }
  assert (S : forall l, Sorted.StronglySorted le (sort_nat l)).
  { assert (I1 : forall l x, Sorted.StronglySorted le l -> Sorted.StronglySorted le (insert_nat x l)).
    { induction l as [|z l IH]; simpl; intros x H; [repeat constructor|].
      inversion H; subst. destruct (Nat.leb_spec x z).
      - constructor; auto. constructor; [lia|]. eapply Forall_impl; [|eassumption]. simpl; intros; lia.
      - constructor; [auto|]. apply Forall_forall. intros y Hy.
        assert (y = x \/ In y l). { clear - Hy. induction l as [|w l IH]; simpl in *; [intuition|]. destruct (x <=? w); simpl in *; intuition. }
        destruct H1 as [->|I]; [lia|]. rewrite Forall_forall in H3. auto. }
    induction l; simpl; [constructor|auto]. }
  assert (N : forall l, Sorted.StronglySorted le l -> adjacent_dup l = None -> NoDup l).
  { induction l as [|x l IH]; intros H D; [constructor|]. inversion H; subst. destruct l as [|y l]; [repeat constructor; auto|].
    simpl in D. destruct (Nat.eqb_spec x y); [discriminate|]. constructor; [|auto].
    intros I. inversion H3; subst. inversion H2; subst. destruct I as [->|I]; [congruence|].
    rewrite Forall_forall in H7. apply H7 in I. lia. }
  intros l D. specialize (N _ (S l) D).
  assert (L : length (sort_nat l) = length l).
  { assert (I1 : forall m x, length (insert_nat x m) = Datatypes.S (length m)).
    { induction m as [|z m IH]; simpl; intros x; auto. destruct (x <=? z); simpl; auto. }
    clear - I1. induction l; simpl; auto. rewrite I1. auto. }
  eapply NoDup_incl_NoDup; [exact N| lia |]. intros x. rewrite A. auto.
Qed.
Lemma mcexp_checked : forall s cs ps th ts s', mcexp s cs ps th ts = Ok s' -> frame s s' /\ ~ bad_ids s (cs ++ ts) /\ ~ stuck s.
Proof.
  intros s cs ps th ts s' H. unfold mcexp in H. bindH H. bindH H. apply flush_queue_frame in E, E0.
  destruct E as [F [X _]]. destruct E0 as [F' [X' Q]]. bindH H. bindH H.
  destruct (adjacent_dup (sort_nat (x1 ++ x2))) eqn:D; [discriminate|]. bindH H. destruct x3 as [[xy yz] y].
  assert (G : frame s x0) by (eapply frame_trans; eauto).
  assert (NS : ~ stuck x0) by (apply no_queue; auto).
  split; [|split; auto].
  - eapply frame_trans; [exact G|]. repeat ifs H; inv H; apply frame_state; auto.
  - intros B. apply (bad_back _ _ _ G) in B. destruct B as [N|[q [I Nq]]].
    + apply N. apply adjacent_none_nodup in D.
      assert (M : mapM (find_qubit x0) (cs ++ ts) = Ok (x1 ++ x2)).
      { clear - E E0. revert x1 E. induction cs as [|c cs IH]; simpl; intros l E; [inv E; auto|].
        destruct (find_qubit x0 c); simpl in *; [|discriminate]. destruct (mapM (find_qubit x0) cs) as [l0|]; simpl in *; [|discriminate].
        inv E. rewrite (IH l0 eq_refl). auto. }
      clear - M D. revert D M. generalize (x1 ++ x2) as locs. generalize (cs ++ ts) as ids.
      induction ids as [|i ids IH]; intros locs D M; [constructor|]. simpl in M.
      destruct (find_qubit x0 i) as [l|] eqn:Ei; simpl in M; [|discriminate].
      destruct (mapM (find_qubit x0) ids) as [ls|] eqn:El; simpl in M; [|discriminate]. inv M. inversion D; subst.
      constructor; [|eauto]. intros I. apply H1. clear - Ei El I. revert ls El. induction ids as [|j ids IH]; simpl; intros ls El; [destruct I|].
      destruct (find_qubit x0 j) as [l'|] eqn:Ej; simpl in El; [|discriminate]. destruct (mapM (find_qubit x0) ids); simpl in El; [|discriminate].
      inv El. destruct I as [->|I]; [left; congruence|right; auto].
    + apply in_app_or in I. destruct I as [I|I].
      * destruct (mapM_ok_in _ _ _ _ E I) as [v Hv]. apply Nq. eapply find_qubit_ok; eauto.
      * destruct (mapM_ok_in _ _ _ _ E0 I) as [v Hv]. apply Nq. eapply find_qubit_ok; eauto.
Qed.
(** ** Moving qubits *)
Lemma frame_map : forall s m, (forall q, im_get m q = None <-> im_get (id_map s) q = None) -> frame s (with_id_map s m).
Proof.
  intros s m H. split; simpl.
  - intros q. unfold allocd. simpl. rewrite H. tauto.
  - intros _. split; auto. exists []. rewrite app_nil_r. auto.
  - auto.
Qed.
Lemma update_none {V} : forall (m : imap V) k f q, im_get (im_update m k f) q = None <-> im_get m q = None.
Proof.
  intros m k f q. rewrite im_get_update. destruct (Nat.eqb_spec k q); [subst|tauto]. destruct (im_get m q); simpl; split; intros; congruence.
Qed.
Lemma swap_state_frame : forall s a b s', swap_qubit_state s a b = Ok s' -> frame s s'.
Proof.
  intros s a b s' H. unfold swap_qubit_state in H. ifs H; [inv H; apply frame_refl|].
  bindH H. inv H. apply flush_queue_frame in E. destruct E as [F [_ Q]]. eapply frame_trans; [exact F|].
  apply frame_state, no_queue, Q.
Qed.
Lemma place_key_frame : forall s ik s', place_key s ik = Ok s' -> frame s s'.
Proof.
  intros s [i k] s' H. unfold place_key in H. bindH H. ifs H; [inv H; apply frame_refl|]. bindH H. bindH H. inv H.
  apply swap_state_frame in E0. eapply frame_trans; [exact E0|]. apply frame_map. intros q. rewrite update_none.
  destruct (key_of_loc (id_map x0) i); [apply update_none|tauto].
Qed.
Lemma canonicalize_frame : forall s s' ks, canonicalize s = Ok (s', ks) -> frame s s' /\ ~ stuck s.
Proof.
  intros s s' ks H. unfold canonicalize in H. bindH H. bindH H. inv H. apply flush_queue_frame in E. destruct E as [F [X _]].
  split; auto. eapply frame_trans; [exact F|]. eapply foldM_frame; [|exact E0]. intros; eapply place_key_frame; eauto.
Qed.
Lemma place_target_frame : forall s it s', place_target s it = Ok s' -> frame s s' /\ allocd s (snd it).
Proof.
  intros s [i k] s' H. unfold place_target in H. bindH H. destruct (key_of_loc (id_map s) i); [|discriminate].
  bindH H. inv H. split; [|eapply find_qubit_ok; eauto]. apply swap_state_frame in E0. eapply frame_trans; [exact E0|]. apply frame_map. intros q. rewrite !update_none. tauto.
Qed.
Lemma place_targets_all : forall l s s', foldM place_target l s = Ok s' -> forall q, In q (map snd l) -> allocd s q.
Proof.
  induction l as [|x l IH]; simpl; intros s s' H q Hq; [tauto|]. bindH H. destruct (place_target_frame _ _ _ E) as [F A]. destruct Hq as [Hq|Hq].
  - subst; auto.
  - apply (fr_keys _ _ F). eapply IH; eauto.
Qed.
Lemma enumerate_snd {X} : forall (l : list X) i, map snd (enumerate_from i l) = l.
Proof. induction l; simpl; intros; f_equal; auto. Qed.
Lemma apply_checked : forall s u ts cs s', apply_matrix s u ts cs = Ok s' ->
  frame s s' /\ ~ bad_ids s (match cs with Some l => l | None => [] end ++ ts) /\ ~ stuck s.
Proof.
  intros s u ts cs s' H. unfold apply_matrix in H. ifs H; [discriminate|]. ifs H; [discriminate|].
  match type of H with (let '(_, _) := ?p in _) = _ => destruct p as [tl u'] eqn:P end.
  assert (TL : tl = match cs with Some l => l | None => [] end ++ ts) by (destruct cs; inv P; auto). rewrite <- TL.
  bindH H. bindH H. bindH H. apply flush_queue_frame in E0. destruct E0 as [F [X Q]].
  assert (F' : frame x0 x1) by (eapply foldM_frame; [|exact E1]; intros; eapply place_target_frame; eauto).
  assert (Q1 : ~ stuck x1).
  { clear - Q E1. revert x0 x1 Q E1. induction (enumerate (rev tl)) as [|[i k] l IH]; simpl; intros a b Q H; [inv H; apply no_queue; auto|].
    bindH H. eapply IH; [|exact H]. unfold place_target in E. bindH E. destruct (key_of_loc (id_map a) i); [|discriminate]. bindH E. inv E.
    simpl. unfold swap_qubit_state in E1. ifs E1; [inv E1; auto|]. bindH E1. inv E1. simpl. apply flush_queue_frame in E. tauto. }
  split; [|split; auto].
  - destruct (horder (fold_left (apply_row u') (state x1) [])); [discriminate|]. inv H. eapply frame_trans; [exact F|].
    eapply frame_trans; [exact F'|]. apply frame_state; auto.
  - intros [N|[q [I Nq]]].
    + apply N. eapply check_dup_ok; eauto.
    + apply Nq. apply (fr_keys _ _ F). eapply place_targets_all; [exact E1|]. unfold enumerate. rewrite enumerate_snd. apply in_rev in I. auto.
Qed.
Lemma swap_ids_frame : forall s a b s', swap_qubit_ids s a b = Ok s' -> frame s s' /\ ~ stuck s /\ allocd s a /\ allocd s b.
Proof.
  intros s a b s' H. unfold swap_qubit_ids in H. bindH H. cbv zeta in H. bindH H. bindH H. inv H.
  apply flush_ops_frame in E. destruct E as [F [X Q]]. apply find_qubit_ok in E0, E1. split; [|split; auto; split].
  - eapply frame_trans; [exact F|]. match goal with |- frame ?x (with_id_map ?y _) => apply (frame_trans x y); [apply frame_eq; auto|] end.
    apply frame_map. intros q. rewrite !update_none. reflexivity.
  - apply (fr_keys _ _ F). exact E0.
  - apply (fr_keys _ _ F). exact E1.
Qed.
(** ** Observation *)
Lemma check_prob_frame : forall s ls p s', check_joint_probability s ls = Ok (p, s') -> frame s s' /\ ~ stuck s /\ op_queue s' = [].
Proof.
  intros s ls p s' H. unfold check_joint_probability in H. cbv zeta in H. bindH H. destruct x as [ops s1]. inv H.
  destruct (take_ops_ok _ _ _ E) as [-> X]. split; [apply frame_taken; auto|]. auto.
Qed.
Lemma joint_prob_frame : forall s qs p s', joint_probability s qs = Ok (p, s') -> frame s s' /\ ~ stuck s /\ ~ bad_ids s qs.
Proof.
  intros s qs p s' H. unfold joint_probability in H. bindH H. bindH H. bindH H. apply maybe_flush_frame in E.
  apply check_prob_frame in H. destruct H as [F [X Q]]. split; [eapply frame_trans; eauto|]. split.
  - intros Y. apply X. eapply stuck_frame; eauto.
  - intros [N|[q [I Nq]]].
    + apply N. eapply check_dup_ok; eauto.
    + apply Nq. apply (fr_keys _ _ E). destruct (mapM_ok_in _ _ _ _ E1 I) as [v Hv]. eapply find_qubit_ok; eauto.
Qed.
Lemma joint_collapse_frame : forall s ls r p, op_queue s = [] -> frame s (joint_collapse s ls r p).
Proof. intros s ls r p Q. unfold joint_collapse. apply frame_state, no_queue, Q. Qed.
Lemma measure_frame : forall s q r s', measure s q = Ok (r, s') -> frame s s' /\ ~ stuck s /\ allocd s q.
Proof.
  intros s q r s' H. unfold measure in H. bindH H. bindH H. destruct (draw (rng x)) as [sa g]. bindH H. destruct x1 as [p s3]. inv H.
  apply maybe_flush_frame in E. apply check_prob_frame in E1. destruct E1 as [F [X Q]].
  assert (G : frame s (with_rng x g)) by (eapply frame_trans; [exact E|apply frame_eq; auto]).
  split; [|split].
  - eapply frame_trans; [exact G|]. eapply frame_trans; [exact F|]. apply joint_collapse_frame; auto.
  - intros Y. apply X. eapply stuck_frame; eauto.
  - apply (fr_keys _ _ E). eapply find_qubit_ok; eauto.
Qed.
Lemma joint_measure_frame : forall s qs r s', joint_measure s qs = Ok (r, s') -> frame s s' /\ ~ stuck s /\ ~ bad_ids s qs.
Proof.
  intros s qs r s' H. unfold joint_measure in H. bindH H. bindH H. bindH H. destruct (draw (rng x)) as [sa g]. bindH H. destruct x2 as [p s3]. inv H.
  apply maybe_flush_frame in E. apply check_prob_frame in E2. destruct E2 as [F [X Q]].
  assert (G : frame s (with_rng x g)) by (eapply frame_trans; [exact E|apply frame_eq; auto]).
  split; [|split].
  - eapply frame_trans; [exact G|]. eapply frame_trans; [exact F|]. apply joint_collapse_frame; auto.
  - intros Y. apply X. eapply stuck_frame; eauto.
  - intros [N|[q [I Nq]]].
    + apply N. eapply check_dup_ok; eauto.
    + apply Nq. apply (fr_keys _ _ E). destruct (mapM_ok_in _ _ _ _ E1 I) as [v Hv]. eapply find_qubit_ok; eauto.
Qed.
Lemma force_frame : forall s v q p s', force_collapse s v q = Ok (p, s') -> frame s s' /\ ~ stuck s /\ allocd s q.
Proof.
  intros s v q p s' H. unfold force_collapse in H. bindH H. bindH H. bindH H. destruct x1 as [p1 s2]. inv H.
  apply maybe_flush_frame in E. apply check_prob_frame in E1. destruct E1 as [F [X Q]].
  split; [|split].
  - eapply frame_trans; [exact E|]. eapply frame_trans; [exact F|]. 
    match goal with |- context[if ?c then _ else _] => destruct c end; [apply joint_collapse_frame; auto|apply frame_refl].
  - intros Y. apply X. eapply stuck_frame; eauto.
  - apply (fr_keys _ _ E). eapply find_qubit_ok; eauto.
Qed.
Lemma get_state_frame : forall s st n s', get_state s = Ok (st, n, s') -> frame s s' /\ ~ stuck s.
Proof. intros s st n s' H. unfold get_state in H. bindH H. destruct x as [s1 ks]. inv H. eapply canonicalize_frame; eauto. Qed.
Lemma dump_frame : forall s st s', dump s = Ok (st, s') -> ~ stuck s /\ (forall q, allocd s' q <-> allocd s q) /\
  ((N.of_nat (length (op_queue s)) <= 10000)%N -> (N.of_nat (length (op_queue s')) <= 10000)%N).
Proof.
  intros s st s' H. unfold dump in H. bindH H. destruct x as [s1 ks]. inv H. apply canonicalize_frame in E. destruct E as [F X].
  split; auto. split; [apply (fr_keys _ _ F)|apply (fr_len _ _ F)].
Qed.
(** ** Release and allocation *)
Lemma release_queue : forall s q s', release s q = Ok s' ->
  ((N.of_nat (length (op_queue s)) <= 10000)%N -> (N.of_nat (length (op_queue s')) <= 10000)%N) /\
  (length (im_iter (id_map s)) <> 1 -> ~ stuck s /\ allocd s q).
Proof.
  intros s q s' H. unfold release in H. destruct (Nat.eqb_spec (length (im_iter (id_map s))) 1) as [L|L].
  - simpl in H. inv H. simpl. split; [intros; lia|tauto].
  - bindH H. bindH E. destruct x0 as [r s1]. bindH E. apply measure_frame in E0. destruct E0 as [F [X A]]. inv H. inv E.
    split; [|tauto]. intros B. simpl. destruct r; simpl; apply (fr_len _ _ F), B.
Qed.
End Frame.
