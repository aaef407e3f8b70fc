(** * A qubit with a settled value keeps it, over any arithmetic *)
From Coq Require Import NArith List Bool Lia Permutation Arith.
From Verif Require Import Arith IndexMap IndexMapLemmas Bits BitsLemmas Spec QLib QSum Sim SimExp SimApply StateLemmas
  Loc Abs Reg Meas ExpLemmas ApplyLemmas RunLemmas SpecRun SpecAny Any AnyRun SpecSettled.
Import ListNotations.

Section Settled.
Context {AR : Arith} {EN : Env}.
Hypothesis horder_perm : any_order.

Definition showing (l : nat) (r : bool) (st : sstate) : Prop := forall k, In k (keys st) -> bit k l = r.
Definition turns (o : opcode) : Prop := match o with OX | OY => True | _ => False end.
Definition turnsb (o : opcode) : bool := match o with OX | OY => true | _ => false end.
(** Take a result apart. *)
Ltac okay H := repeat match type of H with
  | bind ?m _ = Ok _ => let E := fresh "E" in destruct m eqn:E; cbn [bind] in H; [|discriminate H]
  | bind ?m _ = Ok _ => fail 1
  end.

(** The queued operations on locations, as [take_ops] gives them. *)
Definition queued (s : sim) : res (list qop) :=
  mapM (fun '(ctls, target, op) => let* (t, cs) := resolve_and_check_qubits s target ctls in Ok (cs, t, op)) (op_queue s).
Section At.
Variables (q l : nat) (r : bool).
Record at_ (s : sim) : Prop := mkAt {
  a_loc : im_get (id_map s) q = Some l;
  a_inj : im_inj (id_map s);
  a_calm : calm s q;
  (* what the queued operations make of every key has the value *)
  a_eff : forall ops, queued s = Ok ops -> showing l r (map (apply_ops ops) (state s)) }.
Lemma no_ops : forall st : sstate, map (apply_ops []) st = st.
Proof. intros st. unfold apply_ops. simpl. apply map_id. Qed.
Lemma take_none : forall s, op_queue s = [] -> queued s = Ok [].
Proof. intros s Q. unfold queued. rewrite Q. reflexivity. Qed.
Lemma a_now : forall s, at_ s -> op_queue s = [] -> showing l r (state s).
Proof. intros s [? ? ? S] Q. rewrite <- (no_ops (state s)). eapply S. apply take_none. auto. Qed.
Lemma at_none : forall s, im_get (id_map s) q = Some l -> im_inj (id_map s) -> calm s q -> op_queue s = [] -> showing l r (state s) -> at_ s.
Proof. intros s L J C Q S. split; auto. intros ops T. rewrite take_none in T by auto. injection T as <-. now rewrite no_ops. Qed.

Lemma find_at : forall s t t', find_qubit s t = Ok t' -> im_get (id_map s) t = Some t'.
Proof. intros s t t'. unfold find_qubit. destruct (im_get (id_map s) t); congruence. Qed.
Lemma resolve_at : forall s t cs t' cs', resolve_and_check_qubits s t cs = Ok (t', cs') -> im_get (id_map s) t = Some t'.
Proof.
  intros s t cs t' cs' H. unfold resolve_and_check_qubits in H. okay H. apply find_at in E0. congruence.
Qed.
Lemma other_loc : forall s t t', at_ s -> im_get (id_map s) t = Some t' -> t <> q -> t' <> l.
Proof. intros s t t' W E N ->. apply N. eapply (a_inj s W); eauto. apply W. Qed.

Lemma mapM_ok {X Y} : forall (f : X -> res Y) a b, mapM f a = Ok b -> Forall2 (fun x y => f x = Ok y) a b.
Proof.
  intros f. induction a as [|x a IH]; intros b H; cbn [mapM] in H; okay H; injection H as <-; constructor; auto.
Qed.

Lemma show_key : forall (f : N * amp -> N * amp) st, (forall iv, bit (fst (f iv)) l = bit (fst iv) l) ->
  showing l r st -> showing l r (map f st).
Proof.
  intros f st F S k Hk. unfold keys in Hk. rewrite map_map in Hk. apply in_map_iff in Hk. destruct Hk as [iv [<- Hi]].
  rewrite F. apply S. apply in_map. auto.
Qed.
Lemma show_flat : forall (f : N * amp -> sstate) st, (forall iv k, In k (keys (f iv)) -> bit k l = bit (fst iv) l) ->
  showing l r st -> showing l r (flat_map f st).
Proof.
  intros f st F S k Hk. unfold keys in Hk. apply in_map_iff in Hk. destruct Hk as [e [<- He]]. apply in_flat_map in He.
  destruct He as [iv [Hi He]]. rewrite (F iv) by (apply in_map; auto). apply S. apply in_map. auto.
Qed.
Lemma show_perm : forall st st', Permutation st st' -> showing l r st -> showing l r st'.
Proof. intros st st' P S k Hk. apply S. eapply Permutation_in; [apply Permutation_sym, perm_keys; eauto|auto]. Qed.
Lemma show_from : forall st, showing l r st -> showing l r (hm_from st).
Proof.
  intros st. unfold hm_from. assert (G : forall acc, showing l r acc -> showing l r st ->
    showing l r (fold_left (fun m kv => hm_put m (fst kv) (snd kv)) st acc)).
  { induction st as [|e st IH]; intros acc Ha Hs; simpl; auto. apply IH.
    - intros k Hk. apply akeys_put in Hk. destruct Hk as [->|Hk]; [apply Hs; left; auto|auto].
    - intros k Hk. apply Hs. right. auto. }
  intros S. apply G; auto. intros k [].
Qed.
Lemma show_collect : forall st, showing l r st -> showing l r (hm_collect st).
Proof. intros st S. unfold hm_collect. eapply show_perm; [apply Permutation_sym, horder_perm|]. apply show_from. auto. Qed.

Lemma akey_other : forall (o : qop) k, (snd (fst o) <> l \/ ~ turns (snd o)) -> bit (akey o k) l = bit k l.
Proof.
  intros [[cs t] op] k H. unfold akey. simpl in *. destruct (all_set cs k); auto.
  destruct op; auto; (destruct H as [H|H]; [apply bit_flip_other; auto|exfalso; apply H; exact I]).
Qed.
Lemma take_at : forall s ops s1, at_ s -> take_ops s = Ok (ops, s1) ->
  s1 = with_ops s [] /\ showing l r (map (apply_ops ops) (state s)).
Proof.
  intros s ops s1 W H. unfold take_ops in H. fold (queued s) in H. okay H. injection H as -> <-. split; [auto|]. eapply a_eff; eauto.
Qed.
Lemma take_app : forall s cs t o ops, queued (with_ops s (op_queue s ++ [(cs, t, o)])) = Ok ops ->
  exists ops0 t' cs', queued s = Ok ops0 /\ ops = ops0 ++ [(cs', t', o)] /\ resolve_and_check_qubits s t cs = Ok (t', cs').
Proof.
  intros s cs t o ops H. unfold queued in H |- *. cbn [op_queue with_ops] in H. revert ops H.
  change (resolve_and_check_qubits (with_ops s (op_queue s ++ [(cs, t, o)]))) with (resolve_and_check_qubits s).
  generalize (op_queue s) as a. induction a as [|x a IH]; intros b Hb; cbn [app mapM] in Hb |- *.
  - okay Hb. injection Hb as <-. okay E. destruct x0 as [t' cs']. injection E as <-. exists [], t', cs'. auto.
  - okay Hb. injection Hb as <-. destruct (IH _ eq_refl) as (b0 & t' & cs' & -> & -> & R). cbn [bind]. eexists _, t', cs'. split; [reflexivity|auto].
Qed.
Lemma at_state : forall s st, at_ s -> op_queue s = [] -> showing l r st -> at_ (with_state s st).
Proof. intros s st [] Q S. apply at_none; auto. Qed.
Lemma at_taken : forall s st, at_ s -> showing l r st -> at_ (with_state (with_ops s []) st).
Proof. intros s st [] S. apply at_none; auto. Qed.
Lemma at_rng : forall s g, at_ s -> at_ (with_rng s g).
Proof. intros s g []. split; auto. Qed.
Lemma factor_show : forall s ops cs f, showing l r (map (apply_ops ops) (state s)) ->
  at_ s -> showing l r (map (ops_then_factor ops cs f) (state s)).
Proof.
  intros s ops cs f H W k Hk. apply H. unfold keys in *. rewrite map_map in *. apply in_map_iff in Hk. destruct Hk as [iv [<- Hi]].
  apply in_map_iff. exists iv. split; auto. unfold ops_then_factor. destruct (apply_ops ops iv). destruct (all_set cs n); auto.
Qed.

Lemma flush_ops_at : forall s s', at_ s -> flush_ops s = Ok s' -> at_ s'.
Proof.
  intros s s' W H. unfold flush_ops in H. destruct (op_queue s) eqn:Q; [congruence|]. okay H. destruct x as [ops s1].
  injection H as <-. destruct (take_at _ _ _ W E) as [-> K]. apply at_taken; auto.
Qed.
Lemma enqueue_at : forall s t cs o s', at_ s -> (t <> q \/ ~ turns o) -> enqueue_op s t cs o = Ok s' -> at_ s'.
Proof.
  intros s t cs o s' W N H. unfold enqueue_op in H. okay H. injection H as <-.
  assert (W1 : at_ x). { destruct (N.eqb _ _); [eapply flush_ops_at; eauto|congruence]. }
  split; try apply W1. intros ops T. apply take_app in T. destruct T as (ops0 & t' & cs' & T & -> & R).
  pose proof (a_eff x W1 ops0 T) as S. cbn [state with_ops]. intros k Hk. unfold keys in Hk. rewrite map_map in Hk.
  apply in_map_iff in Hk. destruct Hk as [iv [<- Hi]]. unfold apply_ops. rewrite fold_left_app. cbn [fold_left].
  rewrite apply_op_key. rewrite akey_other.
  - apply S. unfold keys. rewrite map_map. apply in_map_iff. exists iv. auto.
  - cbn [fst snd]. destruct N as [N|N]; auto. left. eapply other_loc; eauto. eapply resolve_at; eauto.
Qed.

Lemma mch_at : forall s cs t s', at_ s -> t <> q -> apply_mch s cs t = Ok s' -> at_ s'.
Proof.
  intros s cs t s' W N H. unfold apply_mch in H. okay H. destruct x as [t' cs']. okay H. destruct x as [ops s1].
  injection H as <-. destruct (take_at _ _ _ W E0) as [-> K]. apply at_taken; auto.
  assert (D : t' <> l) by (eapply other_loc; eauto; eapply resolve_at; eauto).
  apply show_flat; [|apply show_collect; exact K].
  intros [k v] k' Hk. simpl. unfold mch_entry in Hk. destruct (all_set cs' k); [|destruct Hk as [<-|[]]; auto]. cbv zeta in Hk.
  assert (B : bit (N.lor k (one_bit t')) l = bit k l).
  { rewrite bit_lor, bit_one_bit. destruct (Nat.eqb_spec t' l); [contradiction|]. apply orb_false_r. }
  destruct (hm_get _ _).
  - destruct (bit k t'); [destruct Hk|]. unfold keys in Hk. rewrite map_app, in_app_iff in Hk.
    destruct (anz _); destruct (anz _); simpl in Hk; intuition; subst; auto.
  - simpl in Hk. destruct Hk as [<-|[<-|[]]]; apply bit_set_other; auto.
Qed.
Definition spared2 (f : sim -> list nat -> nat -> res sim) : Prop :=
  forall s cs t s', at_ s -> t <> q -> f s cs t = Ok s' -> at_ s'.
Lemma rotation_at : forall px py s cs th t b s', spared2 px -> spared2 py -> at_ s -> t <> q ->
  mcrotation_with px py s cs th t b = Ok s' -> at_ s'.
Proof.
  intros px py s cs th t b s' Px Py W N H. unfold mcrotation_with in H. cbv zeta in H. destruct (anz (rot_m00 th)).
  - okay H. assert (W1 : at_ x) by (destruct b; eauto). destruct x0 as [t' cs']. destruct (ais1 _); [congruence|]. okay H. destruct x0 as [ops s2].
    injection H as <-. destruct (take_at _ _ _ W1 E1) as [-> K]. apply at_taken; auto.
    exact (factor_show x ops _ _ K W1).
  - destruct (anz (rot_m01 th b)).
    + destruct (anz _); [|congruence]. okay H. destruct x as [ops s2]. okay H. destruct x as [t' cs'].
      injection H as <-. destruct (take_at _ _ _ W E) as [-> K]. apply at_taken; auto.
      exact (factor_show s ops _ _ K W).
    + okay H. destruct x as [t' cs']. okay H. destruct x as [ops s2]. injection H as <-.
      destruct (take_at _ _ _ W E0) as [-> K]. apply at_taken; auto.
      assert (D : t' <> l) by (eapply other_loc; eauto; eapply resolve_at; eauto).
      apply show_flat; [|apply show_collect; exact K].
      intros [k v] k' Hk. simpl. unfold rot_entry in Hk. destruct (all_set cs' k); [|destruct Hk as [<-|[]]; auto]. cbv zeta in Hk.
      assert (B : bit (N.lxor k (one_bit t')) l = bit k l).
      { rewrite bit_lxor, bit_one_bit. destruct (Nat.eqb_spec t' l); [contradiction|]. apply xorb_false_r. }
      destruct (hm_get _ _).
      * destruct (bit k t'); [destruct Hk|]. unfold keys in Hk. rewrite map_app, in_app_iff in Hk.
        destruct (anz _); destruct (anz _); simpl in Hk; intuition; subst; auto.
      * destruct (bit k t'); simpl in Hk; intuition; subst; auto.
Qed.

Lemma at_ry : forall s v, at_ s -> im_get v q = None -> at_ (with_ry s v).
Proof. intros s v [? ? [? [? ?]] ?] Hv. split; auto. repeat split; auto. Qed.
Lemma at_rx : forall s v, at_ s -> im_get v q = None -> at_ (with_rx s v).
Proof. intros s v [? ? [? [? ?]] ?] Hv. split; auto. repeat split; auto. Qed.
Lemma at_h : forall s v, at_ s -> bit v q = false -> at_ (with_h s v).
Proof. intros s v [? ? [? [? ?]] ?] Hv. split; auto. repeat split; auto. Qed.
Lemma no_rx : forall s, at_ s -> im_get (rx_queue s) q = None. Proof. intros s [? ? [? [? ?]] ?]. auto. Qed.
Lemma no_ry : forall s, at_ s -> im_get (ry_queue s) q = None. Proof. intros s [? ? [? [? ?]] ?]. auto. Qed.
Lemma no_h : forall s, at_ s -> bit (h_flag s) q = false. Proof. intros s [? ? [? [? ?]] ?]. auto. Qed.
Lemma neg_ry_at : forall s t, at_ s -> at_ (with_ry s (im_update (ry_queue s) t tneg)).
Proof. intros s t W. apply at_ry; auto. apply upd_none. apply no_ry; auto. Qed.
Lemma neg_rx_at : forall s t, at_ s -> at_ (with_rx s (im_update (rx_queue s) t tneg)).
Proof. intros s t W. apply at_rx; auto. apply upd_none. apply no_rx; auto. Qed.

Lemma x_at : forall s t s', at_ s -> t <> q -> gate_x s t = Ok s' -> at_ s'.
Proof.
  intros s t s' W N H. unfold gate_x in H. cbv zeta in H. apply (neg_ry_at s t) in W.
  destruct (bit _ _); eapply enqueue_at; eauto.
Qed.
Lemma y_at : forall s t s', at_ s -> t <> q -> gate_y s t = Ok s' -> at_ s'.
Proof. intros s t s' W N H. unfold gate_y in H. cbv zeta in H. apply (neg_rx_at s t) in W. eapply enqueue_at; eauto. Qed.
Lemma z_at : forall s t s', at_ s -> gate_z s t = Ok s' -> at_ s'.
Proof.
  intros s t s' W H. unfold gate_z in H. cbv zeta in H. apply (neg_ry_at s t) in W. pose proof W as W0. apply (neg_rx_at _ t) in W.
  destruct (bit _ t) eqn:B; [|eapply enqueue_at; [exact W| |exact H]; right; intros []].
  eapply enqueue_at; [exact W| |exact H]. left. intros ->. pose proof (no_h _ W). congruence.
Qed.
Lemma rem_none {V} : forall (m : imap V) t, im_get m q = None -> im_get (im_remove m t) q = None.
Proof. intros m t H. rewrite im_get_remove. destruct (Nat.eqb t q); auto. Qed.
Lemma flush_rx_at : forall s t s', at_ s -> flush_rx s t = Ok s' -> at_ s'.
Proof.
  intros s t s' W H. unfold flush_rx in H. destruct (im_get (rx_queue s) t) eqn:E; [|congruence]. okay H. injection H as <-.
  assert (N : t <> q). { intros ->. pose proof (no_rx s W). congruence. }
  assert (W1 : at_ x).
  { eapply rotation_at; [| |exact W|exact N|exact E0]; intros s0 cs0 t0 s0' W0 N0 H0; [eapply x_at|eapply y_at]; eauto. }
  apply at_rx; auto. apply rem_none. apply no_rx; auto.
Qed.
Lemma flush_ry_at : forall s t s', at_ s -> flush_ry s t = Ok s' -> at_ s'.
Proof.
  intros s t s' W H. unfold flush_ry in H. destruct (im_get (ry_queue s) t) eqn:E; [|congruence]. okay H. injection H as <-.
  assert (N : t <> q). { intros ->. pose proof (no_ry s W). congruence. }
  assert (W1 : at_ x).
  { eapply rotation_at; [| |exact W|exact N|exact E0]; intros s0 cs0 t0 s0' W0 N0 H0; [eapply x_at|eapply y_at]; eauto. }
  apply at_ry; auto. apply rem_none. apply no_ry; auto.
Qed.
Lemma flush_one_at : forall lv s t s', at_ s -> flush_one lv s t = Ok s' -> at_ s'.
Proof.
  intros lv s t s' W H. unfold flush_one in H. okay H.
  assert (W1 : at_ x).
  { destruct (bit (h_flag s) t) eqn:B; [|congruence]. okay E. injection E as <-.
    assert (N : t <> q). { intros ->. pose proof (no_h s W). congruence. }
    assert (W1 : at_ x0) by (eapply mch_at; eauto). apply at_h; auto. rewrite bit_set_other by auto. apply no_h; auto. }
  destruct lv; [congruence|eapply flush_rx_at; eauto|]. okay H. eapply flush_ry_at; [|exact H]. eapply flush_rx_at; eauto.
Qed.
Lemma flush_at : forall lv qs s s', at_ s -> flush_queue s qs lv = Ok s' -> at_ s'.
Proof.
  intros lv qs s s' W H. unfold flush_queue in H. okay H. eapply flush_ops_at; [|exact H]. clear H.
  revert s W E. induction qs as [|t qs IH]; intros s W E; cbn [foldM] in E; [congruence|]. okay E.
  eapply IH; [|exact E]. eapply flush_one_at; eauto.
Qed.
Lemma flush_ops_empty : forall s s', flush_ops s = Ok s' -> op_queue s' = [].
Proof.
  intros s s' H. unfold flush_ops in H. destruct (op_queue s) eqn:Q; [injection H as <-; auto|]. okay H. destruct x as [ops s1].
  injection H as <-. unfold take_ops in E. okay E. injection E as _ <-. reflexivity.
Qed.
Lemma flush_empty : forall lv qs s s', flush_queue s qs lv = Ok s' -> op_queue s' = [].
Proof. intros lv qs s s' H. unfold flush_queue in H. okay H. eapply flush_ops_empty; eauto. Qed.
Lemma maybe_at : forall lv qs s s', at_ s -> maybe_flush_queue s qs lv = Ok s' -> at_ s'.
Proof. intros lv qs s s' W H. unfold maybe_flush_queue in H. destruct (existsb _ _); [eapply flush_at; eauto|congruence]. Qed.
Lemma if_flush_at : forall (c : bool) lv qs s s', at_ s -> (if c then flush_queue s qs lv else Ok s) = Ok s' -> at_ s'.
Proof. intros c lv qs s s' W H. destruct c; [eapply flush_at; eauto|congruence]. Qed.

Lemma mcx_at : spared2 gate_mcx.
Proof.
  intros s cs t s' W N H. unfold gate_mcx in H. destruct cs as [|c0 rest]; [eapply x_at; eauto|].
  okay H. assert (W1 : at_ x) by (eapply if_flush_at; eauto).
  assert (W2 : at_ x0). { destruct rest; [eapply if_flush_at; eauto|eapply maybe_at; eauto]. }
  destruct (bit (h_flag x0) t) eqn:B; [|eapply enqueue_at; eauto].
  destruct rest; [|eapply enqueue_at; eauto].
  destruct (bit (h_flag x0) c0) eqn:C; [|eapply enqueue_at; eauto].
  eapply enqueue_at; [exact W2| |exact H]. left. intros ->. pose proof (no_h _ W2). congruence.
Qed.
Lemma mcy_at : spared2 gate_mcy.
Proof.
  intros s cs t s' W N H. unfold gate_mcy in H. destruct cs as [|c0 rest]; [eapply y_at; eauto|].
  okay H. assert (W1 : at_ x) by (eapply maybe_at; eauto). assert (W2 : at_ x0) by (eapply if_flush_at; eauto).
  assert (W3 : at_ x1).
  { destruct (bit _ _); [|congruence]. eapply enqueue_at; [exact W2| |exact E1]. right. intros []. }
  eapply enqueue_at; eauto.
Qed.
Lemma mcrotation_at : forall s cs th t b s', at_ s -> t <> q -> mcrotation s cs th t b = Ok s' -> at_ s'.
Proof. intros. eapply rotation_at; eauto; [apply mcx_at|apply mcy_at]. Qed.
Lemma diag_at : forall o s t s', ~ turns o -> at_ s -> gate_diag o s t = Ok s' -> at_ s'.
Proof.
  intros o s t s' T W H. unfold gate_diag in H. okay H. eapply enqueue_at; [|right; exact T|exact H]. eapply maybe_at; eauto.
Qed.
Lemma mcdiag_at : forall o s cs t s', ~ turns o -> at_ s -> gate_mcdiag o s cs t = Ok s' -> at_ s'.
Proof.
  intros o s cs t s' T W H. unfold gate_mcdiag in H. okay H. eapply enqueue_at; [|right; exact T|exact H].
  eapply maybe_at; [|exact E0]. eapply maybe_at; eauto.
Qed.
Lemma weights_even : forall s cs acc, find (fun c => bit (h_flag s) c) cs = None ->
  Nat.even (fold_left (fun a c => a + pend_weight s c) cs acc) = Nat.even acc.
Proof.
  intros s. induction cs as [|c cs IH]; intros acc H; simpl in *; auto. destruct (bit (h_flag s) c) eqn:B; [discriminate|].
  rewrite IH by auto. unfold pend_weight. rewrite B. rewrite Nat.even_add. destruct (_ || _); simpl; destruct (Nat.even acc); reflexivity.
Qed.
Lemma mcz_at : forall s cs t s', at_ s -> gate_mcz s cs t = Ok s' -> at_ s'.
Proof.
  intros s cs t s' W H. unfold gate_mcz in H. destruct cs as [|c0 rest]; [eapply z_at; eauto|].
  set (cs := c0 :: rest) in *. cbv zeta in H. destruct (Nat.eqb_spec (fold_left (fun a c => a + pend_weight s c) cs 0 + pend_weight s t) 1) as [C|C].
  - destruct (find _ cs) as [h|] eqn:F.
    + apply find_some in F. eapply enqueue_at; [exact W| |exact H]. left. intros ->. pose proof (no_h _ W). destruct F; congruence.
    + eapply enqueue_at; [exact W| |exact H]. left. intros ->. pose proof (weights_even s cs 0 F) as Ev.
      assert (Z : pend_weight s q = 0).
      { unfold pend_weight. rewrite (no_h _ W). assert (X := no_rx _ W). assert (Y := no_ry _ W).
        apply im_contains_false in X, Y. rewrite X, Y. auto. }
      rewrite Z, Nat.add_0_r in C. rewrite C in Ev. discriminate.
  - okay H. eapply enqueue_at; [| |exact H]; [|right; intros []]. eapply flush_at; [|exact E0]. eapply flush_at; eauto.
Qed.
Lemma h_at : forall s t s', at_ s -> t <> q -> gate_h s t = Ok s' -> at_ s'.
Proof.
  intros s t s' W N H. unfold gate_h in H. cbv zeta in H. apply (neg_ry_at s t) in W. okay H. injection H as <-.
  assert (W1 : at_ x) by (eapply if_flush_at; eauto). apply at_h; auto. rewrite bit_set_other by auto. apply no_h; auto.
Qed.
Lemma mch_gate_at : spared2 gate_mch.
Proof.
  intros s cs t s' W N H. unfold gate_mch in H. okay H. eapply mch_at; [|exact N|exact H].
  eapply if_flush_at; [|exact E0]. eapply flush_at; eauto.
Qed.
Lemma angle_none : forall (m : imap ang) t th, t <> q -> im_get m q = None -> im_get (queue_angle m t th) q = None.
Proof.
  intros m t th N H. destruct (im_get (queue_angle m t th) q) eqn:E; auto. apply queue_angle_some in E.
  destruct E as [E|[b E]]; congruence.
Qed.
Lemma rx_at : forall s th t s', at_ s -> t <> q -> gate_rx s th t = Ok s' -> at_ s'.
Proof.
  intros s th t s' W N H. unfold gate_rx in H. okay H. injection H as <-. assert (W1 : at_ x) by (eapply if_flush_at; eauto).
  apply at_rx; auto. apply angle_none; auto. apply no_rx; auto.
Qed.
Lemma ry_at : forall s th t s', at_ s -> t <> q -> gate_ry s th t = Ok s' -> at_ s'.
Proof.
  intros s th t s' W N H. unfold gate_ry in H. injection H as <-. apply at_ry; auto. apply angle_none; auto. apply no_ry; auto.
Qed.
Lemma if_flush2_at : forall (c d : bool) lv lv' qs s s', at_ s ->
  (if c then flush_queue s qs lv else if d then flush_queue s qs lv' else Ok s) = Ok s' -> at_ s'.
Proof. intros c d lv lv' qs s s' W H. destruct c; [eapply flush_at; eauto|]. eapply if_flush_at; eauto. Qed.
Lemma mcrx_at : forall s cs th t s', at_ s -> t <> q -> gate_mcrx s cs th t = Ok s' -> at_ s'.
Proof.
  intros s cs th t s' W N H. unfold gate_mcrx in H. okay H. eapply mcrotation_at; [|exact N|exact H].
  eapply if_flush2_at; [|exact E0]. eapply flush_at; eauto.
Qed.
Lemma mcry_at : forall s cs th t s', at_ s -> t <> q -> gate_mcry s cs th t = Ok s' -> at_ s'.
Proof.
  intros s cs th t s' W N H. unfold gate_mcry in H. okay H. eapply mcrotation_at; [|exact N|exact H].
  eapply if_flush2_at; [|exact E0]. eapply flush_at; eauto.
Qed.
Lemma phase_at : forall s cs p t s', at_ s -> gate_mcphase s cs p t = Ok s' -> at_ s'.
Proof.
  intros s cs p t s' W H. unfold gate_mcphase in H. okay H. destruct x1 as [t' cs']. injection H as <-.
  assert (W2 : at_ x0) by (eapply flush_at; [|exact E0]; eapply flush_at; eauto). pose proof (flush_empty _ _ _ _ E0) as Q2. apply at_state; auto.
  apply show_key; [|apply a_now; auto]. intros iv. destruct (all_set cs' (fst iv)); auto.
Qed.
Lemma gate_at : forall g s t s', at_ s -> (t <> q \/ diagonal g = true) -> agate_call g s t = Ok s' -> at_ s'.
Proof.
  intros g s t s' W D H. destruct g; simpl in D, H;
    try (destruct D as [D|D]; [|discriminate]);
    try (eapply diag_at; [|exact W|exact H]; intros []).
  - eapply x_at; eauto.
  - eapply y_at; eauto.
  - eapply z_at; eauto.
  - eapply h_at; eauto.
  - eapply rx_at; eauto.
  - eapply ry_at; eauto.
Qed.
Lemma mc_at : forall g s cs t s', at_ s -> (t <> q \/ diagonal g = true) -> amc_call g s cs t = Ok s' -> at_ s'.
Proof.
  intros g s cs t s' W D H. destruct g; simpl in D, H;
    try (destruct D as [D|D]; [|discriminate]);
    try (eapply mcdiag_at; [|exact W|exact H]; intros []).
  - eapply mcx_at; eauto.
  - eapply mcy_at; eauto.
  - eapply mcz_at; eauto.
  - eapply mch_gate_at; eauto.
  - eapply mcrx_at; eauto.
  - eapply mcry_at; eauto.
Qed.

Lemma masks_xy : forall ps i ts xy yz y xy' yz' y', exp_masks ps i ts xy yz y = Ok (xy', yz', y') -> bit xy' l = true ->
  bit xy l = true \/ exists j p, nth_error ps j = Some p /\ (p = PX_ \/ p = PY_) /\ nth_error ts (i + j) = Some l.
Proof.
  induction ps as [|p ps IH]; intros i ts xy yz y xy' yz' y' H B; cbn [exp_masks] in H; [injection H as <- <- <-; auto|].
  assert (Up : (exists j p0, nth_error ps j = Some p0 /\ (p0 = PX_ \/ p0 = PY_) /\ nth_error ts (S i + j) = Some l) ->
    bit xy l = true \/ exists j p0, nth_error (p :: ps) j = Some p0 /\ (p0 = PX_ \/ p0 = PY_) /\ nth_error ts (i + j) = Some l).
  { intros [j [p0 [A1 [A2 A3]]]]. right. exists (S j), p0. rewrite <- plus_n_Sm. auto. }
  assert (Here : forall t, nth_error ts i = Some t -> (p = PX_ \/ p = PY_) -> bit (set_bit xy t true) l = true ->
    bit xy l = true \/ exists j p0, nth_error (p :: ps) j = Some p0 /\ (p0 = PX_ \/ p0 = PY_) /\ nth_error ts (i + j) = Some l).
  { intros t Et Hp Hb. rewrite bit_set in Hb. destruct (Nat.eqb_spec t l); [|auto]. subst. right. exists 0, p. rewrite Nat.add_0_r. auto. }
  destruct p; [apply IH in H; destruct H; auto| | |]; destruct (nth_error ts i) as [t|] eqn:Et; try discriminate;
    apply IH in H; auto; destruct H as [H|H]; eauto.
Qed.
Lemma exp_at : forall s cs ps th ts s', at_ s ->
  (forall j, nth_error ts j = Some q -> nth_error ps j <> Some PX_ /\ nth_error ps j <> Some PY_) ->
  mcexp s cs ps th ts = Ok s' -> at_ s'.
Proof.
  intros s cs ps th ts s' W N H. unfold mcexp in H. cbv zeta in H. okay H. rename x into s1, x0 into s2, x1 into cs', x2 into ts'.
  assert (W2 : at_ s2) by (eapply flush_at; [|exact E0]; eapply flush_at; eauto).
  pose proof (flush_empty _ _ _ _ E0) as Q2. pose proof (a_now _ W2 Q2) as W2s.
  destruct (adjacent_dup _); [discriminate|]. okay H. destruct x as [[xy yz] y].
  assert (B : bit xy l = false).
  { destruct (bit xy l) eqn:B; auto. exfalso. destruct (masks_xy _ _ _ _ _ _ _ _ _ E3 B) as [Z|[j [p [J1 [J2 J3]]]]]; [rewrite bit_0 in Z; discriminate|].
    apply mapM_ok in E2. simpl in J3.
    assert (Ex : exists t, nth_error ts j = Some t /\ find_qubit s2 t = Ok l).
    { clear - E2 J3. revert j J3. induction E2; intros [|j] J; simpl in *; try discriminate; eauto. injection J as ->. eauto. }
    destruct Ex as [t [Et Ft]]. apply find_at in Ft. assert (t = q) by (eapply (a_inj _ W2); eauto; apply W2). subst t.
    destruct (N j Et) as [N1 N2]. destruct J2; subst; contradiction. }
  destruct (N.eqb xy 0).
  - destruct (anz _); [injection H as <-; apply at_state; auto; apply show_flat; [|exact W2s]|
      destruct (anz _); injection H as <-; apply at_state; auto; [apply show_flat; [|exact W2s]|apply show_key; [|exact W2s]]].
    + intros [k v] k' Hk. simpl in *. destruct (_ && _); [|destruct Hk]. destruct Hk as [<-|[]]. auto.
    + intros [k v] k' Hk. simpl in *. destruct (_ && _); [|destruct Hk]. destruct Hk as [<-|[]]. auto.
    + intros [k v]. simpl. destruct (all_set cs' k); auto.
  - injection H as <-. apply at_state; auto. apply show_flat; [|apply show_collect; exact W2s].
    intros [k v] k' Hk. simpl. unfold exp_entry in Hk. destruct (all_set cs' k); [|destruct Hk as [<-|[]]; auto]. cbv zeta in Hk.
    assert (X : bit (N.lxor k xy) l = bit k l) by (rewrite bit_lxor, B; apply xorb_false_r).
    destruct (hm_get _ _).
    + destruct (N.ltb _ _); [|destruct Hk]. unfold keys in Hk. rewrite map_app, in_app_iff in Hk.
      repeat match type of Hk with context [if anz ?a then _ else _] => destruct (anz a) end; simpl in Hk; intuition; subst; auto.
    + simpl in Hk. intuition; subst; auto.
Qed.

Lemma cjp_at : forall s locs p s', at_ s -> check_joint_probability s locs = Ok (p, s') -> at_ s' /\ op_queue s' = [] /\
  (r = false -> locs = [l] -> p = prb0).
Proof.
  intros s locs p s' W H. unfold check_joint_probability in H. okay H. destruct x as [ops s1]. destruct (take_at _ _ _ W E) as [-> K].
  injection H as <- <-. assert (S := K). split; [apply at_taken; [auto|exact S]|]. split; [reflexivity|].
  intros Er ->. cbn [state with_ops]. revert S. generalize (map (apply_ops ops) (state s)). intros st.
  assert (G : forall st acc, showing l r st -> fold_left (fun acc0 iv => if masked_parity (mask_of [l]) (fst iv) then padd acc0 (psqr (snd iv)) else acc0) st acc = acc).
  { clear st. induction st as [|[k v] st IH]; intros acc S; simpl; auto.
    assert (M : masked_parity (mask_of [l]) k = false).
    { unfold masked_parity. rewrite mask_parity by apply nd1. unfold par. simpl. rewrite xorb_false_r, <- Er. apply S. left. auto. }
    simpl in M. rewrite M. apply IH. intros k' Hk. apply S. right. auto. }
  intros S. apply G. auto.
Qed.
Lemma collapse_at : forall s locs v p, at_ s -> op_queue s = [] -> at_ (joint_collapse s locs v p).
Proof.
  intros s locs v p W Q. unfold joint_collapse. apply at_state; auto. apply show_flat; [|apply a_now; auto].
  intros [k a] k' Hk. simpl in *. destruct (Bool.eqb _ _); [|destruct Hk]. destruct Hk as [<-|[]]. auto.
Qed.
Lemma measure_at : forall s t b s', at_ s -> measure s t = Ok (b, s') -> rng s' = snd (draw (rng s)) -> at_ s' /\
  (t = q -> r = false -> exists s1, maybe_flush_queue s [t] LHRxRy = Ok s1 /\ b = plt (fst (draw (rng s1))) prb0).
Proof.
  intros s t b s' W H R. unfold measure in H. okay H. destruct (draw (rng x)) as [y g] eqn:D. okay H. destruct x1 as [p s3].
  injection H as <- <-. assert (W1 : at_ x) by (eapply maybe_at; eauto). apply (at_rng _ g) in W1.
  destruct (cjp_at _ _ _ _ W1 E1) as [W3 [Q3 P]]. split; [apply collapse_at; auto|].
  intros -> Er. exists x. split; auto. rewrite D. simpl. rewrite P; auto. apply find_at in E0. f_equal.
  pose proof (a_loc _ W1) as A. cbn [with_rng id_map] in A. congruence.
Qed.
Lemma joint_at : forall s qs b s', at_ s -> joint_measure s qs = Ok (b, s') -> at_ s'.
Proof.
  intros s qs b s' W H. unfold joint_measure in H. okay H. destruct (draw (rng x)) as [y g] eqn:D. okay H. destruct x2 as [p s3].
  injection H as <- <-. assert (W1 : at_ x) by (eapply maybe_at; eauto). apply (at_rng _ g) in W1.
  destruct (cjp_at _ _ _ _ W1 E2) as [W3 [Q3 P]]. apply collapse_at; auto.
Qed.
Lemma prob_at : forall s qs p s', at_ s -> joint_probability s qs = Ok (p, s') -> at_ s' /\ (r = false -> qs = [q] -> p = prb0).
Proof.
  intros s qs p s' W H. unfold joint_probability in H. okay H. assert (W1 : at_ x) by (eapply maybe_at; eauto).
  destruct (cjp_at _ _ _ _ W1 H) as [W3 [Q3 P]]. split; auto. intros Er ->. apply P; auto.
  apply mapM_ok in E1. inversion E1; subst. inversion H4; subst. apply find_at in H2. pose proof (a_loc _ W1). congruence.
Qed.
Lemma force_at : forall s v t p s', at_ s -> force_collapse s v t = Ok (p, s') -> at_ s' /\
  (r = false -> t = q -> p = if v then prb0 else pcompl prb0).
Proof.
  intros s v t p s' W H. unfold force_collapse in H. okay H. destruct x1 as [p0 s2]. injection H as <- <-.
  assert (W1 : at_ x) by (eapply maybe_at; eauto). destruct (cjp_at _ _ _ _ W1 E1) as [W3 [Q3 P]]. split.
  - destruct (_ || _); auto. apply collapse_at; auto.
  - intros Er ->. rewrite P; auto. apply find_at in E0. pose proof (a_loc _ W1). congruence.
Qed.
End At.

(** ** One call *)
Definition settled (q : nat) (r : bool) (s : sim) : Prop := exists l, at_ q l r s.

Lemma queued_alloc : forall s, inv s -> queued (fst (allocate s)) = queued s.
Proof.
  intros s W. destruct (aalloc s W) as [K1 [_ [_ [_ [v [G _]]]]]]. unfold queued. change (op_queue (fst (allocate s))) with (op_queue s).
  assert (F : forall x, has (id_map s) x -> find_qubit (fst (allocate s)) x = find_qubit s x).
  { intros x Hx. unfold find_qubit. rewrite G. destruct (Nat.eqb_spec (snd (allocate s)) x); [subst; contradiction|auto]. }
  generalize (i_ops s W). generalize (op_queue s) as ol. induction ol as [|[[cs t] o] ol IH]; intros O; [reflexivity|].
  inversion O as [|? ? [_ Fo] O']; subst. cbn [mapM]. rewrite IH by auto. cbn [fst snd] in Fo.
  assert (R : resolve_and_check_qubits (fst (allocate s)) t cs = resolve_and_check_qubits s t cs).
  { unfold resolve_and_check_qubits. rewrite F by (inversion Fo; auto). assert (M : mapM (find_qubit (fst (allocate s))) cs = mapM (find_qubit s) cs); [|now rewrite M].
    inversion Fo as [|? ? _ Fc]; subst. clear - Fc F. induction Fc; cbn [mapM]; auto. rewrite F, IHFc; auto. }
  now rewrite R.
Qed.
Lemma alloc_at : forall q l r s, inv s -> at_ q l r s -> at_ q l r (fst (allocate s)).
Proof.
  intros q l r s W A. destruct (aalloc s W) as [K1 [_ [W' [_ [v [G _]]]]]]. destruct A as [L J C S]. split; auto.
  - rewrite G. destruct (Nat.eqb_spec (snd (allocate s)) q) as [E|E]; auto. exfalso. apply K1. rewrite E. exists l. auto.
  - apply W'.
  - intros ops T. rewrite queued_alloc in T by auto. exact (S ops T).
Qed.
Lemma ops_away : forall l ops iv, Forall (fun o : qop => snd (fst o) <> l) ops -> bit (fst (apply_ops ops iv)) l = bit (fst iv) l.
Proof.
  intros l ops. induction ops as [|o ops IH]; intros iv F; [reflexivity|]. inversion F; subst.
  change (apply_ops (o :: ops) iv) with (apply_ops ops (apply_op o iv)). rewrite IH by auto. rewrite apply_op_key. apply akey_other. auto.
Qed.
Lemma fresh_at : forall s, inv s -> settled (snd (allocate s)) false (fst (allocate s)).
Proof.
  intros s W. destruct (aalloc s W) as [K1 [_ [W' [_ [v [G [V _]]]]]]]. set (q := snd (allocate s)) in *. exists v. split.
  - rewrite G, Nat.eqb_refl. auto.
  - apply W'.
  - unfold calm. change (h_flag (fst (allocate s))) with (h_flag s). change (rx_queue (fst (allocate s))) with (rx_queue s).
    change (ry_queue (fst (allocate s))) with (ry_queue s). split; [|split].
    + destruct (bit (h_flag s) q) eqn:B; auto. exfalso. apply K1, (i_h s W); auto.
    + destruct (im_get (rx_queue s) q) eqn:B; auto. exfalso. apply K1. eapply (i_rx s W); eauto.
    + destruct (im_get (ry_queue s) q) eqn:B; auto. exfalso. apply K1. eapply (i_ry s W); eauto.
  - intros ops T. rewrite queued_alloc in T by auto. change (state (fst (allocate s))) with (state s).
    intros k Hk. unfold keys in Hk. rewrite map_map in Hk. apply in_map_iff in Hk. destruct Hk as [iv [<- Hi]]. rewrite ops_away.
    + destruct (bit (fst iv) v) eqn:B; auto. exfalso. apply V. apply (proj2 (i_st s W) (fst iv)); [apply in_map; auto|auto].
    + unfold queued in T. apply mapM_ok in T. clear - T V. induction T as [|[[cs t] o] o' a b Eo F IH]; constructor; auto.
      okay Eo. destruct x as [t' cs']. injection Eo as <-. cbn [fst snd]. intros ->. apply V. exists t. eapply resolve_at; eauto.
Qed.
Lemma release_at : forall q l r s x s', inv s -> has (id_map s) x -> x <> q -> at_ q l r s -> release s x = Ok s' -> at_ q l r s'.
Proof.
  intros q l r s x s' W Hx N A H. unfold release in H.
  destruct (Nat.eqb_spec (length (im_iter (id_map s))) 1) as [E1|E1].
  - exfalso. assert (E2 : length (im_keys (id_map s)) = 1) by (unfold im_keys; rewrite map_length; auto).
    apply (length_one _ _ q) in E2; [|apply im_keys_In; exists l; apply A].
    apply im_keys_In in Hx. rewrite E2 in Hx. destruct Hx as [Hx|[]]. congruence.
  - destruct (ameasure horder_perm s x W Hx) as [b [s1 [loc [E [[W1 [M1 R1]] [Q1 [C1 [El KB]]]]]]]].
    rewrite E in H. cbn [bind] in H. destruct (measure_at q l r s x b s1 A E R1) as [A1 _].
    assert (Fq : find_qubit s1 x = Ok loc) by (apply afind; congruence). rewrite Fq in H. cbn [bind] in H. injection H as <-.
    assert (D : loc <> l) by (eapply other_loc; [exact A| |exact N]; auto).
    assert (B : forall st, showing l r st ->
      showing l r (map (fun iv => (if bit (fst iv) loc then set_bit (fst iv) loc false else fst iv, snd iv)) st)).
    { intros st S. apply show_key; auto. intros [k v]. simpl. rewrite clear_key. apply bit_set_other; auto. }
    assert (F : forall s2, at_ q l r s2 -> op_queue s2 = [] -> at_ q l r (with_id_map s2 (im_remove (id_map s2) x))).
    { intros s2 A2 Q2. pose proof (a_now _ _ _ _ A2 Q2) as S2. destruct A2 as [L J C _]. apply at_none; auto; simpl.
      - rewrite im_get_remove. destruct (Nat.eqb_spec x q); [contradiction|auto].
      - intros i j y. rewrite !im_get_remove. destruct (Nat.eqb x i); destruct (Nat.eqb x j); try discriminate. apply J. }
    apply F; [|destruct b; exact Q1]. destruct b; auto. apply at_state; auto. apply B. apply a_now with (q := q); auto.
Qed.
Lemma swap_at : forall q r s a b s', inv s -> has (id_map s) a -> has (id_map s) b -> settled q r s ->
  swap_qubit_ids s a b = Ok s' -> settled (sw a b q) r s'.
Proof.
  intros q r s a b s' W Aa Ab [l A] H. destruct (aswap s a b W Aa Ab) as [s'' [E M]]. assert (s'' = s') by congruence. subst s''. clear E.
  unfold swap_qubit_ids in H. destruct (aflush_ops s W) as [s1 [F [K [_ Q]]]]. rewrite F in H. cbn [bind] in H.
  assert (A1 : at_ q l r s1) by (eapply flush_ops_at; eauto). cbv zeta in H.
  match type of H with bind (find_qubit ?x a) _ = _ => set (s4 := x) in * end.
  okay H. rename x into la, x0 into lb. injection H as <-. apply find_at in E, E0. change (id_map s4) with (id_map s1) in E, E0.
  exists l. set (s5 := with_id_map _ _) in *.
  assert (G : forall i, im_get (id_map s5) i = im_get (id_map s1) (sw a b i)).
  { intros i. unfold s5. simpl. rewrite !im_get_update. unfold sw.
    destruct (Nat.eqb_spec i a); destruct (Nat.eqb_spec i b); destruct (Nat.eqb_spec a i);
    destruct (Nat.eqb_spec b i); subst; try congruence; simpl; rewrite ?E, ?E0; simpl; congruence. }
  assert (H5 : forall i, bit (h_flag s5) i = bit (h_flag s1) (sw a b i)).
  { intros i. unfold s5. simpl. rewrite !bit_set. unfold sw.
    repeat match goal with |- context[Nat.eqb ?x ?y] => destruct (Nat.eqb_spec x y) end; subst; congruence. }
  assert (X5 : forall i, im_get (rx_queue s5) i = im_get (rx_queue s1) (sw a b i)) by (intros; apply get_swap_entries).
  assert (Y5 : forall i, im_get (ry_queue s5) i = im_get (ry_queue s1) (sw a b i)) by (intros; apply get_swap_entries).
  pose proof (a_now _ _ _ _ A1 Q) as S. destruct A1 as [L J [C1 [C2 C3]] _]. apply at_none.
  - rewrite G, sw_sw. auto.
  - apply M.
  - split; [rewrite H5, sw_sw; auto|]. split; [rewrite X5, sw_sw; auto|rewrite Y5, sw_sw; auto].
  - exact Q.
  - exact S.
Qed.

Lemma relabel_at : forall q l r s s' a b, inv s' -> op_queue s = [] -> arelabel s s' a b -> at_ q l r s -> at_ q (sw a b l) r s'.
Proof.
  intros q l r s s' a b W' Q R A. pose proof (a_now _ _ _ _ A Q) as S. destruct A as [L J [C1 [C2 C3]] _]. destruct R as [Ri Rs Rr Rh Rx Ry Ro]. apply at_none.
  - rewrite Ri, L. auto.
  - apply W'.
  - unfold calm. rewrite Rh, Rx, Ry. auto.
  - congruence.
  - intros k Hk. rewrite Rs in Hk. unfold keys in Hk. rewrite map_map in Hk. apply in_map_iff in Hk. destruct Hk as [iv [<- Hi]].
    simpl. rewrite bit_swap_bits, sw_sw. apply S. apply in_map. auto.
Qed.
Lemma place_at : forall q r n ks s s', inv s -> aquiet s -> Forall (has (id_map s)) ks -> settled q r s ->
  foldM place_key (enumerate_from n ks) s = Ok s' -> settled q r s'.
Proof.
  intros q r n ks. revert n. induction ks as [|x ks IH]; intros n s s' W Q F A H; cbn [enumerate_from foldM] in H; [congruence|].
  inversion F as [|? ? [cur Hc] F']; subst. destruct (aplace_key s n x cur W Q Hc) as [s1 [E [[-> _]|R]]]; rewrite E in H; cbn [bind] in H.
  - eapply IH; eauto.
  - assert (W1 : inv s1) by (eapply arelabel_inv; eauto). eapply IH; [exact W1| | | |exact H].
    + destruct Q as [Q1 Q2]. destruct R. split; [congruence|]. intros y. unfold calm. rewrite ar_h, ar_rx, ar_ry. apply Q2.
    + eapply Forall_impl; [|exact F']. intros y. apply (arelabel_has _ _ _ _ y R).
    + destruct A as [l A]. eexists. eapply relabel_at; eauto. apply Q.
Qed.
Lemma canon_at : forall q r s s' ks, inv s -> settled q r s -> canonicalize s = Ok (s', ks) -> settled q r s'.
Proof.
  intros q r s s' ks W [l A] H. unfold canonicalize in H. cbv zeta in H. set (k0 := im_keys (id_map s)) in *.
  destruct (aflush_queue horder_perm LHRxRy k0 s W) as [s1 [E [K [L [Q C]]]]]. rewrite E in H. cbn [bind] in H. okay H. injection H as -> _.
  pose proof (k_inv _ _ K) as W1.
  assert (Al : forall x, has (id_map s1) x <-> In x k0) by (intros x; unfold k0; rewrite im_keys_In, (k_map _ _ K); tauto).
  assert (Qt : aquiet s1).
  { split; auto. intros x. destruct (in_dec Nat.eq_dec x k0).
    - specialize (C eq_refl). rewrite Forall_forall in C. auto.
    - rewrite <- Al in n. unfold calm.
      destruct (bit (h_flag s1) x) eqn:Eh; [exfalso; apply n, (i_h _ W1); auto|].
      destruct (im_get (rx_queue s1) x) eqn:Ex; [exfalso; apply n; eapply (i_rx _ W1); eauto|].
      destruct (im_get (ry_queue s1) x) eqn:Ey; [exfalso; apply n; eapply (i_ry _ W1); eauto|]. auto. }
  eapply place_at; [exact W1|exact Qt| | |exact E0].
  - apply Forall_forall. intros x Hx. apply Al. auto.
  - exists l. eapply flush_at; eauto.
Qed.
Lemma shown : forall q r s ks i k v, settled q r s -> op_queue s = [] -> (forall j x, nth_error ks j = Some x -> im_get (id_map s) x = Some j) ->
  nth_error ks i = Some q -> In (k, v) (sort_state (state s)) -> N.testbit k (N.of_nat i) = r.
Proof.
  intros q r s ks i k v [l A] Q P E H. pose proof (P i q E). pose proof (a_loc _ _ _ _ A). assert (l = i) by congruence. subst l.
  apply (a_now _ _ _ _ A Q k). apply (in_map fst) in H. eapply Permutation_in; [apply perm_keys, asort_perm|exact H].
Qed.

Lemma target_at : forall q l r s i x cur s', inv s -> im_get (id_map s) x = Some cur -> has_loc (id_map s) i ->
  at_ q l r s -> op_queue s = [] -> place_target s (i, x) = Ok s' -> at_ q (sw cur i l) r s' /\ op_queue s' = [] /\ moved s s' /\
  (forall y, im_get (id_map s') y = option_map (sw cur i) (im_get (id_map s) y)).
Proof.
  intros q l r s i x cur s' W E Oi A Qe H. destruct (aplace_target horder_perm s i x cur W E Oi) as [s2 [E2 [M G]]].
  assert (s2 = s') by congruence. subst s2. enough (X : at_ q (sw cur i l) r s' /\ op_queue s' = []) by tauto. clear E2.
  unfold place_target in H. rewrite (afind _ _ _ E) in H. cbn [bind] in H.
  destruct (key_of_loc (id_map s) i) as [p|]; [|discriminate]. unfold swap_qubit_state in H.
  destruct (Nat.eqb_spec cur i) as [C|C].
  - cbn [bind] in H. injection H as <-. pose proof (a_now _ _ _ _ A Qe) as S. split; [|exact Qe]. destruct A as [L J [C1 [C2 C3]] _]. apply at_none.
    + rewrite G, L. auto.
    + apply M.
    + repeat split; auto.
    + exact Qe.
    + intros k Hk. change (In k (keys (state s))) in Hk. subst i. replace (sw cur cur l) with l; [auto|].
      unfold sw. destruct (Nat.eqb_spec l cur); auto.
  - okay H. injection H as <-. okay E0. injection E0 as <-. assert (A1 : at_ q l r x1) by (eapply flush_at; eauto).
    pose proof (flush_empty _ _ _ _ E1) as Q1. pose proof (a_now _ _ _ _ A1 Q1) as S.
    split; [|exact Q1]. destruct A1 as [L J [C1 [C2 C3]] _]. apply at_none.
    + rewrite G, (a_loc _ _ _ _ A). auto.
    + apply M.
    + repeat split; auto.
    + exact Q1.
    + intros k Hk. simpl in Hk. unfold keys in Hk. rewrite map_map in Hk. apply in_map_iff in Hk. destruct Hk as [iv [<- Hi]].
      simpl. rewrite bit_swap_bits, sw_sw. apply S. apply in_map. auto.
Qed.
Lemma targets_at : forall q r ts pre s s', inv s -> NoDup (pre ++ ts) -> Forall (has (id_map s)) ts ->
  (forall i, i < length (pre ++ ts) -> has_loc (id_map s) i) ->
  (forall j x, nth_error pre j = Some x -> im_get (id_map s) x = Some j) -> settled q r s -> op_queue s = [] ->
  foldM place_target (enumerate_from (length pre) ts) s = Ok s' ->
  settled q r s' /\ op_queue s' = [] /\ inv s' /\ forall j x, nth_error (pre ++ ts) j = Some x -> im_get (id_map s') x = Some j.
Proof.
  intros q r. induction ts as [|t ts IH]; intros pre s s' W D F O P [l A] Qe H; cbn [enumerate_from foldM] in H.
  - injection H as <-. rewrite app_nil_r. split; [exists l; auto|auto].
  - inversion F as [|? ? [cur Hc] F']; subst. okay H. rename x into s1.
    destruct (target_at q l r s (length pre) t cur s1 W Hc) as [A1 [Q1 [M1 G1]]]; auto; [apply O; rewrite app_length; simpl; lia|].
    replace (S (length pre)) with (length (pre ++ [t])) in H by (rewrite app_length; simpl; lia).
    replace (pre ++ t :: ts) with ((pre ++ [t]) ++ ts) by (rewrite <- app_assoc; auto).
    apply (IH (pre ++ [t]) s1 s'); auto.
    + apply M1.
    + rewrite <- app_assoc. exact D.
    + eapply Forall_impl; [|exact F']. intros x. apply (mv_has _ _ M1).
    + intros i Hi. apply (mv_loc _ _ M1). apply O. rewrite <- app_assoc in Hi. exact Hi.
    + intros j x Hj. destruct (Nat.lt_ge_cases j (length pre)).
      * rewrite nth_error_app1 in Hj by auto. rewrite G1, (P j x Hj). simpl. f_equal. unfold sw.
        destruct (Nat.eqb_spec j cur).
        { subst. exfalso. apply (NoDup_remove_2 pre ts t D). apply in_or_app. left.
          rewrite (i_inj s W t x cur Hc (P _ _ Hj)). eapply nth_error_In; eauto. }
        destruct (Nat.eqb_spec j (length pre)); [lia|auto].
      * rewrite nth_error_app2 in Hj by auto. destruct (j - length pre)%nat eqn:Ej; simpl in Hj; [|destruct n; discriminate].
        injection Hj as <-. rewrite G1, Hc. simpl. unfold sw. rewrite Nat.eqb_refl. f_equal. lia.
    + eexists. exact A1.
Qed.
Lemma apply_at : forall q r s u ts cs s', inv s -> NoDup (ctl_list cs ++ ts) -> Forall (has (id_map s)) (ctl_list cs ++ ts) ->
  nrows u = Nat.pow 2 (length ts) -> (forall i, i < length (ctl_list cs ++ ts) -> has_loc (id_map s) i) ->
  ~ In q (ctl_list cs ++ ts) -> settled q r s -> apply_matrix s u ts cs = Ok s' -> settled q r s'.
Proof.
  intros q r s u ts cs s' W D F Hr O N [l A] H. unfold apply_matrix in H.
  destruct (negb _); [discriminate|]. destruct (negb _); [discriminate|].
  set (all := ctl_list cs ++ ts) in *.
  set (u' := match cs with Some c => controlled u (length c) | None => u end).
  assert (Em : match cs with Some c => (c ++ ts, controlled u (length c)) | None => (ts, u) end = (all, u')) by (destruct cs; reflexivity).
  rewrite Em in H. clear Em.
  assert (Su : nrows u' = Nat.pow 2 (length all)).
  { unfold u', all. destruct cs; simpl; rewrite ?app_length, ?Nat.pow_add_r; [rewrite Hr; lia|auto]. }
  okay H. rename x0 into s1, x1 into s2. clear E x.
  destruct (aflush horder_perm LHRxRy all s W) as [s1' [E' [K L]]]. assert (s1' = s1) by congruence. subst s1'. clear E'.
  destruct (targets_at q r (rev all) [] s1 s2) as [[l2 A2] [Q2 [W2 P2]]]; auto.
  { apply K. }
  { simpl. apply NoDup_rev. auto. }
  { eapply kept_has; [exact K|]. rewrite Forall_forall in *. intros x Hx. apply F. apply in_rev. auto. }
  { intros i Hi. simpl in Hi. rewrite rev_length in Hi. rewrite (k_map _ _ K). auto. }
  { intros [|j] x; discriminate. }
  { exists l. eapply flush_at; eauto. }
  { eapply flush_empty; eauto. }
  cbn [app] in P2. set (acc := fold_left (apply_row u') (state s2) []) in *. exists l2.
  destruct (horder acc) as [|e st] eqn:Eh; [discriminate|]. injection H as <-. rewrite <- Eh. apply at_state; auto.
  eapply show_perm; [apply Permutation_sym, horder_perm|]. intros k Hk.
  destruct (arows_keys u' (length all) Su (state s2) [] k) as [_ K2]; [constructor|].
  destruct (K2 Hk) as [Hn|[y [Hy Ey]]]; [destruct Hn|]. rewrite <- (a_now _ _ _ _ A2 Q2 y Hy).
  assert (G : length all <= l2).
  { destruct (Nat.lt_ge_cases l2 (length all)) as [X|X]; auto. exfalso. apply N. apply in_rev.
    rewrite <- rev_length in X. apply nth_error_Some in X. destruct (nth_error (rev all) l2) as [x|] eqn:Ex; [|congruence].
    assert (x = q) by (eapply (i_inj _ W2); [eapply P2; eauto|apply A2]). subst x. eapply nth_error_In; eauto. }
  rewrite (split_N k (length all)), (split_N y (length all)).
  rewrite !join_bit by (apply N.mod_lt; pose proof (pow2_pos (length all)); lia).
  destruct (Nat.ltb_spec l2 (length all)); [lia|]. now rewrite Ey.
Qed.

(** X and Y on the qubit invert its value. *)
Lemma enqueue_turn : forall q l r s cs o s' w, turns o -> at_ q l r s ->
  (forall x, (if N.eqb (N.of_nat (length (op_queue s))) QUEUE_LIMIT then flush_ops s else Ok s) = Ok x ->
    forall ops cs', queued x = Ok ops -> mapM (find_qubit x) cs = Ok cs' ->
    forall k, In k (keys (map (apply_ops ops) (state x))) -> all_set cs' k = w) ->
  enqueue_op s q cs o = Ok s' -> at_ q l (xorb r w) s'.
Proof.
  intros q l r s cs o s' w T W C H. unfold enqueue_op in H. okay H. injection H as <-. specialize (C x eq_refl).
  assert (W1 : at_ q l r x). { destruct (N.eqb _ _); [eapply flush_ops_at; eauto|congruence]. }
  split; try apply W1. intros ops Q. apply take_app in Q. destruct Q as (ops0 & t' & cs' & Q & -> & R).
  unfold resolve_and_check_qubits in R. okay R. injection R as <- <-. apply find_at in E1.
  assert (x1 = l) by (pose proof (a_loc _ _ _ _ W1); congruence). subst x1.
  intros k Hk. cbn [state with_ops] in Hk. unfold keys in Hk. rewrite map_map in Hk. apply in_map_iff in Hk. destruct Hk as [iv [<- Hi]].
  assert (K : In (fst (apply_ops ops0 iv)) (keys (map (apply_ops ops0) (state x)))).
  { unfold keys. rewrite map_map. apply in_map_iff. exists iv. auto. }
  unfold apply_ops at 1. rewrite fold_left_app. cbn [fold_left]. fold (apply_ops ops0 iv). rewrite apply_op_key. unfold akey. cbn [fst snd].
  rewrite (C _ _ Q eq_refl _ K). rewrite <- (a_eff _ _ _ _ W1 _ Q _ K).
  destruct w; [|now rewrite xorb_false_r]. destruct o; try contradiction; rewrite bit_flip_same; now destruct (bit _ l).
Qed.
Lemma x_flip : forall q l r s s', at_ q l r s -> gate_x s q = Ok s' -> at_ q l (negb r) s'.
Proof.
  intros q l r s s' W H. unfold gate_x in H. cbv zeta in H. apply (neg_ry_at q l r s q) in W.
  pose proof (no_h _ _ _ _ W) as Hh. rewrite Hh in H. rewrite <- xorb_true_r. refine (enqueue_turn q l r _ [] OX _ true Logic.I W _ H). intros x _ ops cs' _ M k _. injection M as <-. reflexivity.
Qed.
Lemma y_flip : forall q l r s s', at_ q l r s -> gate_y s q = Ok s' -> at_ q l (negb r) s'.
Proof.
  intros q l r s s' W H. unfold gate_y in H. cbv zeta in H. apply (neg_rx_at q l r s q) in W.
  rewrite <- xorb_true_r. refine (enqueue_turn q l r _ [] OY _ true Logic.I W _ H). intros x _ ops cs' _ M k _. injection M as <-. reflexivity.
Qed.

(** The same with controls whose values are settled: all 1, or one of them 0. *)
Definition ctl (cs : list nat) (w : bool) (s : sim) : Prop :=
  if w then Forall (fun c => settled c true s) cs else exists c, In c cs /\ settled c false s.
Lemma ctl_kept : forall cs w s s', (forall q r, settled q r s -> settled q r s') -> ctl cs w s -> ctl cs w s'.
Proof. intros cs w s s' H. destruct w; simpl; [intros F; eapply Forall_impl; [|exact F]; auto|intros [c [Hc S]]; eauto]. Qed.
Lemma ctl_set : forall cs w s ops cs', ctl cs w s -> queued s = Ok ops -> mapM (find_qubit s) cs = Ok cs' ->
  forall k, In k (keys (map (apply_ops ops) (state s))) -> all_set cs' k = w.
Proof.
  intros cs w s ops cs' C Q M k Hk. apply mapM_ok in M.
  assert (B : forall c c' v, find_qubit s c = Ok c' -> settled c v s -> bit k c' = v).
  { intros c c' v Fc [l A]. apply find_at in Fc. pose proof (a_loc _ _ _ _ A). assert (l = c') by congruence. subst l.
    exact (a_eff _ _ _ _ A _ Q k Hk). }
  unfold all_set. destruct w; simpl in C.
  - induction M; simpl; auto. inversion C; subst. rewrite IHM by auto. rewrite (B x y true); auto.
  - destruct C as [c [Hc S]]. induction M; [destruct Hc|]. simpl. destruct Hc as [->|Hc]; [rewrite (B c y false); auto|].
    rewrite IHM by auto. apply andb_false_r.
Qed.
Lemma mcx_turn : forall cs w q l r s s', cs <> [] -> ctl cs w s -> at_ q l r s -> gate_mcx s cs q = Ok s' -> at_ q l (xorb r w) s'.
Proof.
  intros cs w q l r s s' Ne C W H. unfold gate_mcx in H. destruct cs as [|c0 rest]; [contradiction|]. okay H.
  assert (P1 : forall q r, settled q r s -> settled q r x) by (intros ? ? [? ?]; eexists; eapply if_flush_at; eauto).
  assert (P2 : forall q r, settled q r x -> settled q r x0).
  { intros ? ? [? ?]. eexists. destruct rest; [eapply if_flush_at; eauto|eapply maybe_at; eauto]. }
  assert (W1 : at_ q l r x) by (eapply if_flush_at; eauto).
  assert (W2 : at_ q l r x0). { destruct rest; [eapply if_flush_at; eauto|eapply maybe_at; eauto]. }
  pose proof (no_h _ _ _ _ W2) as Hh. rewrite Hh in H.
  refine (enqueue_turn q l r _ _ OX _ w Logic.I W2 _ H). intros y Ey. intros ops cs' Q M. apply (ctl_set (c0 :: rest) w y ops cs'); auto.
  apply (ctl_kept _ _ s); [|exact C]. intros q1 r1 S1. apply P1, P2 in S1. destruct S1 as [l1 S1]. exists l1.
  destruct (N.eqb _ _); [eapply flush_ops_at; eauto|congruence].
Qed.
Lemma mcy_turn : forall cs w q l r s s', cs <> [] -> ctl cs w s -> at_ q l r s -> gate_mcy s cs q = Ok s' -> at_ q l (xorb r w) s'.
Proof.
  intros cs w q l r s s' Ne C W H. unfold gate_mcy in H. destruct cs as [|c0 rest]; [contradiction|]. okay H.
  assert (P1 : forall q r, settled q r s -> settled q r x) by (intros ? ? [? ?]; eexists; eapply maybe_at; eauto).
  assert (P2 : forall q r, settled q r x -> settled q r x0) by (intros ? ? [? ?]; eexists; eapply if_flush_at; eauto).
  assert (W1 : at_ q l r x) by (eapply maybe_at; eauto). assert (W2 : at_ q l r x0) by (eapply if_flush_at; eauto).
  pose proof (no_h _ _ _ _ W2) as Hh. rewrite Hh in E1. injection E1 as <-.
  refine (enqueue_turn q l r _ _ OY _ w Logic.I W2 _ H). intros y Ey. intros ops cs' Q M. apply (ctl_set (c0 :: rest) w y ops cs'); auto.
  apply (ctl_kept _ _ s); [|exact C]. intros q1 r1 S1. apply P1, P2 in S1. destruct S1 as [l1 S1]. exists l1.
  destruct (N.eqb _ _); [eapply flush_ops_at; eauto|congruence].
Qed.
Lemma mc_turn : forall g cs w q r s s', inverting g = true -> ctl cs w s -> settled q r s -> amc_call g s cs q = Ok s' -> settled q (xorb r w) s'.
Proof.
  intros g cs w q r s s' Hg C [l W] H. exists l. destruct cs as [|c0 rest].
  - assert (w = true) as -> by (destruct w; auto; destruct C as [c [[] _]]). rewrite xorb_true_r.
    destruct g; try discriminate Hg; cbn in H; [eapply x_flip|eapply y_flip]; eauto.
  - destruct g; try discriminate Hg; cbn in H; [eapply mcx_turn|eapply mcy_turn]; eauto; discriminate.
Qed.

(** With a control settled at 0 no gate turns the target, and no exponential any qubit. *)
Lemma show_flat_in : forall l r (f : N * amp -> sstate) st, (forall iv k, In iv st -> In k (keys (f iv)) -> bit k l = bit (fst iv) l) ->
  showing l r st -> showing l r (flat_map f st).
Proof.
  intros l r f st H S k Hk. unfold keys in Hk. apply in_map_iff in Hk. destruct Hk as [[k' v] [<- Hi]]. apply in_flat_map in Hi.
  destruct Hi as [iv [Hv Hi]]. rewrite (H iv) by (auto; apply in_map_iff; exists (k', v); auto). apply S. apply in_map. auto.
Qed.
Lemma off_set : forall s c cs cs' l, In c cs -> im_get (id_map s) c = Some l -> mapM (find_qubit s) cs = Ok cs' ->
  forall k, bit k l = false -> all_set cs' k = false.
Proof.
  intros s c cs cs' l Hc G M k Hk. apply mapM_ok in M. unfold all_set. induction M; [destruct Hc|]. simpl. destruct Hc as [->|Hc].
  - apply find_at in H. assert (y = l) by congruence. subst. now rewrite Hk.
  - rewrite IHM by auto. apply andb_false_r.
Qed.
Lemma ctls_found : forall s t cs t' cs', resolve_and_check_qubits s t cs = Ok (t', cs') -> mapM (find_qubit s) cs = Ok cs'.
Proof. intros s t cs t' cs' H. unfold resolve_and_check_qubits in H. okay H. injection H as <- <-. auto. Qed.
Lemma mch_idle : forall c lc q l r s cs t s', In c cs -> at_ c lc false s -> at_ q l r s -> apply_mch s cs t = Ok s' -> at_ q l r s'.
Proof.
  intros c lc q l r s cs t s' Hc C W H. unfold apply_mch in H. okay H. destruct x as [t' cs']. okay H. destruct x as [ops s1].
  injection H as <-. destruct (take_at _ _ _ _ _ _ C E0) as [_ Kc]. destruct (take_at _ _ _ _ _ _ W E0) as [-> K]. apply at_taken; auto.
  apply show_flat_in; [|apply show_collect; exact K]. intros [k v] k' Hi Hk. unfold mch_entry in Hk.
  rewrite (off_set s c cs cs' lc Hc (a_loc _ _ _ _ C) (ctls_found _ _ _ _ _ E) k) in Hk; [destruct Hk as [<-|[]]; auto|].
  apply (show_collect _ _ _ Kc). apply in_map_iff. exists (k, v). auto.
Qed.
Lemma rotation_idle : forall c lc q l r s cs th b s', In c cs -> at_ c lc false s -> at_ q l r s ->
  mcrotation s cs th q b = Ok s' -> at_ q l r s'.
Proof.
  intros c lc q l r s cs th b s' Hc C W H. assert (Ne : cs <> []) by (intros ->; destruct Hc).
  assert (Ct : ctl cs false s) by (exists c; split; auto; exists lc; auto).
  unfold mcrotation, mcrotation_with in H. cbv zeta in H. destruct (anz (rot_m00 th)).
  - okay H. assert (W1 : at_ q l r x). { rewrite <- (xorb_false_r r). destruct b; [eapply mcy_turn|eapply mcx_turn]; eauto. }
    destruct x0 as [t' cs']. destruct (ais1 _); [congruence|]. okay H. destruct x0 as [ops s2].
    injection H as <-. destruct (take_at _ _ _ _ _ _ W1 E1) as [-> K]. apply at_taken; auto.
    exact (factor_show _ _ _ x ops _ _ K W1).
  - destruct (anz (rot_m01 th b)).
    + destruct (anz _); [|congruence]. okay H. destruct x as [ops s2]. okay H. destruct x as [t' cs'].
      injection H as <-. destruct (take_at _ _ _ _ _ _ W E) as [-> K]. apply at_taken; auto.
      exact (factor_show _ _ _ s ops _ _ K W).
    + okay H. destruct x as [t' cs']. okay H. destruct x as [ops s2]. injection H as <-.
      destruct (take_at _ _ _ _ _ _ C E0) as [_ Kc]. destruct (take_at _ _ _ _ _ _ W E0) as [-> K]. apply at_taken; auto.
      apply show_flat_in; [|apply show_collect; exact K]. intros [k v] k' Hi Hk. unfold rot_entry in Hk.
      rewrite (off_set s c cs cs' lc Hc (a_loc _ _ _ _ C) (ctls_found _ _ _ _ _ E) k) in Hk; [destruct Hk as [<-|[]]; auto|].
      apply (show_collect _ _ _ Kc). apply in_map_iff. exists (k, v). auto.
Qed.
Lemma mc_idle : forall g cs q r s s', ctl cs false s -> settled q r s -> amc_call g s cs q = Ok s' -> settled q r s'.
Proof.
  intros g cs q r s s' Ct Se H. destruct (inverting g) eqn:Ig.
  { rewrite <- (xorb_false_r r). eapply mc_turn; eauto. }
  destruct (diagonal g) eqn:Dg; [destruct Se as [l W]; exists l; eapply mc_at; eauto|].
  pose proof Ct as [c [Hc [lc C]]]. destruct Se as [l W]. exists l. destruct cs as [|c0 rest]; [destruct Hc|].
  destruct g; try discriminate Ig; try discriminate Dg; cbn [amc_call] in H.
  - unfold gate_mch in H. okay H. eapply mch_idle; [exact Hc| | |exact H].
    + eapply if_flush_at; [|exact E0]. eapply flush_at; eauto.
    + eapply if_flush_at; [|exact E0]. eapply flush_at; eauto.
  - unfold gate_mcrx in H. okay H. eapply rotation_idle; [exact Hc| | |exact H].
    + eapply if_flush2_at; [|exact E0]. eapply flush_at; eauto.
    + eapply if_flush2_at; [|exact E0]. eapply flush_at; eauto.
  - unfold gate_mcry in H. okay H. eapply rotation_idle; [exact Hc| | |exact H].
    + eapply if_flush2_at; [|exact E0]. eapply flush_at; eauto.
    + eapply if_flush2_at; [|exact E0]. eapply flush_at; eauto.
Qed.
Lemma exp_idle : forall cs q r s ps th ts s', ctl cs false s -> settled q r s -> mcexp s cs ps th ts = Ok s' -> settled q r s'.
Proof.
  intros cs q r s ps th ts s' [c [Hc [lc C]]] [l W] H. exists l. unfold mcexp in H. cbv zeta in H. okay H.
  rename x into s1, x0 into s2, x1 into cs', x2 into ts'.
  assert (W2 : at_ q l r s2) by (eapply flush_at; [|exact E0]; eapply flush_at; eauto).
  assert (C2 : at_ c lc false s2) by (eapply flush_at; [|exact E0]; eapply flush_at; eauto).
  pose proof (flush_empty _ _ _ _ E0) as Q2. pose proof (a_now _ _ _ _ W2 Q2) as W2s. pose proof (a_now _ _ _ _ C2 Q2) as C2s.
  pose proof (off_set s2 c cs cs' lc Hc (a_loc _ _ _ _ C2) E1) as Off.
  destruct (adjacent_dup _); [discriminate|]. okay H. destruct x as [[xy yz] y]. destruct (N.eqb xy 0).
  - destruct (anz _); [injection H as <-; apply at_state; auto; apply show_flat; [|exact W2s]|
      destruct (anz _); injection H as <-; apply at_state; auto; [apply show_flat; [|exact W2s]|apply show_key; [|exact W2s]]].
    + intros [k v] k' Hk. simpl in *. destruct (_ && _); [|destruct Hk]. destruct Hk as [<-|[]]. auto.
    + intros [k v] k' Hk. simpl in *. destruct (_ && _); [|destruct Hk]. destruct Hk as [<-|[]]. auto.
    + intros [k v]. simpl. destruct (all_set cs' k); auto.
  - injection H as <-. apply at_state; auto. apply show_flat_in; [|apply show_collect; exact W2s].
    intros [k v] k' Hi Hk. unfold exp_entry in Hk. rewrite (Off k) in Hk; [destruct Hk as [<-|[]]; auto|].
    apply (show_collect _ _ _ C2s). apply in_map_iff. exists (k, v). auto.
Qed.

Lemma one_at : forall s b c q r a s', abook s b -> avalid b c -> spares q c -> settled q r s -> arun1 s c = Ok (a, s') ->
  settled (renamed q c) (value_after q r c) s' /\ says (live b) (fst (draw (rng s))) q r c a.
Proof.
  intros s b c q r a s' B V Sp Se H. pose proof (ab_inv _ _ B) as W. pose proof Se as [l A].
  assert (Qi : forall m, aquietly m = Ok (a, s') -> m = Ok s' /\ a = AUnit).
  { intros m Hm. unfold aquietly in Hm. destruct m; cbn [bind] in Hm; [|discriminate]. injection Hm as <- <-. auto. }
  destruct c; simpl in V, Sp, H |- *; try (apply Qi in H; destruct H as [H ->]).
  - split; auto. exists l. destruct (Nat.eqb_spec t q) as [->|N]; [|cbn [andb]; eapply gate_at; eauto].
    destruct (inverting g) eqn:Gi; cbn [andb].
    + destruct g; try discriminate Gi; [eapply x_flip|eapply y_flip]; eauto.
    + eapply gate_at; [exact A| |exact H]. destruct Sp as [Sp|[Sp|Sp]]; auto. discriminate.
  - split; auto. exists l. eapply mc_at; eauto.
  - split; auto. exists l. eapply phase_at; eauto.
  - split; auto. exists l. eapply exp_at; eauto.
  - split; auto. exists l. eapply exp_at; eauto.
  - split; auto. destruct V as [[D I] [Er [Ec Ti]]]. eapply apply_at; [exact W|exact D| | | |exact Sp|exact Se|exact H]; auto.
    + eapply ab_Forall; eauto.
    + intros i Hi. eapply (ab_dense _ _ B); auto. eapply Nat.lt_le_trans; [exact Hi|]. apply NoDup_incl_length; auto.
  - injection H as <- <-. split; auto. exists l. apply (alloc_at q l r s W A).
  - split; auto. exists l. eapply release_at; eauto. eapply ab_has; eauto.
  - split; auto. destruct V as [Va Vb]. assert (E : (if Nat.eqb a0 q then b0 else if Nat.eqb b0 q then a0 else q) = sw a0 b0 q).
    { unfold sw. rewrite (Nat.eqb_sym q a0), (Nat.eqb_sym q b0). auto. }
    rewrite E. eapply swap_at; eauto; eapply ab_has; eauto.
  - okay H. destruct x as [b1 s1]. injection H as <- <-.
    destruct (ameasure horder_perm s q0 W) as [r' [s2 [loc [E' [[_ [_ R]] _]]]]]; [eapply ab_has; eauto|].
    assert (r' = b1 /\ s2 = s1) as [-> ->] by (split; congruence).
    destruct (measure_at q l r s q0 b1 s1 A E R) as [A1 P]. split; [exists l; auto|]. intros Eq Er.
    destruct (P Eq Er) as [s3 [F ->]]. destruct (amaybe2 horder_perm [q0] s W) as [s3' [F' [K _]]].
    assert (s3' = s3) by congruence. subst s3'. rewrite (k_rng _ _ K). auto.
  - okay H. destruct x as [b1 s1]. injection H as <- <-. split; auto. exists l. eapply joint_at; eauto.
  - okay H. destruct x as [p s1]. injection H as <- <-. destruct (prob_at q l r s qs p s1 A E) as [A1 P]. split; [exists l; auto|].
    destruct qs as [|y [|? ?]]; auto. intros -> Er. auto.
  - okay H. destruct x as [b1 s1]. injection H as <- <-. unfold qubit_is_zero in E. okay E. destruct x as [p s2]. injection E as <- <-.
    destruct (prob_at q l r s [q0] p s2 A E0) as [A1 P]. split; [exists l; auto|]. intros -> Er. now rewrite P.
  - okay H. destruct x as [p s1]. injection H as <- <-. destruct (force_at q l r s v q0 p s1 A E) as [A1 P]. split; [exists l; auto|]. auto.
  - okay H. destruct x as [[st n] s1]. injection H as <- <-. unfold get_state in E. okay E. destruct x as [s2 ks]. injection E as <- <- <-.
    assert (S2 : settled q r s2) by (eapply canon_at; eauto). split; auto.
    destruct (acanon horder_perm s W) as [s3 [E' [P [N L]]]]. rewrite (ab_ids _ _ B) in *. assert (s3 = s2) by congruence. subst s3.
    intros i k v Hi Hk. eapply shown; eauto. apply P.
  - okay H. destruct x as [st s1]. injection H as <- <-. unfold dump in E. okay E. destruct x as [s2 ks]. injection E as <- <-.
    assert (S2 : settled q r s2) by (eapply canon_at; eauto). split.
    + destruct (acanon horder_perm s W) as [s3 [E' [P [N L]]]]. rewrite (ab_ids _ _ B) in *. assert (s3 = s2) by congruence. subst s3.
      destruct S2 as [l2 A2]. exists l2. apply at_state; auto; [apply P|]. eapply show_perm; [apply Permutation_sym, asort_perm|apply a_now with (q := q); auto; apply P].
    + destruct (acanon horder_perm s W) as [s3 [E' [P [N L]]]]. rewrite (ab_ids _ _ B) in *. assert (s3 = s2) by congruence. subst s3.
      intros i k v Hi Hk. eapply shown; eauto. apply P.
Qed.
Lemma run_at : forall h s b q r rs s', abook s b -> avalid_run b h -> spares_all q h -> settled q r s ->
  aexec s h = Ok (rs, s') -> all_say b (rng s) q r h rs.
Proof.
  induction h as [|c h IH]; intros s b q r rs s' B V Sp Se H; cbn [aexec] in H; [injection H as <- <-; exact I|].
  destruct V as [V1 V2]. destruct Sp as [Sp1 Sp2]. okay H. destruct x as [a s1]. okay H. destruct x as [rs1 s2]. injection H as <- <-.
  destruct (one_at s b c q r a s1 B V1 Sp1 Se E) as [Se1 Sy]. split; auto.
  destruct (one_call horder_perm s b c B V1) as [[a' [s1' [E' [B1 [_ Rg]]]]]|[_ X]]; [|congruence].
  assert (a' = a /\ s1' = s1) as [-> ->] by (split; congruence). rewrite <- Rg. eapply IH; eauto.
Qed.
Lemma measured_at : forall s b q r s', abook s b -> In q (live b) -> measure s q = Ok (r, s') -> settled q r s'.
Proof.
  intros s b q r s' B Hq H. pose proof (ab_inv _ _ B) as W.
  destruct (ameasure horder_perm s q W) as [r' [s2 [loc [E [[W2 [M R]] [Q [C [El K]]]]]]]]; [eapply ab_has; eauto|].
  assert (r' = r /\ s2 = s') as [-> ->] by (split; congruence). exists loc. apply at_none; auto.
  - congruence.
  - apply W2.
Qed.

(** From the start. *)
Lemma aexec_app : forall h1 s h2, aexec s (h1 ++ h2) = (let* (rs1, s1) := aexec s h1 in let* (rs2, s2) := aexec s1 h2 in Ok (rs1 ++ rs2, s2)).
Proof.
  induction h1 as [|c h1 IH]; intros s h2; cbn [aexec app].
  - cbn [bind]. destruct (aexec s h2) as [[? ?]|]; reflexivity.
  - destruct (arun1 s c) as [[a s1]|]; cbn [bind]; auto. rewrite IH. destruct (aexec s1 h1) as [[rs1 s2]|]; cbn [bind]; auto.
    destruct (aexec s2 h2) as [[? ?]|]; reflexivity.
Qed.
Lemma abook_after : forall h s b rs s', abook s b -> avalid_run b h -> aexec s h = Ok (rs, s') ->
  abook s' (books b h) /\ rng s' = gen_after b (rng s) h /\ length rs = length h.
Proof.
  induction h as [|c h IH]; intros s b rs s' B V H; cbn [aexec] in H; [injection H as <- <-; simpl; auto|].
  destruct V as [V1 V2]. okay H. destruct x as [a s1]. okay H. destruct x as [rs1 s2]. injection H as <- <-.
  destruct (one_call horder_perm s b c B V1) as [[a' [s1' [E' [B1 [_ Rg]]]]]|[_ X]]; [|congruence].
  assert (a' = a /\ s1' = s1) as [-> ->] by (split; congruence). destruct (IH s1 _ rs1 s2 B1 V2 E0) as [B2 [G L]].
  simpl. rewrite <- Rg. auto.
Qed.
Lemma valid_app : forall h1 b h2, avalid_run b (h1 ++ h2) -> avalid_run b h1 /\ avalid_run (books b h1) h2.
Proof. induction h1 as [|c h1 IH]; intros b h2 H; simpl in *; auto. destruct H as [H1 H2]. apply IH in H2. tauto. Qed.
Theorem settled_thm : forall g h c h' rs a rs' q r s, avalid_run (mkBook [] true) (h ++ c :: h') ->
  aexec (new_sim g) (h ++ c :: h') = Ok (rs ++ a :: rs', s) -> length rs = length h -> settles c a q r -> spares_all q h' ->
  all_say (books (mkBook [] true) (h ++ [c])) (gen_after (mkBook [] true) g (h ++ [c])) q r h' rs'.
Proof.
  intros g h c h' rs a rs' q r s V H Ln St Sp.
  replace (h ++ c :: h') with ((h ++ [c]) ++ h') in V, H by (rewrite <- app_assoc; auto).
  replace (rs ++ a :: rs') with ((rs ++ [a]) ++ rs') in H by (rewrite <- app_assoc; auto).
  apply valid_app in V. destruct V as [V V']. rewrite aexec_app in H. okay H. destruct x as [rs1 s1]. okay H. destruct x as [rs2 s2].
  injection H as H ->.
  destruct (abook_after _ _ _ _ _ (new_abook g) V E) as [B1 [G1 L1]].
  assert (X : rs1 = rs ++ [a] /\ rs2 = rs').
  { rewrite app_length in L1. simpl in L1. clear - H L1 Ln. assert (L : length rs1 = length (rs ++ [a])) by (rewrite app_length; simpl; lia).
    revert L H. generalize (rs ++ [a]). clear. induction rs1 as [|x rs1 IH]; intros [|y l] L H; simpl in *; try discriminate; auto.
    injection L as L. injection H as -> H. destruct (IH l L H) as [-> ->]. auto. }
  destruct X as [-> ->]. change (rng (new_sim g)) with g in G1. rewrite <- G1. eapply run_at; [exact B1|exact V'|exact Sp| |exact E0].
  rewrite aexec_app in E. okay E. destruct x as [rs3 s3]. okay E. destruct x as [l4 s4]. injection E as E ->.
  cbn [aexec] in E2. okay E2. destruct x as [a' s5]. cbn [bind] in E2. injection E2 as <- ->. rename E3 into E2. apply app_inj_tail in E. destruct E as [-> ->].
  apply valid_app in V. destruct V as [V0 [Vc _]]. destruct (abook_after _ _ _ _ _ (new_abook g) V0 E1) as [B3 _].
  destruct St as [[-> ->]|[-> [-> ->]]]; cbn [arun1] in E2.
  - okay E2. destruct x as [r' s6]. injection E2 as -> ->. eapply measured_at; [exact B3|exact Vc|exact E].
  - pose proof (fresh_at s3 (ab_inv _ _ B3)) as F. destruct (allocate s3) as [s6 x] eqn:Ea. cbn in F. injection E2 as -> ->. exact F.
Qed.

(** ** The probability told is the one used *)
Lemma tidy_flush : forall qs s, Forall (calm s) qs -> maybe_flush_queue s qs LHRxRy = Ok s.
Proof.
  intros qs s F. unfold maybe_flush_queue. assert (E : existsb (has_queued_hrxy s) qs = false); [|rewrite E; auto].
  induction F as [|q qs [C1 [C2 C3]] F IH]; simpl; auto. rewrite IH. unfold has_queued_hrxy.
  rewrite C1. apply im_contains_false in C2, C3. now rewrite C2, C3.
Qed.
Definition apart (s : sim) (locs : list nat) : prb :=
  fold_left (fun acc iv => if masked_parity (mask_of locs) (fst iv) then padd acc (psqr (snd iv)) else acc) (state s) prb0.
Lemma cjp_again : forall s locs, op_queue s = [] -> check_joint_probability s locs = Ok (apart s locs, s).
Proof.
  intros s locs Q. unfold check_joint_probability, take_ops. rewrite Q. cbn [mapM bind].
  match goal with |- context [map (apply_ops ?o) ?x] =>
    replace (map (apply_ops o) x) with (state s) by (unfold apply_ops; simpl; symmetry; apply map_id) end.
  unfold apart. destruct s; simpl in *; subst. reflexivity.
Qed.
Lemma cjp_told : forall s locs p s', check_joint_probability s locs = Ok (p, s') -> p = apart s' locs /\ op_queue s' = [].
Proof.
  intros s locs p s' H. unfold check_joint_probability in H. okay H. destruct x as [ops s1]. unfold take_ops in E. okay E.
  injection E as -> <-. injection H as <- <-. split; reflexivity.
Qed.
Lemma told_joint : forall s qs p s1 b s2, inv s -> NoDup qs -> Forall (has (id_map s)) qs -> joint_probability s qs = Ok (p, s1) ->
  joint_measure s1 qs = Ok (b, s2) -> b = plt (fst (draw (rng s))) p.
Proof.
  intros s qs p s1 b s2 W D F H M. unfold joint_probability in H. destruct (amaybe horder_perm qs s W) as [s0 [E0 [K [_ C]]]].
  rewrite E0 in H. cbn [bind] in H. okay H. rename x0 into locs. clear E x.
  destruct (acjp s0 locs (k_inv _ _ K)) as [p' [st [E _]]]. assert (p' = p /\ s1 = with_state (with_ops s0 []) st) as [-> Es] by (split; congruence).
  destruct (cjp_told _ _ _ _ H) as [Ep Q]. unfold joint_measure in M.
  rewrite tidy_flush in M by (subst s1; exact C). cbn [bind] in M. rewrite acheck in M by auto. cbn [bind] in M.
  assert (El : mapM (find_qubit s1) qs = Ok locs) by (subst s1; exact E1). rewrite El in M. cbn [bind] in M.
  destruct (draw (rng s1)) as [x g] eqn:Dr. rewrite cjp_again in M by (exact Q). cbn [bind] in M. injection M as <- _.
  assert (Er : rng s1 = rng s) by (subst s1; exact (k_rng _ _ K)). rewrite <- Er, Dr. simpl. rewrite Ep. reflexivity.
Qed.
Lemma told_one : forall s q p s1 b s2, inv s -> has (id_map s) q -> joint_probability s [q] = Ok (p, s1) ->
  measure s1 q = Ok (b, s2) -> b = plt (fst (draw (rng s))) p.
Proof.
  intros s q p s1 b s2 W F H M. apply (told_joint s [q] p s1 b s2 W (nd1 q)); auto. unfold joint_measure. unfold measure in M.
  destruct (maybe_flush_queue s1 [q] LHRxRy) as [s3|]; [|discriminate]. cbn [bind] in M |- *. rewrite acheck by apply nd1. cbn [bind mapM].
  destruct (find_qubit s3 q); [|discriminate]. cbn [bind] in M |- *. exact M.
Qed.
Theorem told_thm : forall g h rs p b s qs c, avalid_run (mkBook [] true) (h ++ [AJointProb qs; c]) ->
  c = AJointMeasure qs \/ (exists q, qs = [q] /\ c = AMeasure q) ->
  aexec (new_sim g) (h ++ [AJointProb qs; c]) = Ok (rs ++ [AProb p; ABit b], s) ->
  b = plt (fst (draw (gen_after (mkBook [] true) g h))) p.
Proof.
  intros g h rs p b s qs c V Hc H. apply valid_app in V. destruct V as [V0 [[D I] _]]. rewrite aexec_app in H. okay H. destruct x as [rs1 s1].
  destruct (abook_after _ _ _ _ _ (new_abook g) V0 E) as [B [G _]]. okay H. destruct x as [rs2 s2]. injection H as H ->.
  cbn [aexec] in E0. okay E0. destruct x as [a s3]. okay E0. destruct x as [l s4]. injection E0 as <- ->.
  okay E2. destruct x as [a' s5]. cbn [bind] in E2. injection E2 as <- ->.
  change [a; a'] with ([a] ++ [a']) in H. change [AProb p; ABit b] with ([AProb p] ++ [ABit b]) in H. rewrite !app_assoc in H.
  apply app_inj_tail in H. destruct H as [H ->]. apply app_inj_tail in H. destruct H as [_ ->].
  cbn [arun1] in E1. okay E1. destruct x as [p' s6]. injection E1 as -> ->. change (rng (new_sim g)) with g in G. rewrite <- G.
  pose proof (ab_inv _ _ B) as W. pose proof (ab_Forall _ _ _ B I) as F.
  destruct Hc as [->|[q [-> ->]]]; cbn [arun1] in E0; okay E0; destruct x as [b' s7]; injection E0 as -> ->.
  - apply (told_joint s1 qs p s3 b s W D F); auto.
  - apply (told_one s1 q p s3 b s W); auto. inversion F; auto.
Qed.

(** ** A qubit with the value 0 *)
Lemma zero_reads : forall h b g q r rs, (forall g, plt (fst (draw g)) prb0 = false) -> all_say b g q r h rs -> zeros_read q r h rs.
Proof.
  induction h as [|c h IH]; intros b g q r [|a rs] P H; simpl in *; auto. destruct H as [H1 H2]. split; [|eapply IH; eauto].
  destruct c; auto. destruct a; auto. intros -> Er. simpl in H1. rewrite H1 by auto. auto.
Qed.
End Settled.
