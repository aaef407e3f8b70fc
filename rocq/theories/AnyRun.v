(** * Whole histories over any arithmetic *)
From Coq Require Import NArith List Bool Lia Permutation Arith Sorted.
From Verif Require Import Arith IndexMap IndexMapLemmas Bits BitsLemmas Spec QLib QSum Sim SimExp SimApply StateLemmas
  Loc Abs Gates2 Reg Meas ExpLemmas ApplyLemmas RunLemmas SpecRun SpecAny Any.
Import ListNotations.

Section Any.
Context {AR : Arith} {EN : Env}.
Hypothesis horder_perm : any_order.

Ltac chain K L := split; [eapply kept_t; [exact K|eassumption]|eapply less_t; [exact L|eassumption]].
Ltac nothing s := exists s; split; [reflexivity|]; split; [apply kept_r; auto|apply less_r].
Notation KL s s' := (kept s s' /\ less s s').

(** ** Controlled gates *)
Lemma aflush : forall lv qs s, inv s -> exists s', flush_queue s qs lv = Ok s' /\ KL s s'.
Proof. intros lv qs s W. destruct (aflush_queue horder_perm lv qs s W) as [s1 [-> [K [L _]]]]. exists s1. auto. Qed.
Lemma amaybe2 : forall qs s, inv s -> exists s', maybe_flush_queue s qs LHRxRy = Ok s' /\ KL s s'.
Proof. intros qs s W. destruct (amaybe horder_perm qs s W) as [s1 [-> [K [L _]]]]. exists s1. auto. Qed.
Lemma aif : forall (c : bool) (m : res sim) s, inv s -> (exists s', m = Ok s' /\ KL s s') ->
  exists s', (if c then m else Ok s) = Ok s' /\ KL s s'.
Proof. intros [] m s W H; auto. nothing s. Qed.
Lemma has_swap : forall m t c0, Forall (has m) [t; c0] -> Forall (has m) [c0; t].
Proof. intros m t c0 H. inversion H; subst. inversion H3; subst. repeat constructor; auto. Qed.
Lemma nd_swap : forall t c0 : nat, NoDup [t; c0] -> NoDup [c0; t].
Proof. intros t c0 H. eapply Permutation_NoDup; [|exact H]. apply perm_swap. Qed.

Lemma amcx : forall cs t, good2 gate_mcx cs t.
Proof.
  intros cs t s W D A. unfold gate_mcx. destruct cs as [|c0 rest].
  { inversion A; subst. apply ax; auto. }
  destruct (aif (im_contains (ry_queue s) t) (flush_queue s [t] LHRxRy) s W (aflush LHRxRy [t] s W)) as [s1 [-> [K1 L1]]]. simpl.
  assert (P : exists s2, match rest with
         | _ :: _ => maybe_flush_queue s1 (c0 :: rest) LHRxRy
         | [] =>
             if im_contains (ry_queue s1) c0 || im_contains (rx_queue s1) c0
                || (bit (h_flag s1) c0 && negb (bit (h_flag s1) t))
             then flush_queue s1 (c0 :: rest) LHRxRy else Ok s1
         end = Ok s2 /\ KL s1 s2).
  { destruct rest.
    - apply aif; [apply K1|]. apply aflush. apply K1.
    - apply amaybe2. apply K1. }
  destruct P as [s2 [-> [K2 L2]]]. simpl.
  pose proof (kept_t _ _ _ K1 K2) as K. pose proof (less_t _ _ _ L1 L2) as L.
  assert (A2 := kept_has _ _ _ K A).
  assert (Q : forall t0 cs0 o, NoDup (t0 :: cs0) -> Forall (has (id_map s2)) (t0 :: cs0) ->
    exists s', enqueue_op s2 t0 cs0 o = Ok s' /\ KL s s').
  { intros t0 cs0 o D0 A0. destruct (aenqueue s2 t0 cs0 o (k_inv _ _ K) D0 A0) as [s3 [-> [K3 L3]]]. exists s3. split; auto. chain K L. }
  destruct (bit (h_flag s2) t); [|apply Q; auto]. destruct rest as [|c1 rest]; [|apply Q; auto].
  destruct (bit (h_flag s2) c0); apply Q; auto using has_swap, nd_swap.
Qed.
Lemma amcy : forall cs t, good2 gate_mcy cs t.
Proof.
  intros cs t s W D A. unfold gate_mcy. destruct cs as [|c0 rest].
  { inversion A; subst. apply ay; auto. }
  destruct (amaybe2 (c0 :: rest) s W) as [s1 [-> [K1 L1]]]. simpl.
  destruct (aif (im_contains (rx_queue s1) t) (flush_queue s1 [t] LHRx) s1 (k_inv _ _ K1) (aflush LHRx [t] s1 (k_inv _ _ K1))) as [s2 [-> [K2 L2]]]. simpl.
  assert (A2 := kept_has _ _ _ (kept_t _ _ _ K1 K2) A).
  assert (P : exists s3, (if bit (h_flag s2) t then enqueue_op s2 c0 rest OZ else Ok s2) = Ok s3 /\ KL s2 s3).
  { apply aif; [apply K2|]. inversion D; subst. inversion A2; subst. apply aenqueue; auto. apply K2. }
  destruct P as [s3 [-> [K3 L3]]]. simpl.
  pose proof (kept_t _ _ _ K1 (kept_t _ _ _ K2 K3)) as K. pose proof (less_t _ _ _ L1 (less_t _ _ _ L2 L3)) as L.
  destruct (aenqueue s3 t (c0 :: rest) OY (k_inv _ _ K) D (kept_has _ _ _ K A)) as [s4 [-> [K4 L4]]]. exists s4. split; auto. chain K L.
Qed.
Lemma amcrotation : forall s cs th t b, inv s -> NoDup (t :: cs) -> Forall (has (id_map s)) (t :: cs) ->
  exists s', mcrotation s cs th t b = Ok s' /\ KL s s'.
Proof. intros. unfold mcrotation. apply arotation; auto using amcx, amcy. Qed.

Lemma amcz : forall cs t, good2 gate_mcz cs t.
Proof.
  intros cs t s W D A. unfold gate_mcz. destruct cs as [|c0 rest].
  { inversion A; subst. apply az; auto. }
  remember (c0 :: rest) as cs eqn:Ecs. cbv zeta. match goal with |- context[if ?c then _ else _] => destruct c end.
  - destruct (find (fun c => bit (h_flag s) c) cs) as [hc|] eqn:F.
    + apply find_some in F. destruct F as [I _].
      assert (P : Permutation (t :: cs) (hc :: map (fun c => if Nat.eqb c hc then t else c) cs)) by (apply replace_perm; auto; inversion D; auto).
      apply aenqueue; auto; [eapply Permutation_NoDup; eauto|]. eapply Permutation_Forall; eauto.
    + apply aenqueue; auto.
  - destruct (aflush LHRxRy cs s W) as [s1 [-> [K1 L1]]]. simpl.
    destruct (aflush LHRxRy [t] s1 (k_inv _ _ K1)) as [s2 [-> [K2 L2]]]. simpl.
    pose proof (kept_t _ _ _ K1 K2) as K. pose proof (less_t _ _ _ L1 L2) as L.
    destruct (aenqueue s2 t cs OZ (k_inv _ _ K) D (kept_has _ _ _ K A)) as [s4 [-> [K4 L4]]]. exists s4. split; auto. chain K L.
Qed.
Lemma adiag : forall o s t, inv s -> has (id_map s) t -> exists s', gate_diag o s t = Ok s' /\ KL s s'.
Proof.
  intros o s t W A. unfold gate_diag. destruct (amaybe2 [t] s W) as [s1 [-> [K L]]]. simpl.
  destruct (aenqueue s1 t [] o (k_inv _ _ K) (nd1 t)) as [s2 [-> [K2 L2]]].
  { constructor; auto. eapply kept_has1; eauto. }
  exists s2. split; auto. chain K L.
Qed.
Lemma amcdiag : forall o cs t, good2 (gate_mcdiag o) cs t.
Proof.
  intros o cs t s W D A. unfold gate_mcdiag. destruct (amaybe2 cs s W) as [s1 [-> [K1 L1]]]. simpl.
  destruct (amaybe2 [t] s1 (k_inv _ _ K1)) as [s2 [-> [K2 L2]]]. simpl.
  pose proof (kept_t _ _ _ K1 K2) as K. pose proof (less_t _ _ _ L1 L2) as L.
  destruct (aenqueue s2 t cs o (k_inv _ _ K) D (kept_has _ _ _ K A)) as [s4 [-> [K4 L4]]]. exists s4. split; auto. chain K L.
Qed.
Lemma ah : forall s t, inv s -> has (id_map s) t -> exists s', gate_h s t = Ok s' /\ kept s s'.
Proof.
  intros s t W A. unfold gate_h. cbv zeta. destruct (neg_ry s t W) as [K L]. set (s1 := with_ry s _) in *.
  destruct (aif (im_contains (rx_queue s1) t) (flush_queue s1 [t] LHRx) s1 (k_inv _ _ K) (aflush LHRx [t] s1 (k_inv _ _ K))) as [s2 [-> [K2 L2]]]. simpl.
  eexists. split; [reflexivity|]. pose proof (kept_t _ _ _ K K2) as K'.
  split; [|apply K'|apply K']. apply inv_hf; [apply K'|]. intros q. rewrite bit_set.
  destruct (Nat.eqb_spec t q); [subst; intros _; eapply kept_has1; eauto|]. apply (i_h _ (k_inv _ _ K')).
Qed.
Lemma amch_gate : forall cs t s, inv s -> NoDup (t :: cs) -> Forall (has (id_map s)) (t :: cs) -> exists s', gate_mch s cs t = Ok s' /\ kept s s'.
Proof.
  intros cs t s W D A. unfold gate_mch. destruct (aflush LHRxRy cs s W) as [s1 [-> [K1 L1]]]. simpl.
  match goal with |- context[if ?c then ?m else Ok s1] =>
    destruct (aif c m s1 (k_inv _ _ K1) (aflush LHRxRy [t] s1 (k_inv _ _ K1))) as [s2 [-> [K2 L2]]] end. simpl.
  pose proof (kept_t _ _ _ K1 K2) as K.
  destruct (amch horder_perm s2 cs t (k_inv _ _ K) D (kept_has _ _ _ K A)) as [s3 [-> [K3 _]]]. exists s3. split; auto. eapply kept_t; eauto.
Qed.
Lemma queue_angle_some : forall (q : imap ang) t th k a, im_get (queue_angle q t th) k = Some a -> k = t \/ exists b, im_get q k = Some b.
Proof.
  intros q t th k a. unfold queue_angle. destruct (im_get q t) as [old|] eqn:E.
  - destruct (tnz (tadd old th)); [intros H; apply rem_some in H|intros H]; right; eapply upd_some; eauto.
  - rewrite im_get_insert. destruct (Nat.eqb_spec t k); [auto|]. intros; right; eauto.
Qed.
Lemma arx : forall s th t, inv s -> has (id_map s) t -> exists s', gate_rx s th t = Ok s' /\ kept s s'.
Proof.
  intros s th t W A. unfold gate_rx.
  match goal with |- context[if ?c then ?m else Ok s] => destruct (aif c m s W (aflush LHRxRy [t] s W)) as [s1 [-> [K L]]] end. simpl.
  eexists. split; [reflexivity|]. split; [|apply K|apply K]. apply inv_rx; [apply K|].
  intros k a H. apply queue_angle_some in H. destruct H as [->|[b H]]; [eapply kept_has1; eauto|eapply (i_rx _ (k_inv _ _ K)); eauto].
Qed.
Lemma ary : forall s th t, inv s -> has (id_map s) t -> exists s', gate_ry s th t = Ok s' /\ kept s s'.
Proof.
  intros s th t W A. unfold gate_ry. eexists. split; [reflexivity|]. split; auto. apply inv_ry; auto.
  intros k a H. apply queue_angle_some in H. destruct H as [->|[b H]]; auto. eapply (i_ry _ W); eauto.
Qed.
Lemma amcrx : forall s cs th t, inv s -> NoDup (t :: cs) -> Forall (has (id_map s)) (t :: cs) -> exists s', gate_mcrx s cs th t = Ok s' /\ kept s s'.
Proof.
  intros s cs th t W D A. unfold gate_mcrx. destruct (aflush LHRxRy cs s W) as [s1 [-> [K1 L1]]]. simpl.
  assert (P : exists s2, (if im_contains (ry_queue s1) t then flush_queue s1 [t] LHRxRy
              else if bit (h_flag s1) t then flush_queue s1 [t] LH else Ok s1) = Ok s2 /\ KL s1 s2).
  { destruct (im_contains (ry_queue s1) t); [apply aflush, K1|]. apply aif; [apply K1|apply aflush, K1]. }
  destruct P as [s2 [-> [K2 L2]]]. simpl. pose proof (kept_t _ _ _ K1 K2) as K.
  destruct (amcrotation s2 cs th t false (k_inv _ _ K) D (kept_has _ _ _ K A)) as [s3 [-> [K3 _]]]. exists s3. split; auto. eapply kept_t; eauto.
Qed.
Lemma amcry : forall s cs th t, inv s -> NoDup (t :: cs) -> Forall (has (id_map s)) (t :: cs) -> exists s', gate_mcry s cs th t = Ok s' /\ kept s s'.
Proof.
  intros s cs th t W D A. unfold gate_mcry. destruct (aflush LHRxRy cs s W) as [s1 [-> [K1 L1]]]. simpl.
  assert (P : exists s2, (if im_contains (rx_queue s1) t then flush_queue s1 [t] LHRx
              else if bit (h_flag s1) t then flush_queue s1 [t] LH else Ok s1) = Ok s2 /\ KL s1 s2).
  { destruct (im_contains (rx_queue s1) t); [apply aflush, K1|]. apply aif; [apply K1|apply aflush, K1]. }
  destruct P as [s2 [-> [K2 L2]]]. simpl. pose proof (kept_t _ _ _ K1 K2) as K.
  destruct (amcrotation s2 cs th t true (k_inv _ _ K) D (kept_has _ _ _ K A)) as [s3 [-> [K3 _]]]. exists s3. split; auto. eapply kept_t; eauto.
Qed.
Lemma stok_keys : forall m st st', keys st' = keys st -> stok m st -> stok m st'.
Proof. unfold stok. intros m st st' -> H. auto. Qed.
Lemma kept_state : forall s s1 st, kept s s1 -> stok (id_map s1) st -> kept s (with_state s1 st).
Proof. intros s s1 st K S. split; [|apply K|apply K]. apply inv_state; auto. apply K. Qed.
Lemma aphase : forall s cs p t, inv s -> NoDup (t :: cs) -> Forall (has (id_map s)) (t :: cs) -> exists s', gate_mcphase s cs p t = Ok s' /\ kept s s'.
Proof.
  intros s cs p t W D A. unfold gate_mcphase. destruct (aflush LHRxRy cs s W) as [s1 [-> [K1 L1]]]. simpl.
  destruct (aflush LHRxRy [t] s1 (k_inv _ _ K1)) as [s2 [-> [K2 L2]]]. simpl.
  pose proof (kept_t _ _ _ K1 K2) as K.
  destruct (aresolve_loc s2 t cs (k_inv _ _ K) D (kept_has _ _ _ K A)) as [t' [cs' [-> _]]]. simpl.
  eexists. split; [reflexivity|]. apply kept_state; auto. eapply stok_keys; [|apply (i_st _ (k_inv _ _ K))].
  unfold keys. rewrite map_map. apply map_ext. intros [k v]. simpl. destruct (all_set cs' k); auto.
Qed.

Lemma agate_ok : forall g s t, inv s -> has (id_map s) t -> exists s', agate_call g s t = Ok s' /\ kept s s'.
Proof.
  intros g s t W A. destruct g; simpl; try (now apply ah); try (now apply arx); try (now apply ary).
  - destruct (ax s t W A) as [s' [? [? _]]]; eauto.
  - destruct (ay s t W A) as [s' [? [? _]]]; eauto.
  - destruct (az s t W A) as [s' [? [? _]]]; eauto.
  - destruct (adiag OS s t W A) as [s' [? [? _]]]; eauto.
  - destruct (adiag OSadj s t W A) as [s' [? [? _]]]; eauto.
  - destruct (adiag OT s t W A) as [s' [? [? _]]]; eauto.
  - destruct (adiag OTadj s t W A) as [s' [? [? _]]]; eauto.
  - destruct (adiag (ORz th) s t W A) as [s' [? [? _]]]; eauto.
Qed.
Lemma amc_ok : forall g s cs t, inv s -> NoDup (t :: cs) -> Forall (has (id_map s)) (t :: cs) -> exists s', amc_call g s cs t = Ok s' /\ kept s s'.
Proof.
  intros g s cs t W D A. destruct g; simpl; try (now apply amch_gate); try (now apply amcrx); try (now apply amcry).
  - destruct (amcx cs t s W D A) as [s' [? [? _]]]; eauto.
  - destruct (amcy cs t s W D A) as [s' [? [? _]]]; eauto.
  - destruct (amcz cs t s W D A) as [s' [? [? _]]]; eauto.
  - destruct (amcdiag OS cs t s W D A) as [s' [? [? _]]]; eauto.
  - destruct (amcdiag OSadj cs t s W D A) as [s' [? [? _]]]; eauto.
  - destruct (amcdiag OT cs t s W D A) as [s' [? [? _]]]; eauto.
  - destruct (amcdiag OTadj cs t s W D A) as [s' [? [? _]]]; eauto.
  - destruct (amcdiag (ORz th) cs t s W D A) as [s' [? [? _]]]; eauto.
Qed.

(** ** Pauli exponentials *)
Lemma exp_stok : forall m cs l idc pc pca mm, (forall c, In c cs -> ~ In c (map snd l)) -> Forall (has_loc m) (map snd l) ->
  pmask is_xy l <> 0%N -> stok m mm ->
  stok m (flat_map (exp_entry cs (pmask is_xy l) (pmask is_yz l) idc pc pca mm) mm).
Proof.
  intros m cs l idc pc pca mm Dcs HL Hx [H1 H2].
  set (xy := pmask is_xy l) in *. set (yz := pmask is_yz l) in *.
  set (phi := fun k => N.lxor k xy).
  assert (Pi : forall k, phi (phi k) = k).
  { intros. unfold phi. rewrite N.lxor_assoc, N.lxor_nilpotent, N.lxor_0_r. auto. }
  assert (Pne : forall k, phi k <> k).
  { intros k E. apply Hx. unfold phi in E. apply (f_equal (N.lxor k)) in E.
    rewrite <- N.lxor_assoc, N.lxor_nilpotent in E. rewrite N.lxor_0_l in E. auto. }
  assert (Cp : forall k, all_set cs (phi k) = all_set cs k).
  { intros. unfold all_set. clear - Dcs. revert Dcs. unfold phi, xy. induction cs; simpl; intros; auto.
    rewrite IHcs by auto. f_equal. unfold bit. rewrite N.lxor_spec.
    fold (bit (pmask is_xy l) a). rewrite pmask_out by auto. apply xorb_false_r. }
  assert (N : NoDup (keys (flat_map (exp_entry cs xy yz idc pc pca mm) mm))).
  { eapply (pair_nodup phi (all_set cs) (fun k => negb (N.ltb k (phi k)))) with
      (s0 := fun k v => amul v idc) (s1 := fun k v => amul v (if masked_parity yz k then aopp pc else pc))
      (t0 := fun k v w => anz (aadd (amul v idc) (amul w (if masked_parity yz k then aopp pca else pca))))
      (t1 := fun k v w => anz (aadd (amul w idc) (amul v (if masked_parity yz k then aopp pc else pc))))
      (p0 := fun k v w => aadd (amul v idc) (amul w (if masked_parity yz k then aopp pca else pca)))
      (p1 := fun k v w => aadd (amul w idc) (amul v (if masked_parity yz k then aopp pc else pc))); auto.
    - intros k. rewrite Pi. destruct (N.ltb_spec (phi k) k); destruct (N.ltb_spec k (phi k)); auto; exfalso;
        [lia|specialize (Pne k); lia].
    - intros k v H. unfold exp_entry. rewrite H. auto.
    - intros k v H G. unfold exp_entry. rewrite H. fold (phi k). rewrite G. apply Permutation_refl.
    - intros k v w H G S. unfold exp_entry. rewrite H. fold (phi k). rewrite G.
      apply negb_true_iff in S. rewrite S. auto.
    - intros k v w H G S. unfold exp_entry. rewrite H. fold (phi k). rewrite G.
      apply negb_false_iff in S. rewrite S. reflexivity. }
  split; auto. intros k Hk i Hi. unfold keys in Hk. apply in_map_iff in Hk. destruct Hk as [[k' v'] [E Hk]]. simpl in E. subst k'.
  apply in_flat_map in Hk. destruct Hk as [[k0 v0] [Hk0 Hk]]. pose proof (In_keys _ _ _ Hk0) as K0.
  assert (Z : k = k0 \/ k = phi k0).
  { unfold exp_entry in Hk. fold (phi k0) in Hk. destruct (all_set cs k0); [|destruct Hk as [Hk|[]]; inversion Hk; auto].
    destruct (hm_get mm (phi k0)).
    - destruct (N.ltb k0 (phi k0)); [|destruct Hk]. apply in_app_or in Hk.
      destruct Hk as [Hk|Hk]; match type of Hk with context[if ?c then _ else _] => destruct c end; simpl in Hk; try contradiction;
        destruct Hk as [Hk|[]]; inversion Hk; auto.
    - destruct Hk as [Hk|[Hk|[]]]; inversion Hk; auto. }
  destruct Z as [-> | ->]; [eapply H2; eauto|].
  unfold phi in Hi. rewrite bit_lxor in Hi. destruct (bit k0 i) eqn:B; [eapply H2; eauto|]. rewrite xorb_false_l in Hi.
  apply bit_pmask in Hi. rewrite Forall_forall in HL. apply HL; auto.
Qed.
Lemma resolved_locs : forall m qs ls, Forall2 (resolved m) qs ls -> Forall (has_loc m) ls.
Proof. induction 1; constructor; auto. exists x; auto. Qed.
Lemma f2_length {X Y} : forall (R : X -> Y -> Prop) a b, Forall2 R a b -> length a = length b.
Proof. induction 1; simpl; auto. Qed.
Lemma combine_snd_in {X Y} : forall (a : list X) (b : list Y) y, In y (map snd (combine a b)) -> In y b.
Proof. induction a; destruct b; simpl; intros; try tauto. destruct H; auto. Qed.
Lemma NoDup_app_parts {X} : forall (a b : list X), NoDup (a ++ b) -> forall x, In x a -> ~ In x b.
Proof.
  induction a; simpl; intros b H x; [tauto|]. inversion H; subst. intros [->|I] J; [|eapply IHa; eauto].
  apply H2. apply in_or_app. auto.
Qed.
Lemma aexp : forall s cs ps th ts, inv s -> NoDup (cs ++ ts) -> Forall (has (id_map s)) (cs ++ ts) -> length ps <= length ts ->
  exists s', mcexp s cs ps th ts = Ok s' /\ kept s s'.
Proof.
  intros s cs ps th ts W D A Lp. unfold mcexp. destruct (aflush LHRxRy cs s W) as [s1 [-> [K1 L1]]]. simpl.
  destruct (aflush LHRxRy ts s1 (k_inv _ _ K1)) as [s2 [-> [K2 L2]]]. simpl.
  pose proof (kept_t _ _ _ K1 K2) as K. assert (A2 := kept_has _ _ _ K A). apply Forall_app in A2. destruct A2 as [Ac At].
  destruct (amapM_find s2 cs Ac) as [cs' [-> Rc]]. simpl. destruct (amapM_find s2 ts At) as [ts' [-> Rt]]. simpl.
  assert (Dl : NoDup (cs' ++ ts')).
  { eapply (resolved_nodup (id_map s2) (cs ++ ts)); [apply (k_inv _ _ K)|apply Forall2_app; auto|auto]. }
  assert (Ad : adjacent_dup (sort_nat (cs' ++ ts')) = None).
  { apply adjacent_dup_none. apply sorted_le_lt; [apply sort_nat_sorted|].
    eapply Permutation_NoDup; [apply Permutation_sym, sort_nat_perm|auto]. }
  rewrite Ad. assert (Lt : length ts' = length ts) by (symmetry; eapply f2_length; eauto).
  pose proof (exp_masks_ok ps [] ts' 0%N 0%N 0) as EM. rewrite Lt in EM. specialize (EM Lp). simpl in EM. rewrite EM. cbn [bind].
  destruct (i_st _ (k_inv _ _ K)) as [S1 S2].
  assert (Fl : forall (p : N -> bool) (w : amp), kept s (with_state s2 (flat_map (fun iv => if p (fst iv) then [(fst iv, amul (snd iv) w)] else []) (state s2)))).
  { intros p w. apply kept_state; auto. unfold stok. rewrite (keys_flat_map_filter p (fun _ v => amul v w)). split; [apply NoDup_filter; auto|].
    intros k Hk. apply filter_In in Hk. apply S2; tauto. }
  destruct (N.eqb_spec (pmask is_xy (combine ps ts')) 0) as [Ex|Ex].
  - destruct (anz (aadd (amul ampi (sfull th)) (cfull th))).
    + eexists. split; [reflexivity|]. apply (Fl (fun k => all_set cs' k && masked_parity (pmask is_yz (combine ps ts')) k)).
    + match goal with |- context[if anz ?c then _ else _] => destruct (anz c) end.
      * eexists. split; [reflexivity|]. apply (Fl (fun k => all_set cs' k && masked_parity (pmask is_yz (combine ps ts')) k)).
      * eexists. split; [reflexivity|]. apply kept_state; auto. eapply stok_keys; [|apply (i_st _ (k_inv _ _ K))].
        unfold keys. rewrite map_map. apply map_ext. intros [k v]. simpl. destruct (all_set cs' k); auto.
  - eexists. split; [reflexivity|]. apply kept_state; auto. apply exp_stok; auto.
    + intros c Hc Hi. apply combine_snd_in in Hi. eapply (NoDup_app_parts cs' ts'); eauto.
    + apply Forall_forall. intros x Hx. apply combine_snd_in in Hx. pose proof (resolved_locs _ _ _ Rt) as F. rewrite Forall_forall in F. auto.
    + apply stok_collect; auto. split; auto.
Qed.

(** ** Measurement *)
Lemma acjp : forall s locs, inv s -> exists p st, check_joint_probability s locs = Ok (p, with_state (with_ops s []) st) /\ stok (id_map s) st.
Proof.
  intros s locs W. unfold check_joint_probability. destruct (atake s W) as [ops [-> S]]. simpl. eauto.
Qed.
Lemma acollapse : forall s locs v p, inv s -> op_queue s = [] -> NoDup locs ->
  kept s (joint_collapse s locs v p) /\ forall k, In k (keys (state (joint_collapse s locs v p))) -> par locs k = v.
Proof.
  intros s locs v p W Q D. unfold joint_collapse. cbv zeta. set (w := pscale _).
  pose proof (keys_flat_map_filter (fun k => Bool.eqb (masked_parity (mask_of locs) k) v) (fun _ x => amul x w) (state s)) as E. simpl in E.
  destruct (i_st _ W) as [S1 S2]. split.
  - apply kept_state; [apply kept_r; auto|]. split; rewrite E; [apply NoDup_filter; auto|].
    intros k Hk. apply filter_In in Hk. apply S2; tauto.
  - simpl. rewrite E. intros k Hk. apply filter_In in Hk. destruct Hk as [_ Hk]. unfold masked_parity in Hk. rewrite mask_parity in Hk by auto.
    apply eqb_prop; auto.
Qed.
Definition sampled (s s' : sim) : Prop := inv s' /\ id_map s' = id_map s /\ rng s' = snd (draw (rng s)).
Lemma inv_rng : forall s g, inv s -> inv (with_rng s g).
Proof. intros s g []. split; auto. Qed.
Lemma ajoint : forall s ids, inv s -> NoDup ids -> Forall (has (id_map s)) ids ->
  exists r s' locs, joint_measure s ids = Ok (r, s') /\ sampled s s' /\ op_queue s' = [] /\ Forall (calm s') ids /\
    Forall2 (resolved (id_map s)) ids locs /\ forall k, In k (keys (state s')) -> par locs k = r.
Proof.
  intros s ids W D A. unfold joint_measure. destruct (amaybe horder_perm ids s W) as [s1 [-> [K [L C]]]]. simpl.
  rewrite acheck by auto. simpl. destruct (amapM_find s1 ids (kept_has _ _ _ K A)) as [locs [-> R]]. simpl.
  destruct (draw (rng s1)) as [x g] eqn:Dr.
  assert (W2 : inv (with_rng s1 g)) by (apply inv_rng; apply K).
  destruct (acjp (with_rng s1 g) locs W2) as [p [st [-> S]]]. simpl.
  set (s3 := with_state _ st).
  assert (W3 : inv s3) by (apply (inv_taken (with_rng s1 g)); auto).
  assert (Dl : NoDup locs) by (eapply resolved_nodup; [| exact R|auto]; apply K).
  destruct (acollapse s3 locs (plt x p) p W3 eq_refl Dl) as [K3 P3].
  eexists _, _, locs. split; [reflexivity|]. split; [|split; [reflexivity|split; [exact C|split]]].
  - split; [apply K3|]. split; [change (id_map s1 = id_map s); apply K|]. change (rng (joint_collapse s3 locs (plt x p) p)) with g.
    rewrite <- (k_rng _ _ K), Dr. auto.
  - rewrite <- (k_map _ _ K). auto.
  - exact P3.
Qed.
Lemma ameasure : forall s q, inv s -> has (id_map s) q ->
  exists r s' loc, measure s q = Ok (r, s') /\ sampled s s' /\ op_queue s' = [] /\ calm s' q /\
    im_get (id_map s) q = Some loc /\ forall k, In k (keys (state s')) -> bit k loc = r.
Proof.
  intros s q W A. unfold measure. destruct (amaybe horder_perm [q] s W) as [s1 [-> [K [L C]]]]. simpl.
  destruct A as [loc E]. assert (E1 : im_get (id_map s1) q = Some loc) by (rewrite (k_map _ _ K); auto).
  rewrite (afind s1 q loc E1). simpl.
  destruct (draw (rng s1)) as [x g] eqn:Dr.
  assert (W2 : inv (with_rng s1 g)) by (apply inv_rng; apply K).
  destruct (acjp (with_rng s1 g) [loc] W2) as [p [st [-> S]]]. simpl.
  set (s3 := with_state _ st). unfold collapse.
  assert (W3 : inv s3) by (apply (inv_taken (with_rng s1 g)); auto).
  destruct (acollapse s3 [loc] (plt x p) p W3 eq_refl (nd1 loc)) as [K3 P3].
  eexists _, _, loc. split; [reflexivity|]. split; [|split; [reflexivity|split; [inversion C; auto|split; auto]]].
  - split; [apply K3|]. split; [change (id_map s1 = id_map s); apply K|]. change (rng (joint_collapse s3 [loc] (plt x p) p)) with g.
    rewrite <- (k_rng _ _ K), Dr. auto.
  - intros k Hk. apply P3 in Hk. unfold par in Hk. simpl in Hk. rewrite xorb_false_r in Hk. auto.
Qed.
Lemma aprob : forall s ids, inv s -> NoDup ids -> Forall (has (id_map s)) ids ->
  exists p s', joint_probability s ids = Ok (p, s') /\ kept s s'.
Proof.
  intros s ids W D A. unfold joint_probability. destruct (amaybe2 ids s W) as [s1 [-> [K L]]]. simpl.
  rewrite acheck by auto. simpl. destruct (amapM_find s1 ids (kept_has _ _ _ K A)) as [locs [-> R]]. simpl.
  destruct (acjp s1 locs (k_inv _ _ K)) as [p [st [-> S]]]. eexists _, _. split; [reflexivity|].
  eapply kept_t; [exact K|]. apply kept_taken; auto. apply K.
Qed.
Lemma aforce : forall s v q, inv s -> has (id_map s) q -> exists p s', force_collapse s v q = Ok (p, s') /\ kept s s'.
Proof.
  intros s v q W [loc E]. unfold force_collapse. destruct (amaybe2 [q] s W) as [s1 [-> [K L]]]. simpl.
  assert (E1 : im_get (id_map s1) q = Some loc) by (rewrite (k_map _ _ K); auto).
  rewrite (afind s1 q loc E1). simpl. destruct (acjp s1 [loc] (k_inv _ _ K)) as [p [st [-> S]]]. simpl.
  assert (K2 : kept s1 (with_state (with_ops s1 []) st)) by (apply kept_taken; auto; apply K).
  eexists _, _. split; [reflexivity|]. match goal with |- kept _ (if ?c then _ else _) => destruct c end.
  - eapply kept_t; [exact K|]. eapply kept_t; [exact K2|]. unfold collapse. apply acollapse; [apply K2|reflexivity|apply nd1].
  - eapply kept_t; eauto.
Qed.

(** ** Exchange of identifiers *)
Record moved (s s' : sim) : Prop := mkMoved {
  mv_inv : inv s'; mv_rng : rng s' = rng s;
  mv_has : forall q, has (id_map s') q <-> has (id_map s) q;
  mv_loc : forall l, has_loc (id_map s) l -> has_loc (id_map s') l }.
Lemma moved_r : forall s, inv s -> moved s s. Proof. intros s W. split; auto. tauto. Qed.
Lemma moved_t : forall a b c, moved a b -> moved b c -> moved a c.
Proof. intros a b c [W1 R1 H1 L1] [W2 R2 H2 L2]. split; auto; [congruence|]. intros q. rewrite H2. auto. Qed.
Lemma kept_moved : forall s s', kept s s' -> moved s s'.
Proof. intros s s' [W M R]. split; auto; rewrite M; tauto. Qed.

Lemma aswap : forall s a b, inv s -> has (id_map s) a -> has (id_map s) b ->
  exists s', swap_qubit_ids s a b = Ok s' /\ moved s s'.
Proof.
  intros s a b W Aa Ab. unfold swap_qubit_ids. destruct (aflush_ops s W) as [s1 [-> [K [L Q]]]]. simpl.
  destruct (kept_has1 _ _ a K Aa) as [la Ea]. destruct (kept_has1 _ _ b K Ab) as [lb Eb].
  set (s4 := with_ry _ _).
  assert (Fa : find_qubit s4 a = Ok la) by (apply afind; exact Ea).
  assert (Fb : find_qubit s4 b = Ok lb) by (apply afind; exact Eb).
  rewrite Fa, Fb. cbn [bind]. eexists; split; [reflexivity|]. set (s5 := with_id_map _ _).
  assert (G : forall i, im_get (id_map s5) i = im_get (id_map s1) (sw a b i)).
  { intros i. unfold s5. simpl. rewrite !im_get_update. unfold sw.
    destruct (Nat.eqb_spec i a); destruct (Nat.eqb_spec i b); destruct (Nat.eqb_spec a i);
    destruct (Nat.eqb_spec b i); subst; try congruence; simpl; rewrite ?Ea, ?Eb; simpl; congruence. }
  assert (Asw : forall q, has (id_map s1) (sw a b q) <-> has (id_map s5) q).
  { intros. unfold has. rewrite G. tauto. }
  assert (H5 : forall i, bit (h_flag s5) i = bit (h_flag s1) (sw a b i)).
  { intros i. unfold s5. simpl. rewrite !bit_set. unfold sw.
    repeat match goal with |- context[Nat.eqb ?x ?y] => destruct (Nat.eqb_spec x y) end; subst; congruence. }
  assert (X5 : forall i, im_get (rx_queue s5) i = im_get (rx_queue s1) (sw a b i)) by (intros; apply get_swap_entries).
  assert (Y5 : forall i, im_get (ry_queue s5) i = im_get (ry_queue s1) (sw a b i)) by (intros; apply get_swap_entries).
  pose proof (k_inv _ _ K) as W1.
  assert (L5 : forall l, has_loc (id_map s1) l -> has_loc (id_map s5) l).
  { intros l [x E]. exists (sw a b x). rewrite G, sw_sw. auto. }
  split.
  - split.
    + destruct (i_st _ W1) as [S1 S2]. split; [exact S1|]. intros k Hk i Hi. apply L5. apply (S2 k Hk i Hi).
    + intros i j l. rewrite !G. intros E2 E3. apply (sw_inj a b). eapply (i_inj _ W1); eauto.
    + change (op_queue s5) with (op_queue s1). rewrite Q. constructor.
    + intros q. rewrite H5. intros. apply Asw. apply (i_h _ W1); auto.
    + intros q x. rewrite X5. intros. apply Asw. eapply (i_rx _ W1); eauto.
    + intros q x. rewrite Y5. intros. apply Asw. eapply (i_ry _ W1); eauto.
    + exact (i_len _ W1).
  - exact (k_rng _ _ K).
  - intros q. rewrite <- Asw, (k_map _ _ K). unfold sw.
    destruct (Nat.eqb_spec q a); [subst; tauto|]. destruct (Nat.eqb_spec q b); [subst; tauto|tauto].
  - intros l Hl. apply L5. rewrite (k_map _ _ K). auto.
Qed.

(** ** Release *)
Lemma arelease_last : forall s q, im_keys (id_map s) = [q] ->
  exists s', release s q = Ok s' /\ inv s' /\ rng s' = rng s /\ forall x, ~ has (id_map s') x.
Proof.
  intros s q I. unfold release.
  assert (E : Nat.eqb (length (im_iter (id_map s))) 1 = true).
  { apply Nat.eqb_eq. unfold im_keys in I. apply (f_equal (@length nat)) in I. rewrite map_length in I. exact I. }
  rewrite E. simpl. eexists. split; [reflexivity|].
  assert (N : forall x, ~ has (im_remove (id_map s) q) x).
  { intros x [l H]. rewrite im_get_remove in H. destruct (Nat.eqb_spec q x); [discriminate|].
    assert (P : In x (im_keys (id_map s))) by (apply im_keys_In; eauto). rewrite I in P. destruct P as [P|[]]. congruence. }
  split; [|split; [reflexivity|exact N]]. split; simpl; try discriminate.
  - split; simpl; [repeat constructor; auto|]. intros k [<-|[]] i Hi. rewrite bit_0 in Hi. discriminate.
  - intros i j l Hi. exfalso. apply (N i). exists l. exact Hi.
  - constructor.
  - intros i a Hi. rewrite im_get_empty in Hi. discriminate.
  - intros i a Hi. rewrite im_get_empty in Hi. discriminate.
Qed.
Lemma arelease : forall s q, inv s -> has (id_map s) q -> length (im_keys (id_map s)) <> 1 ->
  exists s', release s q = Ok s' /\ inv s' /\ rng s' = snd (draw (rng s)) /\
    forall x, has (id_map s') x <-> has (id_map s) x /\ x <> q.
Proof.
  intros s q W A Ln. unfold release.
  assert (E : Nat.eqb (length (im_iter (id_map s))) 1 = false).
  { apply Nat.eqb_neq. unfold im_keys in Ln. rewrite map_length in Ln. exact Ln. }
  rewrite E. destruct (ameasure s q W A) as [r [s1 [loc [-> [[W1 [M1 R1]] [Q1 [C1 [El KB]]]]]]]]. cbn [bind].
  assert (Fq : find_qubit s1 q = Ok loc) by (apply afind; congruence). rewrite Fq. cbn [bind].
  match goal with |- exists s', Ok ?t = _ /\ _ => set (s' := t) end. exists s'. split; auto.
  assert (Ek : keys (state s') = map (fun k => set_bit k loc false) (keys (state s1))).
  { unfold s'. destruct r; simpl; unfold keys; rewrite ?map_map.
    - apply map_ext. intros. apply clear_key.
    - apply map_ext_in. intros [k v] Hk. simpl. symmetry. apply set_bit_id'. apply KB. eapply In_keys; eauto. }
  assert (G : forall x, im_get (id_map s') x = if Nat.eqb q x then None else im_get (id_map s1) x).
  { intros x. unfold s'. destruct r; exact (im_get_remove (id_map s1) q x). }
  assert (Al : forall x, has (id_map s') x <-> has (id_map s1) x /\ x <> q).
  { intros x. unfold has. rewrite G. destruct (Nat.eqb_spec q x).
    - subst. split; [intros [? ?]; discriminate|intros [_ ?]; congruence].
    - split; [intros; split; auto|tauto]. }
  destruct C1 as [C1 [C2 C3]].
  split; [|split; [unfold s'; destruct r; exact R1|intros x; rewrite Al, M1; tauto]].
  assert (Fr : h_flag s' = h_flag s1 /\ rx_queue s' = rx_queue s1 /\ ry_queue s' = ry_queue s1 /\ op_queue s' = op_queue s1)
    by (unfold s'; destruct r; auto).
  destruct Fr as [F1 [F2 [F3 F4]]]. destruct (i_st _ W1) as [S1 S2]. split.
  - split; rewrite Ek.
    + apply NoDup_map_inj; auto. intros x y Hx Hy Exy. rewrite <- (set_bit_id' x loc r), <- (set_bit_id' y loc r) by auto.
      rewrite <- (set_set_same x loc false r), <- (set_set_same y loc false r). now rewrite Exy.
    + intros k Hk. apply in_map_iff in Hk. destruct Hk as [k0 [<- Hk]]. intros i Hi. rewrite bit_set in Hi.
      destruct (Nat.eqb_spec loc i); [discriminate|]. destruct (S2 _ Hk i Hi) as [x Ex].
      exists x. rewrite G. destruct (Nat.eqb_spec q x); [congruence|auto].
  - intros i j l. rewrite !G. destruct (Nat.eqb q i); destruct (Nat.eqb q j); try discriminate. apply (i_inj _ W1).
  - rewrite F4, Q1. constructor.
  - intros x. rewrite F1. intros Hx. apply Al. split; [apply (i_h _ W1); auto|intros ->; congruence].
  - intros x a. rewrite F2. intros Hx. apply Al. split; [eapply (i_rx _ W1); eauto|intros ->; congruence].
  - intros x a. rewrite F3. intros Hx. apply Al. split; [eapply (i_ry _ W1); eauto|intros ->; congruence].
  - rewrite F4. apply W1.
Qed.

(** ** Allocation *)
Lemma aalloc : forall s, inv s ->
  let s' := fst (allocate s) in let q := snd (allocate s) in
  ~ has (id_map s) q /\ (forall x, x < q -> has (id_map s) x) /\ inv s' /\ rng s' = rng s /\
  exists v, (forall x, im_get (id_map s') x = if Nat.eqb q x then Some v else im_get (id_map s) x) /\
    ~ has_loc (id_map s) v /\ forall l, l < v -> has_loc (id_map s) l.
Proof.
  intros s W s' q. unfold allocate in s', q. simpl in s', q.
  destruct (first_gap_ok (im_keys (id_map s)) (im_keys_sorted _)) as [K1 K2].
  fold q in K1, K2. rewrite im_keys_In in K1.
  set (v := first_gap (sort_nat (im_values (id_map s)))) in *.
  destruct (first_gap_ok (sort_nat (im_values (id_map s)))) as [V1 V2].
  { apply sorted_le_lt; [apply sort_nat_sorted|]. eapply Permutation_NoDup; [apply Permutation_sym, sort_nat_perm|].
    apply values_nodup. apply W. }
  fold v in V1, V2.
  assert (V1' : ~ has_loc (id_map s) v).
  { intros [x Hx]. apply V1. eapply Permutation_in; [apply Permutation_sym, sort_nat_perm|]. apply im_values_In. eauto. }
  assert (G : forall x, im_get (id_map s') x = if Nat.eqb q x then Some v else im_get (id_map s) x)
    by (intros x; exact (im_get_insert (id_map s) q v x)).
  assert (Up : forall x, has (id_map s) x -> has (id_map s') x).
  { intros x [l E]. unfold has. rewrite G. destruct (Nat.eqb q x); eauto. }
  split; [exact K1|]. split; [intros x Hx; apply im_keys_In; auto|]. split; [|split; [reflexivity|]].
  - destruct W. split; auto.
    + destruct i_st as [S1 S2]. split; auto. intros k Hk i Hi. destruct (S2 k Hk i Hi) as [x E]. exists x. rewrite G.
      destruct (Nat.eqb_spec q x); [|auto]. exfalso. apply K1. subst x. eauto.
    + intros i j l. rewrite !G. destruct (Nat.eqb_spec q i); destruct (Nat.eqb_spec q j); intros E1 E2; subst; auto.
      * inversion E1; subst. exfalso. apply V1'. exists j. auto.
      * inversion E2; subst. exfalso. apply V1'. exists i. auto.
      * eapply i_inj; eauto.
    + simpl. eapply Forall_impl; [|exact i_ops]. intros o [O1 O2]. split; auto. eapply Forall_impl; [|exact O2]. apply Up.
    + intros x a Hx. apply Up. eapply i_rx; eauto.
    + intros x a Hx. apply Up. eapply i_ry; eauto.
  - exists v. split; auto. split; auto. intros l Hl. apply V2 in Hl.
    apply (Permutation_in _ (sort_nat_perm _)) in Hl. apply im_values_In in Hl. auto.
Qed.

(** ** Moving qubits to other locations *)
Record arelabel (s s' : sim) (a b : nat) : Prop := mkRel {
  ar_id : forall i, im_get (id_map s') i = option_map (sw a b) (im_get (id_map s) i);
  ar_st : state s' = map (fun iv => (swap_bits a b (fst iv), snd iv)) (state s);
  ar_rng : rng s' = rng s;
  ar_h : h_flag s' = h_flag s; ar_rx : rx_queue s' = rx_queue s; ar_ry : ry_queue s' = ry_queue s;
  ar_ops : op_queue s' = op_queue s }.
Lemma arelabel_has : forall s s' a b q, arelabel s s' a b -> (has (id_map s') q <-> has (id_map s) q).
Proof.
  intros s s' a b q R. unfold has. rewrite (ar_id _ _ _ _ R). destruct (im_get (id_map s) q); simpl.
  - split; eauto.
  - split; intros [? ?]; discriminate.
Qed.
Lemma arelabel_inv : forall s s' a b, arelabel s s' a b -> inv s -> inv s'.
Proof.
  intros s s' a b R W. pose proof (fun q => arelabel_has s s' a b q R) as Al.
  destruct R as [Ri Rs Rr Rh Rx Ry Ro]. destruct W. split.
  - destruct i_st as [S1 S2].
    assert (Ek : keys (state s') = map (swap_bits a b) (keys (state s))).
    { rewrite Rs. unfold keys. rewrite !map_map. reflexivity. }
    split.
    + rewrite Ek. apply NoDup_map_inj; auto. intros x y _ _ E.
      rewrite <- (swap_bits_invol a b x), E. apply swap_bits_invol.
    + intros k Hk. rewrite Ek in Hk. apply in_map_iff in Hk. destruct Hk as [k0 [<- Hk]].
      intros i Hi. rewrite bit_swap_bits in Hi. destruct (S2 _ Hk _ Hi) as [x Hx].
      exists x. rewrite Ri, Hx. simpl. now rewrite sw_sw.
  - intros i j l. rewrite !Ri. destruct (im_get (id_map s) i) eqn:Ei; destruct (im_get (id_map s) j) eqn:Ej; simpl; try discriminate.
    intros E1 E2. eapply i_inj; eauto. rewrite Ej. f_equal. apply (sw_inj a b). congruence.
  - rewrite Ro. eapply Forall_impl; [|exact i_ops]. intros o [O1 O2]. split; auto. eapply Forall_impl; [|exact O2]. intros. apply Al. auto.
  - intros q. rewrite Rh. intros. apply Al. auto.
  - intros q x. rewrite Rx. intros. apply Al. eauto.
  - intros q x. rewrite Ry. intros. apply Al. eauto.
  - rewrite Ro. auto.
Qed.
Definition aquiet (s : sim) : Prop := op_queue s = [] /\ forall q, calm s q.
Lemma aquiet_flush : forall lv qs s, aquiet s -> flush_queue s qs lv = Ok s.
Proof.
  intros lv qs s [Q N]. unfold flush_queue.
  assert (E : foldM (flush_one lv) qs s = Ok s).
  { induction qs as [|t qs IH]; simpl; auto. destruct (N t) as [H [X Y]]. unfold flush_one at 1. rewrite H. cbn [bind].
    assert (E1 : flush_rx s t = Ok s) by (unfold flush_rx; rewrite X; auto).
    assert (E2 : flush_ry s t = Ok s) by (unfold flush_ry; rewrite Y; auto).
    destruct lv; cbn [bind]; rewrite ?E1; cbn [bind]; rewrite ?E2; cbn [bind]; auto. }
  rewrite E. cbn [bind]. unfold flush_ops. rewrite Q. reflexivity.
Qed.
Lemma aplace_key : forall s i q cur, inv s -> aquiet s -> im_get (id_map s) q = Some cur ->
  exists s', place_key s (i, q) = Ok s' /\ (s' = s /\ cur = i \/ arelabel s s' cur i).
Proof.
  intros s i q cur W Q E. unfold place_key. rewrite (afind _ _ _ E). cbn [bind].
  destruct (Nat.eqb_spec i cur); [subst; eauto|].
  unfold swap_qubit_state. destruct (Nat.eqb_spec cur i); [congruence|].
  rewrite (aquiet_flush LHRxRy [cur; i] s Q). cbn [bind]. set (s1 := with_state _ _).
  assert (F : find_qubit s1 q = Ok cur) by (apply afind; exact E). rewrite F. cbn [bind].
  eexists. split; [reflexivity|]. right. constructor; try reflexivity.
  intros j. change (id_map s1) with (id_map s).
  set (m1 := match key_of_loc (id_map s) i with Some _ => _ | None => _ end).
  change (im_get (im_update m1 q (fun _ => i)) j = option_map (sw cur i) (im_get (id_map s) j)).
  assert (G1 : forall j, j <> q -> im_get m1 j = option_map (sw cur i) (im_get (id_map s) j)).
  { clear j. intros j Hj. unfold m1. destruct (key_of_loc (id_map s) i) as [k|] eqn:Ek.
    - apply key_of_loc_Some in Ek. rewrite im_get_update. destruct (Nat.eqb_spec k j).
      + subst. rewrite Ek. simpl. unfold sw. destruct (Nat.eqb_spec i cur); [congruence|].
        now rewrite Nat.eqb_refl.
      + destruct (im_get (id_map s) j) as [l|] eqn:El; auto. simpl. f_equal. unfold sw.
        destruct (Nat.eqb_spec l cur); [subst; exfalso; apply Hj; eapply (i_inj s W); eauto|].
        destruct (Nat.eqb_spec l i); auto. subst. exfalso. apply n1. eapply (i_inj s W); eauto.
    - pose proof (fun k => key_of_loc_None _ _ k Ek) as Nk.
      destruct (im_get (id_map s) j) as [l|] eqn:El; auto. simpl. f_equal. unfold sw.
      destruct (Nat.eqb_spec l cur); [subst; exfalso; apply Hj; eapply (i_inj s W); eauto|].
      destruct (Nat.eqb_spec l i); auto. subst. exfalso. eapply Nk; eauto. }
  rewrite im_get_update. destruct (Nat.eqb_spec q j).
  - subst j. rewrite E. simpl. unfold sw. rewrite Nat.eqb_refl.
    assert (Sm : exists l, im_get m1 q = Some l).
    { unfold m1. destruct (key_of_loc (id_map s) i) as [k|]; [|eauto].
      rewrite im_get_update. destruct (Nat.eqb k q); rewrite E; simpl; eauto. }
    destruct Sm as [l ->]. reflexivity.
  - apply G1. auto.
Qed.
Record placed (s s' : sim) : Prop := mkPlaced {
  pl_has : forall q, has (id_map s') q <-> has (id_map s) q; pl_rng : rng s' = rng s; pl_inv : inv s'; pl_quiet : aquiet s' }.
Lemma aplace_keys : forall l pre s, inv s -> aquiet s -> NoDup (pre ++ l) -> Forall (has (id_map s)) l ->
  (forall j q, nth_error pre j = Some q -> im_get (id_map s) q = Some j) ->
  exists s', foldM place_key (enumerate_from (length pre) l) s = Ok s' /\ placed s s' /\
    (forall j q, nth_error (pre ++ l) j = Some q -> im_get (id_map s') q = Some j).
Proof.
  induction l as [|q l IH]; intros pre s W Q D A P.
  - rewrite app_nil_r in *. exists s. split; [reflexivity|]. split; [|auto]. constructor; auto. tauto.
  - inversion A as [|? ? [cur Hc] A']; subst. cbn [enumerate_from foldM].
    destruct (aplace_key s (length pre) q cur W Q Hc) as [s1 [E1 H1]]. rewrite E1. cbn [bind].
    assert (S1 : placed s s1 /\ im_get (id_map s1) q = Some (length pre) /\
      forall j x, nth_error pre j = Some x -> im_get (id_map s1) x = Some j).
    { destruct H1 as [[-> <-]|R].
      - split; [constructor; auto; tauto|]. split; auto.
      - split; [|split].
        + constructor.
          * intros; eapply arelabel_has; eauto.
          * apply R.
          * eapply arelabel_inv; eauto.
          * destruct R, Q as [Q1 Q2]. split; [congruence|]. intros x. destruct (Q2 x) as [? [? ?]].
            repeat split; congruence.
        + rewrite (ar_id _ _ _ _ R), Hc. simpl. unfold sw. now rewrite Nat.eqb_refl.
        + intros j x Hj. rewrite (ar_id _ _ _ _ R), (P j x Hj). simpl. f_equal. unfold sw.
          destruct (Nat.eqb_spec j cur).
          * subst. exfalso. apply (NoDup_remove_2 pre l q D). apply in_or_app. left.
            rewrite (i_inj s W q x cur Hc (P _ _ Hj)). eapply nth_error_In; eauto.
          * destruct (Nat.eqb_spec j (length pre)); auto. exfalso.
            assert (j < length pre)%nat by (apply nth_error_Some; congruence). lia. }
    destruct S1 as [S1 [G1 P1]].
    replace (S (length pre)) with (length (pre ++ [q])) by (rewrite app_length; simpl; lia).
    destruct (IH (pre ++ [q]) s1) as [s2 [E2 [S2 P2]]]; try apply S1.
    + rewrite <- app_assoc. exact D.
    + eapply Forall_impl; [|exact A']. intros x Hx. apply S1. exact Hx.
    + intros j x Hj. destruct (Nat.lt_ge_cases j (length pre)).
      * rewrite nth_error_app1 in Hj by auto. auto.
      * rewrite nth_error_app2 in Hj by auto.
        destruct (j - length pre)%nat eqn:Ej; simpl in Hj.
        { inversion Hj; subst. replace j with (length pre) by lia. auto. }
        { destruct n; discriminate. }
    + exists s2. split; [exact E2|]. rewrite <- app_assoc in P2. split; [|exact P2].
      destruct S1, S2. constructor; auto; try congruence. intros x. rewrite pl_has1. auto.
Qed.
Lemma ainsert_perm : forall x (l : sstate), Permutation (insert_entry x l) (x :: l).
Proof.
  induction l; simpl; auto. match goal with |- context[if ?c then _ else _] => destruct c end; auto.
  eapply Permutation_trans; [apply perm_skip; exact IHl|]. apply perm_swap.
Qed.
Lemma asort_perm : forall l : sstate, Permutation (sort_state l) l.
Proof.
  unfold sort_state. induction l; simpl; auto.
  eapply Permutation_trans; [apply ainsert_perm|]. auto.
Qed.
Lemma ainsert_sorted : forall x (l : sstate), StronglySorted N.le (keys l) -> StronglySorted N.le (keys (insert_entry x l)).
Proof.
  induction l as [|a l IH]; simpl; intros H; [repeat constructor|].
  match goal with |- context[if (?a <=? ?b)%N then _ else _] => destruct (N.leb_spec a b) end.
  - simpl. constructor; auto. inversion H; subst. constructor; auto.
    eapply Forall_impl; [|exact H4]. simpl. intros; eapply N.le_trans; eauto.
  - inversion H; subst. simpl. constructor; auto.
    eapply Permutation_Forall; [apply Permutation_sym, perm_keys, ainsert_perm|].
    constructor; auto. apply N.lt_le_incl; auto.
Qed.
Lemma asort_sorted : forall l : sstate, StronglySorted N.le (keys (sort_state l)).
Proof. unfold sort_state. induction l; simpl; [constructor|]. apply ainsert_sorted; auto. Qed.
Lemma acanon : forall s, inv s -> exists s', canonicalize s = Ok (s', im_keys (id_map s)) /\ placed s s' /\
  (forall j q, nth_error (im_keys (id_map s)) j = Some q -> im_get (id_map s') q = Some j) /\
  basis_list (length (im_keys (id_map s))) (sort_state (state s')).
Proof.
  intros s W. unfold canonicalize. set (ks := im_keys (id_map s)).
  destruct (aflush_queue horder_perm LHRxRy ks s W) as [s1 [-> [K [L [Q C]]]]]. cbn [bind].
  pose proof (k_inv _ _ K) as W1.
  assert (Al : forall q, has (id_map s1) q <-> In q ks) by (intros q; unfold ks; rewrite im_keys_In, (k_map _ _ K); tauto).
  assert (Qt : aquiet s1).
  { split; auto. intros q. destruct (in_dec Nat.eq_dec q ks).
    - specialize (C eq_refl). rewrite Forall_forall in C. auto.
    - rewrite <- Al in n. unfold calm.
      destruct (bit (h_flag s1) q) eqn:Eh; [exfalso; apply n, (i_h _ W1); auto|].
      destruct (im_get (rx_queue s1) q) eqn:Ex; [exfalso; apply n; eapply (i_rx _ W1); eauto|].
      destruct (im_get (ry_queue s1) q) eqn:Ey; [exfalso; apply n; eapply (i_ry _ W1); eauto|]. auto. }
  destruct (aplace_keys ks [] s1 W1 Qt) as [s2 [E2 [P2 N2]]].
  { simpl. apply im_keys_nodup. }
  { apply Forall_forall. intros q Hq. apply Al; auto. }
  { intros [|j] q; discriminate. }
  unfold enumerate. simpl in E2. rewrite E2. cbn [bind]. exists s2. simpl in N2.
  split; [reflexivity|]. split; [|split; [exact N2|]].
  - destruct P2. constructor; auto; [|rewrite pl_rng0; apply K]. intros q. rewrite pl_has0, (k_map _ _ K). tauto.
  - destruct (i_st _ (pl_inv _ _ P2)) as [ND LO]. pose proof (perm_keys _ _ (asort_perm (state s2))) as Pk.
    split.
    + apply sorted_Nle_lt; [apply asort_sorted|]. eapply Permutation_NoDup; [apply Permutation_sym; exact Pk|auto].
    + apply Forall_forall. intros x Hx. apply small_bits. intros i Hi.
      destruct (LO x) with (i := i) as [q Hq]; auto; [eapply Permutation_in; eauto|].
      assert (Aq : In q ks) by (apply Al, (pl_has _ _ P2); exists i; auto).
      apply In_nth_error in Aq. destruct Aq as [j Hj]. pose proof (N2 _ _ Hj).
      assert (i = j) by congruence. subst j. apply nth_error_Some. fold ks. rewrite Hj. discriminate.
Qed.

(** ** Matrices *)
Lemma aswap_keys : forall s s1 q1 q2 l1 l2, inv s -> id_map s1 = id_map s ->
  im_get (id_map s) q1 = Some l1 -> im_get (id_map s) q2 = Some l2 ->
  forall i, im_get (im_update (im_update (id_map s1) q2 (fun _ => l1)) q1 (fun _ => l2)) i =
    option_map (sw l1 l2) (im_get (id_map s) i).
Proof.
  intros s s1 q1 q2 l1 l2 W E H1 H2 i. rewrite !im_get_update, E.
  destruct (Nat.eqb_spec q1 i).
  - subst. destruct (Nat.eqb_spec q2 i).
    + subst. rewrite H1 in *. inversion H2; subst. simpl. unfold sw. now rewrite Nat.eqb_refl.
    + rewrite H1. simpl. unfold sw. now rewrite Nat.eqb_refl.
  - destruct (Nat.eqb_spec q2 i).
    + subst. rewrite H2. simpl. f_equal. unfold sw. destruct (Nat.eqb_spec l2 l1); auto.
      now rewrite Nat.eqb_refl.
    + destruct (im_get (id_map s) i) as [l|] eqn:Ei; auto. simpl. f_equal. unfold sw.
      destruct (Nat.eqb_spec l l1); [subst; exfalso; apply n; eapply (i_inj s W); eauto|].
      destruct (Nat.eqb_spec l l2); auto. subst. exfalso. apply n0. eapply (i_inj s W); eauto.
Qed.
Lemma aplace_target : forall s i q cur, inv s -> im_get (id_map s) q = Some cur -> has_loc (id_map s) i ->
  exists s', place_target s (i, q) = Ok s' /\ moved s s' /\
    (forall x, im_get (id_map s') x = option_map (sw cur i) (im_get (id_map s) x)).
Proof.
  intros s i q cur W E Oi. pose proof Oi as [p Hp]. unfold place_target. rewrite (afind _ _ _ E). cbn [bind].
  destruct (key_of_loc (id_map s) i) as [p'|] eqn:Ek; [|exfalso; eapply key_of_loc_None; eauto].
  apply key_of_loc_Some in Ek. assert (p' = p) by (eapply (i_inj s W); eauto). subst p'. clear Ek.
  assert (Fin : forall s1, kept s s1 -> forall st, st = map (fun iv => (swap_bits cur i (fst iv), snd iv)) (state s1) ->
    let s' := with_id_map (with_state s1 st) (im_update (im_update (id_map s1) p (fun _ => cur)) q (fun _ => i)) in
    moved s s' /\ forall x, im_get (id_map s') x = option_map (sw cur i) (im_get (id_map s) x)).
  { intros s1 K st Est s'.
    assert (G : forall x, im_get (id_map s') x = option_map (sw cur i) (im_get (id_map s) x)).
    { apply (aswap_keys s s1 q p cur i W (k_map _ _ K) E Hp). }
    assert (R : arelabel s1 s' cur i) by (constructor; try reflexivity; auto; intros x; rewrite G, (k_map _ _ K); auto).
    split; auto. split.
    - eapply arelabel_inv; eauto. apply K.
    - apply K.
    - intros x. rewrite (arelabel_has _ _ _ _ x R), (k_map _ _ K). tauto.
    - intros l [x Hx]. destruct (sw_cases cur i l) as [[S1 S2]|[[S1 S2]|[S1 [S2 S3]]]].
      + exists p. rewrite G, Hp. simpl. f_equal. subst. unfold sw. destruct (Nat.eqb_spec i cur); auto. now rewrite Nat.eqb_refl.
      + exists q. rewrite G, E. simpl. f_equal. subst. unfold sw. now rewrite Nat.eqb_refl.
      + exists x. rewrite G, Hx. simpl. now rewrite S1. }
  unfold swap_qubit_state. destruct (Nat.eqb_spec cur i).
  - cbn [bind]. eexists; split; [reflexivity|].
    destruct (Fin s (kept_r s W) (state s)) as [F1 F2].
    { subst i. rewrite <- (map_id (state s)) at 1. apply map_ext. intros [k v]. simpl. f_equal.
      unfold swap_bits. now rewrite eqb_reflx. }
    replace (with_state s (state s)) with s in F1, F2 by (destruct s; reflexivity). auto.
  - destruct (aflush LHRxRy [cur; i] s W) as [s1 [-> [K L]]]. cbn [bind].
    eexists; split; [reflexivity|]. exact (Fin s1 K _ eq_refl).
Qed.
Lemma aplace_targets : forall l pre s, inv s -> NoDup (pre ++ l) -> Forall (has (id_map s)) l ->
  (forall i, i < length (pre ++ l) -> has_loc (id_map s) i) ->
  exists s', foldM place_target (enumerate_from (length pre) l) s = Ok s' /\ moved s s'.
Proof.
  induction l as [|q l IH]; intros pre s W D A O.
  - exists s. split; [reflexivity|]. apply moved_r; auto.
  - inversion A as [|? ? [cur Hc] A']; subst. cbn [enumerate_from foldM].
    destruct (aplace_target s (length pre) q cur W Hc) as [s1 [-> [M1 G1]]].
    { apply O. rewrite app_length. simpl. lia. }
    cbn [bind]. replace (S (length pre)) with (length (pre ++ [q])) by (rewrite app_length; simpl; lia).
    destruct (IH (pre ++ [q]) s1) as [s2 [E2 M2]].
    + apply M1.
    + rewrite <- app_assoc. exact D.
    + eapply Forall_impl; [|exact A']. intros x Hx. apply (mv_has _ _ M1). exact Hx.
    + intros i Hi. apply (mv_loc _ _ M1). apply O. rewrite <- app_assoc in Hi. exact Hi.
    + exists s2. split; [exact E2|]. eapply moved_t; eauto.
Qed.

Lemma ahm_get_put : forall (m : sstate) k v k', hm_get (hm_put m k v) k' = if N.eqb k k' then Some v else hm_get m k'.
Proof.
  induction m as [|[k0 v0] m IH]; simpl; intros; auto.
  destruct (N.eqb_spec k0 k).
  - subst. simpl. destruct (N.eqb_spec k k'); auto.
  - simpl. rewrite IH. destruct (N.eqb_spec k0 k'); auto. destruct (N.eqb_spec k k'); congruence.
Qed.
Lemma akeys_put : forall (m : sstate) k v x, In x (keys (hm_put m k v)) <-> x = k \/ In x (keys m).
Proof.
  intros. rewrite <- !hm_get_keys. rewrite ahm_get_put. destruct (N.eqb_spec k x); [subst; split; eauto|].
  split; [auto|]. intros [?|?]; auto. congruence.
Qed.
Lemma aput_nodup : forall (m : sstate) k v, NoDup (keys m) -> NoDup (keys (hm_put m k v)).
Proof.
  induction m as [|[k0 v0] m IH]; simpl; intros; [repeat constructor; auto|]. inversion H; subst.
  destruct (N.eqb_spec k0 k); simpl.
  - subst. constructor; auto.
  - constructor; auto. change (~ In k0 (keys (hm_put m k v))). rewrite akeys_put. intros [E|E]; [congruence|tauto].
Qed.
Lemma akeys_remove : forall (m : sstate) k x, NoDup (keys m) -> In x (keys (hm_remove m k)) -> In x (keys m).
Proof.
  induction m as [|[k0 v0] m IH]; simpl; intros k x H; [tauto|]. inversion H; subst.
  destruct (N.eqb_spec k0 k); simpl; auto. intros [|Hx]; auto. right. eapply IH; eauto.
Qed.
Lemma aremove_nodup : forall (m : sstate) k, NoDup (keys m) -> NoDup (keys (hm_remove m k)).
Proof.
  induction m as [|[k0 v0] m IH]; simpl; intros; auto. inversion H; subst.
  destruct (N.eqb_spec k0 k); simpl; auto. constructor; auto.
  intros Hi. apply H2. eapply akeys_remove; eauto.
Qed.
Section Acc.
Variables (u : matrix) (n : nat).
Hypothesis size : nrows u = Nat.pow 2 n.
Notation sz := (2 ^ N.of_nat n)%N.
Lemma acell_keys : forall i l val acc j x, NoDup (keys acc) -> j < Nat.pow 2 n ->
  NoDup (keys (apply_cell u i l val acc j)) /\
  (In x (keys (apply_cell u i l val acc j)) -> In x (keys acc) \/ (x / sz)%N = i).
Proof.
  intros i l val acc j x D Hj. unfold apply_cell. destruct (anz (entry u j l)); [auto|]. cbv zeta.
  match goal with |- context[if anz ?c then _ else _] => destruct (anz c) end.
  - split; [apply aremove_nodup; auto|]. intros H. apply akeys_remove in H; auto.
  - split; [apply aput_nodup; auto|]. intros H. apply akeys_put in H. destruct H as [->|H]; auto.
    right. rewrite size, pow2_N. apply join_div. rewrite <- pow2_N. lia.
Qed.
Lemma acells_keys : forall js i l val acc x, NoDup (keys acc) -> (forall j, In j js -> j < Nat.pow 2 n) ->
  NoDup (keys (fold_left (apply_cell u i l val) js acc)) /\
  (In x (keys (fold_left (apply_cell u i l val) js acc)) -> In x (keys acc) \/ (x / sz)%N = i).
Proof.
  induction js as [|j js IH]; intros i l val acc x D Hj; simpl; [auto|].
  destruct (acell_keys i l val acc j x D) as [D1 K1]; [apply Hj; left; auto|].
  destruct (IH i l val (apply_cell u i l val acc j) x D1) as [D2 K2]; [intros; apply Hj; right; auto|].
  split; auto. intros H. apply K2 in H. tauto.
Qed.
Lemma arow_keys : forall acc iv x, NoDup (keys acc) ->
  NoDup (keys (apply_row u acc iv)) /\
  (In x (keys (apply_row u acc iv)) -> In x (keys acc) \/ (x / sz)%N = (fst iv / sz)%N).
Proof.
  intros. unfold apply_row. rewrite size, pow2_N. apply acells_keys; auto.
  intros j Hj. apply in_seq in Hj. lia.
Qed.
Lemma arows_keys : forall st acc x, NoDup (keys acc) ->
  NoDup (keys (fold_left (apply_row u) st acc)) /\
  (In x (keys (fold_left (apply_row u) st acc)) -> In x (keys acc) \/
    exists y, In y (keys st) /\ (x / sz)%N = (y / sz)%N).
Proof.
  induction st as [|iv st IH]; intros acc x D; simpl; [auto|].
  destruct (arow_keys acc iv x D) as [D1 K1]. destruct (IH (apply_row u acc iv) x D1) as [D2 K2].
  split; auto. intros H. apply K2 in H. destruct H as [H|[y [Hy E]]]; [|right; eauto].
  apply K1 in H. destruct H as [H|H]; auto. right. exists (fst iv). auto.
Qed.
End Acc.
Lemma aapply : forall s u ts cs, inv s -> NoDup (ctl_list cs ++ ts) -> Forall (has (id_map s)) (ctl_list cs ++ ts) ->
  nrows u = Nat.pow 2 (length ts) -> ncols u = nrows u ->
  (forall i, i < length (ctl_list cs ++ ts) -> has_loc (id_map s) i) ->
  (exists s', apply_matrix s u ts cs = Ok s' /\ moved s s') \/ apply_matrix s u ts cs = Panic EEmptyState.
Proof.
  intros s u ts cs W D A Hr Hc O. unfold apply_matrix.
  rewrite Hc, Hr, !Nat.eqb_refl. simpl negb. cbv iota.
  set (all := ctl_list cs ++ ts) in *.
  set (u' := match cs with Some l => controlled u (length l) | None => u end).
  assert (Em : match cs with Some l => (l ++ ts, controlled u (length l)) | None => (ts, u) end = (all, u')) by (destruct cs; reflexivity).
  rewrite Em. clear Em.
  assert (Su : nrows u' = Nat.pow 2 (length all)).
  { unfold u', all. destruct cs; simpl; rewrite ?app_length, ?Nat.pow_add_r; [rewrite Hr; lia|auto]. }
  rewrite acheck by auto. cbn [bind].
  destruct (aflush LHRxRy all s W) as [s1 [-> [K L]]]. cbn [bind].
  destruct (aplace_targets (rev all) [] s1) as [s2 [E2 M2]].
  { apply K. }
  { simpl. apply NoDup_rev. auto. }
  { eapply kept_has; eauto. rewrite Forall_forall in *. intros x Hx. apply A. apply in_rev. auto. }
  { intros i Hi. simpl in Hi. rewrite rev_length in Hi. rewrite (k_map _ _ K). auto. }
  unfold enumerate. simpl in E2. rewrite E2. cbn [bind].
  pose proof (moved_t _ _ _ (kept_moved _ _ K) M2) as M. destruct (i_st _ (mv_inv _ _ M)) as [S1 S2].
  set (acc := fold_left (apply_row u') (state s2) []) in *.
  assert (Pm : Permutation (horder acc) acc) by apply horder_perm.
  assert (St : stok (id_map s2) (horder acc)).
  { split.
    - destruct (arows_keys u' (length all) Su (state s2) [] 0%N) as [K1 _]; [constructor|].
      eapply perm_nodup_keys; [apply Permutation_sym; eauto|auto].
    - intros k Hk. apply (Permutation_in _ (perm_keys _ _ Pm)) in Hk. intros i Hi.
      destruct (arows_keys u' (length all) Su (state s2) [] k) as [_ K2]; [constructor|].
      destruct (K2 Hk) as [Hn|[y [Hy Ey]]]; [destruct Hn|].
      destruct (Nat.lt_ge_cases i (length all)); [apply (mv_loc _ _ M); auto|].
      apply (S2 y Hy). rewrite (split_N k (length all)) in Hi.
      rewrite join_bit in Hi by (apply N.mod_lt; pose proof (pow2_pos (length all)); lia).
      rewrite (split_N y (length all)).
      rewrite join_bit by (apply N.mod_lt; pose proof (pow2_pos (length all)); lia).
      destruct (Nat.ltb_spec i (length all)); [lia|]. rewrite <- Ey. auto. }
  destruct (horder acc) as [|e st]; [right; auto|]. left. eexists. split; [reflexivity|].
  destruct M. split; auto. apply inv_state; auto.
Qed.

(** ** The books *)
Record abook (s : sim) (b : book) : Prop := mkAbook {
  ab_inv : inv s; ab_ids : im_keys (id_map s) = live b;
  ab_dense : tidy b = true -> forall l, l < length (live b) -> has_loc (id_map s) l }.
Lemma ab_has : forall s b q, abook s b -> (has (id_map s) q <-> In q (live b)).
Proof. intros s b q []. rewrite <- ab_ids0, im_keys_In. tauto. Qed.
Lemma ab_sorted : forall s b, abook s b -> StronglySorted lt (live b).
Proof. intros s b []. rewrite <- ab_ids0. apply im_keys_sorted. Qed.
Lemma keys_eq : forall (m : imap nat) l, StronglySorted lt l -> (forall q, has m q <-> In q l) -> im_keys m = l.
Proof. intros m l Sl H. apply sorted_unique; auto; [apply im_keys_sorted|]. intros x. rewrite im_keys_In. apply H. Qed.
Lemma ab_Forall : forall s b qs, abook s b -> incl qs (live b) -> Forall (has (id_map s)) qs.
Proof. intros s b qs B I. apply Forall_forall. intros q Hq. eapply ab_has; eauto. Qed.
Lemma ab_moved : forall s s' b, abook s b -> moved s s' -> abook s' b.
Proof.
  intros s s' b B M. split; [apply M| |].
  - apply keys_eq; [eapply ab_sorted; eauto|]. intros q. rewrite (mv_has _ _ M). eapply ab_has; eauto.
  - intros H l Hl. apply (mv_loc _ _ M). eapply ab_dense; eauto.
Qed.
Lemma ab_kept : forall s s' b, abook s b -> kept s s' -> abook s' b.
Proof. intros. eapply ab_moved; eauto. apply kept_moved; auto. Qed.
Lemma ab_sampled : forall s s' b, abook s b -> sampled s s' -> abook s' b.
Proof. intros s s' b [W I D] [W' [M _]]. split; auto; rewrite M; auto. Qed.

(** One call. *)
Definition one_ok (s : sim) (b : book) (c : acall) : Prop :=
  exists r s', arun1 s c = Ok (r, s') /\ abook s' (abstep b c) /\ areply_ok (live b) c r /\
    rng s' = if adraws (live b) c then snd (draw (rng s)) else rng s.
Lemma ok_kept : forall s b c r s', abook s b -> arun1 s c = Ok (r, s') -> kept s s' -> abstep b c = b ->
  adraws (live b) c = false -> areply_ok (live b) c r -> one_ok s b c.
Proof.
  intros s b c r s' B E K Eb Ed Rp. exists r, s'. rewrite Eb, Ed. split; auto. split; [eapply ab_kept; eauto|]. split; [auto|apply K].
Qed.
Lemma one_alloc : forall s b, abook s b -> one_ok s b AAlloc.
Proof.
  intros s b B. destruct (aalloc s (ab_inv _ _ B)) as [K1 [K2 [W' [Rg [v [G [V1 V2]]]]]]].
  exists (AId (snd (allocate s))), (fst (allocate s)).
  assert (Srt := ab_sorted s b B). destruct (fresh_id_ok (live b) Srt) as [F1 F2].
  set (q := snd (allocate s)) in *. set (s' := fst (allocate s)) in *.
  assert (Eq : q = fresh_id (live b)).
  { destruct (Nat.lt_trichotomy q (fresh_id (live b))) as [H|[H|H]]; auto.
    - exfalso. apply K1. apply (ab_has s b _ B). auto.
    - exfalso. apply F1. apply (ab_has s b _ B). auto. }
  split; [reflexivity|].
  assert (A : forall x, has (id_map s') x <-> has (id_map s) x \/ x = q).
  { intros x. unfold has. rewrite G. destruct (Nat.eqb_spec q x).
    - subst. split; eauto.
    - split; [auto|]. intros [?|?]; auto. congruence. }
  split; [|split; [simpl; now rewrite Eq|exact Rg]].
  assert (I' : im_keys (id_map s') = insert_id (fresh_id (live b)) (live b)).
  { apply keys_eq; [apply insert_id_sorted; auto|]. intros x. rewrite A, insert_id_In, Eq, (ab_has s b x B). tauto. }
  simpl. split; auto. simpl. intros H l Hl.
  assert (L : length (insert_id (fresh_id (live b)) (live b)) = S (length (live b))).
  { clear. induction (live b); simpl; auto. generalize (fresh_id (a :: l)); intros. destruct (Nat.ltb n a); simpl; auto.
    f_equal. clear IHl. induction l; simpl; auto. destruct (Nat.ltb n a0); simpl; auto. }
  rewrite L in Hl. pose proof (ab_dense _ _ B H) as D.
  assert (Vn : v = length (live b)).
  { destruct (Nat.lt_trichotomy v (length (live b))) as [Hv|[Hv|Hv]]; auto.
    - exfalso. apply V1. apply D. auto.
    - exfalso. assert (In1 : incl (seq 0 (S (length (live b)))) (im_values (id_map s))).
      { intros x Hx. apply in_seq in Hx. apply im_values_In. apply V2. lia. }
      apply NoDup_incl_length in In1; [|apply seq_NoDup]. rewrite seq_length, length_values in In1.
      rewrite (ab_ids _ _ B) in In1. lia. }
  destruct (Nat.eq_dec l v).
  - subst l. exists q. rewrite G, Nat.eqb_refl. auto.
  - destruct (D l) as [x Hx]; [lia|]. exists x. rewrite G. destruct (Nat.eqb_spec q x); auto.
    exfalso. apply K1. subst x. exists l; auto.
Qed.
Lemma one_release : forall s b q, abook s b -> In q (live b) -> one_ok s b (ARelease q).
Proof.
  intros s b q B Hq. assert (Srt := ab_sorted s b B). pose proof (remove_only q (live b) Srt Hq) as RO.
  unfold one_ok. simpl. destruct (remove_id q (live b)) as [|y ys] eqn:Er.
  - assert (Li : live b = [q]) by (apply RO; auto).
    destruct (arelease_last s q) as [s' [-> [W' [R N]]]]; [rewrite (ab_ids s b B); auto|].
    exists AUnit, s'. split; [reflexivity|]. split; [|split; auto].
    split; auto; simpl; [|intros; lia]. apply keys_eq; [constructor|]. intros x. split; [intro H; exfalso; eapply N; eauto|intros []].
  - assert (Ln : length (im_keys (id_map s)) <> 1).
    { intro H. rewrite (ab_ids s b B) in H. apply (length_one _ _ q) in H; auto. apply RO in H. discriminate. }
    destruct (arelease s q (ab_inv _ _ B)) as [s' [-> [W' [R A]]]]; auto; [eapply ab_has; eauto|].
    exists AUnit, s'. split; [reflexivity|]. split; [|split; auto].
    split; auto; simpl; [|discriminate]. apply keys_eq; [rewrite <- Er; apply filter_sorted; auto|].
    intros x. rewrite A, <- Er, remove_id_In, (ab_has s b x B). tauto.
Qed.
Lemma ab_placed : forall s s' b, abook s b -> placed s s' ->
  (forall j q, nth_error (live b) j = Some q -> im_get (id_map s') q = Some j) -> abook s' (mkBook (live b) true).
Proof.
  intros s s' b B P N. split; simpl; [apply P| |].
  - apply keys_eq; [eapply ab_sorted; eauto|]. intros q. rewrite (pl_has _ _ P). eapply ab_has; eauto.
  - intros _ l Hl. destruct (nth_error (live b) l) as [q|] eqn:E; [exists q; auto|]. apply nth_error_None in E. lia.
Qed.
Lemma one_call : forall s b c, abook s b -> avalid b c ->
  one_ok s b c \/ (is_apply c /\ arun1 s c = Panic EEmptyState).
Proof.
  intros s b c B V. pose proof (ab_inv _ _ B) as W. destruct c; simpl in V.
  - left. destruct (agate_ok g s t W) as [s' [E K]]; [eapply ab_has; eauto|].
    apply (ok_kept s b _ AUnit s'); simpl; auto. now rewrite E.
  - left. destruct V as [D I]. destruct (amc_ok g s cs t W D) as [s' [E K]]; [eapply ab_Forall; eauto|].
    apply (ok_kept s b _ AUnit s'); simpl; auto. now rewrite E.
  - left. destruct V as [D I]. destruct (aphase s cs p t W D) as [s' [E K]]; [eapply ab_Forall; eauto|].
    apply (ok_kept s b _ AUnit s'); simpl; auto. now rewrite E.
  - left. destruct V as [[D I] Lp]. destruct (aexp s [] ps th ts W D) as [s' [E K]]; auto; [eapply ab_Forall; eauto|].
    apply (ok_kept s b _ AUnit s'); simpl; auto. unfold exp_gate. now rewrite E.
  - left. destruct V as [[D I] Lp]. destruct (aexp s cs ps th ts W D) as [s' [E K]]; auto; [eapply ab_Forall; eauto|].
    apply (ok_kept s b _ AUnit s'); simpl; auto. now rewrite E.
  - destruct V as [[D I] [Er [Ec Ti]]].
    destruct (aapply s (mkMatrix rows cols u) ts cs W D) as [[s' [E M]]|E]; auto; [eapply ab_Forall; eauto| | |].
    + intros i Hi. eapply (ab_dense _ _ B); auto. eapply Nat.lt_le_trans; [exact Hi|]. apply NoDup_incl_length; auto.
    + left. exists AUnit, s'. simpl. rewrite E. split; [reflexivity|]. split; [eapply ab_moved; eauto|]. split; [auto|apply M].
    + right. split; [exact Logic.I|]. simpl. now rewrite E.
  - left. apply one_alloc; auto.
  - left. apply one_release; auto.
  - left. destruct V as [Va Vb]. destruct (aswap s a b0 W) as [s' [E M]]; try (eapply ab_has; eauto).
    exists AUnit, s'. simpl. rewrite E. split; [reflexivity|]. split; [eapply ab_moved; eauto|]. split; [auto|apply M].
  - left. destruct (ameasure s q W) as [r [s' [loc [E [S _]]]]]; [eapply ab_has; eauto|].
    exists (ABit r), s'. simpl. rewrite E. split; [reflexivity|]. split; [eapply ab_sampled; eauto|]. split; [eauto|apply S].
  - left. destruct V as [D I]. destruct (ajoint s qs W D) as [r [s' [loc [E [S _]]]]]; [eapply ab_Forall; eauto|].
    exists (ABit r), s'. simpl. rewrite E. split; [reflexivity|]. split; [eapply ab_sampled; eauto|]. split; [eauto|apply S].
  - left. destruct V as [D I]. destruct (aprob s qs W D) as [p [s' [E K]]]; [eapply ab_Forall; eauto|].
    apply (ok_kept s b _ (AProb p) s'); simpl; eauto. now rewrite E.
  - left. destruct (aprob s [q] W (nd1 q)) as [p [s' [E K]]]; [constructor; auto; eapply ab_has; eauto|].
    apply (ok_kept s b _ (ABit (pnz p)) s'); simpl; eauto. unfold qubit_is_zero. now rewrite E.
  - left. destruct (aforce s v q W) as [p [s' [E K]]]; [eapply ab_has; eauto|].
    apply (ok_kept s b _ (AProb p) s'); simpl; eauto. now rewrite E.
  - left. destruct (acanon s W) as [s' [E [P [N L]]]]. rewrite (ab_ids _ _ B) in *.
    exists (AListed (sort_state (state s')) (length (live b))), s'. simpl. unfold get_state. rewrite E. simpl.
    split; [reflexivity|]. split; [eapply ab_placed; eauto|]. split; [eauto|apply P].
  - left. destruct (acanon s W) as [s' [E [P [N L]]]]. rewrite (ab_ids _ _ B) in *.
    exists (ADumped (sort_state (state s'))), (with_state s' (sort_state (state s'))). simpl. unfold dump. rewrite E. simpl.
    split; [reflexivity|]. split; [|split; [eauto|apply P]].
    pose proof (ab_placed _ _ _ B P N) as [W' I' D']. split; auto. apply inv_state; auto.
    pose proof (perm_keys _ _ (asort_perm (state s'))) as Pk. destruct (i_st _ W') as [S1 S2].
    split; [eapply Permutation_NoDup; [apply Permutation_sym; exact Pk|auto]|].
    intros k Hk. apply S2. eapply Permutation_in; eauto.
Qed.

Theorem aexec_ok : forall h s b, abook s b -> avalid_run b h ->
  (exists rs s', aexec s h = Ok (rs, s') /\ areplies_ok b h rs /\ rng s' = gen_after b (rng s) h /\
     (N.of_nat (length (op_queue s')) <= 10000)%N) \/
  (aexec s h = Panic EEmptyState /\ Exists is_apply h).
Proof.
  induction h as [|c h IH]; intros s b B V; simpl.
  - left. exists [], s. split; auto. split; simpl; auto. split; auto. exact (i_len _ (ab_inv _ _ B)).
  - destruct V as [V1 V2]. destruct (one_call s b c B V1) as [[r [s1 [E [B1 [Rp Rg]]]]]|[Ia E]]; rewrite E; cbn [bind].
    + destruct (IH s1 _ B1 V2) as [[rs [s2 [E2 [Rs [G2 Q2]]]]]|[E2 X]]; rewrite E2; cbn [bind].
      * left. exists (r :: rs), s2. split; auto. split; [split; auto|]. rewrite <- Rg. auto.
      * right. split; auto.
    + right. split; auto.
Qed.
Lemma new_abook : forall g, abook (new_sim g) (mkBook [] true).
Proof.
  intros g. split; simpl; auto; [|intros; lia]. split; simpl; try discriminate.
  - split; simpl; [repeat constructor; auto|]. intros k [<-|[]] i Hi. rewrite bit_0 in Hi. discriminate.
  - intros i j l Hi. rewrite im_get_empty in Hi. discriminate.
  - constructor.
  - intros i a Hi. rewrite im_get_empty in Hi. discriminate.
  - intros i a Hi. rewrite im_get_empty in Hi. discriminate.
Qed.
End Any.
