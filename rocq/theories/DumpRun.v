(** * Looking at the state again: listings and probabilities after a dump, in any arithmetic *)
From Coq Require Import PeanoNat NArith List Bool Lia Permutation Sorted.
From Verif Require Import Bits Arith IndexMap IndexMapLemmas Sim SimExp SimApply SpecRun StateLemmas SpecAny Any AnyRun SpecDump.
Import ListNotations.

Section Look.
Context {A : Arith} {EN : Env}.
Hypothesis O : any_order.

Lemma insert_first : forall (x : N * amp) l, Forall (fun k => (fst x <= k)%N) (map fst l) -> insert_entry x l = x :: l.
Proof.
  intros x [|y l] H; [reflexivity|]. inversion H; subst. cbn [insert_entry]. destruct (N.leb_spec (fst x) (fst y)); [reflexivity|].
  exfalso. apply (N.lt_irrefl (fst x)). eapply N.le_lt_trans; eauto.
Qed.
Lemma sort_again : forall l : sstate, StronglySorted N.le (map fst l) -> sort_state l = l.
Proof.
  induction l as [|x l IH]; intros H; [reflexivity|]. inversion H; subst. change (sort_state (x :: l)) with (insert_entry x (sort_state l)).
  rewrite IH by assumption. apply insert_first. assumption.
Qed.
(** A state to which nothing is pending, with qubits in order. *)
Record settled (ks : list nat) (s : sim) : Prop := mkSettled {
  se_inv : inv s; se_quiet : aquiet s; se_keys : im_keys (id_map s) = ks;
  se_place : forall j q, nth_error ks j = Some q -> im_get (id_map s) q = Some j;
  se_sorted : StronglySorted N.le (map fst (state s)) }.
Lemma place_settled : forall l n s, (forall j q, nth_error l j = Some q -> im_get (id_map s) q = Some (n + j)) ->
  foldM place_key (enumerate_from n l) s = Ok s.
Proof.
  induction l as [|q l IH]; intros n s H; [reflexivity|]. cbn [enumerate_from foldM]. unfold place_key at 1.
  assert (E : im_get (id_map s) q = Some n) by (rewrite (H 0 q eq_refl); f_equal; lia).
  rewrite (afind _ _ _ E). cbn [bind]. rewrite Nat.eqb_refl. cbn [bind]. apply IH. intros j x Hj. rewrite (H (S j) x Hj). f_equal. lia.
Qed.
Lemma canon_settled : forall ks s, settled ks s -> canonicalize s = Ok (s, ks).
Proof.
  intros ks s [W Q K P _]. unfold canonicalize. rewrite K, (aquiet_flush _ _ _ Q). cbn [bind]. unfold enumerate.
  rewrite (place_settled ks 0 s) by exact P. reflexivity.
Qed.
Lemma with_same : forall s, with_state s (state s) = s.
Proof. intros []. reflexivity. Qed.
Lemma maybe_settled : forall ks s qs, settled ks s -> maybe_flush_queue s qs LHRxRy = Ok s.
Proof. intros ks s qs [W Q K P _]. unfold maybe_flush_queue. destruct (existsb _ qs); [apply aquiet_flush; exact Q|reflexivity]. Qed.
Lemma map_same : forall (f : N * amp -> N * amp) l, (forall x, f x = x) -> map f l = l.
Proof. intros f l H. induction l as [|x l IH]; [reflexivity|]. cbn [map]. now rewrite H, IH. Qed.
Lemma check_settled : forall ks s locs, settled ks s -> exists p, check_joint_probability s locs = Ok (p, s).
Proof.
  intros ks s locs [W [Q _] _ _ _]. unfold check_joint_probability, take_ops. rewrite Q. cbn. eexists. f_equal. f_equal.
  rewrite map_same by reflexivity. destruct s. cbn in *. subst. reflexivity.
Qed.
Lemma prob_settled : forall ks s qs, settled ks s -> NoDup qs -> incl qs ks -> exists p, joint_probability s qs = Ok (p, s).
Proof.
  intros ks s qs S D I. unfold joint_probability. rewrite (maybe_settled _ _ _ S). cbn [bind].
  rewrite acheck by exact D. cbn [bind].
  destruct (amapM_find s qs) as [locs [-> _]].
  { apply Forall_forall. intros q Hq. apply I in Hq. rewrite <- (se_keys _ _ S) in Hq. apply im_keys_In in Hq. exact Hq. }
  cbn [bind]. eapply check_settled; eauto.
Qed.

Lemma look_settled : forall l s c, settled l s -> looks c -> avalid (mkBook l true) c ->
  exists r, arun1 s c = Ok (r, s) /\ (c = AState -> r = AListed (state s) (length l)) /\ (c = ADump -> r = ADumped (state s)).
Proof.
  intros l s c S L V. destruct c; try contradiction; cbn [avalid] in V.
  - destruct V as [D I]. destruct (prob_settled l s qs S D I) as [p E]. exists (AProb p). cbn [arun1]. rewrite E.
    split; [reflexivity|split; discriminate].
  - destruct (prob_settled l s [q] S) as [p E]; [repeat constructor; auto|intros x [<-|[]]; exact V|].
    exists (ABit (pnz p)). cbn [arun1]. unfold qubit_is_zero. rewrite E. split; [reflexivity|split; discriminate].
  - exists (AListed (state s) (length l)). cbn [arun1]. unfold get_state. rewrite (canon_settled _ _ S). cbn [bind].
    rewrite (sort_again (state s)) by apply S. split; [reflexivity|split; [reflexivity|discriminate]].
  - exists (ADumped (state s)). cbn [arun1]. unfold dump. rewrite (canon_settled _ _ S). cbn [bind].
    rewrite (sort_again (state s)) by apply S. rewrite with_same. split; [reflexivity|split; [discriminate|reflexivity]].
Qed.
(** A dump leaves such a state. *)
Lemma dump_settles : forall s b, abook s b -> exists s', dump s = Ok (state s', s') /\ settled (live b) s' /\ basis_list (length (live b)) (state s').
Proof.
  intros s b B. destruct (acanon O s (ab_inv _ _ B)) as [s1 [E [P [N L]]]]. rewrite (ab_ids _ _ B) in *.
  exists (with_state s1 (sort_state (state s1))). unfold dump. rewrite E. cbn [bind]. split; [reflexivity|].
  pose proof (ab_placed _ _ _ B P N) as [W' I' D'].
  split; [|exact L]. constructor.
  - apply inv_state; auto. pose proof (perm_keys _ _ (asort_perm (state s1))) as Pk. destruct (i_st _ W') as [S1 S2].
    split; [eapply Permutation_NoDup; [apply Permutation_sym; exact Pk|auto]|].
    intros k Hk. apply S2. eapply Permutation_in; eauto.
  - exact (pl_quiet _ _ P).
  - exact I'.
  - exact N.
  - exact (asort_sorted (state s1)).
Qed.
Definition answer (s : sim) (c : acall) : areply := match arun1 s c with Ok (r, _) => r | _ => AUnit end.
Lemma looks_settled : forall l s cs, settled l s -> Forall looks cs -> Forall (avalid (mkBook l true)) cs ->
  aexec s cs = Ok (map (answer s) cs, s).
Proof.
  intros l s cs S. induction cs as [|c cs IH]; intros F V; [reflexivity|]. inversion F; inversion V; subst. cbn [aexec map].
  destruct (look_settled l s c S H1 H5) as [r [E _]]. unfold answer at 1. rewrite E. cbn [bind]. rewrite IH by assumption. reflexivity.
Qed.
Lemma abook_after : forall h s b rs s', abook s b -> avalid_run b h -> aexec s h = Ok (rs, s') -> abook s' (fold_left abstep h b).
Proof.
  induction h as [|c h IH]; intros s b rs s' B V E; cbn [aexec] in E.
  - injection E as <- <-. exact B.
  - destruct V as [V1 V2]. destruct (one_call O s b c B V1) as [[r [s1 [E1 [B1 _]]]]|[_ E1]]; rewrite E1 in E; [|discriminate].
    cbn [bind] in E. destruct (aexec s1 h) as [[rs1 s2]|] eqn:E2; [|discriminate]. cbn [bind] in E. injection E as <- <-.
    exact (IH _ _ _ _ B1 V2 E2).
Qed.
Lemma exec_app : forall h1 h2 s, aexec s (h1 ++ h2) =
  let* (r1, s1) := aexec s h1 in let* (r2, s2) := aexec s1 h2 in Ok (r1 ++ r2, s2).
Proof.
  induction h1 as [|c h1 IH]; simpl; intros.
  - destruct (aexec s h2) as [[? ?]|]; reflexivity.
  - destruct (arun1 s c) as [[r s1]|]; simpl; auto. rewrite IH. destruct (aexec s1 h1) as [[? ?]|]; simpl; auto.
    destruct (aexec s0 h2) as [[? ?]|]; simpl; auto.
Qed.
Theorem looking : forall g h, avalid_run (mkBook [] true) h ->
  (exists rs s st reply, basis_list (length (live (fold_left abstep h (mkBook [] true)))) st /\
     reply AState = AListed st (length (live (fold_left abstep h (mkBook [] true)))) /\ reply ADump = ADumped st /\
     forall cs, Forall looks cs -> Forall (avalid (fold_left abstep h (mkBook [] true))) cs ->
       aexec (new_sim g) (h ++ ADump :: cs) = Ok (rs ++ ADumped st :: map reply cs, s)) \/
  (aexec (new_sim g) h = Panic EEmptyState /\ Exists is_apply h).
Proof.
  intros g h V. destruct (aexec_ok O h (new_sim g) (mkBook [] true) (new_abook g) V) as [[rs [s1 [E _]]]|X]; [left|right; exact X].
  assert (B := abook_after _ _ _ _ _ (new_abook g) V E). set (b := fold_left abstep h (mkBook [] true)) in *.
  destruct (dump_settles s1 b B) as [s [D [S L]]]. exists rs, s, (state s), (answer s). split; [exact L|].
  split; [|split].
  - destruct (look_settled _ _ AState S I I) as [r [E1 [H _]]]. unfold answer. rewrite E1. auto.
  - destruct (look_settled _ _ ADump S I I) as [r [E1 [_ H]]]. unfold answer. rewrite E1. auto.
  - intros cs F C. rewrite exec_app, E. cbn [bind aexec arun1]. rewrite D. cbn [bind].
    rewrite (looks_settled (live b) s cs S F); [reflexivity|]. rewrite Forall_forall in *. intros c Hc. specialize (C c Hc). specialize (F c Hc).
    destruct c; try contradiction; exact C.
Qed.
(** [dump] prints the entries that [get_state] would give. *)
Theorem dump_lists : forall s rs st n s', aexec s [AState] = Ok (rs ++ [AListed st n], s') ->
  exists s'', aexec s [ADump] = Ok (rs ++ [ADumped st], s'').
Proof.
  intros s rs st n s' E. cbn [aexec arun1] in *. unfold get_state, dump in *. destruct (canonicalize s) as [[s1 ks]|]; [|discriminate].
  cbn [bind] in *. injection E as E1 E2.
  destruct rs as [|r rs]; [|destruct rs; discriminate]. injection E1 as <- <-. eexists. reflexivity.
Qed.
End Look.
