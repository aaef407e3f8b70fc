(** * The register with rounding

    Allocation, exchange of identifiers, listings and probabilities, as in Reg.v but for the vector
    that a state with rounded amplitudes stands for. *)
From Coq Require Import Reals NArith List Bool Lia Lra Permutation Arith Sorted FunctionalExtensionality.
From Verif Require Import Cx Arith ArithR IndexMap IndexMapLemmas Bits BitsLemmas Spec QLib QSum Sim
  StateLemmas Loc Abs Gates Gates2 Meas Reg SpecAny Any AnyRun SpecNear Near NearGates NearGates2 NearRun SpecRound Round RoundGates.
Import ListNotations.
Local Open Scope R_scope.

Section RR.
Context {A : Arith} {EN : Env} {AP : Approx}.
Hypothesis laws : approx_ok.
Hypothesis horder_perm : any_order.
Variable w : nat.
Notation wf := inv.
Notation alloc := RoundGates.alloc.
Notation base := RoundGates.base.
Notation core := RoundGates.core.
Notation pm := RoundGates.pm.
Notation ids := RoundGates.ids.
Notation abs := RoundGates.abs.
Notation rxin := RoundGates.rxin.
Notation lamp := Round.lamp.
Notation bounds := (RoundGates.bounds w).

Lemma lamp_out : forall (st : sstate) k, ~ In k (keys st) -> lamp st k = C0.
Proof. intros. unfold lamp. apply hm_get_None in H. now rewrite H. Qed.

(** ** allocate *)
Lemma allocate_n : forall s, wf s ->
  let s' := fst (allocate s) in
  abs s' = abs s /\ rx_queue s' = rx_queue s /\ ql s' = ql s /\ forall b, soundB b s -> soundB b s'.
Proof.
  intros s W s'. set (q := snd (allocate s)).
  destruct (aalloc s W) as [K1 [_ [W' [_ [v [G [V1 _]]]]]]]. fold s' in W', G. fold q in K1, G.
  assert (Aq : forall x, alloc s' x <-> alloc s x \/ x = q).
  { intros x. unfold alloc, has. rewrite G. destruct (Nat.eqb_spec q x).
    - subst x. split; eauto.
    - split; [auto|]. intros [?|?]; auto. congruence. }
  assert (Gn : im_get (id_map s) q = None).
  { destruct (im_get (id_map s) q) eqn:E; auto. exfalso. apply K1. exists n; auto. }
  assert (L' : forall k, locs_of (id_map s) k -> locs_of (id_map s') k).
  { intros k L i Hi. destruct (L i Hi) as [x E]. exists x. rewrite G.
    destruct (Nat.eqb_spec q x); [congruence|auto]. }
  split; [|split; [reflexivity|split; [reflexivity|intros b []; constructor; auto]]].
  assert (I' : im_inj (id_map s')) by apply W'.
  assert (Bs : base s' = base s).
  { apply functional_extensionality. intros b. unfold base, baseof. change (state s') with (state s).
    destruct (bit b q) eqn:Bq.
    - assert (E1 : inb (id_map s) b = false).
      { apply not_true_iff_false. rewrite inb_spec by apply W. intros H. destruct (H q Bq); congruence. }
      rewrite E1. destruct (inb (id_map s') b); auto. apply lamp_out. intro Hk.
      destruct (i_st s W) as [_ S2]. destruct (S2 _ Hk v) as [x E].
      + rewrite (bit_to_loc (id_map s') I' b q v); auto. rewrite G, Nat.eqb_refl. reflexivity.
      + apply V1. exists x; auto.
    - assert (E1 : inb (id_map s') b = inb (id_map s) b).
      { apply eq_true_iff_eq. rewrite !inb_spec by (auto; apply W). unfold ids_of.
        split; intros H i Hi; destruct (H i Hi) as [l E]; exists l; revert E;
          rewrite G; destruct (Nat.eqb_spec q i); congruence. }
      rewrite E1. destruct (inb (id_map s) b); auto. f_equal. apply to_loc_char; auto.
      + apply L', to_loc_locs.
      + intros i l. rewrite G. destruct (Nat.eqb_spec q i).
        * intros E. inversion E; subst i l. rewrite Bq. apply bit_to_loc_out. intros x Ex. apply V1. exists x; auto.
        * intros E. apply bit_to_loc; auto. apply W. }
  unfold abs. assert (Cs : core s' = core s) by (unfold core; rewrite Bs; reflexivity). rewrite Cs.
  change (pm s') with (pm s).
  rewrite (pendl_perm _ (ids s') (q :: ids s)).
  - simpl. assert (Pq : pm s q = mI).
    { apply no_pend_pm. destruct W. split; [|split].
      - destruct (bit (h_flag s) q) eqn:Eh; auto. exfalso; apply K1, (i_h q Eh).
      - destruct (im_get (rx_queue s) q) eqn:Ex; auto. exfalso; apply K1, (i_rx q _ Ex).
      - destruct (im_get (ry_queue s) q) eqn:Ey; auto. exfalso; apply K1, (i_ry q _ Ey). }
    rewrite Pq. apply gate1_I.
  - apply NoDup_Permutation.
    + apply ids_nodup.
    + constructor; [|apply ids_nodup]. rewrite ids_In. exact K1.
    + intros x. rewrite ids_In, Aq. simpl. rewrite ids_In. intuition.
  - apply ids_nodup.
Qed.

(** ** swap_qubit_ids *)
Lemma swap_ids_n : forall b s x y, b <= lim -> wf s -> alloc s x -> alloc s y ->
  exists s', swap_qubit_ids s x y = Ok s' /\
    (forall G, rxin G s -> rxin G s') /\
    (bounds s -> soundB b s -> budget w 0 s ->
     soundB b s' /\ exists j, (j + ql s' <= ql s)%nat /\ nearr w j (abs s') (swap_qubits x y (abs s))).
Proof.
  intros b s x y Lb W Aa Ab. unfold swap_qubit_ids.
  destruct (flush_ops_n laws w b Lb s W) as [s1 [E1 [C1 Q1]]]. rewrite E1. cbn [bind].
  assert (F1 : frame s s1) by apply C1.
  assert (W1 : wf s1) by (eapply nc_wf; eauto).
  destruct (proj2 (frame_alloc _ _ x F1) Aa) as [la Ea].
  destruct (proj2 (frame_alloc _ _ y F1) Ab) as [lb Eb].
  set (s4 := with_ry _ _).
  assert (Fa : find_qubit s4 x = Ok la) by (apply afind; exact Ea).
  assert (Fb : find_qubit s4 y = Ok lb) by (apply afind; exact Eb).
  rewrite Fa, Fb. cbn [bind]. eexists; split; [reflexivity|].
  set (s5 := with_id_map _ _).
  assert (G : forall i, im_get (id_map s5) i = im_get (id_map s1) (sw x y i)).
  { intros i. unfold s5. simpl. rewrite !im_get_update. unfold sw.
    destruct (Nat.eqb_spec i x); destruct (Nat.eqb_spec i y); destruct (Nat.eqb_spec x i);
    destruct (Nat.eqb_spec y i); subst; try congruence; simpl; rewrite ?Ea, ?Eb; simpl; congruence. }
  assert (Alsw : forall q, alloc s1 (sw x y q) <-> alloc s5 q).
  { intros. unfold alloc, has. rewrite G. tauto. }
  assert (H5 : forall i, bit (h_flag s5) i = bit (h_flag s1) (sw x y i)).
  { intros i. unfold s5. simpl. rewrite !bit_set. unfold sw.
    repeat match goal with |- context[Nat.eqb ?u ?v] => destruct (Nat.eqb_spec u v) end; subst; congruence. }
  assert (X5 : forall i, im_get (rx_queue s5) i = im_get (rx_queue s1) (sw x y i))
    by (intros; apply get_swap_entries).
  assert (Y5 : forall i, im_get (ry_queue s5) i = im_get (ry_queue s1) (sw x y i))
    by (intros; apply get_swap_entries).
  assert (I5 : im_inj (id_map s5)).
  { intros i j l. rewrite !G. intros E2 E3. apply (sw_inj x y). eapply (i_inj s1 W1); eauto. }
  assert (L5 : forall k, locs_of (id_map s1) k -> locs_of (id_map s5) k).
  { intros k L i Hi. destruct (L i Hi) as [z E]. exists (sw x y z). rewrite G, sw_sw. auto. }
  split. { intros P N q z. rewrite X5. destruct F1. rewrite fr_rx. apply N. }
  assert (B5 : base s5 = swap_qubits x y (base s1)).
  { apply functional_extensionality. intros k. unfold base, baseof, swap_qubits.
    change (state s5) with (state s1).
    assert (Ei : inb (id_map s5) k = inb (id_map s1) (swap_assign x y k)).
    { apply eq_true_iff_eq. rewrite !inb_spec by (auto; apply W1). unfold ids_of. split; intros H i Hi.
      - rewrite bit_swap_assign in Hi. apply H in Hi. destruct Hi as [l El]. rewrite G, sw_sw in El. eauto.
      - destruct (H (sw x y i)) as [l El]; [now rewrite bit_swap_assign, sw_sw|].
        exists l. rewrite G. auto. }
    rewrite Ei. destruct (inb (id_map s1) (swap_assign x y k)); auto. f_equal.
    apply to_loc_char; auto.
    - apply L5. apply to_loc_locs.
    - intros i l. rewrite G. intros E. rewrite (bit_to_loc _ (i_inj s1 W1) _ _ _ E).
      rewrite bit_swap_assign, sw_sw. reflexivity. }
  assert (Ab5 : abs s5 = swap_qubits x y (abs s1)).
  { unfold abs. unfold core. change (op_queue s5) with (op_queue s1). rewrite Q1.
    unfold Round.opsem. simpl. rewrite B5, pendl_swap. f_equal.
    assert (Ep : forall q, pm s5 (sw x y q) = pm s1 q).
    { intros. unfold pm. rewrite H5, X5, Y5, sw_sw. reflexivity. }
    rewrite (pendl_ext _ (pm s1)) by (intros; apply Ep).
    apply pendl_perm.
    - apply NoDup_Permutation; try apply ids_nodup.
      + apply FinFun.Injective_map_NoDup; [|apply ids_nodup]. intros u v. apply sw_inj.
      + intros u. rewrite in_map_iff, ids_In. split.
        * intros [z [<- Hz]]. apply ids_In in Hz. apply Alsw. auto.
        * intros Hu. exists (sw x y u). split; [apply sw_sw|]. apply ids_In.
          apply Alsw. rewrite sw_sw. auto.
    - apply FinFun.Injective_map_NoDup; [|apply ids_nodup]. intros u v. apply sw_inj. }
  intros Bd Sd Q.
  assert (N1 : nst w b 0 s s1 (fun psi => psi)) by (eapply (ncs_abs w b); [exact C1|reflexivity|intros; apply ct_id]).
  destruct (ns_near _ _ _ _ _ _ N1 Bd Sd Q) as [_ [Sd1 [j [Lj Nj]]]].
  split.
  - destruct Sd1. constructor; auto.
    + intros q a. rewrite X5. apply sd_rx.
    + intros q a. rewrite Y5. apply sd_ry.
  - exists j. split; [exact Lj|]. rewrite Ab5. apply (nct w j); auto.
    apply ct_swap; apply Bd; auto.
Qed.

(** ** Reading the state *)
Lemma quiet_abs : forall s, aquiet s -> abs s = base s.
Proof.
  intros s [Q N]. unfold abs. rewrite pendl_I by (intros; apply no_pend_pm; apply N).
  unfold core. rewrite Q. reflexivity.
Qed.
Lemma relabel_base : forall s s' a b, arelabel s s' a b -> wf s -> base s' = base s.
Proof.
  intros s s' a b R W. pose proof (arelabel_inv _ _ _ _ R W) as W'.
  apply functional_extensionality. intros k. unfold base, baseof.
  assert (Ei : inb (id_map s') k = inb (id_map s) k).
  { apply eq_true_iff_eq. rewrite !inb_spec by (apply W || apply W'). unfold ids_of.
    split; intros H i Hi; apply (arelabel_has s s' a b i R); apply H; auto. }
  rewrite Ei. destruct (inb (id_map s) k); auto.
  rewrite (ar_st _ _ _ _ R). unfold lamp.
  rewrite (hm_get_map (state s) (swap_bits a b) (swap_bits a b) (fun k v => v))
    by (intros; apply swap_bits_invol).
  assert (Et : swap_bits a b (to_loc (id_map s') k) = to_loc (id_map s) k).
  { symmetry. apply to_loc_char; [apply W| |].
    - intros i Hi. rewrite bit_swap_bits in Hi. destruct (to_loc_locs (id_map s') k _ Hi) as [x Hx].
      exists x. rewrite (ar_id _ _ _ _ R) in Hx. destruct (im_get (id_map s) x); simpl in Hx; [|discriminate].
      f_equal. apply (sw_inj a b). congruence.
    - intros i l Hl. rewrite bit_swap_bits. apply bit_to_loc; [apply W'|].
      rewrite (ar_id _ _ _ _ R), Hl. reflexivity. }
  rewrite Et. destruct (hm_get (state s) (to_loc (id_map s) k)); reflexivity.
Qed.
Lemma relabel_ids : forall s s' a b, arelabel s s' a b -> ids s' = ids s.
Proof.
  intros s s' a b R. unfold ids. apply im_keys_ext. intros k. apply (arelabel_has s s' a b k R).
Qed.
Lemma relabel_abs : forall s s' a b, arelabel s s' a b -> wf s -> abs s' = abs s.
Proof.
  intros. unfold abs, core. rewrite (relabel_base _ _ _ _ H) by auto.
  rewrite (relabel_ids _ _ _ _ H). destruct H. rewrite ar_ops. apply pendl_ext. intros.
  unfold pm. congruence.
Qed.
Lemma relabel_sound : forall c s s' a b, arelabel s s' a b -> soundB c s -> soundB c s'.
Proof.
  intros c s s' a b [] []. constructor.
  - rewrite ar_st. unfold finl in *. rewrite Forall_forall in *. intros kv H. apply in_map_iff in H.
    destruct H as [kv0 [<- H]]. simpl. apply sd_st; auto.
  - rewrite ar_rx. auto.
  - rewrite ar_ry. auto.
  - rewrite ar_ops. auto.
Qed.

Lemma ndup_app_l : forall (l l' : list nat), NoDup (l ++ l') -> NoDup l.
Proof.
  induction l; simpl; intros; [constructor|]. inversion H; subst. constructor; eauto. intro. apply H2. apply in_or_app; auto.
Qed.
Record same_reg (s s' : sim) : Prop := mkSame {
  sr_abs : abs s' = abs s; sr_ql : op_queue s' = op_queue s; sr_rx : rx_queue s' = rx_queue s;
  sr_sound : forall c, soundB c s -> soundB c s' }.
Lemma same_refl : forall s, same_reg s s.
Proof. intros; constructor; auto. Qed.
Lemma same_trans : forall a b c, same_reg a b -> same_reg b c -> same_reg a c.
Proof. intros a b c [] []. constructor; try congruence. auto. Qed.
Lemma place_keys_n : forall l pre s s', wf s -> aquiet s -> NoDup (pre ++ l) -> Forall (alloc s) l ->
  (forall j q, nth_error pre j = Some q -> im_get (id_map s) q = Some j) ->
  foldM place_key (enumerate_from (length pre) l) s = Ok s' -> same_reg s s'.
Proof.
  induction l as [|q l IH]; intros pre s s' W Q D Al P E.
  - simpl in E. inversion E; subst. apply same_refl.
  - inversion Al as [|? ? [cur Hc] A']; subst. cbn [enumerate_from foldM] in E.
    destruct (aplace_key s (length pre) q cur W Q Hc) as [s1 [E1 H1]].
    assert (D1 : NoDup (pre ++ [q])) by (apply (ndup_app_l (pre ++ [q]) l); rewrite <- app_assoc; exact D).
    destruct (aplace_keys [q] pre s W Q) as [s1' [E1' [Pl P1]]]; auto.
    { constructor; auto. exists cur; auto. }
    cbn [enumerate_from foldM] in E1'. rewrite E1 in E, E1'. cbn [bind] in E, E1'. inversion E1'; subst s1'.
    apply (same_trans s s1 s').
    + destruct H1 as [[-> _]|R]; [apply same_refl|]. constructor; try apply R.
      * eapply relabel_abs; eauto.
      * intros c. eapply relabel_sound; eauto.
    + destruct Pl. apply (IH (pre ++ [q]) s1 s'); auto.
      * rewrite <- app_assoc. exact D.
      * eapply Forall_impl; [|exact A']. intros x Hx. apply pl_has. exact Hx.
      * rewrite app_length. simpl. rewrite Nat.add_1_r. exact E.
Qed.

Lemma keys_values : forall st, map fst (values st) = map fst st.
Proof. intros. unfold values. rewrite map_map. reflexivity. Qed.

Lemma canonicalize_r : forall b s, b <= lim -> wf s ->
  exists s', canonicalize s = Ok (s', ids s) /\
    (forall G, symm G -> rxin G s -> rxin G s') /\
    (forall st, Permutation st (state s') -> StronglySorted N.le (map fst st) -> listing (values st) (ids s) (abs s')) /\
    (bounds s -> soundB b s -> budget w (9 * length (ids s)) s -> mva w b (9 * length (ids s)) s s' (abs s)).
Proof.
  intros b s Lb W. destruct (acanon horder_perm s W) as [s' [E [Pl [P2 _]]]]. fold (ids s) in *.
  exists s'. split; [exact E|]. unfold canonicalize in E. fold (ids s) in E.
  assert (Al : Forall (alloc s) (ids s)) by (rewrite Forall_forall; intros; apply ids_In; auto).
  destruct (flush_queue_n laws horder_perm w b Lb LHRxRy (ids s) s W Al) as [s1 [E1 [G1 [L1 [_ [D1 Q1]]]]]].
  rewrite E1 in E. cbn [bind] in E.
  assert (W1 : wf s1) by (eapply ns_wf; eauto).
  assert (Qt : aquiet s1).
  { split; auto. intros q. destruct (in_dec Nat.eq_dec q (ids s)); [apply D1; auto|].
    assert (NA : ~ alloc s1 q) by (rewrite (nst_alloc _ _ _ _ _ _ q G1), <- ids_In; auto).
    unfold calm.
    destruct (bit (h_flag s1) q) eqn:Eh; [exfalso; apply NA, (i_h _ W1); auto|].
    destruct (im_get (rx_queue s1) q) eqn:Ex; [exfalso; apply NA; eapply (i_rx _ W1); eauto|].
    destruct (im_get (ry_queue s1) q) eqn:Ey; [exfalso; apply NA; eapply (i_ry _ W1); eauto|]. auto. }
  assert (A1 : Forall (alloc s1) (ids s)) by (eapply nst_Forall; eauto).
  unfold enumerate in E. destruct (foldM place_key (enumerate_from 0 (ids s)) s1) as [s2|] eqn:E2; [|discriminate].
  cbn [bind] in E. inversion E; subst s2.
  destruct (place_keys_n (ids s) [] s1 s' W1 Qt) as [Sa Sq Sx Ss]; auto.
  { simpl. apply ids_nodup. }
  { intros [|j] q; discriminate. }
  split. { intros G Sy R. eapply rxin_eq; [exact Sx|]. eapply (ns_norx _ _ _ _ _ _ G1); eauto. }
  split.
  - destruct Pl as [Ph _ Pi Pq]. intros st Pst Sst.
    pose proof (perm_keys _ _ Pst) as Pk. change (map fst st) with (keys st) in *.
    destruct (i_st _ Pi) as [ND LO].
    assert (ND' : NoDup (keys st)) by (eapply Permutation_NoDup; [apply Permutation_sym; exact Pk|auto]).
    assert (Inv : forall q l, im_get (id_map s') q = Some l -> nth_error (ids s) l = Some q).
    { intros q l Hl. assert (Aq : In q (ids s)).
      { apply ids_In. apply Ph. exists l; auto. }
      apply In_nth_error in Aq. destruct Aq as [j Hj]. pose proof (P2 _ _ Hj). congruence. }
    assert (Rg : forall x, In x (keys st) -> (x < 2 ^ N.of_nat (length (ids s)))%N).
    { intros x Hx. apply small_bits. intros i Hi.
      destruct (LO x) with (i := i) as [q Hq]; auto.
      - eapply Permutation_in; eauto.
      - apply nth_error_Some. rewrite (Inv _ _ Hq). discriminate. }
    assert (TL : forall x, (x < 2 ^ N.of_nat (length (ids s)))%N -> to_loc (id_map s') (spread (ids s) x) = x).
    { intros x Hx. apply to_loc_char; [apply Pi| |].
      - intros i Hi. apply (bits_small _ (length (ids s))) in Hi; auto.
        destruct (nth_error (ids s) i) eqn:Ei; [eauto|]. apply nth_error_None in Ei. lia.
      - intros q l Hl. unfold spread. rewrite (bit_spread_from _ 0 x l q); [reflexivity|apply ids_nodup|auto]. }
    assert (IB : forall x, inb (id_map s') (spread (ids s) x) = true).
    { intros x. apply inb_spec; [apply Pi|]. intros i Hi.
      destruct (in_dec Nat.eq_dec i (ids s)) as [Hn|Hn].
      - change (has (id_map s') i). apply Ph. apply ids_In; auto.
      - unfold spread in Hi. rewrite bit_spread_out in Hi by auto. discriminate. }
    assert (Am : forall x, (x < 2 ^ N.of_nat (length (ids s)))%N -> abs s' (spread (ids s) x) = lamp (state s') x).
    { intros x Hx. rewrite quiet_abs by auto. unfold base, baseof. rewrite IB, TL by auto. reflexivity. }
    constructor.
    + rewrite keys_values. apply sorted_Nle_lt; auto.
    + intros x v Hx. unfold values in Hx. apply in_map_iff in Hx. destruct Hx as [[x0 v0] [Hx0 Hx]].
      simpl in Hx0. inversion Hx0; subst. apply Rg. eapply In_keys; eauto.
    + intros x v Hx. unfold values in Hx. apply in_map_iff in Hx. destruct Hx as [[x0 v0] [Hx0 Hx]].
      simpl in Hx0. inversion Hx0; subst. rewrite Am by (apply Rg; eapply In_keys; eauto). unfold lamp.
      rewrite (In_hm_get (state s') x v0); auto. eapply Permutation_in; eauto.
    + intros x Hx Hn. rewrite keys_values in Hn. rewrite Am by auto. apply lamp_out. intro Hk. apply Hn.
      eapply Permutation_in; [apply Permutation_sym; exact Pk|auto].
  - intros Bd Sd Q. destruct (ns_near _ _ _ _ _ _ G1 Bd Sd Q) as [_ [Sd1 [j [Lj Nj]]]].
    split; [apply Ss; auto|]. exists j. unfold ql in *. rewrite Sq. split; auto. rewrite Sa. exact Nj.
Qed.
Lemma abs_perm_state : forall s st, wf s -> Permutation st (state s) -> abs (with_state s st) = abs s.
Proof.
  intros s st W P. unfold abs, core, base. change (ids (with_state s st)) with (ids s).
  change (pm (with_state s st)) with (pm s). simpl.
  rewrite (Round.lamp_perm st (state s)); auto.
  eapply Permutation_NoDup; [apply perm_keys, Permutation_sym; exact P|apply W].
Qed.
Lemma get_state_r : forall b s, b <= lim -> wf s ->
  exists st s', get_state s = Ok (st, length (ids s), s') /\
    (forall G, symm G -> rxin G s -> rxin G s') /\ listing (values st) (ids s) (abs s') /\
    (bounds s -> soundB b s -> budget w (9 * length (ids s)) s ->
       finl st /\ mva w b (9 * length (ids s)) s s' (abs s)).
Proof.
  intros b s Lb W. unfold get_state. destruct (canonicalize_r b s Lb W) as [s' [E [X [L N]]]].
  rewrite E. cbn [bind]. eexists _, _. split; [reflexivity|]. split; [exact X|]. split.
  - apply L; [apply asort_perm|apply asort_sorted].
  - intros Bd Sd Q. destruct (N Bd Sd Q) as [Sd' H]. split; [|split; auto].
    eapply Permutation_Forall; [apply Permutation_sym, asort_perm|]. apply Sd'.
Qed.
Lemma dump_r : forall b s, b <= lim -> wf s ->
  exists st s', dump s = Ok (st, s') /\
    (forall G, symm G -> rxin G s -> rxin G s') /\ listing (values st) (ids s) (abs s') /\
    (bounds s -> soundB b s -> budget w (9 * length (ids s)) s ->
       finl st /\ mva w b (9 * length (ids s)) s s' (abs s)).
Proof.
  intros b s Lb W. unfold dump. destruct (canonicalize_r b s Lb W) as [s' [E [X [L N]]]].
  destruct (acanon horder_perm s W) as [s'' [E' [[_ _ W' _] _]]]. rewrite E in E'. inversion E'; subst s''.
  rewrite E. cbn [bind]. eexists _, _. split; [reflexivity|].
  assert (P := asort_perm (state s')).
  rewrite (abs_perm_state _ _ W' P). split; [exact X|]. split.
  - apply L; [exact P|apply asort_sorted].
  - intros Bd Sd Q. destruct (N Bd Sd Q) as [Sd' H].
    assert (Fi : finl (sort_state (state s'))) by (eapply Permutation_Forall; [apply Permutation_sym, P|apply Sd']).
    split; [auto|]. split; [destruct Sd'; constructor; auto|]. rewrite <- (abs_perm_state _ _ W' P) in H. exact H.
Qed.

(** ** joint_probability *)
Lemma joint_probability_r : forall b s qs, b <= lim -> wf s -> NoDup qs -> Forall (alloc s) qs ->
  exists p s', joint_probability s qs = Ok (p, s') /\
    (forall G, symm G -> rxin G s -> rxin G s') /\
    (bounds s -> soundB b s -> budget w (9 * length qs) s -> mva w b (9 * length qs) s s' (abs s)).
Proof.
  intros b s qs Lb W D Al. unfold joint_probability.
  destruct (maybe_flush_n laws horder_perm w b Lb qs s W Al) as [s1 [E1 [G1 [L1 [_ D1]]]]].
  rewrite E1. cbn [bind]. rewrite acheck by auto. cbn [bind].
  assert (A1 : Forall (alloc s1) qs) by (eapply nst_Forall; eauto).
  assert (W1 : wf s1) by (eapply ns_wf; eauto).
  destruct (amapM_find s1 qs A1) as [locs [E2 R2]]. rewrite E2. cbn [bind].
  unfold check_joint_probability. destruct (take_ops_ok s1 W1) as [ops' [E3 [Tk S1]]]. rewrite E3. cbn [bind].
  eexists _, _. split; [reflexivity|]. split.
  { intros G Sy R. eapply (ns_norx _ _ _ _ _ _ G1); eauto. }
  intros Bd Sd Q. destruct (ns_near _ _ _ _ _ _ G1 Bd Sd Q) as [Ct M1].
  assert (Bd1 : bounds s1) by (eapply bounds_id; [|exact Bd]; eapply ns_id; eauto).
  assert (Q1 : budget w 0 s1).
  { eapply (budget_mva laws w b _ 0 s s1 (fun x => x)); eauto; [eapply ns_id; eauto|].
    rewrite Nat.add_0_r. exact Q. }
  destruct M1 as [Sd1 [j [Lj Nj]]].
  destruct (taken_near laws w b Lb s1 0 ops' W1 Tk Bd1 Sd1 Q1 S1) as [F1 [_ N1]].
  split; [destruct Sd1; constructor; simpl; auto|]. exists (ql s1 + j)%nat. split; [unfold ql in *; simpl; lia|].
  eapply (ntrans w); [|exact Nj]. unfold abs. apply nct; [apply ct_pm; exact Bd1|]. exact N1.
Qed.
End RR.
