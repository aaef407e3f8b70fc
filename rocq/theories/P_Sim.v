(** * Simulator properties C01-C19

    Vocabulary: [proper] histories, [reached] states, [shows] (what get_state lists),
    [exec]/[run1] (the model) are in [SimRun]; the ideal machine and the mathematics
    are in [SpecRun], [Spec], [SpecExp], [SpecApply].  [exact_world] says that the
    threshold is 0, hash maps iterate in any order, samples are in [0,1). *)
From Coq Require Import Reals NArith List Bool Lia Lra Sorted.
From Verif Require Import Cx Bits Arith ArithR IndexMap Sim SimExp SimApply Spec SpecExp SpecApply SpecRun SimRun
  RunLemmas RunThms SimProps Misuse MisuseThms World SimEx.
Import ListNotations.
Local Open Scope R_scope.

(** ** C01 *)

(** Gate sequences act as the product of their matrices, on every reachable state.  Missing from the
    full statement: sequences with a single-qubit ry need [no_odd_pi] (see [C01_refuted]). *)
Theorem C01_gates_partial : forall (T : Tol) (EN : Env), exact_world ->
  forall g h gs rs s psi phi, proper (h ++ gs) ->
  Forall (fun c => ~ is_ry c) gs \/ no_odd_pi (h ++ gs) ->
  exec (new_sim g) h = Ok (rs, s) -> shows s (live_after h) psi -> gates_action gs psi = Some phi ->
  exists rs' s', exec s gs = Ok (rs', s') /\ shows s' (live_after h) phi.
Proof. exact (fun T EN EW => gates_thm EW). Qed.
Print Assumptions C01_gates_partial.
Example C01_gates_ex : exists s s' rs rs', @exec T0 E0 (@new_sim (@RArith T0) E0 tt) bell_history = Ok (rs, s) /\
  exec s [CGate GT 1; CMc (GRy 1) [0%nat] 1; CGate (GRx PI) 0] = Ok (rs', s') /\
  shows s' [0%nat; 1%nat] (gate1 (mRx PI) 0 (cgate [0%nat] (mRy 1) 1 (gate1 mT 1 bell))).
Proof.
  destruct bell_shown as [rs [s [E [_ Sh]]]].
  destruct (C01_gates_partial T0 E0 exact0 tt bell_history [CGate GT 1; CMc (GRy 1) [0%nat] 1; CGate (GRx PI) 0] rs s bell
    (gate1 (mRx PI) 0 (cgate [0%nat] (mRy 1) 1 (gate1 mT 1 bell)))) as [rs' [s' [E' S']]]; auto.
  - destruct bell_proper as [V U]. split.
    + apply valid_run_app. split; auto. simpl. split; auto. split; auto. split; [repeat constructor; simpl; intuition lia|].
      intros x [<-|[<-|[]]]; simpl; auto.
    + apply Forall_app. split; auto. repeat constructor.
  - left. repeat constructor; simpl; auto.
  - exists s, s', rs, rs'. auto.
Qed.

(** A single-qubit ry turns by its angle, or by the opposite angle over a pending rx of an odd multiple of pi. *)
Theorem C01_ry_partial : forall (T : Tol) (EN : Env), exact_world ->
  forall s l psi th t, reached s l -> shows s l psi -> In t l ->
  exists s', gate_ry s th t = Ok s' /\
    ((forall a, im_get (rx_queue s) t = Some a -> cos (a / 2) <> 0) -> shows s' l (gate1 (mRy th) t psi)) /\
    (forall a, im_get (rx_queue s) t = Some a -> cos (a / 2) = 0 -> shows s' l (gate1 (mRy (- th)) t psi)).
Proof. exact (fun T EN EW => ry_thm EW). Qed.
Print Assumptions C01_ry_partial.
Example C01_ry_ex : exists s, @reached T0 E0 s [0%nat; 1%nat] /\ shows s [0%nat; 1%nat] bell /\
  exists s', gate_ry s 1 1 = Ok s'.
Proof.
  destruct bell_shown as [rs [s [E [R Sh]]]]. exists s. split; auto. split; auto.
  destruct (C01_ry_partial T0 E0 exact0 s _ bell 1 1%nat R Sh) as [s' [H _]]; simpl; eauto.
Qed.

(** Every history of valid calls, with measurements, allocations and releases, gives the replies and the state
    of the ideal machine on the same history with some single-qubit ry angles negated; none is under [no_odd_pi]. *)
Theorem C01_history_partial : forall (T : Tol) (EN : Env), exact_world ->
  forall g h, proper h ->
  exists rs s h', exec (new_sim g) h = Ok (rs, s) /\
    Forall2 up_to_ry_sign h h' /\ (no_odd_pi h -> h' = h) /\
    replies_ok draw (initial g) h' rs /\ shows s (live_after h) (vec (mrun draw (initial g) h')).
Proof. exact (fun T EN EW => history_thm EW). Qed.
Print Assumptions C01_history_partial.
Example C01_history_ex : proper bell_history /\ no_odd_pi bell_history /\ proper spin_history /\ no_odd_pi spin_history
  /\ exists rs s, @exec T0 E0 (@new_sim (@RArith T0) E0 tt) bell_history = Ok (rs, s) /\ shows s [0%nat; 1%nat] bell.
Proof.
  split; [apply bell_proper|]. split; [apply bell_no_odd|]. split; [apply spin_proper|]. split; [apply spin_no_odd|].
  destruct bell_shown as [rs [s [E [_ Sh]]]]. eauto.
Qed.

(** The full statement is false: rx(pi), ry(pi/2), h on a new qubit gives probability 0 where 1 is right. *)
Theorem C01_refuted : exists (T : Tol) (EN : Env), exact_world /\
  exists g h, proper (h ++ [CJointProb [0%nat]]) /\ Forall (fun c => gate_action c <> None) (tl h) /\
  exists rs s, exec (new_sim g) (h ++ [CJointProb [0%nat]]) = Ok (rs, s) /\
    nth_error rs (length h) = Some (RProb 0) /\
    born 1 [0%nat] (vec (mrun draw (initial g) h)) = 1.
Proof.
  exists T0, E0. split; [apply exact0|]. exists tt, (removelast clash_history). split; [apply clash_proper|].
  split. { repeat constructor; discriminate. }
  destruct clash_exec as [rs [s [E N]]]. exists rs, s. split; [exact E|]. split; [exact N|]. exact clash_ideal.
Qed.
Print Assumptions C01_refuted.

(** ** C02 *)

(** Flushing any qubits at any level changes nothing that get_state shows. *)
Theorem C02_flush_invisible : forall (T : Tol) (EN : Env), exact_world ->
  forall s l psi qs lv, reached s l -> shows s l psi -> incl qs l ->
  exists s', flush_queue s qs lv = Ok s' /\ rng s' = rng s /\ shows s' l psi.
Proof. exact (fun T EN EW => flush_thm EW). Qed.
Print Assumptions C02_flush_invisible.
Example C02_flush_ex : exists s, @reached T0 E0 s [0%nat; 1%nat] /\ shows s [0%nat; 1%nat] bell /\ incl [0%nat] [0%nat; 1%nat].
Proof.
  destruct bell_shown as [rs [s [E [R Sh]]]]. exists s. split; auto. split; auto. intros x [<-|[]]. simpl; auto.
Qed.

(** A call that only looks can be removed from a history: later replies and the final state are the same.
    Missing: histories in which an rx of an odd multiple of pi meets a ry (see [C02_refuted]). *)
Theorem C02_observers_removable_partial : forall (T : Tol) (EN : Env), exact_world ->
  forall g h1 o h2, observer o -> proper (h1 ++ o :: h2) -> proper (h1 ++ h2) -> no_odd_pi (h1 ++ o :: h2) ->
  exists rs1 s1 r s1' rs2 rs2' t t',
    exec (new_sim g) h1 = Ok (rs1, s1) /\ run1 s1 o = Ok (r, s1') /\
    exec s1 h2 = Ok (rs2, t) /\ exec s1' h2 = Ok (rs2', t') /\ Forall2 same_reply rs2 rs2' /\
    (forall psi, shows t (live_after (h1 ++ h2)) psi <-> shows t' (live_after (h1 ++ h2)) psi).
Proof. exact (fun T EN EW => observer_thm EW). Qed.
Print Assumptions C02_observers_removable_partial.
Example C02_observers_ex : exists h1 h2, observer CState /\ proper (h1 ++ CState :: h2) /\ proper (h1 ++ h2) /\
  no_odd_pi (h1 ++ CState :: h2) /\ h2 = [CGate (GRy 1) 0; CGate GH 0] /\ h1 = [CAlloc; CGate (GRx (2 * PI / 3)) 0].
Proof.
  exists [CAlloc; CGate (GRx (2 * PI / 3)) 0], [CGate (GRy 1) 0; CGate GH 0].
  split; [exact I|]. split; [split; [simpl; auto 10|repeat constructor]|]. split; [apply spin_proper|].
  split; [|auto]. right. exists thirds. split; [apply thirds_subgroup|]. split; [apply thirds_cos|].
  repeat constructor; simpl; auto. exists 1%Z. lra.
Qed.

(** Without that condition the moment of flushing matters: a qubit_is_zero call between rx(pi) and ry
    changes a later probability from 0 to 1. *)
Theorem C02_refuted : exists (T : Tol) (EN : Env), exact_world /\
  exists g h1 o h2, observer o /\ proper (h1 ++ o :: h2) /\ proper (h1 ++ h2) /\
  (exists rs s, exec (new_sim g) (h1 ++ h2) = Ok (rs, s) /\ last rs RUnit = RProb 0) /\
  (exists rs s, exec (new_sim g) (h1 ++ o :: h2) = Ok (rs, s) /\ last rs RUnit = RProb 1).
Proof.
  exists T0, E0. split; [apply exact0|]. exists tt, before_ry, (CIsZero 0), from_ry.
  split; [exact I|]. split; [apply looked_proper|]. split; [apply clash_proper|]. split.
  - destruct clash_exec as [rs [s [E N]]]. exists rs, s. split; [exact E|].
    assert (L := exec_length _ _ _ _ E). destruct rs as [|r0 [|r1 [|r2 [|r3 [|r4 [|r5 rs]]]]]]; simpl in L; try discriminate.
    simpl in *. congruence.
  - destruct looked_exec as [rs [s [E N]]]. exists rs, s. split; [exact E|].
    assert (L := exec_length _ _ _ _ E). destruct rs as [|r0 [|r1 [|r2 [|r3 [|r4 [|r5 [|r6 rs]]]]]]]; simpl in L; try discriminate.
    simpl in *. congruence.
Qed.
Print Assumptions C02_refuted.

(** ** C03 *)

(** For every threshold. *)
Theorem C03_no_panic_any_threshold : forall (T : Tol) (EN : Env), order_ok ->
  forall g h, valid_run (mkBook [] true) h -> ~ Exists is_apply h ->
  exists rs s, exec (new_sim g) h = Ok (rs, s).
Proof. exact (fun T EN => no_panic_thm). Qed.
Print Assumptions C03_no_panic_any_threshold.
Example C03_any_ex : (forall T : Tol, @valid_run (mkBook [] true) bell_history) /\ ~ Exists is_apply bell_history.
Proof.
  split; [intros; apply bell_proper|]. intros H. repeat (inversion H as [? ? X|? ? X]; subst; [exact X|clear H; rename X into H]).
  inversion H.
Qed.
(** With matrix application, in exact arithmetic. *)
Theorem C03_no_panic : forall (T : Tol) (EN : Env), exact_world ->
  forall g h, proper h -> exists rs s, exec (new_sim g) h = Ok (rs, s).
Proof. exact (fun T EN EW => proper_no_panic EW). Qed.
Print Assumptions C03_no_panic.
Example C03_ex : proper (bell_history ++ [CApply 2 2 identity2 [1%nat] (Some [0%nat])]).
Proof.
  destruct bell_proper as [V U]. split.
  - apply valid_run_app. split; auto. simpl. split; auto. split; auto. split; [repeat constructor; simpl; intuition lia|].
    intros x [<-|[<-|[]]]; simpl; auto.
  - apply Forall_app. split; auto. repeat constructor. exact identity2_iso.
Qed.

(** ** C04, C05 *)
Theorem C04_measure_born : forall (T : Tol) (EN : Env), exact_world ->
  forall s l psi q, reached s l -> shows s l psi -> In q l ->
  0 <= born (width l) [q] psi <= 1 /\
  exists r s', measure s q = Ok (r, s') /\
    (r = true <-> fst (draw (rng s)) < born (width l) [q] psi).
Proof.
  intros T EN EW s l psi q Re Sh Iq. destruct (measure1_thm EW s l psi q Re Sh Iq) as [B [r [s' [H1 [H2 _]]]]]. eauto.
Qed.
Print Assumptions C04_measure_born.
Example C04_ex : exists s, @reached T0 E0 s [0%nat; 1%nat] /\ shows s [0%nat; 1%nat] bell /\
  born (width [0%nat; 1%nat]) [0%nat] bell = 1 / 2.
Proof. destruct bell_shown as [rs [s [E [R Sh]]]]. exists s. split; auto. split; auto. exact bell_born. Qed.

Theorem C05_measure_collapses : forall (T : Tol) (EN : Env), exact_world ->
  forall s l psi q, reached s l -> shows s l psi -> In q l ->
  exists r s', measure s q = Ok (r, s') /\
    shows s' l (collapsed l [q] r psi) /\ norm2 (width l) (collapsed l [q] r psi) = 1 /\
    exists s'', measure s' q = Ok (r, s'') /\ shows s'' l (collapsed l [q] r psi).
Proof.
  intros T EN EW s l psi q Re Sh Iq. destruct (measure1_thm EW s l psi q Re Sh Iq) as [B [r [s' [H1 [H2 H3]]]]]. eauto.
Qed.
Print Assumptions C05_measure_collapses.
Example C05_ex : exists s r s', @reached T0 E0 s [0%nat; 1%nat] /\ measure s 0 = Ok (r, s') /\ shows s' [0%nat; 1%nat] (collapsed [0%nat; 1%nat] [0%nat] r bell).
Proof.
  destruct bell_shown as [rs [s [E [R Sh]]]].
  destruct (C05_measure_collapses T0 E0 exact0 s _ bell 0%nat R Sh) as [r [s' [H1 [H2 _]]]]; simpl; eauto 6.
Qed.

(** ** C06 *)
Theorem C06_joint_measure : forall (T : Tol) (EN : Env), exact_world ->
  forall s l psi qs, reached s l -> shows s l psi -> NoDup qs -> incl qs l ->
  0 <= born (width l) qs psi <= 1 /\
  exists r s', joint_measure s qs = Ok (r, s') /\
    (r = true <-> fst (draw (rng s)) < born (width l) qs psi) /\
    shows s' l (collapsed l qs r psi) /\ norm2 (width l) (collapsed l qs r psi) = 1 /\
    exists s'', joint_measure s' qs = Ok (r, s'') /\ shows s'' l (collapsed l qs r psi).
Proof. exact (fun T EN EW => measure_thm EW). Qed.
Print Assumptions C06_joint_measure.
Theorem C06_joint_probability : forall (T : Tol) (EN : Env), exact_world ->
  forall s l psi qs, reached s l -> shows s l psi -> NoDup qs -> incl qs l ->
  exists s', joint_probability s qs = Ok (born (width l) qs psi, s') /\ shows s' l psi.
Proof. exact (fun T EN EW => joint_prob_thm EW). Qed.
Print Assumptions C06_joint_probability.
Example C06_ex : exists s s', @reached T0 E0 s [0%nat; 1%nat] /\
  joint_probability s [0%nat; 1%nat] = Ok (0, s') /\ shows s' [0%nat; 1%nat] bell.
Proof.
  destruct bell_shown as [rs [s [E [R Sh]]]].
  destruct (C06_joint_probability T0 E0 exact0 s _ bell [0%nat; 1%nat] R Sh) as [s' [H1 H2]].
  - repeat constructor; simpl; intuition lia.
  - apply incl_refl.
  - exists s, s'. split; auto. split; auto. rewrite H1. rewrite bell_parity. reflexivity.
Qed.

(** ** C07 *)
Theorem C07_total_probability : forall (T : Tol) (EN : Env), exact_world ->
  forall s l, reached s l ->
  (exists st n s', get_state s = Ok (st, n, s') /\ Rsum (map (fun kv => Cn2 (snd kv)) st) = 1 /\ st <> []) /\
  (forall qs, NoDup qs -> incl qs l -> exists p s', joint_probability s qs = Ok (p, s') /\ 0 <= p <= 1).
Proof. exact (fun T EN EW => total_thm EW). Qed.
Print Assumptions C07_total_probability.
Example C07_ex : exists s, @reached T0 E0 s [0%nat; 1%nat] /\ shows s [0%nat; 1%nat] bell.
Proof. destruct bell_shown as [rs [s [E [R Sh]]]]. eauto. Qed.

(** ** C08: for every threshold. *)
Theorem C08_listed_once : forall (T : Tol) (EN : Env), order_ok ->
  forall g h rs s, valid_run (mkBook [] true) h -> exec (new_sim g) h = Ok (rs, s) ->
  (exists st s', get_state s = Ok (st, length (live_after h), s') /\ StronglySorted N.lt (map fst st) /\
     Forall (fun kv => fst kv < 2 ^ N.of_nat (length (live_after h)))%N st) /\
  (exists st s', dump s = Ok (st, s') /\ StronglySorted N.lt (map fst st) /\
     Forall (fun kv => fst kv < 2 ^ N.of_nat (length (live_after h)))%N st).
Proof. exact (fun T EN => listed_once_thm). Qed.
Print Assumptions C08_listed_once.
Example C08_ex : forall (T : Tol) (EN : Env), order_ok -> forall g,
  exists rs s st s', exec (new_sim g) bell_history = Ok (rs, s) /\ get_state s = Ok (st, 2%nat, s') /\ StronglySorted N.lt (map fst st).
Proof.
  intros T EN O g. destruct (C03_no_panic_any_threshold T EN O g bell_history) as [rs [s E]].
  - apply bell_proper.
  - apply C03_any_ex.
  - destruct (C08_listed_once T EN O g bell_history rs s (proj1 bell_proper) E) as [[st [s' [H [H1 _]]]] _].
    exists rs, s, st, s'. auto.
Qed.

(** ** C09 *)
Theorem C09_get_state : forall (T : Tol) (EN : Env), exact_world ->
  forall g h rs s, proper h -> exec (new_sim g) h = Ok (rs, s) ->
  StronglySorted lt (live_after h) /\
  exists st s' c h', get_state s = Ok (st, length (live_after h), s') /\ Cn2 c = 1 /\
    Forall2 up_to_ry_sign h h' /\ (no_odd_pi h -> h' = h) /\
    listing st (live_after h) (scale c (vec (mrun draw (initial g) h'))) /\
    (forall psi, shows s (live_after h) psi -> shows s' (live_after h) psi) /\
    exists st' s'', get_state s' = Ok (st', length (live_after h), s'') /\
      forall x, amp_at st' x = amp_at st x.
Proof. exact (fun T EN EW => get_state_thm EW). Qed.
Print Assumptions C09_get_state.
Example C09_ex : exists rs s st s' c, @exec T0 E0 (@new_sim (@RArith T0) E0 tt) bell_history = Ok (rs, s) /\
  get_state s = Ok (st, 2%nat, s') /\ Cn2 c = 1 /\ listing st [0%nat; 1%nat] (scale c bell).
Proof.
  destruct bell_shown as [rs [s [E [R Sh]]]].
  destruct (C09_get_state T0 E0 exact0 tt bell_history rs s bell_proper E) as [_ [st [s' [c [h' [G [Hc [_ [Hh [L _]]]]]]]]]].
  rewrite (Hh bell_no_odd), bell_vec in L. exists rs, s, st, s', c. auto.
Qed.

(** ** C10 *)
Theorem C10_allocate : forall (T : Tol) (EN : Env), exact_world ->
  forall s l psi, reached s l -> shows s l psi ->
  let (s', q) := allocate s in
  ~ In q l /\ (forall x, (x < q)%nat -> In x l) /\ shows s' (insert_id q l) psi /\
  (forall b, bit b q = true -> psi b = C0) /\ born (width (insert_id q l)) [q] psi = 0.
Proof. exact (fun T EN EW => allocate_thm EW). Qed.
Print Assumptions C10_allocate.
(** No two qubits share a location, for every threshold. *)
Theorem C10_locations_distinct : forall (T : Tol) (EN : Env), order_ok ->
  forall g h rs s q q' loc, valid_run (mkBook [] true) h -> exec (new_sim g) h = Ok (rs, s) ->
  im_get (id_map s) q = Some loc -> im_get (id_map s) q' = Some loc -> q = q'.
Proof. exact (fun T EN => locations_thm). Qed.
Print Assumptions C10_locations_distinct.
Example C10_ex : exists s, @reached T0 E0 s [0%nat; 1%nat] /\ snd (allocate s) = 2%nat /\
  shows (fst (allocate s)) [0%nat; 1%nat; 2%nat] bell.
Proof.
  destruct bell_shown as [rs [s [E [R Sh]]]]. exists s. split; auto.
  pose proof (C10_allocate T0 E0 exact0 s _ bell R Sh) as H. destruct (allocate s) as [s' q]. destruct H as [H1 [H2 [H3 _]]].
  assert (q = 2)%nat.
  { destruct q as [|[|[|q]]]; auto; exfalso; [apply H1; simpl; auto|apply H1; simpl; auto|].
    specialize (H2 2%nat ltac:(lia)). simpl in H2. lia. }
  subst q. split; auto.
Qed.

(** ** C11 *)
Theorem C11_release_partial : forall (T : Tol) (EN : Env), exact_world ->
  forall s l psi q, reached s l -> shows s l psi -> In q l -> l <> [q] ->
  exists r s' s1, measure s q = Ok (r, s1) /\ release s q = Ok s' /\
    (r = true <-> fst (draw (rng s)) < born (width l) [q] psi) /\
    (forall x, In x (remove_id q l) <-> In x l /\ x <> q) /\
    shows s' (remove_id q l) (drop_qubit q r (collapsed l [q] r psi)).
Proof. exact (fun T EN EW => release_thm EW). Qed.
Print Assumptions C11_release_partial.
Example C11_ex : exists s r s', @reached T0 E0 s [0%nat; 1%nat] /\ release s 0 = Ok s' /\
  shows s' [1%nat] (drop_qubit 0 r (collapsed [0%nat; 1%nat] [0%nat] r bell)).
Proof.
  destruct bell_shown as [rs [s [E [R Sh]]]].
  destruct (C11_release_partial T0 E0 exact0 s _ bell 0%nat R Sh) as [r [s' [s1 [_ [H2 [_ [_ H5]]]]]]]; simpl; auto; [discriminate|].
  exists s, r, s'. auto.
Qed.
(** Releasing an identifier that is not allocated panics.  Missing: the case of exactly one allocated
    qubit, where it does not (see [C11_refuted]). *)
Theorem C11_release_unallocated_partial : forall (T : Tol) (EN : Env), order_ok ->
  forall g h rs s q, valid_run (mkBook [] true) h -> exec (new_sim g) h = Ok (rs, s) ->
  ~ In q (live_after h) -> length (live_after h) <> 1%nat ->
  exists e, release s q = Panic e.
Proof. exact (fun T EN => release_unalloc_thm). Qed.
Print Assumptions C11_release_unallocated_partial.
Example C11_unallocated_ex : exists rs s e, @exec T0 E0 (@new_sim (@RArith T0) E0 tt) bell_history = Ok (rs, s) /\ release s 7 = Panic e.
Proof.
  destruct bell_shown as [rs [s [E [R Sh]]]].
  destruct (C11_release_unallocated_partial T0 E0 (proj1 (proj2 exact0)) tt bell_history rs s 7%nat (proj1 bell_proper) E) as [e H].
  - rewrite bell_live. simpl. lia.
  - rewrite bell_live. simpl. lia.
  - eauto.
Qed.
(** With one qubit allocated and in |1>, releasing an unallocated identifier returns normally and resets that qubit. *)
Theorem C11_refuted : exists (T : Tol) (EN : Env), exact_world /\
  exists s q, reached s [0%nat] /\ q <> 0%nat /\
  (exists s1, get_state s = Ok ([(1%N, C1)], 1%nat, s1)) /\
  exists s' s1, release s q = Ok s' /\ get_state s' = Ok ([(0%N, C1)], 1%nat, s1).
Proof.
  exists T0, E0. split; [apply exact0|]. exists flipped_sim, 5%nat. split; [apply flipped_shown|]. split; [discriminate|].
  split; [apply flipped_state|apply flipped_release].
Qed.
Print Assumptions C11_refuted.

(** ** C12 *)

(** Releasing the only qubit leaves a new simulator: every field but the generator is that of [new_sim],
    except that the identifier map may keep empty slots.  For every threshold. *)
Theorem C12_release_last : forall (T : Tol) (EN : Env), order_ok ->
  forall g h rs s q, valid_run (mkBook [] true) h -> exec (new_sim g) h = Ok (rs, s) -> live_after h = [q] ->
  exists m, release s q = Ok (with_id_map (new_sim (rng s)) m) /\ forall x, im_get m x = None.
Proof. exact (fun T EN => release_last_thm). Qed.
Print Assumptions C12_release_last.
(** And it behaves as a new one from then on. *)
Theorem C12_fresh_start : forall (T : Tol) (EN : Env), exact_world ->
  forall g h rs s q h2, proper h -> exec (new_sim g) h = Ok (rs, s) -> live_after h = [q] ->
  proper h2 -> no_odd_pi h2 ->
  exists s' rs1 t1 rs2 t2, release s q = Ok s' /\
    exec s' h2 = Ok (rs1, t1) /\ exec (new_sim (rng s)) h2 = Ok (rs2, t2) /\
    Forall2 same_reply rs1 rs2 /\ (forall psi, shows t1 (live_after h2) psi <-> shows t2 (live_after h2) psi).
Proof. exact (fun T EN EW => fresh_start_thm EW). Qed.
Print Assumptions C12_fresh_start.
Example C12_ex : proper flipped /\ @exec T0 E0 (@new_sim (@RArith T0) E0 tt) flipped = Ok ([RId 0%nat; RUnit], flipped_sim) /\
  live_after flipped = [0%nat] /\ proper bell_history /\ no_odd_pi bell_history /\
  exists m, release flipped_sim 0 = Ok (with_id_map (@new_sim (@RArith T0) E0 tt) m).
Proof.
  split; [apply flipped_proper|]. split; [apply flipped_exec|]. split; [reflexivity|]. split; [apply bell_proper|].
  split; [apply bell_no_odd|]. eexists. reflexivity.
Qed.

(** ** C13 *)
Theorem C13_swap : forall (T : Tol) (EN : Env), exact_world ->
  forall s l psi a b, reached s l -> shows s l psi -> In a l -> In b l ->
  exists s', swap_qubit_ids s a b = Ok s' /\ shows s' l (swap_qubits a b psi).
Proof. exact (fun T EN EW => swap_thm EW). Qed.
Print Assumptions C13_swap.
Example C13_ex : exists s s', @reached T0 E0 s [0%nat; 1%nat] /\ swap_qubit_ids s 0 1 = Ok s' /\
  shows s' [0%nat; 1%nat] (swap_qubits 0 1 bell).
Proof.
  destruct bell_shown as [rs [s [E [R Sh]]]].
  destruct (C13_swap T0 E0 exact0 s _ bell 0%nat 1%nat R Sh) as [s' [H1 H2]]; simpl; eauto.
Qed.

(** ** C14 *)

(** A gate with an unallocated or repeated identifier, then any calls, valid or not, then a call that reads the state:
    one of them panics.  For every threshold.  Missing: allocations in between, release of the only qubit in between,
    and the single-qubit h, rx and ry (see [C14_refuted]). *)
Theorem C14_deferred_report_partial : forall (T : Tol) (EN : Env), order_ok ->
  forall g h rs s c later o, valid_run (mkBook [] true) h -> exec (new_sim g) h = Ok (rs, s) ->
  checked_gate c -> misuse (live_after h) c ->
  Forall (fun c => c <> CAlloc) later ->
  (length (live_after h) <> 1%nat \/ Forall (fun c => ~ is_release c) later) -> reads o ->
  exists e, exec s (c :: later ++ [o]) = Panic e.
Proof. exact (fun T EN => misuse_thm). Qed.
Print Assumptions C14_deferred_report_partial.
Example C14_deferred_ex : exists rs s e e', @exec T0 E0 (@new_sim (@RArith T0) E0 tt) bell_history = Ok (rs, s) /\
  exec s [CGate GX 7; CGate GH 0; CGate GT 1; CMeasure 0] = Panic e /\
  exec s [CMc GX [0%nat] 0; CSwap 0 1; CState] = Panic e'.
Proof.
  destruct bell_shown as [rs [s [E [R Sh]]]]. exists rs, s.
  destruct (C14_deferred_report_partial T0 E0 (proj1 (proj2 exact0)) tt bell_history rs s (CGate GX 7) [CGate GH 0; CGate GT 1] (CMeasure 0)
    (proj1 bell_proper) E) as [e He]; simpl; auto.
  - right. exists 7%nat. rewrite bell_live. simpl. split; auto. lia.
  - repeat constructor; discriminate.
  - destruct (C14_deferred_report_partial T0 E0 (proj1 (proj2 exact0)) tt bell_history rs s (CMc GX [0%nat] 0) [CSwap 0 1] CState
      (proj1 bell_proper) E) as [e' He']; simpl; auto.
    + left. simpl. intros N. inversion N; subst. simpl in *. tauto.
    + repeat constructor; discriminate.
    + exists e, e'. auto.
Qed.
(** A call that reads the state, or a swap, panics at once when given an unallocated or repeated identifier. *)
Theorem C14_bad_reads_panic : forall (T : Tol) (EN : Env), order_ok ->
  forall g h rs s c, valid_run (mkBook [] true) h -> exec (new_sim g) h = Ok (rs, s) ->
  reads c \/ (exists a b, c = CSwap a b) -> misuse (live_after h) c -> exists e, run1 s c = Panic e.
Proof. exact (fun T EN => misread_thm). Qed.
Print Assumptions C14_bad_reads_panic.
Example C14_reads_ex : exists rs s e, @exec T0 E0 (@new_sim (@RArith T0) E0 tt) bell_history = Ok (rs, s) /\
  joint_measure s [0%nat; 1%nat; 0%nat] = Panic e.
Proof.
  destruct bell_shown as [rs [s [E [R Sh]]]]. exists rs, s.
  destruct (C14_bad_reads_panic T0 E0 (proj1 (proj2 exact0)) tt bell_history rs s (CJointMeasure [0%nat; 1%nat; 0%nat]) (proj1 bell_proper) E) as [e He].
  - left. exact I.
  - left. simpl. intros N. inversion N; subst. simpl in *. tauto.
  - exists e. split; auto. simpl in He. destruct (joint_measure s [0%nat; 1%nat; 0%nat]) as [[b s']|]; simpl in He; congruence.
Qed.
(** h on identifier 0 before it is allocated is not reported, and changes the qubit allocated next;
    x on the unallocated identifier 7 is forgotten when the only qubit is released. *)
Theorem C14_refuted : exists (T : Tol) (EN : Env), exact_world /\
  exists g,
  (exists rs s, misuse [] (CGate GH 0) /\
     exec (new_sim g) [CGate GH 0; CAlloc; CJointProb [0%nat]] = Ok (rs, s) /\ nth_error rs 2 = Some (RProb (1 / 2))) /\
  (exists rs s, misuse [0%nat] (CGate GX 7) /\
     exec (new_sim g) [CAlloc; CGate GX 7; CRelease 0; CAlloc; CState] = Ok (rs, s) /\ nth_error rs 4 = Some (RState [(0%N, C1)] 1)).
Proof.
  exists T0, E0. split; [apply exact0|]. exists tt. split.
  - destruct leak_exec as [rs [s H]]. exists rs, s. split; [|exact H]. right. exists 0%nat. simpl. auto.
  - destruct lost_exec as [rs [s H]]. exists rs, s. split; [|exact H]. right. exists 7%nat. simpl. split; auto. lia.
Qed.
Print Assumptions C14_refuted.

(** ** C15 *)
Theorem C15_force_collapse : forall (T : Tol) (EN : Env), exact_world ->
  forall s l psi (v : bool) q, reached s l -> shows s l psi -> In q l ->
  let pv := if v then born (width l) [q] psi else 1 - born (width l) [q] psi in
  exists s', force_collapse s v q = Ok (pv, s') /\
    (pv <> 0 -> shows s' l (collapsed l [q] v psi)) /\ (pv = 0 -> shows s' l psi).
Proof. exact (fun T EN EW => force_thm EW). Qed.
Print Assumptions C15_force_collapse.
Theorem C15_qubit_is_zero : forall (T : Tol) (EN : Env), exact_world ->
  forall s l psi q, reached s l -> shows s l psi -> In q l ->
  exists b s', qubit_is_zero s q = Ok (b, s') /\ (b = true <-> born (width l) [q] psi = 0) /\ shows s' l psi.
Proof. exact (fun T EN EW => is_zero_thm EW). Qed.
Print Assumptions C15_qubit_is_zero.
Example C15_ex : exists s s' s'', @reached T0 E0 s [0%nat; 1%nat] /\
  force_collapse s true 0 = Ok (1 / 2, s') /\ shows s' [0%nat; 1%nat] (collapsed [0%nat; 1%nat] [0%nat] true bell) /\
  qubit_is_zero s 0 = Ok (false, s'').
Proof.
  destruct bell_shown as [rs [s [E [R Sh]]]].
  assert (B : born (width [0%nat; 1%nat]) [0%nat] bell = 1 / 2) by exact bell_born.
  pose proof (C15_force_collapse T0 E0 exact0 s _ bell true 0%nat R Sh ltac:(simpl; auto)) as H.
  cbv zeta iota in H. rewrite B in H. destruct H as [s' [H1 [H2 _]]].
  destruct (C15_qubit_is_zero T0 E0 exact0 s _ bell 0%nat R Sh ltac:(simpl; auto)) as [b [s'' [H3 [H4 _]]]].
  rewrite B in H4. assert (b = false). { destruct b; auto. exfalso. assert (1 / 2 = 0) by tauto. lra. } subst b.
  exists s, s', s''. split; auto. split; auto. split; auto. apply H2. lra.
Qed.

(** ** C16: for every threshold and every history, valid or not. *)
Theorem C16_queue_bound : forall (T : Tol) (EN : Env),
  forall g h rs s, exec (new_sim g) h = Ok (rs, s) -> (N.of_nat (length (op_queue s)) <= 10000)%N.
Proof. exact (fun T EN => queue_thm). Qed.
Print Assumptions C16_queue_bound.
(** The flush made when the limit is reached is invisible. *)
Theorem C16_limit_invisible : forall (T : Tol) (EN : Env), exact_world ->
  forall s l psi, reached s l -> shows s l psi -> exists s', flush_ops s = Ok s' /\ shows s' l psi.
Proof. exact (fun T EN => limit_thm). Qed.
Print Assumptions C16_limit_invisible.
Example C16_ex : exists rs s, @exec T0 E0 (@new_sim (@RArith T0) E0 tt) bell_history = Ok (rs, s) /\
  reached s [0%nat; 1%nat] /\ shows s [0%nat; 1%nat] bell /\ op_queue s <> [].
Proof.
  destruct bell_shown as [rs [s [E [R Sh]]]]. exists rs, s. split; auto. split; auto. split; auto.
  destruct bell_queue as [rs' [s' [E' Q]]]. rewrite E in E'. inversion E'; subst. exact Q.
Qed.

(** ** C17 *)
Theorem C17_mcexp : forall (T : Tol) (EN : Env), exact_world ->
  forall s l psi cs ps th ts, reached s l -> shows s l psi -> NoDup (cs ++ ts) -> incl (cs ++ ts) l ->
  (length ps <= length ts)%nat ->
  exists s', mcexp s cs ps th ts = Ok s' /\ shows s' l (ctrl_op cs (exp_op th (combine ps ts)) psi).
Proof. exact (fun T EN EW => exp_thm EW). Qed.
Print Assumptions C17_mcexp.
Theorem C17_exp : forall (T : Tol) (EN : Env), exact_world ->
  forall s l psi ps th ts, reached s l -> shows s l psi -> NoDup ts -> incl ts l ->
  (length ps <= length ts)%nat ->
  exists s', exp_gate s ps th ts = Ok s' /\ shows s' l (exp_op th (combine ps ts) psi).
Proof. exact (fun T EN EW => exp0_thm EW). Qed.
Print Assumptions C17_exp.
Example C17_ex : exists s s', @reached T0 E0 s [0%nat; 1%nat] /\ mcexp s [1%nat] [PY_] 1 [0%nat] = Ok s' /\
  shows s' [0%nat; 1%nat] (ctrl_op [1%nat] (exp_op 1 [(PY_, 0%nat)]) bell).
Proof.
  destruct bell_shown as [rs [s [E [R Sh]]]].
  destruct (C17_mcexp T0 E0 exact0 s _ bell [1%nat] [PY_] 1 [0%nat] R Sh) as [s' [H1 H2]].
  - repeat constructor; simpl; intuition lia.
  - intros x [<-|[<-|[]]]; simpl; auto.
  - simpl; lia.
  - exists s, s'. auto.
Qed.

(** ** C18 *)

(** Missing: states in which a released qubit left a hole (see [C18_refuted]); [proper] includes that no qubit
    was released since the last reset, get_state or dump. *)
Theorem C18_apply_partial : forall (T : Tol) (EN : Env), exact_world ->
  forall g h rs s psi d u ts cs, proper (h ++ [CApply d d u ts cs]) ->
  exec (new_sim g) h = Ok (rs, s) -> shows s (live_after h) psi ->
  exists s', apply_matrix s (@mkMatrix RArith d d u) ts cs = Ok s' /\
    shows s' (live_after h) (ctrl_op (ctl_list cs) (mat_op u ts) psi).
Proof. exact (fun T EN EW => apply_thm EW). Qed.
Print Assumptions C18_apply_partial.
Example C18_ex : exists rs s s', @exec T0 E0 (@new_sim (@RArith T0) E0 tt) bell_history = Ok (rs, s) /\
  apply_matrix s (@mkMatrix RArith 2 2 identity2) [1%nat] (Some [0%nat]) = Ok s' /\
  shows s' [0%nat; 1%nat] (ctrl_op [0%nat] (mat_op identity2 [1%nat]) bell).
Proof.
  destruct bell_shown as [rs [s [E [R Sh]]]].
  destruct (C18_apply_partial T0 E0 exact0 tt bell_history rs s bell 2 identity2 [1%nat] (Some [0%nat]) C03_ex E Sh) as [s' [H1 H2]].
  exists rs, s, s'. auto.
Qed.
(** After swap_qubit_ids(0,2) and release(2) a 2x2 identity on the allocated qubit 0 panics. *)
Theorem C18_refuted : exists (T : Tol) (EN : Env), exact_world /\
  exists s, reached s [0%nat; 1%nat] /\ isometry 2 identity2 /\
  exists e, apply_matrix s (@mkMatrix RArith 2 2 identity2) [0%nat] None = Panic e.
Proof.
  exists T0, E0. split; [apply exact0|]. destruct hole_exec as [rs [s [E H]]]. exists s. split.
  - exists tt, hole_history, rs. split; [apply hole_proper|]. split; auto.
  - split; [apply identity2_iso|exact H].
Qed.
Print Assumptions C18_refuted.

(** ** C19 *)
Theorem C19_adjoint_undoes : forall (T : Tol) (EN : Env), exact_world ->
  forall g h c c' rs s psi, inverse_call c = Some c' -> proper (h ++ [c]) ->
  exec (new_sim g) h = Ok (rs, s) -> shows s (live_after h) psi ->
  exists rs' s', exec s [c; c'] = Ok (rs', s') /\ shows s' (live_after h) psi.
Proof. exact (fun T EN EW => adjoint_thm EW). Qed.
Print Assumptions C19_adjoint_undoes.
Example C19_ex : exists rs s rs' s', @exec T0 E0 (@new_sim (@RArith T0) E0 tt) bell_history = Ok (rs, s) /\
  exec s [CGate GT 1; CGate GTadj 1] = Ok (rs', s') /\ shows s' [0%nat; 1%nat] bell.
Proof.
  destruct bell_shown as [rs [s [E [R Sh]]]].
  destruct (C19_adjoint_undoes T0 E0 exact0 tt bell_history (CGate GT 1) (CGate GTadj 1) rs s bell eq_refl) as [rs' [s' [H1 H2]]]; auto.
  - apply bell_proper_snoc; [|exact I]. intros b Hb. simpl. rewrite Hb. simpl. auto.
  - exists rs, s, rs', s'. auto.
Qed.
