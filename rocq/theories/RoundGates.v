(** * Gates with rounding: queue and flushes

    The lemmas of NearGates.v for an arithmetic that satisfies [approx_ok].  [ncs k] and
    [nst k] say that a step moves the vector by at most [k] times [runit w] from the exact
    one, where every operation left in the queue counts as one unit still to be paid. *)
From Coq Require Import Reals NArith List Bool Lia Lra Permutation Arith FunctionalExtensionality.
From Verif Require Import Cx Arith ArithR IndexMap IndexMapLemmas Bits BitsLemmas Spec QLib QSum Sim
  StateLemmas Loc Abs Gates Gates2 Meas SpecAny Any SpecNear Near NearGates NearGates2 SpecRound Round.
Import ListNotations.
Local Open Scope R_scope.

Section RG.
Context {A : Arith} {EN : Env} {AP : Approx}.
Hypothesis laws : approx_ok.
Hypothesis horder_perm : any_order.
Variable w : nat.

(** Finite angles up to [b]; states with finite amplitudes and such angles. *)
Definition angle_le (b : R) (t : ang) : Prop := tfin t /\ Rabs (tval t) <= b.
Record soundB (b : R) (s : sim) : Prop := mkSound {
  sd_st : finl (state s);
  sd_rx : forall q a, im_get (rx_queue s) q = Some a -> angle_le b a;
  sd_ry : forall q a, im_get (ry_queue s) q = Some a -> angle_le b a;
  sd_ops : Forall (opang (angle_le b)) (op_queue s) }.
Variable B : R.
Hypothesis B_lim : B <= lim.

(** ** The meaning of a simulator state *)
Definition alloc (s : sim) (q : nat) : Prop := has (id_map s) q.
Definition base (s : sim) : qstate := baseof (id_map s) (lamp (state s)).
Definition core (s : sim) : qstate := opsem (op_queue s) (base s).
Definition cz (theta : ang) : bool := anz (chalf theta).
Definition oneg (o : option ang) : option ang := option_map tneg o.
Definition effy (ox oy : option ang) : option ang :=
  match ox with Some a => if cz a then oneg oy else oy | None => oy end.
Definition oval (o : option ang) : option R := option_map tval o.
Lemma effy_none : forall ox, effy ox None = None.
Proof. destruct ox; simpl; auto. destruct (cz a); auto. Qed.
Lemma effy_neg : forall ox oy, effy ox (oneg oy) = oneg (effy ox oy).
Proof. destruct ox; simpl; auto. intros. destruct (cz a); auto. Qed.
Lemma cz_neg : forall a, cz (tneg a) = cz a.
Proof. intros. unfold cz. apply laws. Qed.
Lemma effy_negx : forall ox oy, effy (oneg ox) oy = effy ox oy.
Proof. destruct ox; simpl; auto. intros. now rewrite cz_neg. Qed.
Lemma oval_neg : forall o, oval (oneg o) = Abs.oneg (oval o).
Proof. destruct o; simpl; auto. f_equal. apply laws. Qed.
Definition pm (s : sim) (q : nat) : mat :=
  mmul (ryo (oval (effy (im_get (rx_queue s) q) (im_get (ry_queue s) q))))
    (mmul (rxo (oval (im_get (rx_queue s) q))) (hmat (bit (h_flag s) q))).
Definition ids (s : sim) : list nat := im_keys (id_map s).
Definition abs (s : sim) : qstate := pendl (pm s) (ids s) (core s).
Lemma ids_In : forall s q, In q (ids s) <-> alloc s q.
Proof. intros. apply im_keys_In. Qed.
Lemma ids_nodup : forall s, NoDup (ids s).
Proof. intros. apply im_keys_nodup. Qed.
Lemma upm : forall s q, unitary (pm s q).
Proof. intros. unfold pm. apply unitary_mmul; [apply uryo|apply unitary_mmul; [apply urxo|apply uhmat]]. Qed.

Notation wf := inv.
Definition bounds (s : sim) : Prop := idbound w (id_map s).
Lemma bounds_alloc : forall s q, bounds s -> alloc s q -> (q < w)%nat.
Proof. intros s q H. apply H. Qed.
Notation angB := (angle_le B).
Lemma angB_ok : forall t, angB t -> angle_ok t.
Proof. intros t [F H]. split; auto. lra. Qed.
Lemma angB_neg : forall t, angB t -> angB (tneg t).
Proof. intros t [F H]. destruct (ap_tneg laws t) as [F' E]. split; auto. rewrite E, Rabs_Ropp. auto. Qed.
Notation sound := (soundB B).
Definition ql (s : sim) : nat := length (op_queue s).
Definition budget (k : nat) (s : sim) : Prop := qnorm w (core s) + INR (k + ql s) * runit w <= 2.
Lemma budget_mono : forall j k s, (j <= k)%nat -> budget k s -> budget j s.
Proof.
  unfold budget. intros j k s H Q. assert (P := runit_pos laws w). assert (I := le_INR (j + ql s) (k + ql s) ltac:(lia)). nra.
Qed.
Lemma budget_norm : forall k s, budget k s -> qnorm w (core s) <= 2.
Proof. unfold budget. intros k s Q. assert (P := runit_pos laws w). assert (I := pos_INR (k + ql s)). nra. Qed.

Record frame (s s' : sim) : Prop := {
  fr_id : id_map s' = id_map s;
  fr_rng : rng s' = rng s;
  fr_h : h_flag s' = h_flag s;
  fr_rx : rx_queue s' = rx_queue s;
  fr_ry : ry_queue s' = ry_queue s
}.
Lemma frame_refl : forall s, frame s s.
Proof. intros; constructor; auto. Qed.
Lemma frame_trans : forall a b c, frame a b -> frame b c -> frame a c.
Proof. intros a b c [] []; constructor; congruence. Qed.
Lemma frame_alloc : forall s s' q, frame s s' -> (alloc s' q <-> alloc s q).
Proof. intros s s' q []. unfold alloc. rewrite fr_id0. tauto. Qed.
Lemma frame_pm : forall s s' q, frame s s' -> pm s' q = pm s q.
Proof. intros s s' q []. unfold pm. congruence. Qed.
Lemma frame_ids : forall s s', frame s s' -> ids s' = ids s.
Proof. intros s s' []. unfold ids. congruence. Qed.
Record same_other (t : nat) (s s' : sim) : Prop := {
  so_h : forall q, q <> t -> bit (h_flag s') q = bit (h_flag s) q;
  so_rx : forall q, q <> t -> im_get (rx_queue s') q = im_get (rx_queue s) q;
  so_ry : forall q, q <> t -> im_get (ry_queue s') q = im_get (ry_queue s) q
}.
Lemma so_pm : forall t s s' q, same_other t s s' -> q <> t -> pm s' q = pm s q.
Proof. intros t s s' q [] H. unfold pm. rewrite so_h0, so_rx0, so_ry0; auto. Qed.
Lemma so_refl : forall t s, same_other t s s.
Proof. intros; constructor; auto. Qed.
Lemma so_trans : forall t a b c, same_other t a b -> same_other t b c -> same_other t a c.
Proof.
  intros t a b c [] []; constructor; intros; [rewrite so_h1|rewrite so_rx1|rewrite so_ry1]; auto.
Qed.
Definition rxin (G : R -> Prop) (s : sim) : Prop := forall q a, im_get (rx_queue s) q = Some a -> G (tval a).
Lemma rxin_eq : forall G s s', rx_queue s' = rx_queue s -> rxin G s -> rxin G s'.
Proof. intros G s s' E H q a. rewrite E. apply H. Qed.
Lemma rxin_sub : forall G s s', (forall q, im_get (rx_queue s') q = None \/ im_get (rx_queue s') q = im_get (rx_queue s) q) ->
  rxin G s -> rxin G s'.
Proof. intros G s s' E H q a Ha. destruct (E q) as [E'|E']; [congruence|]. apply (H q). congruence. Qed.
Definition no_pend (s : sim) (q : nat) : Prop :=
  bit (h_flag s) q = false /\ im_get (rx_queue s) q = None /\ im_get (ry_queue s) q = None.
Lemma no_pend_pm : forall s q, no_pend s q -> pm s q = mI.
Proof.
  intros s q [H1 [H2 H3]]. unfold pm. rewrite H1, H2, H3. simpl. now rewrite !mmul_I_l.
Qed.
Definition ry_rel (s s' : sim) (t : nat) : Prop :=
  (im_get (ry_queue s') t = None <-> im_get (ry_queue s) t = None) /\
  im_get (ry_queue s') t = effy (im_get (rx_queue s) t) (im_get (ry_queue s) t).

Lemma wf_upd_ry : forall s t f, wf s -> wf (with_ry s (im_update (ry_queue s) t f)).
Proof.
  intros s t f []; constructor; simpl; auto. intros q a H. rewrite im_get_update in H.
  destruct (Nat.eqb_spec t q); eauto. destruct (im_get (ry_queue s) q) eqn:E; simpl in H; [|discriminate].
  eapply i_ry; eauto.
Qed.
Lemma wf_upd_rx : forall s t f, wf s -> wf (with_rx s (im_update (rx_queue s) t f)).
Proof.
  intros s t f []; constructor; simpl; auto. intros q a H. rewrite im_get_update in H.
  destruct (Nat.eqb_spec t q); eauto. destruct (im_get (rx_queue s) q) eqn:E; simpl in H; [|discriminate].
  eapply i_rx; eauto.
Qed.
Lemma wf_rem_rx : forall s t, wf s -> wf (with_rx s (im_remove (rx_queue s) t)).
Proof.
  intros s t []; constructor; simpl; auto. intros q a H. rewrite im_get_remove in H.
  destruct (Nat.eqb t q); [discriminate|]. eauto.
Qed.
Lemma wf_rem_ry : forall s t, wf s -> wf (with_ry s (im_remove (ry_queue s) t)).
Proof.
  intros s t []; constructor; simpl; auto. intros q a H. rewrite im_get_remove in H.
  destruct (Nat.eqb t q); [discriminate|]. eauto.
Qed.
Lemma sd_neg_ry : forall s t, sound s -> sound (with_ry s (im_update (ry_queue s) t tneg)).
Proof.
  intros s t []; constructor; simpl; auto. intros q a H. rewrite im_get_update in H.
  destruct (Nat.eqb_spec t q); eauto. destruct (im_get (ry_queue s) q) eqn:E; simpl in H; [|discriminate].
  injection H as <-. apply angB_neg. eapply sd_ry0; eauto.
Qed.
Lemma sd_neg_rx : forall s t, sound s -> sound (with_rx s (im_update (rx_queue s) t tneg)).
Proof.
  intros s t []; constructor; simpl; auto. intros q a H. rewrite im_get_update in H.
  destruct (Nat.eqb_spec t q); eauto. destruct (im_get (rx_queue s) q) eqn:E; simpl in H; [|discriminate].
  injection H as <-. apply angB_neg. eapply sd_rx0; eauto.
Qed.
Lemma sd_rem_rx : forall s t, sound s -> sound (with_rx s (im_remove (rx_queue s) t)).
Proof.
  intros s t []; constructor; simpl; auto. intros q a H. rewrite im_get_remove in H.
  destruct (Nat.eqb t q); [discriminate|]. eauto.
Qed.
Lemma sd_rem_ry : forall s t, sound s -> sound (with_ry s (im_remove (ry_queue s) t)).
Proof.
  intros s t []; constructor; simpl; auto. intros q a H. rewrite im_get_remove in H.
  destruct (Nat.eqb t q); [discriminate|]. eauto.
Qed.
Lemma sd_h : forall s v, sound s -> sound (with_h s v).
Proof. intros s v []; constructor; simpl; auto. Qed.

(** ** Steps *)
Definition mv (k : nat) (s s' : sim) (phi : qstate) : Prop :=
  sound s' /\ exists j, (j + ql s' <= k + ql s)%nat /\ nearr w j (core s') phi.
Definition mva (k : nat) (s s' : sim) (phi : qstate) : Prop :=
  sound s' /\ exists j, (j + ql s' <= k + ql s)%nat /\ nearr w j (abs s') phi.
Record ncs (k : nat) (s s' : sim) (F : qstate -> qstate) : Prop := {
  nc_frame : frame s s';
  nc_wf : wf s';
  nc_near : bounds s -> sound s -> budget k s -> contraction w F /\ mv k s s' (F (core s))
}.
Record nst (k : nat) (s s' : sim) (F : qstate -> qstate) : Prop := {
  ns_id : id_map s' = id_map s;
  ns_rng : rng s' = rng s;
  ns_wf : wf s';
  ns_norx : forall G, symm G -> rxin G s -> rxin G s';
  ns_near : bounds s -> sound s -> budget k s -> contraction w F /\ mva k s s' (F (abs s))
}.
Lemma mv_mono : forall j k s s' phi, (j <= k)%nat -> mv j s s' phi -> mv k s s' phi.
Proof. intros j k s s' phi H [S [i [L N]]]. split; auto. exists i. split; auto. lia. Qed.
Lemma mva_mono : forall j k s s' phi, (j <= k)%nat -> mva j s s' phi -> mva k s s' phi.
Proof. intros j k s s' phi H [S [i [L N]]]. split; auto. exists i. split; auto. lia. Qed.
Lemma nrefl : forall k psi, nearr w k psi psi.
Proof. intros. apply (@near_refl rtol (rtol_pos laws)). Qed.
Lemma ntrans : forall j k a b c, nearr w j a b -> nearr w k b c -> nearr w (j + k) a c.
Proof. intros j k a b c. apply (@near_trans rtol). Qed.
Lemma nmono : forall j k a b, (j <= k)%nat -> nearr w j a b -> nearr w k a b.
Proof. intros j k a b. apply (@near_mono rtol (rtol_pos laws)). Qed.
Lemma nct : forall k F a b, contraction w F -> nearr w k a b -> nearr w k (F a) (F b).
Proof. intros k F a b. apply (@near_ct rtol). Qed.

Lemma ct_pm : forall s s0, bounds s -> contraction w (pendl (pm s0) (ids s)).
Proof. intros. apply ct_pendl; intros; [apply upm|]. apply H. apply ids_In; auto. Qed.
Lemma norm_abs : forall s, bounds s -> norm2 w (abs s) = norm2 w (core s).
Proof. intros. unfold abs. apply norm2_pendl; intros; [apply upm|]. apply H. apply ids_In; auto. Qed.
Lemma qnorm_abs : forall s, bounds s -> qnorm w (abs s) = qnorm w (core s).
Proof. intros. unfold qnorm. now rewrite norm_abs. Qed.
Lemma bounds_id : forall s s', id_map s' = id_map s -> bounds s -> bounds s'.
Proof. intros s s' E H. unfold bounds. rewrite E. apply H. Qed.

(** What is left of the budget after a step. *)
Lemma budget_mv : forall j k s s' F, contraction w F -> mv j s s' (F (core s)) -> budget (j + k) s -> budget k s'.
Proof.
  unfold budget. intros j k s s' F C [_ [i [L N]]] Q. assert (P := runit_pos laws w).
  assert (Q1 := qnorm_near _ _ _ _ N). assert (Q2 := qnorm_ct w F (core s) C).
  assert (I := le_INR (i + (k + ql s')) (j + k + ql s) ltac:(lia)). rewrite plus_INR in I.
  assert (M := Rmult_le_compat_r _ _ _ P I). unfold nearr, runit in *. rewrite Rmult_plus_distr_r in M. lra.
Qed.
Lemma budget_mva : forall j k s s' F, bounds s -> id_map s' = id_map s ->
  contraction w F -> mva j s s' (F (abs s)) -> budget (j + k) s -> budget k s'.
Proof.
  unfold budget. intros j k s s' F Bd E C [_ [i [L N]]] Q. assert (P := runit_pos laws w).
  rewrite <- qnorm_abs in Q by auto. rewrite <- (qnorm_abs s') by (eapply bounds_id; eauto).
  assert (Q1 := qnorm_near _ _ _ _ N). assert (Q2 := qnorm_ct w F (abs s) C).
  assert (I := le_INR (i + (k + ql s')) (j + k + ql s) ltac:(lia)). rewrite plus_INR in I.
  assert (M := Rmult_le_compat_r _ _ _ P I). unfold nearr, runit in *. rewrite Rmult_plus_distr_r in M. lra.
Qed.

Lemma ncs_refl : forall s, wf s -> ncs 0 s s (fun x => x).
Proof.
  intros s W. constructor; auto using frame_refl. intros Bd Sd Q. split; [apply ct_id|]. split; auto.
  exists O. split; auto. apply nrefl.
Qed.
Lemma ncs_mono : forall j k s s' F, (j <= k)%nat -> ncs j s s' F -> ncs k s s' F.
Proof.
  intros j k s s' F H [F1 W1 N1]. constructor; auto. intros Bd Sd Q.
  destruct (N1 Bd Sd (budget_mono _ _ _ H Q)) as [C D]. split; auto. eapply mv_mono; eauto.
Qed.
Lemma nst_mono : forall j k s s' F, (j <= k)%nat -> nst j s s' F -> nst k s s' F.
Proof.
  intros j k s s' F H [I1 R1 W1 X1 N1]. constructor; auto. intros Bd Sd Q.
  destruct (N1 Bd Sd (budget_mono _ _ _ H Q)) as [C D]. split; auto. eapply mva_mono; eauto.
Qed.
Lemma ncs_trans : forall j k a b c F G, ncs j a b F -> ncs k b c G -> ncs (j + k) a c (fun x => G (F x)).
Proof.
  intros j k a b c F G [F1 W1 N1] [F2 W2 N2]. constructor; auto.
  - eapply frame_trans; eauto.
  - intros Bd Sd Q. destruct (N1 Bd Sd (budget_mono j (j + k) _ ltac:(lia) Q)) as [C1 D1].
    destruct N2 as [C2 D2]; [eapply bounds_id; [|eauto]; apply F1|apply D1|eapply budget_mv; eauto|].
    split; [apply ct_comp; auto|]. destruct D1 as [S1 [i1 [L1 M1]]]. destruct D2 as [S2 [i2 [L2 M2]]].
    split; auto. exists (i2 + i1)%nat. split; [lia|].
    eapply ntrans; [exact M2|]. apply nct; auto.
Qed.
Lemma ncs_ext : forall k s s' F G, ncs k s s' F -> (forall x, F x = G x) -> ncs k s s' G.
Proof.
  intros k s s' F G N E. replace G with F; auto. apply functional_extensionality. auto.
Qed.
Lemma nst_refl : forall s, wf s -> nst 0 s s (fun x => x).
Proof.
  intros; constructor; auto. intros. split; [apply ct_id|]. split; auto. exists O. split; auto. apply nrefl.
Qed.
Lemma nst_trans : forall j k a b c F G, nst j a b F -> nst k b c G -> nst (j + k) a c (fun x => G (F x)).
Proof.
  intros j k a b c F G [I1 R1 W1 X1 N1] [I2 R2 W2 X2 N2]. constructor; auto; try congruence.
  intros Bd Sd Q. destruct (N1 Bd Sd (budget_mono j (j + k) _ ltac:(lia) Q)) as [C1 D1].
  destruct N2 as [C2 D2]; [eapply bounds_id; eauto|apply D1|eapply budget_mva; eauto|].
  split; [apply ct_comp; auto|]. destruct D1 as [S1 [i1 [L1 M1]]]. destruct D2 as [S2 [i2 [L2 M2]]].
  split; auto. exists (i2 + i1)%nat. split; [lia|].
  eapply ntrans; [exact M2|]. apply nct; auto.
Qed.
Lemma nst_id_l : forall j k a b c F, nst j a b (fun x => x) -> nst k b c F -> nst (j + k) a c F.
Proof. intros j k a b c F H1 H2. apply (nst_trans _ _ _ _ _ _ _ H1 H2). Qed.
Lemma nst_ext : forall k a b F G, nst k a b F -> (forall x, F x = G x) -> nst k a b G.
Proof. intros k a b F G N E. replace G with F; auto. apply functional_extensionality. auto. Qed.
Lemma nst_alloc : forall k s s' F q, nst k s s' F -> (alloc s' q <-> alloc s q).
Proof. intros k s s' F q []. unfold alloc. rewrite ns_id0. tauto. Qed.
Lemma nst_Forall : forall k s s' F qs, nst k s s' F -> Forall (alloc s) qs -> Forall (alloc s') qs.
Proof. intros. eapply Forall_impl; [|exact H0]. intros. eapply nst_alloc; eauto. Qed.

(** Absorbing operations into [abs]. *)
Lemma near_local : forall k s s' U V t, id_map s' = id_map s -> alloc s t ->
  (forall q, q <> t -> pm s' q = pm s q) -> unitary U -> mmul (pm s' t) V = mmul U (pm s t) ->
  (bounds s -> sound s -> budget k s -> mv k s s' (gate1 V t (core s))) ->
  bounds s -> sound s -> budget k s ->
  contraction w (gate1 U t) /\ mva k s s' (gate1 U t (abs s)).
Proof.
  intros k s s' U V t Hi Ha Hp HU Hm HN Bd Sd Q. assert (B' : bounds s') by (eapply bounds_id; eauto).
  destruct (HN Bd Sd Q) as [Sd' [j [L Hc]]].
  split; [apply ct_gate1; auto; apply Bd; auto|]. split; [exact Sd'|]. exists j. split; auto.
  assert (Ei : ids s' = ids s) by (unfold ids; now rewrite Hi).
  assert (E : pendl (pm s') (ids s') (gate1 V t (core s)) = gate1 U t (abs s)).
  { unfold abs. rewrite Ei. rewrite pendl_pre by (try apply ids_nodup; apply ids_In; auto).
    rewrite pendl_post by (try apply ids_nodup; apply ids_In; auto).
    apply pendl_ext. intros q _. unfold upd. destruct (Nat.eqb_spec q t); auto. }
  rewrite <- E. unfold abs. apply nct; auto. apply ct_pm; auto.
Qed.
Lemma near_same : forall k s s' t, id_map s' = id_map s -> alloc s t ->
  (forall q, q <> t -> pm s' q = pm s q) -> forall V, mmul (pm s' t) V = pm s t ->
  (bounds s -> sound s -> budget k s -> mv k s s' (gate1 V t (core s))) ->
  bounds s -> sound s -> budget k s ->
  contraction w (fun x => x) /\ mva k s s' (abs s).
Proof.
  intros k s s' t Hi Ha Hp V Hm HN Bd Sd Q.
  destruct (near_local k s s' mI V t Hi Ha Hp uI) as [_ H]; auto; [now rewrite mmul_I_l|].
  rewrite gate1_I in H. split; [apply ct_id|auto].
Qed.

(** ** The operations taken from the queue *)
Lemma resolve_ok : forall s t cs, NoDup (t :: cs) -> Forall (alloc s) (t :: cs) ->
  exists t' cs', resolve_and_check_qubits s t cs = Ok (t', cs') /\
    resolved (id_map s) t t' /\ Forall2 (resolved (id_map s)) cs cs'.
Proof. intros. apply aresolve; auto. Qed.
Lemma take_ops_ok : forall s, wf s ->
  exists ops', take_ops s = Ok (ops', with_ops s []) /\
    Forall2 (taken (id_map s)) (op_queue s) ops' /\
    stok (id_map s) (map (apply_ops ops') (state s)).
Proof.
  intros s W.
  assert (H : forall l, Forall (opok (id_map s)) l -> exists ops,
    mapM (fun '(ctls, target, op) => let* (t, cs) := resolve_and_check_qubits s target ctls in Ok (cs, t, op)) l = Ok ops /\
    Forall2 (taken (id_map s)) l ops).
  { induction 1 as [|[[cs t] op] l [O1 O2] O' IH]; simpl; [exists []; auto|]. simpl in O1, O2.
    destruct (aresolve s t cs O1 O2) as [t' [cs' [E [R1 R2]]]]. destruct IH as [ops [E' F]].
    exists ((cs', t', op) :: ops). rewrite E. simpl. rewrite E'. simpl. split; auto. constructor; auto. repeat split; auto. }
  destruct (H (op_queue s) (i_ops s W)) as [ops [E F]].
  exists ops. unfold take_ops. rewrite E. simpl. split; auto. split; auto.
  eapply apply_ops_stok; eauto using taken_weak; apply W.
Qed.
Lemma taken_near : forall s k ops', wf s -> Forall2 (taken (id_map s)) (op_queue s) ops' -> bounds s -> sound s -> budget k s ->
  stok (id_map s) (map (apply_ops ops') (state s)) ->
  finl (map (apply_ops ops') (state s)) /\ amps (map (apply_ops ops') (state s)) /\
  nearr w (ql s) (baseof (id_map s) (lamp (map (apply_ops ops') (state s)))) (core s).
Proof.
  intros s k ops' W F Bd Sd Q S. apply (budget_mono 0) in Q; [|lia]. unfold budget in Q. simpl in Q.
  assert (E : qnorm w (core s) = qnorm w (base s)).
  { unfold qnorm, core. f_equal. apply (norm_opsem w (id_map s)); [exact Bd|apply W]. }
  assert (An : Forall (opang angle_ok) (op_queue s)).
  { eapply Forall_impl; [|apply Sd]. intros o. unfold opang. destruct (snd o); auto. apply angB_ok. }
  rewrite E in Q. destruct (apply_ops_near laws w (id_map s) (op_queue s) ops' (state s)) as [F1 N1]; auto; try apply W; try apply Sd.
  split; auto. split; auto.
  apply (amps_of_norm w (id_map s)); auto; [apply W|].
  assert (Q1 := qnorm_near _ _ _ _ N1).
  change (opsem (op_queue s) (baseof (id_map s) (lamp (state s)))) with (core s) in Q1. rewrite E in Q1.
  fold (ql s) in Q1. lra.
Qed.

(** ** Changes of the stored amplitudes *)
Lemma ncs_state : forall s ops' st F, wf s -> Forall2 (taken (id_map s)) (op_queue s) ops' ->
  stok (id_map s) (map (apply_ops ops') (state s)) -> stok (id_map s) st ->
  (bounds s -> contraction w F) ->
  (sound s -> amps (map (apply_ops ops') (state s)) -> finl st /\
   forall b, Cn2 (baseof (id_map s) (lamp st) b - F (baseof (id_map s) (lamp (map (apply_ops ops') (state s)))) b)%C <= tiny) ->
  ncs 1 s (with_state (with_ops s []) st) F.
Proof.
  intros s ops' st F W Tk S1 S Ct H. constructor.
  - constructor; reflexivity.
  - destruct W; constructor; simpl; auto. apply N.le_0_l.
  - intros Bd Sd Q. split; auto.
    destruct (taken_near s 1 ops' W Tk Bd Sd Q S1) as [F1 [A1 N1]]. destruct (H Sd A1) as [F2 P2].
    split; [destruct Sd; constructor; simpl; auto|]. exists (1 + ql s)%nat. split; [unfold ql; simpl; lia|].
    change (core (with_state (with_ops s []) st)) with (baseof (id_map s) (lamp st)).
    eapply ntrans; [apply near_pw; auto|]. apply nct; auto.
Qed.
Lemma flush_ops_n : forall s, wf s ->
  exists s', flush_ops s = Ok s' /\ ncs 0 s s' (fun x => x) /\ op_queue s' = [].
Proof.
  intros s W. unfold flush_ops. destruct (op_queue s) eqn:E.
  - exists s. split; auto. split; auto. apply ncs_refl; auto.
  - destruct (take_ops_ok s W) as [ops' [E1 [Tk S1]]]. rewrite E1. simpl.
    eexists. split; [reflexivity|]. split; [|reflexivity]. constructor.
    + constructor; reflexivity.
    + destruct W; constructor; simpl; auto. apply N.le_0_l.
    + intros Bd Sd Q. split; [apply ct_id|].
      destruct (taken_near s 0 ops' W Tk Bd Sd Q S1) as [F1 [A1 N1]].
      split; [destruct Sd; constructor; simpl; auto|]. exists (ql s). split; [unfold ql; simpl; lia|]. exact N1.
Qed.
Lemma enqueue_op_n : forall s t cs op, wf s -> NoDup (t :: cs) -> Forall (alloc s) (t :: cs) ->
  (sound s -> opang angB (cs, t, op)) ->
  exists s', enqueue_op s t cs op = Ok s' /\ ncs 1 s s' (cgate cs (opmat op) t).
Proof.
  intros s t cs op W D Al An. unfold enqueue_op.
  assert (P : forall s1, ncs 0 s s1 (fun x => x) ->
              (N.of_nat (length (op_queue s1)) < QUEUE_LIMIT)%N ->
              ncs 1 s (with_ops s1 (op_queue s1 ++ [(cs, t, op)])) (cgate cs (opmat op) t)).
  { intros s1 [Fr W1 N1] L. constructor.
    - destruct Fr; constructor; auto.
    - apply inv_ops; auto.
      + apply Forall_app. split; [apply W1|]. constructor; auto. split; auto. simpl.
        rewrite Forall_forall in *. intros x Hx. apply (frame_alloc s); auto.
      + rewrite app_length. simpl. lia.
    - intros Bd Sd Q. assert (Ct : contraction w (cgate cs (opmat op) t)).
      { inversion D; subst. inversion Al; subst. apply ct_cgate; auto using uop. }
      split; auto. destruct (N1 Bd Sd (budget_mono 0 1 s ltac:(lia) Q)) as [_ [Sd1 [j [Lj Nj]]]].
      split.
      + destruct Sd1; constructor; simpl; auto. apply Forall_app. split; auto.
      + exists j. split; [unfold ql in *; simpl; rewrite app_length; simpl; lia|].
        unfold core, base. simpl. unfold opsem. rewrite fold_left_app. simpl. apply nct; auto. }
  destruct (N.eqb_spec (N.of_nat (length (op_queue s))) QUEUE_LIMIT).
  - destruct (flush_ops_n s W) as [s1 [E1 [C1 Q1]]]. rewrite E1. simpl.
    eexists; split; [reflexivity|]. apply P; auto. rewrite Q1. simpl. reflexivity.
  - simpl. eexists; split; [reflexivity|]. apply P; auto using ncs_refl.
    generalize (i_len s W). lia.
Qed.

Lemma collect_perm : forall m l, stok m l -> Permutation (hm_collect l) l.
Proof. intros m l [H _]. apply hm_collect_perm; auto. Qed.
Lemma apply_mch_n : forall s cs t, wf s -> NoDup (t :: cs) -> Forall (alloc s) (t :: cs) ->
  exists s', apply_mch s cs t = Ok s' /\ ncs 1 s s' (cgate cs mH t).
Proof.
  intros s cs t W D Al. unfold apply_mch.
  destruct (resolve_ok s t cs D Al) as [t' [cs' [E [R1 R2]]]]. rewrite E. simpl.
  destruct (take_ops_ok s W) as [ops' [E1 [Tk S1]]]. rewrite E1. simpl.
  set (l := map (apply_ops ops') (state s)) in *.
  set (m := hm_collect l).
  assert (P : Permutation m l) by (eapply collect_perm; eauto).
  assert (Sm : stok (id_map s) m) by (apply stok_collect; auto).
  assert (Nl : NoDup (t' :: cs')) by (eapply (resolved_nodup (id_map s) (t :: cs)); eauto; apply W).
  inversion Nl; subst.
  eexists; split; [reflexivity|]. apply (ncs_state s ops'); auto.
  - apply mch_stok; auto. exists t. exact R1.
  - intros Bd. inversion D; subst. inversion Al; subst. apply ct_cgate; auto using uH.
  - intros Sd Am. assert (Am' : amps m) by (eapply amps_perm; [apply Permutation_sym|]; eauto).
    destruct (mch_good laws cs' t' m H1 (proj1 Sm) Am') as [N G]. destruct (good_all _ _ N G) as [F2 P2].
    split; auto. intros b.
    rewrite <- (baseof_cgate (id_map s) (i_inj s W) cs cs' t t') by auto.
    rewrite <- (lamp_perm m l) by (auto; apply Sm). apply baseof_pw; auto.
Qed.

Lemma rot_general_n : forall s cs t m00 m01 m10 z00 z01 z10, wf s -> NoDup (t :: cs) -> Forall (alloc s) (t :: cs) ->
  (sound s -> cl 4 m00 z00 /\ cl 4 m01 z01 /\ cl 4 m10 z10) -> cmod z00 <= 1 -> cmod z01 <= 1 -> cmod z10 <= 1 ->
  unitary (rotmat z00 z01 z10) ->
  exists t' cs' ops' s',
    resolve_and_check_qubits s t cs = Ok (t', cs') /\
    take_ops s = Ok (ops', with_ops s []) /\
    (let m := hm_collect (map (apply_ops ops') (state s)) in
     with_state (with_ops s []) (flat_map (rot_entry m00 m01 m10 cs' t' m) m)) = s' /\
    ncs 1 s s' (cgate cs (rotmat z00 z01 z10) t).
Proof.
  intros s cs t m00 m01 m10 z00 z01 z10 W D Al Hz L00 L01 L10 U.
  destruct (resolve_ok s t cs D Al) as [t' [cs' [E [R1 R2]]]].
  destruct (take_ops_ok s W) as [ops' [E1 [Tk S1]]].
  exists t', cs', ops'. eexists. split; [exact E|]. split; [exact E1|]. split; [reflexivity|].
  set (l := map (apply_ops ops') (state s)) in *.
  set (m := hm_collect l).
  assert (P : Permutation m l) by (eapply collect_perm; eauto).
  assert (Sm : stok (id_map s) m) by (apply stok_collect; auto).
  assert (Nl : NoDup (t' :: cs')) by (eapply (resolved_nodup (id_map s) (t :: cs)); eauto; apply W).
  inversion Nl; subst.
  apply (ncs_state s ops'); auto.
  - apply rot_stok; auto. exists t. exact R1.
  - intros Bd. inversion D; subst. inversion Al; subst. apply ct_cgate; auto.
  - intros Sd Am. assert (Am' : amps m) by (eapply amps_perm; [apply Permutation_sym|]; eauto).
    destruct (Hz Sd) as [Z0 [Z1 Z2]].
    destruct (rot_good laws m00 m01 m10 z00 z01 z10 cs' t' m Z0 Z1 Z2 L00 L01 L10 H1 (proj1 Sm) Am') as [N G].
    destruct (good_all _ _ N G) as [F2 P2].
    split; auto. intros b.
    rewrite <- (baseof_cgate (id_map s) (i_inj s W) cs cs' t t') by auto.
    rewrite <- (lamp_perm m l) by (auto; apply Sm). apply baseof_pw; auto.
Qed.

Lemma factor_n : forall s cs cs' ops' f z, wf s -> Forall2 (resolved (id_map s)) cs cs' -> cmod z <= 1 ->
  (sound s -> cl 10 f z) ->
  Forall2 (taken (id_map s)) (op_queue s) ops' -> stok (id_map s) (map (apply_ops ops') (state s)) ->
  ncs 1 s (with_state (with_ops s []) (map (ops_then_factor ops' cs' f) (state s))) (cfactor cs z).
Proof.
  intros s cs cs' ops' f z W R Hz Hf Tk S1.
  set (l := map (apply_ops ops') (state s)) in *.
  assert (Eq : map (ops_then_factor ops' cs' f) (state s) =
               scale_entries (fun k => if all_set cs' k then Some f else None) l).
  { unfold l, scale_entries. rewrite map_map. apply map_ext. intros kv. unfold ops_then_factor.
    destruct (apply_ops ops' kv); simpl. destruct (all_set cs' n); reflexivity. }
  assert (S2 : stok (id_map s) (map (ops_then_factor ops' cs' f) (state s))) by (apply stok_factor; exact S1).
  apply (ncs_state s ops'); auto.
  - intros _. apply ct_cfactor. apply Cn2_le in Hz. lra.
  - intros Sd Am. rewrite Eq in *.
    assert (Fc : factors (fun k => if all_set cs' k then Some f else None) (fun k => if all_set cs' k then z else C1)).
    { intros k. cbv beta. destruct (all_set cs' k); auto. }
    destruct (good_all _ _ (proj1 S2) (scale_good laws _ _ l Fc Am)) as [F2 P2].
    split; auto. intros b. fold l.
    replace (cfactor cs z (baseof (id_map s) (lamp l)) b) with
      (baseof (id_map s) (fun k => (if all_set cs' k then z else C1) * lamp l k)%C b); [apply baseof_pw; auto|].
    unfold cfactor, baseof, all_set. rewrite (forallb_to_loc (id_map s) (i_inj s W) _ _ _ R).
    destruct (inb (id_map s) b); destruct (forallb (bit b) cs); ring.
Qed.

(** ** Rotations *)
Definition ifac (x : R) : C := (- (Ci * RtoC (sin (x / 2))))%C.
Definition zf (sf : bool) : C := if sf then (- Ci)%C else C1.
Definition z01 (x : R) (sf : bool) : C := (Ci * - RtoC (sin (x / 2)) * zf sf)%C.
Definition z10 (x : R) (sf : bool) : C := (z01 x sf * (if sf then - C1 else C1))%C.
Lemma cmod_zf : forall sf, cmod (zf sf) = 1.
Proof. intros []; simpl; [rewrite cmod_opp; apply cmod_i|apply cmod_1]. Qed.
Lemma cmod_z01 : forall x sf, cmod (z01 x sf) <= 1.
Proof. intros. unfold z01. rewrite !cmod_mul, cmod_zf, cmod_i, cmod_opp. assert (H := cmod_sin (x / 2)). lra. Qed.
Lemma cmod_z10 : forall x sf, cmod (z10 x sf) <= 1.
Proof.
  intros. unfold z10. rewrite cmod_mul. assert (H := cmod_z01 x sf).
  destruct sf; rewrite ?cmod_opp, cmod_1; lra.
Qed.
Lemma cmod_ifac : forall x, cmod (ifac x) <= 1.
Proof. intros. unfold ifac. rewrite cmod_opp, cmod_mul, cmod_i. assert (H := cmod_sin (x / 2)). lra. Qed.
Lemma m01_cl : forall theta sf, angle_ok theta -> cl 3 (rot_m01 theta sf) (z01 (tval theta) sf).
Proof.
  intros theta sf H. unfold rot_m01, z01.
  assert (C1' : cl (0 * 1 + (1 + 0 / 64) * 1 + 1) (amul ampi (aopp (shalf theta))) (Ci * - RtoC (sin (tval theta / 2)))%C).
  { apply (cl_mul laws 0 1 _ _ _ _ 1 1); try lra; [apply cl_i; auto|apply cl_opp; auto; apply cl_shalf; auto|rewrite cmod_i; lra|].
    rewrite cmod_opp. apply cmod_sin. }
  assert (C2' : cl 0 (if sf then aopp ampi else amp1) (zf sf)).
  { destruct sf; simpl; [apply cl_opp; auto; apply cl_i; auto|apply cl_1; auto]. }
  apply (cl_mono laws) with (n := 2 * 1 + (1 + 2 / 64) * 0 + 1); [lra|].
  apply (cl_mul laws 2 0 _ _ _ _ 1 1); auto; try lra.
  - eapply (cl_mono laws); [|exact C1']. lra.
  - rewrite cmod_mul, cmod_i, cmod_opp. assert (K := cmod_sin (tval theta / 2)). lra.
  - rewrite cmod_zf. lra.
Qed.
Lemma m10_cl : forall theta sf, angle_ok theta ->
  cl 4 (amul (rot_m01 theta sf) (if sf then aopp amp1 else amp1)) (z10 (tval theta) sf).
Proof.
  intros theta sf H. unfold z10.
  apply (cl_mono laws) with (n := 3 * 1 + (1 + 3 / 64) * 0 + 1); [lra|].
  apply (cl_mul laws 3 0 _ _ _ _ 1 1); try lra; [apply m01_cl; auto| |apply cmod_z01|].
  - destruct sf; [apply cl_opp; auto|]; apply cl_1; auto.
  - destruct sf; rewrite ?cmod_opp, cmod_1; lra.
Qed.
Lemma fac_cl : forall theta (sf : bool), angle_ok theta ->
  cl 4 (amul (rot_m01 theta sf) (if sf then ampi else amp1)) (ifac (tval theta)).
Proof.
  intros theta sf H.
  apply cl_ext with (z := (z01 (tval theta) sf * (if sf then Ci else C1))%C).
  { unfold z01, ifac, zf. destruct sf; ceq. }
  apply (cl_mono laws) with (n := 3 * 1 + (1 + 3 / 64) * 0 + 1); [lra|].
  apply (cl_mul laws 3 0 _ _ _ _ 1 1); try lra; [apply m01_cl; auto| |apply cmod_z01|].
  - destruct sf; [apply cl_i|apply cl_1]; auto.
  - destruct sf; [rewrite cmod_i|rewrite cmod_1]; lra.
Qed.
Lemma sq_le : forall x e, Rabs x <= e -> x * x <= e * e.
Proof. intros. apply rabs_le_sq; auto. Qed.
Lemma cz_cos : forall theta, angle_ok theta -> cz theta = true ->
  cos (tval theta / 2) * cos (tval theta / 2) <= step_err * step_err.
Proof.
  intros theta H Z. destruct (nz_parts laws 1 _ _ ltac:(lra) (cl_chalf laws theta H) Z) as [P _].
  apply sq_le. exact P.
Qed.
Lemma m01_sin : forall theta sf, angle_ok theta -> anz (rot_m01 theta sf) = true ->
  sin (tval theta / 2) * sin (tval theta / 2) <= step_err * step_err.
Proof.
  intros theta sf H Z. destruct (nz_parts laws 3 _ _ ltac:(lra) (m01_cl theta sf H) Z) as [P1 P2].
  apply sq_le in P1. apply sq_le in P2. unfold z01, zf in *. destruct sf; cunfold; simpl in *; nra.
Qed.
Lemma sc1 : forall x, sin (x / 2) * sin (x / 2) + cos (x / 2) * cos (x / 2) = 1.
Proof. intros. apply (sin2_cos2 (x / 2)). Qed.
Lemma urmat : forall sf x, unitary (rmat sf x).
Proof. intros [] x; [apply uRy|apply uRx]. Qed.
Lemma rmat_z : forall sf x, rotmat (RtoC (cos (x / 2))) (z01 x sf) (z10 x sf) = rmat sf x.
Proof.
  intros. unfold rotmat, rmat, z10, z01, zf. destruct sf; apply mat_ext; unfold mRx, mRy, mk2; ceq.
Qed.
Lemma rot_scalar : forall sf x e, bounded (mdiff (mscale (RtoC e) mI) (rmat sf x)) (e * e + 1 - 2 * e * cos (x / 2)).
Proof.
  intros sf x e [y0 y1] [y2 y3]. apply Req_le. assert (H := sc1 x).
  unfold rmat, mdiff, mscale, mI, mRx, mRy, mk2. set (c := cos (x / 2)) in *. set (s := sin (x / 2)) in *.
  replace (e * e + 1 - 2 * e * c) with ((e - c) * (e - c) + s * s) by lra.
  destruct sf; csimp; ring.
Qed.
Lemma rot_pauli : forall (sf : bool) x, bounded (mdiff (mscale (ifac x) (if sf then mY else mX)) (rmat sf x)) (cos (x / 2) * cos (x / 2)).
Proof.
  intros sf x [y0 y1] [y2 y3]. apply Req_le. unfold ifac, rmat, mdiff, mscale, mX, mY, mRx, mRy, mk2.
  destruct sf; csimp; ring.
Qed.

(** A scalar or a Pauli gate in place of a rotation. *)
Lemma near_instead : forall cs U V t psi c, c <= 2 * (step_err * step_err) -> 0 <= c -> bounded (mdiff U V) c -> (t < w)%nat ->
  ~ In t cs -> qnorm w psi <= 2 -> nearr w 2 (cgate cs U t psi) (cgate cs V t psi).
Proof.
  intros cs U V t psi c Hc Hc0 HB Ht Hn HN. unfold nearr, near. apply dist_le.
  { assert (P := @unit_nonneg rtol (rtol_pos laws) w). simpl (INR 2). lra. }
  assert (D := cgate_mdiff w cs U V c t psi Hc0 HB Ht Hn). assert (P := norm2_nonneg w psi).
  assert (G := @unit_ge rtol w). simpl (@tol rtol) in G. simpl (INR 2).
  assert (E : qnorm w psi * qnorm w psi = norm2 w psi) by (apply sqrt_sqrt; auto).
  assert (P' : 0 <= qnorm w psi) by apply sqrt_pos. assert (norm2 w psi <= 4) by nra. nra.
Qed.
Lemma mv_more : forall k s s1 s' phi, mv k s s1 phi -> (sound s1 -> sound s') -> core s' = core s1 -> ql s' = ql s1 -> mv k s s' phi.
Proof. intros k s s1 s' phi [S [j [L N]]] H E1 E2. split; auto. exists j. rewrite E1, E2. auto. Qed.
Lemma mv_near : forall i k s s1 phi psi, mv k s s1 phi -> nearr w i phi psi -> mv (i + k) s s1 psi.
Proof.
  intros i k s s1 phi psi [S [j [L N]]] H. split; auto. exists (j + i)%nat. split; [lia|]. eapply ntrans; eauto.
Qed.

Lemma mcrotation_smooth_n : forall px py s cs theta t sf, wf s -> NoDup (t :: cs) ->
  Forall (alloc s) (t :: cs) -> (sound s -> angB theta) -> cz theta = false ->
  exists s', mcrotation_with px py s cs theta t sf = Ok s' /\ ncs 3 s s' (cgate cs (rmat sf (tval theta)) t).
Proof.
  intros px py s cs theta t sf W D Al An Hc. unfold mcrotation_with.
  unfold cz in Hc. change (anz (rot_m00 theta)) with (anz (chalf theta)).
  rewrite Hc. inversion D; subst. inversion Al; subst.
  assert (S1 := sc1 (tval theta)). set (c := cos (tval theta / 2)) in *. set (sn := sin (tval theta / 2)) in *.
  assert (Sp := step_pos laws). assert (Sm := ap_small laws).
  assert (Ct : bounds s -> contraction w (cgate cs (rmat sf (tval theta)) t)).
  { intros Bd. apply ct_cgate; auto. apply urmat. }
  destruct (anz (rot_m01 theta sf)) eqn:Hz.
  - assert (Sn : sound s -> sn * sn <= step_err * step_err).
    { intros Sd. apply (m01_sin theta sf); auto. apply angB_ok; auto. }
    assert (Cp : sound s -> cl 2 (aadd (rot_m00 theta) amp1) (RtoC (c + 1))).
    { intros Sd. apply cl_ext with (z := (RtoC c + C1)%C); [ceq|].
      apply (cl_mono laws) with (n := 1 + 0 + 1); [lra|].
      apply (cl_add laws 1 0 _ _ _ _ 1 1); try lra; [apply cl_chalf; auto; apply angB_ok; auto|apply cl_1; auto|apply cmod_cos|rewrite cmod_1; lra]. }
    destruct (anz (aadd (rot_m00 theta) amp1)) eqn:Hm.
    + destruct (take_ops_ok s W) as [ops' [E1 [Tk S1']]]. rewrite E1. simpl.
      destruct (resolve_ok (with_ops s []) t cs D Al) as [t' [cs' [E [R1 R2]]]]. rewrite E. simpl.
      eexists; split; [reflexivity|].
      destruct (factor_n s cs cs' ops' (aopp amp1) (- C1)%C W R2) as [F1 F2 F3]; auto.
      { rewrite cmod_opp, cmod_1. lra. }
      { intros _. apply (cl_mono laws) with (n := 0); [lra|]. apply cl_opp; auto. apply cl_1; auto. }
      constructor; auto. intros Bd Sd Q. split; auto.
      destruct (F3 Bd Sd (budget_mono 1 3 s ltac:(lia) Q)) as [_ G2].
      change 3%nat with (2 + 1)%nat. eapply mv_near; [exact G2|]. rewrite (cfactor_cgate _ _ t).
      assert (C1' : c <= - (1 / 2)).
      { destruct (nz_parts laws 2 _ _ ltac:(lra) (Cp Sd) Hm) as [K _]. simpl in K. assert (Rl := Rle_abs (c + 1)). lra. }
      replace (- C1)%C with (RtoC (-1)) by ceq.
      specialize (Sn Sd).
      eapply near_instead; [| |apply rot_scalar| | |eapply budget_norm; eauto]; fold c; auto; nra.
    + exists s. split; auto. constructor; auto using frame_refl. intros Bd Sd Q. split; auto.
      specialize (Sn Sd). specialize (Cp Sd).
      assert (C1' : 0 <= c).
      { destruct (Rle_lt_dec 0 c) as [|Hn]; auto. exfalso.
        assert (K : 0 <= 1 + c <= step_err * step_err).
        { split; [nra|]. assert ((1 + c) * (1 - c) = sn * sn) by lra. nra. }
        rewrite <- not_true_iff_false in Hm. apply Hm.
        destruct Cp as [Cf Ce]. apply (ap_nz laws _ Cf).
        destruct (cmod_parts (aval (aadd (rot_m00 theta) amp1) - RtoC (c + 1))%C) as [P1 P2].
        set (v := aval (aadd (rot_m00 theta) amp1)) in *.
        assert (V1 : fst (v - RtoC (c + 1))%C = fst v - (c + 1)) by (cunfold; simpl; ring).
        assert (V2 : snd (v - RtoC (c + 1))%C = snd v) by (cunfold; simpl; ring).
        rewrite V1 in P1. rewrite V2 in P2. assert (Gp := ap_gap laws). assert (Dl := ap_dlt laws).
        split; [|nra]. replace (fst v) with (fst v - (c + 1) + (c + 1)) by ring.
        eapply Rle_trans; [apply Rabs_triang|]. rewrite (Rabs_right (c + 1)) by lra. lra. }
      split; auto. exists 2%nat. split; [lia|].
      replace (core s) with (cgate cs (mscale (RtoC 1) mI) t (core s)) at 1.
      2:{ rewrite <- cfactor_cgate. apply cfactor_1. }
      eapply near_instead; [| |apply rot_scalar| | |eapply budget_norm; eauto]; fold c; auto; nra.
  - destruct (rot_general_n s cs t (rot_m00 theta) (rot_m01 theta sf)
      (amul (rot_m01 theta sf) (if sf then aopp amp1 else amp1)) (RtoC (cos (tval theta / 2)))
      (z01 (tval theta) sf) (z10 (tval theta) sf) W D Al)
      as [t' [cs' [ops' [s' [E1 [E2 [E3 E4]]]]]]].
    { intros Sd. assert (K := angB_ok _ (An Sd)). split; [|split].
      - apply (cl_mono laws) with (n := 1); [lra|]. apply cl_chalf; auto.
      - apply (cl_mono laws) with (n := 3); [lra|]. apply m01_cl; auto.
      - apply m10_cl; auto. }
    { apply cmod_cos. } { apply cmod_z01. } { apply cmod_z10. }
    { rewrite rmat_z. apply urmat. }
    rewrite E1. simpl. rewrite E2. simpl. eexists; split; [reflexivity|].
    simpl in E3. rewrite E3. rewrite <- rmat_z. apply (ncs_mono 1); [lia|]. exact E4.
Qed.

Lemma mcrotation_sharp_n : forall (px py : sim -> list nat -> nat -> res sim) s cs theta t (sf : bool) s1, NoDup (t :: cs) ->
  Forall (alloc s) (t :: cs) -> cz theta = true -> (sound s1 -> angB theta) ->
  (if sf then py s cs t else px s cs t) = Ok s1 -> id_map s1 = id_map s -> wf s1 ->
  exists s', mcrotation_with px py s cs theta t sf = Ok s' /\ ncs 1 s1 s' (cfactor cs (ifac (tval theta))).
Proof.
  intros px py s cs theta t sf s1 D Al Hc An Hp Hi W. unfold mcrotation_with.
  unfold cz in Hc. change (anz (rot_m00 theta)) with (anz (chalf theta)).
  rewrite Hc, Hp. cbn [bind].
  assert (A1 : Forall (alloc s1) (t :: cs)).
  { eapply Forall_impl; [|exact Al]. unfold alloc. intros. rewrite Hi. auto. }
  destruct (resolve_ok s1 t cs D A1) as [t' [cs' [E [R1 R2]]]]. rewrite E. cbn [bind].
  set (f := amul (rot_m01 theta sf) (if sf then ampi else amp1)).
  assert (Cf : sound s1 -> cl 4 f (ifac (tval theta))).
  { intros Sd. apply fac_cl. apply angB_ok; auto. }
  assert (Ct : contraction w (cfactor cs (ifac (tval theta)))).
  { apply ct_cfactor. assert (K := Cn2_le _ _ (cmod_ifac (tval theta))). lra. }
  destruct (ais1 f) eqn:H1.
  - exists s1. split; auto. constructor; auto using frame_refl. intros Bd Sd Q. split; auto. split; auto.
    exists 1%nat. split; [lia|]. apply near_pw; auto. intros b Hb. destruct (Cf Sd) as [Ff Fe].
    rewrite (ap_is1 laws f Ff H1) in Fe. unfold cfactor. destruct (forallb (bit b) cs).
    + replace (core s1 b - ifac (tval theta) * core s1 b)%C with ((C1 - ifac (tval theta)) * core s1 b)%C by ring.
      assert (K : cmod ((C1 - ifac (tval theta)) * core s1 b)%C <= 8 * dlt).
      { rewrite cmod_mul. assert (K1 := amp_le_qnorm w (core s1) b Hb). assert (K2 := budget_norm _ _ Q).
        assert (K3 := cmod_nonneg (C1 - ifac (tval theta))%C). assert (K4 := cmod_nonneg (core s1 b)).
        assert (Dl := ap_dlt laws). nra. }
      eapply Rle_trans; [apply (Cn2_le _ _ K)|]. unfold tiny, step_err.
      assert (Dl := ap_dlt laws). assert (Tp := ap_thr laws). nra.
    + replace (core s1 b - core s1 b)%C with C0 by ring. rewrite Cn2_C0. apply tiny_pos; auto.
  - destruct (take_ops_ok s1 W) as [ops' [E1 [Tk S1]]]. rewrite E1. cbn [bind].
    eexists; split; [reflexivity|]. apply (factor_n s1 cs cs' ops' _ _ W R2 (cmod_ifac _)); auto.
    intros Sd. apply (cl_mono laws) with (n := 4); [lra|]. auto.
Qed.

(** ** x and y on the queued operations *)
Lemma gate_x_core_n : forall s t, wf s -> alloc s t ->
  exists s', gate_x s t = Ok s' /\
    ncs 1 (with_ry s (im_update (ry_queue s) t tneg)) s'
      (gate1 (if bit (h_flag s) t then mZ else mX) t).
Proof.
  intros s t W Al. unfold gate_x. simpl.
  assert (W1 := wf_upd_ry s t tneg W).
  destruct (bit (h_flag s) t);
    [destruct (enqueue_op_n _ t [] OZ W1 (nodup1 t)) as [s' [E C]]
    |destruct (enqueue_op_n _ t [] OX W1 (nodup1 t)) as [s' [E C]]]; auto; try exact (fun _ => Logic.I);
    exists s'; (split; [exact E|]); eapply ncs_ext; try exact C; intros; apply cgate_nil.
Qed.
Lemma gate_y_core_n : forall s t, wf s -> alloc s t ->
  exists s', gate_y s t = Ok s' /\
    ncs 1 (with_rx s (im_update (rx_queue s) t tneg)) s' (gate1 mY t).
Proof.
  intros s t W Al. unfold gate_y. simpl.
  assert (W1 := wf_upd_rx s t tneg W).
  destruct (enqueue_op_n _ t [] OY W1 (nodup1 t)) as [s' [E C]]; auto; try exact (fun _ => Logic.I);
    exists s'; (split; [exact E|]); eapply ncs_ext; try exact C; intros; apply cgate_nil.
Qed.

(** A step on the core seen from a state with the same core. *)
Lemma nc_use : forall k s0 s s' F, ncs k s0 s' F -> id_map s0 = id_map s -> state s0 = state s -> op_queue s0 = op_queue s ->
  (sound s -> sound s0) ->
  bounds s -> sound s -> budget k s -> mv k s s' (F (core s)).
Proof.
  intros k s0 s s' F [_ _ N1] Hi Hst Ho Hs Bd Sd Q.
  assert (Hc : core s0 = core s) by (unfold core, base; now rewrite Hi, Hst, Ho).
  assert (Hq : ql s0 = ql s) by (unfold ql; now rewrite Ho).
  unfold budget, mv in *. rewrite <- Hc, <- Hq in *. apply N1; auto. eapply bounds_id; [|exact Bd]. auto.
Qed.

(** Pauli gate then factor, in place of the rotation. *)
Lemma sharp_core : forall k s s0 s1 s2 cs theta sf t, id_map s0 = id_map s -> state s0 = state s -> op_queue s0 = op_queue s ->
  (sound s -> sound s0) -> alloc s t -> ~ In t cs ->
  cz theta = true -> (sound s -> angB theta) ->
  ncs k s0 s1 (cgate cs (if sf : bool then mY else mX) t) -> ncs 1 s1 s2 (cfactor cs (ifac (tval theta))) ->
  bounds s -> sound s -> budget (k + 3) s ->
  mv (k + 3) s s2 (cgate cs (rmat sf (tval theta)) t (core s)).
Proof.
  intros k s s0 s1 s2 cs theta sf t Hi Hst Ho Hs Al Hn Hcz An C1 C2 Bd Sd Q.
  assert (D := nc_use _ _ _ _ _ (ncs_trans _ _ _ _ _ _ _ C1 C2) Hi Hst Ho Hs Bd Sd (budget_mono (k + 1) (k + 3) s ltac:(lia) Q)).
  replace (k + 3)%nat with (2 + (k + 1))%nat by lia. eapply mv_near; [exact D|].
  rewrite (cfactor_cgate _ _ t), cgate_comp by auto.
  rewrite mmul_mscale_l, mmul_I_l.
  assert (K := cz_cos theta (angB_ok _ (An Sd)) Hcz).
  assert (P : 0 <= cos (tval theta / 2) * cos (tval theta / 2)) by apply Rle_0_sqr.
  assert (P' : 0 <= step_err * step_err) by apply Rle_0_sqr.
  eapply near_instead; [| |apply rot_pauli| | |eapply budget_norm; eauto]; auto. lra.
Qed.

(** ** Flushing *)
Lemma flush_h_n : forall s t, wf s -> alloc s t -> bit (h_flag s) t = true ->
  exists s', (let* s' := apply_mch s [] t in Ok (with_h s' (set_bit (h_flag s') t false))) = Ok s' /\
    nst 1 s s' (fun x => x) /\ same_other t s s' /\ bit (h_flag s') t = false /\
    rx_queue s' = rx_queue s /\ ry_queue s' = ry_queue s.
Proof.
  intros s t W Al H.
  destruct (apply_mch_n s [] t W (nodup1 t)) as [s1 [E C]]; auto.
  rewrite E. simpl. eexists; split; [reflexivity|].
  assert (C0 := C). destruct C as [[] W1 C1].
  assert (SO : same_other t s (with_h s1 (set_bit (h_flag s1) t false))).
  { constructor; simpl; intros; try congruence. rewrite bit_set_other; auto. congruence. }
  split; [|split; [exact SO|split; [apply bit_set_same|split; auto]]].
  constructor; simpl; auto.
  - destruct W1; constructor; simpl; auto. intros q Hq. apply i_h.
    destruct (Nat.eq_dec t q); [subst; rewrite bit_set_same in Hq; discriminate|].
    rewrite bit_set_other in Hq; auto.
  - intros G _. apply rxin_eq. exact fr_rx0.
  - apply (near_same 1 s _ t) with (V := mH); simpl; auto.
    + intros. apply (so_pm t); auto.
    + unfold pm. simpl. rewrite bit_set_same, fr_rx0, fr_ry0, H. simpl.
      rewrite mmul_I_r. rewrite !mmul_assoc. reflexivity.
    + intros Bd Sd Q. apply (mv_more 1 s s1); auto using sd_h. rewrite <- cgate_nil. apply (nc_use _ s s s1 _ C0); auto.
Qed.

Lemma flush_rx_n : forall s t, wf s -> alloc s t -> bit (h_flag s) t = false ->
  exists s', flush_rx s t = Ok s' /\
    nst 4 s s' (fun x => x) /\ same_other t s s' /\ h_flag s' = h_flag s /\
    im_get (rx_queue s') t = None /\ ry_rel s s' t.
Proof.
  intros s t W Al H. unfold flush_rx. destruct (im_get (rx_queue s) t) as [theta|] eqn:Hx.
  2:{ exists s. split; auto. split; [apply (nst_mono 0); [lia|]; apply nst_refl; auto|].
      split; [constructor; auto|]. unfold ry_rel. rewrite Hx. simpl. tauto. }
  assert (An : forall s1, rx_queue s1 = rx_queue s -> sound s1 -> angB theta).
  { intros s1 E Sd. apply (sd_rx B s1 Sd t). now rewrite E. }
  destruct (cz theta) eqn:Hcz.
  - destruct (gate_x_core_n s t W Al) as [s1 [E1 C1]]. rewrite H in C1.
    assert (C1c := C1). destruct C1 as [Fr1 W1 _].
    assert (Ei : id_map s1 = id_map s) by (destruct Fr1; auto).
    assert (Ex : rx_queue s1 = rx_queue s) by (destruct Fr1; auto).
    destruct (mcrotation_sharp_n (fun s _ t => gate_x s t) (fun s _ t => gate_y s t)
                s [] theta t false s1) as [s2 [E2 C2]]; auto using nodup1; try exact (An s1 Ex).
    assert (C2c := C2). destruct C2 as [Fr2 W2 _].
    rewrite E2. simpl. eexists; split; [reflexivity|].
    destruct Fr1 as [F1 F2 F3 F4 F5]; simpl in *.
    destruct Fr2 as [G1 G2 G3 G4 G5].
    assert (SO : same_other t s (with_rx s2 (im_remove (rx_queue s2) t))).
    { constructor; simpl; intros q Hq.
      - congruence.
      - rewrite im_get_remove. destruct (Nat.eqb_spec t q); congruence.
      - rewrite G5, F5, im_get_update. destruct (Nat.eqb_spec t q); congruence. }
    split; [|split; [exact SO|]].
    + constructor; simpl; try congruence.
      * apply wf_rem_rx; auto.
      * intros G _. apply rxin_sub. intros q. simpl. rewrite im_get_remove, G4, F4. destruct (Nat.eqb t q); auto.
      * apply (near_same 4 s _ t) with (V := mRx (tval theta)); simpl; try congruence; auto.
        { intros; apply (so_pm t); auto. }
        { unfold pm. simpl. rewrite im_get_remove, Nat.eqb_refl. simpl.
          rewrite G5, F5, im_get_update, Nat.eqb_refl, Hx, G3, F3, H. simpl. rewrite Hcz.
          rewrite !mmul_I_l, !mmul_I_r. reflexivity. }
        { intros Bd Sd Q. rewrite <- cgate_nil. apply (mv_more 4 s s2); auto using sd_rem_rx.
          eapply (sharp_core 1 s _ s1 s2 [] theta false t); [| | |apply sd_neg_ry| | | | |eapply ncs_ext; [exact C1c|intros; symmetry; apply cgate_nil]|exact C2c| | |]; auto; exact (An s eq_refl). }
    + simpl. rewrite G3, F3. split; auto. split.
      * rewrite im_get_remove, Nat.eqb_refl. reflexivity.
      * unfold ry_rel. simpl. rewrite G5, F5, im_get_update, Nat.eqb_refl.
        rewrite Hx. simpl. rewrite Hcz.
        destruct (im_get (ry_queue s) t) as [r|] eqn:Ey; simpl; split; try (split; congruence); auto.
  - destruct (mcrotation_smooth_n (fun s _ t => gate_x s t) (fun s _ t => gate_y s t)
                s [] theta t false) as [s2 [E2 C2]]; auto using nodup1; try exact (An s eq_refl).
    assert (C2c := C2). destruct C2 as [Fr2 W2 _].
    rewrite E2. simpl. eexists; split; [reflexivity|].
    destruct Fr2 as [G1 G2 G3 G4 G5].
    assert (SO : same_other t s (with_rx s2 (im_remove (rx_queue s2) t))).
    { constructor; simpl; intros q Hq; try congruence.
      rewrite im_get_remove. destruct (Nat.eqb_spec t q); congruence. }
    split; [|split; [exact SO|]].
    + constructor; simpl; try congruence.
      * apply wf_rem_rx; auto.
      * intros G _. apply rxin_sub. intros q. simpl. rewrite im_get_remove, G4. destruct (Nat.eqb t q); auto.
      * apply (near_same 4 s _ t) with (V := mRx (tval theta)); simpl; try congruence; auto.
        { intros; apply (so_pm t); auto. }
        { unfold pm. simpl. rewrite im_get_remove, Nat.eqb_refl. simpl.
          rewrite G5, Hx, G3, H. simpl. rewrite Hcz.
          rewrite mmul_I_l, !mmul_I_r. reflexivity. }
        { intros Bd Sd Q. rewrite <- cgate_nil. apply (mv_more 4 s s2); auto using sd_rem_rx.
          apply (mv_mono 3); [lia|].
          exact (nc_use _ s s s2 _ C2c eq_refl eq_refl eq_refl (fun x => x) Bd Sd (budget_mono 3 4 s ltac:(lia) Q)). }
    + simpl. rewrite G3. split; auto. split.
      * rewrite im_get_remove, Nat.eqb_refl. reflexivity.
      * unfold ry_rel. simpl. rewrite G5, Hx. simpl. rewrite Hcz. tauto.
Qed.

Lemma flush_ry_n : forall s t, wf s -> alloc s t -> bit (h_flag s) t = false ->
  im_get (rx_queue s) t = None ->
  exists s', flush_ry s t = Ok s' /\
    nst 4 s s' (fun x => x) /\ same_other t s s' /\ no_pend s' t.
Proof.
  intros s t W Al H Hrx. unfold flush_ry. destruct (im_get (ry_queue s) t) as [theta|] eqn:Hy.
  2:{ exists s. split; auto. split; [apply (nst_mono 0); [lia|]; apply nst_refl; auto|]. split; [constructor; auto|].
      repeat split; auto. }
  assert (An : forall s1, ry_queue s1 = ry_queue s -> sound s1 -> angB theta).
  { intros s1 E Sd. apply (sd_ry B s1 Sd t). now rewrite E. }
  destruct (cz theta) eqn:Hcz.
  - destruct (gate_y_core_n s t W Al) as [s1 [E1 C1]]. assert (C1c := C1). destruct C1 as [Fr1 W1 _].
    assert (Ei : id_map s1 = id_map s) by (destruct Fr1; auto).
    assert (Ex : ry_queue s1 = ry_queue s) by (destruct Fr1; auto).
    destruct (mcrotation_sharp_n (fun s _ t => gate_x s t) (fun s _ t => gate_y s t)
                s [] theta t true s1) as [s2 [E2 C2]]; auto using nodup1; try exact (An s1 Ex).
    assert (C2c := C2). destruct C2 as [Fr2 W2 _].
    rewrite E2. simpl. eexists; split; [reflexivity|].
    destruct Fr1 as [F1 F2 F3 F4 F5]; simpl in *.
    destruct Fr2 as [G1 G2 G3 G4 G5].
    assert (SO : same_other t s (with_ry s2 (im_remove (ry_queue s2) t))).
    { constructor; simpl; intros q Hq.
      - congruence.
      - rewrite G4, F4, im_get_update. destruct (Nat.eqb_spec t q); congruence.
      - rewrite im_get_remove. destruct (Nat.eqb_spec t q); congruence. }
    split; [|split; [exact SO|]].
    + constructor; simpl; try congruence.
      * apply wf_rem_ry; auto.
      * intros G SG N q a. simpl. rewrite G4, F4, im_get_update. destruct (Nat.eqb t q); [|apply N].
        destruct (im_get (rx_queue s) q) eqn:Eq; simpl; [|discriminate]. intros Ha. inversion Ha; subst.
        destruct (ap_tneg laws a0) as [_ ->]. apply SG. eapply N; eauto.
      * apply (near_same 4 s _ t) with (V := mRy (tval theta)); simpl; try congruence; auto.
        { intros; apply (so_pm t); auto. }
        { unfold pm. simpl. rewrite im_get_remove, Nat.eqb_refl. simpl.
          rewrite G4, F4, im_get_update, Nat.eqb_refl, Hy, Hrx, G3, F3, H. simpl.
          rewrite !mmul_I_l, mmul_I_r. reflexivity. }
        { intros Bd Sd Q. rewrite <- cgate_nil. apply (mv_more 4 s s2); auto using sd_rem_ry.
          eapply (sharp_core 1 s _ s1 s2 [] theta true t); [| | |apply sd_neg_rx| | | | |eapply ncs_ext; [exact C1c|intros; symmetry; apply cgate_nil]|exact C2c| | |]; auto; exact (An s eq_refl). }
    + simpl. split; simpl; [congruence|]. split.
      * rewrite G4, F4, im_get_update, Nat.eqb_refl, Hrx. reflexivity.
      * rewrite im_get_remove, Nat.eqb_refl. reflexivity.
  - destruct (mcrotation_smooth_n (fun s _ t => gate_x s t) (fun s _ t => gate_y s t)
                s [] theta t true) as [s2 [E2 C2]]; auto using nodup1; try exact (An s eq_refl).
    assert (C2c := C2). destruct C2 as [Fr2 W2 _].
    rewrite E2. simpl. eexists; split; [reflexivity|].
    destruct Fr2 as [G1 G2 G3 G4 G5].
    assert (SO : same_other t s (with_ry s2 (im_remove (ry_queue s2) t))).
    { constructor; simpl; intros q Hq; try congruence.
      rewrite im_get_remove. destruct (Nat.eqb_spec t q); congruence. }
    split; [|split; [exact SO|]].
    + constructor; simpl; try congruence.
      * apply wf_rem_ry; auto.
      * intros G _. apply rxin_eq. exact G4.
      * apply (near_same 4 s _ t) with (V := mRy (tval theta)); simpl; try congruence; auto.
        { intros; apply (so_pm t); auto. }
        { unfold pm. simpl. rewrite im_get_remove, Nat.eqb_refl. simpl.
          rewrite G4, Hrx, Hy, G3, H. simpl.
          rewrite !mmul_I_l, !mmul_I_r. reflexivity. }
        { intros Bd Sd Q. rewrite <- cgate_nil. apply (mv_more 4 s s2); auto using sd_rem_ry.
          apply (mv_mono 3); [lia|].
          exact (nc_use _ s s s2 _ C2c eq_refl eq_refl eq_refl (fun x => x) Bd Sd (budget_mono 3 4 s ltac:(lia) Q)). }
    + simpl. split; simpl; [congruence|]. split.
      * congruence.
      * rewrite im_get_remove, Nat.eqb_refl. reflexivity.
Qed.

Definition level_done (lv : level) (s s' : sim) (t : nat) : Prop :=
  bit (h_flag s') t = false /\
  match lv with
  | LH => im_get (rx_queue s') t = im_get (rx_queue s) t /\
          im_get (ry_queue s') t = im_get (ry_queue s) t
  | LHRx => im_get (rx_queue s') t = None /\ ry_rel s s' t
  | LHRxRy => im_get (rx_queue s') t = None /\ im_get (ry_queue s') t = None
  end.

Lemma flush_one_n : forall lv s t, wf s -> alloc s t ->
  exists s', flush_one lv s t = Ok s' /\ nst 9 s s' (fun x => x) /\ same_other t s s' /\
    level_done lv s s' t.
Proof.
  intros lv s t W Al. unfold flush_one.
  assert (S1 : exists s1,
    (if bit (h_flag s) t then
       let* s' := apply_mch s [] t in Ok (with_h s' (set_bit (h_flag s') t false))
     else Ok s) = Ok s1 /\ nst 1 s s1 (fun x => x) /\ same_other t s s1 /\
    bit (h_flag s1) t = false /\ rx_queue s1 = rx_queue s /\ ry_queue s1 = ry_queue s).
  { destruct (bit (h_flag s) t) eqn:H.
    - apply flush_h_n; auto.
    - exists s. split; auto. split; [apply (nst_mono 0); [lia|]; apply nst_refl; auto|]. split; [apply so_refl|]. auto. }
  destruct S1 as [s1 [E1 [G1 [SO1 [H1 [X1 Y1]]]]]]. rewrite E1. unfold bind at 1.
  assert (W1 : wf s1) by apply G1. assert (A1 : alloc s1 t) by (eapply nst_alloc; eauto).
  destruct lv.
  - exists s1. split; auto. split; [apply (nst_mono 1); [lia|auto]|]. split; auto. split; auto. rewrite X1, Y1. auto.
  - destruct (flush_rx_n s1 t W1 A1 H1) as [s2 [E2 [G2 [SO2 [H2 [X2 Y2]]]]]].
    exists s2. split; auto. split; [apply (nst_mono 5); [lia|]; exact (nst_id_l 1 4 _ _ _ _ G1 G2)|].
    split; [eapply so_trans; eauto|]. split; [congruence|]. split; auto. unfold ry_rel in *. rewrite X1, Y1 in Y2. exact Y2.
  - destruct (flush_rx_n s1 t W1 A1 H1) as [s2 [E2 [G2 [SO2 [H2 [X2 Y2]]]]]].
    rewrite E2. unfold bind at 1.
    assert (W2 : wf s2) by apply G2. assert (A2 : alloc s2 t) by (eapply nst_alloc; eauto).
    destruct (flush_ry_n s2 t W2 A2) as [s3 [E3 [G3 [SO3 [N1 [N2 N3]]]]]]; [congruence|auto|].
    exists s3. split; auto.
    split; [exact (nst_id_l 1 8 _ _ _ _ G1 (nst_id_l 4 4 _ _ _ _ G2 G3))|].
    split; [eapply so_trans; [exact SO1|eapply so_trans; eauto]|]. split; auto.
Qed.

(** What a flush leaves of the pending operations. *)
Definition less_pend (s s' : sim) : Prop := forall q,
  (bit (h_flag s) q = false -> bit (h_flag s') q = false) /\
  (im_get (rx_queue s) q = None -> im_get (rx_queue s') q = None) /\
  (im_get (ry_queue s) q = None -> im_get (ry_queue s') q = None).

Definition same_outside (qs : list nat) (s s' : sim) : Prop := forall q, ~ In q qs ->
  bit (h_flag s') q = bit (h_flag s) q /\
  im_get (rx_queue s') q = im_get (rx_queue s) q /\
  im_get (ry_queue s') q = im_get (ry_queue s) q.

Lemma flush_one_less : forall lv s s' t, same_other t s s' -> level_done lv s s' t ->
  less_pend s s' /\ same_outside [t] s s'.
Proof.
  intros lv s s' t [] L. split.
  - intros q. destruct (Nat.eq_dec q t).
    + subst. destruct L as [L1 L2].
      destruct lv; destruct L2 as [L2 L3]; repeat split; intros; auto; try congruence; try (apply L3; auto).
    + rewrite so_h0, so_rx0, so_ry0; auto.
  - intros q Hq. simpl in Hq. rewrite so_h0, so_rx0, so_ry0 by (intro; subst; tauto). auto.
Qed.

Lemma less_trans : forall a b c, less_pend a b -> less_pend b c -> less_pend a c.
Proof. intros a b c H1 H2 q. destruct (H1 q) as [? [? ?]]. destruct (H2 q) as [? [? ?]]. auto. Qed.
Lemma less_refl : forall s, less_pend s s.
Proof. intros s q; auto. Qed.

Lemma less_no_pend : forall s s' q, less_pend s s' -> no_pend s q -> no_pend s' q.
Proof. intros s s' q L [H1 [H2 H3]]. destruct (L q) as [? [? ?]]. repeat split; auto. Qed.

Definition done_level (lv : level) (s' : sim) (q : nat) : Prop :=
  bit (h_flag s') q = false /\
  match lv with
  | LH => True
  | LHRx => im_get (rx_queue s') q = None
  | LHRxRy => im_get (rx_queue s') q = None /\ im_get (ry_queue s') q = None
  end.

Lemma done_less : forall lv s s' q, done_level lv s q -> less_pend s s' -> done_level lv s' q.
Proof.
  intros lv s s' q [H1 H2] L. destruct (L q) as [L1 [L2 L3]]. split; auto.
  destruct lv; intuition.
Qed.

Lemma flush_fold_n : forall lv qs s, wf s -> Forall (alloc s) qs ->
  exists s', foldM (flush_one lv) qs s = Ok s' /\ nst (9 * length qs) s s' (fun x => x) /\
    less_pend s s' /\ same_outside qs s s' /\ (forall q, In q qs -> done_level lv s' q).
Proof.
  induction qs as [|t qs]; intros s W Al.
  - exists s. split; auto. split; [apply nst_refl; auto|]. split; [apply less_refl|].
    split; [intros q _; auto|simpl; tauto].
  - inversion Al; subst. cbn [foldM].
    destruct (flush_one_n lv s t W H1) as [s1 [E1 [G1 [SO1 L1]]]]. rewrite E1. cbn [bind].
    destruct (IHqs s1) as [s2 [E2 [G2 [L2 [O2 D2]]]]].
    + apply G1.
    + eapply nst_Forall; eauto.
    + destruct (flush_one_less _ _ _ _ SO1 L1) as [L1' O1].
      exists s2. split; auto. split.
      { replace (9 * length (t :: qs))%nat with (9 + 9 * length qs)%nat by (simpl; lia). exact (nst_id_l _ _ _ _ _ _ G1 G2). }
      split; [eapply less_trans; eauto|]. split.
      * intros q Hq. destruct (O2 q) as [? [? ?]]; [simpl in Hq; tauto|].
        destruct (O1 q) as [? [? ?]]; [simpl in *; tauto|]. repeat split; congruence.
      * intros q [->|Hq]; auto. eapply done_less; [|exact L2].
        destruct L1 as [L1a L1b]. split; auto. destruct lv; tauto.
Qed.

Lemma ncs_nst_id : forall k s s', ncs k s s' (fun x => x) -> nst k s s' (fun x => x).
Proof.
  intros k s s' C. destruct C as [Fr W Cc]. assert (Fr' := Fr). destruct Fr. constructor; auto.
  - intros G _. apply rxin_eq. exact fr_rx0.
  - intros Bd Sd Q. assert (B' : bounds s') by (eapply bounds_id; eauto).
    destruct (Cc Bd Sd Q) as [C1 [Sd' [j [L C2]]]]. split; auto. split; auto. exists j. split; auto.
    unfold abs. rewrite (frame_ids _ _ Fr'), (pendl_ext (pm s') (pm s)) by (intros; apply frame_pm; auto).
    apply nct; auto. apply ct_pm; auto.
Qed.

Lemma flush_queue_n : forall lv qs s, wf s -> Forall (alloc s) qs ->
  exists s', flush_queue s qs lv = Ok s' /\ nst (9 * length qs) s s' (fun x => x) /\
    less_pend s s' /\ same_outside qs s s' /\ (forall q, In q qs -> done_level lv s' q) /\
    op_queue s' = [].
Proof.
  intros lv qs s W Al. unfold flush_queue.
  destruct (flush_fold_n lv qs s W Al) as [s1 [E1 [G1 [L1 [O1 D1]]]]]. rewrite E1. cbn [bind].
  destruct (flush_ops_n s1) as [s2 [E2 [C2 Q2]]]; [apply G1|].
  exists s2. assert (G2 := ncs_nst_id _ _ _ C2). destruct C2 as [[] _ _].
  split; auto. split; [rewrite <- (Nat.add_0_r (9 * length qs)); exact (nst_id_l _ _ _ _ _ _ G1 G2)|].
  assert (L2 : less_pend s1 s2) by (intros q; rewrite fr_h0, fr_rx0, fr_ry0; auto).
  split; [eapply less_trans; eauto|]. split; [|split; auto].
  - intros q Hq. rewrite fr_h0, fr_rx0, fr_ry0. apply O1; auto.
  - intros q Hq. eapply done_less; eauto.
Qed.

Lemma has_queued_false : forall s q, has_queued_hrxy s q = false -> no_pend s q.
Proof.
  intros s q H. unfold has_queued_hrxy in H. apply orb_false_iff in H. destruct H as [H H3].
  apply orb_false_iff in H. destruct H as [H1 H2].
  rewrite im_contains_false in H2, H3. repeat split; auto.
Qed.

Lemma maybe_flush_n : forall qs s, wf s -> Forall (alloc s) qs ->
  exists s', maybe_flush_queue s qs LHRxRy = Ok s' /\ nst (9 * length qs) s s' (fun x => x) /\
    less_pend s s' /\ same_outside qs s s' /\ (forall q, In q qs -> no_pend s' q).
Proof.
  intros qs s W Al. unfold maybe_flush_queue.
  destruct (existsb (has_queued_hrxy s) qs) eqn:E.
  - destruct (flush_queue_n LHRxRy qs s W Al) as [s' [E1 [G [L [O [D _]]]]]].
    exists s'. split; auto.
  - exists s. split; auto. split; [apply (nst_mono 0); [lia|]; apply nst_refl; auto|]. split; [apply less_refl|].
    split; [intros q _; auto|].
    intros q Hq. apply has_queued_false. destruct (has_queued_hrxy s q) eqn:Q; auto.
    rewrite <- not_true_iff_false in E. exfalso. apply E. apply existsb_exists. eauto.
Qed.

(** ** Bookkeeping *)
Lemma rxin_upd : forall G s t, symm G -> rxin G s -> rxin G (with_rx s (im_update (rx_queue s) t tneg)).
Proof.
  intros G s t SG N q a. simpl. rewrite im_get_update. destruct (Nat.eqb t q); [|apply N].
  destruct (im_get (rx_queue s) q) eqn:E; simpl; [|discriminate]. intros Ha. inversion Ha; subst.
  destruct (ap_tneg laws a0) as [_ ->]. apply SG. eapply N; eauto.
Qed.
Lemma abs_local : forall s s' U V t, id_map s' = id_map s -> alloc s t ->
  (forall q, q <> t -> pm s' q = pm s q) ->
  core s' = gate1 V t (core s) -> mmul (pm s' t) V = mmul U (pm s t) ->
  abs s' = gate1 U t (abs s).
Proof.
  intros s s' U V t Hi Ha Hp Hc Hm. unfold abs, ids. rewrite Hi, Hc.
  fold (ids s). rewrite pendl_pre by (try apply ids_nodup; apply ids_In; auto).
  rewrite pendl_post by (try apply ids_nodup; apply ids_In; auto).
  apply pendl_ext. intros q _. unfold upd. destruct (Nat.eqb_spec q t); auto.
Qed.
Lemma wf_set_h : forall s t v, wf s -> alloc s t -> wf (with_h s (set_bit (h_flag s) t v)).
Proof.
  intros s t v [] Al; constructor; simpl; auto. intros q H.
  destruct (Nat.eq_dec q t); [subst; exact Al|]. rewrite bit_set_other in H by auto. apply i_h; auto.
Qed.
Lemma queue_angle_other : forall q t theta x, x <> t ->
  im_get (queue_angle q t theta) x = im_get q x.
Proof.
  intros. unfold queue_angle. destruct (im_get q t); [destruct (tnz _)|].
  - rewrite im_get_remove, im_get_update. destruct (Nat.eqb_spec t x); congruence.
  - rewrite im_get_update. destruct (Nat.eqb_spec t x); congruence.
  - rewrite im_get_insert. destruct (Nat.eqb_spec t x); congruence.
Qed.
Lemma wf_ins_rx : forall s t theta, wf s -> alloc s t ->
  wf (with_rx s (queue_angle (rx_queue s) t theta)).
Proof.
  intros s t v [] Al; constructor; simpl; auto. intros q a H.
  destruct (Nat.eq_dec q t); [subst; exact Al|]. rewrite queue_angle_other in H by auto. eapply i_rx; eauto.
Qed.
Lemma wf_ins_ry : forall s t theta, wf s -> alloc s t ->
  wf (with_ry s (queue_angle (ry_queue s) t theta)).
Proof.
  intros s t v [] Al; constructor; simpl; auto. intros q a H.
  destruct (Nat.eq_dec q t); [subst; exact Al|]. rewrite queue_angle_other in H by auto. eapply i_ry; eauto.
Qed.
Lemma fold_weight : forall s qs n, fold_left (fun acc c => (acc + pend_weight s c)%nat) qs n
  = (n + list_sum (map (pend_weight s) qs))%nat.
Proof.
  induction qs; simpl; intros; [lia|]. rewrite IHqs. lia.
Qed.
Lemma weight0 : forall s q, pend_weight s q = 0%nat -> no_pend s q.
Proof.
  intros s q. unfold pend_weight. destruct (bit (h_flag s) q) eqn:E; [discriminate|].
  destruct (im_contains (rx_queue s) q || im_contains (ry_queue s) q) eqn:F; [discriminate|].
  apply orb_false_iff in F. rewrite !im_contains_false in F. intros _. repeat split; tauto.
Qed.
Lemma weight1 : forall s q, pend_weight s q = 1%nat -> bit (h_flag s) q = true /\ pm s q = mH.
Proof.
  intros s q. unfold pend_weight. destruct (bit (h_flag s) q) eqn:E;
  destruct (im_contains (rx_queue s) q || im_contains (ry_queue s) q) eqn:F; try discriminate.
  apply orb_false_iff in F. rewrite !im_contains_false in F. destruct F as [F1 F2].
  intros _. split; auto. unfold pm. rewrite E, F1, F2. simpl. now rewrite !mmul_I_l.
Qed.
Lemma weight_h : forall s q, bit (h_flag s) q = true -> (1 <= pend_weight s q)%nat.
Proof. intros s q H. unfold pend_weight. rewrite H. lia. Qed.
Lemma mva_near : forall i k s s1 phi psi, mva k s s1 phi -> nearr w i phi psi -> mva (i + k) s s1 psi.
Proof.
  intros i k s s1 phi psi [S [j [L N]]] H. split; auto. exists (j + i)%nat. split; [lia|]. eapply ntrans; eauto.
Qed.

Ltac eqb_destruct := match goal with |- context[Nat.eqb ?a ?b] => destruct (Nat.eqb_spec a b) end.

Lemma nst_none : forall k s, wf s -> nst k s s (fun x => x).
Proof. intros. apply (nst_mono 0); [lia|]. apply nst_refl; auto. Qed.
Lemma nst_seq : forall n j k a b c F, nst j a b (fun x => x) -> nst k b c F -> (j + k <= n)%nat -> nst n a c F.
Proof. intros n j k a b c F H1 H2 H3. apply (nst_mono (j + k)); auto. eapply nst_id_l; eauto. Qed.
Lemma ncs_less : forall k s s' F, ncs k s s' F -> less_pend s s'.
Proof. intros k s s' F [[]] q. rewrite fr_h0, fr_rx0, fr_ry0. auto. Qed.

(** ** Pauli gates *)
Lemma gate_x_n : forall s t, wf s -> alloc s t ->
  exists s', gate_x s t = Ok s' /\ nst 1 s s' (gate1 mX t) /\ less_pend s s'.
Proof.
  intros s t W Al. destruct (gate_x_core_n s t W Al) as [s' [E C]]. assert (Cc := C). destruct C as [Fr W' C].
  exists s'. split; auto. destruct Fr as [F1 F2 F3 F4 F5]; simpl in *. split.
  - constructor; auto.
    + intros G _. apply rxin_eq. exact F4.
    + apply (near_local 1 s s' mX (if bit (h_flag s) t then mZ else mX) t); auto using uX.
      * intros q Hq. unfold pm. rewrite F3, F4, F5, im_get_update. eqb_destruct; congruence.
      * unfold pm. rewrite F3, F4, F5, im_get_update, Nat.eqb_refl.
        rewrite X_ryo, X_rxo, X_h, <- oval_neg, <- effy_neg. rewrite !mmul_assoc. reflexivity.
      * intros Bd Sd Q. exact (nc_use _ _ s s' _ Cc eq_refl eq_refl eq_refl (sd_neg_ry s t) Bd Sd Q).
  - intros q. rewrite F3, F4, F5, im_get_update. repeat split; auto.
    intros Hq. rewrite Hq. destruct (Nat.eqb t q); auto.
Qed.

Lemma unitary_mscale : forall c U, Cn2 c = 1 -> unitary U -> unitary (mscale c U).
Proof.
  intros c U Hc HU.
  replace (mscale c U) with (mmul (mscale c mI) U) by (apply mat_ext; unfold mmul, mscale, mI, mk2; ring).
  apply unitary_mmul; auto. intros a b. unfold mscale, mI, mk2.
  replace (c * C1 * a + c * C0 * b)%C with (c * a)%C by ring.
  replace (c * C0 * a + c * C1 * b)%C with (c * b)%C by ring.
  rewrite !Cn2_mul, Hc. ring.
Qed.

Lemma gate_y_n : forall s t, wf s -> alloc s t ->
  exists s', gate_y s t = Ok s' /\
    nst 1 s s' (fun psi => scale (ysign (bit (h_flag s) t)) (gate1 mY t psi)) /\ less_pend s s'.
Proof.
  intros s t W Al. destruct (gate_y_core_n s t W Al) as [s' [E C]]. assert (Cc := C). destruct C as [Fr W' C].
  exists s'. split; auto. destruct Fr as [F1 F2 F3 F4 F5]; simpl in *. split.
  - apply (nst_ext 1 s s' (gate1 (mscale (ysign (bit (h_flag s) t)) mY) t)); [|intros; apply gate1_mscale].
    constructor; auto.
    + intros G SG N. apply (rxin_eq G (with_rx s (im_update (rx_queue s) t tneg))); [exact F4|exact (rxin_upd G s t SG N)].
    + apply (near_local 1 s s' _ mY t); auto using unitary_mscale, Cn2_ysign, uY.
      * intros q Hq. unfold pm. rewrite F3, F4, F5, im_get_update. eqb_destruct; congruence.
      * unfold pm. rewrite F3, F4, F5, im_get_update, Nat.eqb_refl.
        rewrite mmul_mscale_l, Y_ryo, Y_rxo, Y_h, <- oval_neg. rewrite !mmul_mscale_r, mscale_mscale, ysign_sq, mscale_1.
        rewrite <- (effy_negx (im_get (rx_queue s) t)).
        rewrite !mmul_assoc. reflexivity.
      * intros Bd Sd Q. exact (nc_use _ _ s s' _ Cc eq_refl eq_refl eq_refl (sd_neg_rx s t) Bd Sd Q).
  - intros q. rewrite F3, F4, F5, im_get_update. repeat split; auto.
    intros Hq. rewrite Hq. destruct (Nat.eqb t q); auto.
Qed.

Lemma gate_z_n : forall s t, wf s -> alloc s t ->
  exists s', gate_z s t = Ok s' /\ nst 1 s s' (gate1 mZ t).
Proof.
  intros s t W Al. unfold gate_z. simpl.
  assert (W1 := wf_upd_rx _ t tneg (wf_upd_ry s t tneg W)). simpl in W1.
  set (s1 := with_rx _ _) in *.
  assert (P : exists s', (if bit (h_flag s) t then enqueue_op s1 t [] OX else enqueue_op s1 t [] OZ) = Ok s' /\
    ncs 1 s1 s' (gate1 (if bit (h_flag s) t then mX else mZ) t)).
  { destruct (bit (h_flag s) t);
    [destruct (enqueue_op_n s1 t [] OX W1 (nodup1 t)) as [s' [E C]]
    |destruct (enqueue_op_n s1 t [] OZ W1 (nodup1 t)) as [s' [E C]]]; auto; try exact (fun _ => Logic.I);
    exists s'; (split; [exact E|]); eapply ncs_ext; try exact C; intros; apply cgate_nil. }
  destruct P as [s' [E C]]. exists s'. split; auto. assert (Cc := C). destruct C as [Fr W' C].
  destruct Fr as [F1 F2 F3 F4 F5]; simpl in *.
  constructor; auto.
  - intros G SG N. apply (rxin_eq G (with_rx s (im_update (rx_queue s) t tneg))); [exact F4|exact (rxin_upd G s t SG N)].
  - apply (near_local 1 s s' mZ (if bit (h_flag s) t then mX else mZ) t); auto using uZ.
    + intros q Hq. unfold pm. rewrite F3, F4, F5, !im_get_update. eqb_destruct; congruence.
    + unfold pm. rewrite F3, F4, F5, !im_get_update, !Nat.eqb_refl.
      rewrite Z_ryo, Z_rxo, Z_h, <- !oval_neg, <- effy_neg, <- (effy_negx (im_get (rx_queue s) t)). rewrite !mmul_assoc. reflexivity.
    + intros Bd Sd Q. exact (nc_use _ _ s s' _ Cc eq_refl eq_refl eq_refl (fun Sd => sd_neg_rx _ t (sd_neg_ry s t Sd)) Bd Sd Q).
Qed.

(** ** Controlled operations added to the queue *)
Lemma ncs_abs : forall k s s' F U, ncs k s s' F ->
  (forall psi, pendl (pm s) (ids s) (F psi) = U (pendl (pm s) (ids s) psi)) ->
  (bounds s -> contraction w U) -> nst k s s' U.
Proof.
  intros k s s' F U C H Ct. assert (Cc := C). destruct C as [Fr W' C]. constructor; auto; try apply Fr.
  - destruct Fr. intros G _. apply rxin_eq. exact fr_rx0.
  - intros Bd Sd Q. destruct (C Bd Sd Q) as [C1 [Sd' [j [L C2]]]]. split; auto. split; auto. exists j. split; auto.
    unfold abs. rewrite <- H, (frame_ids _ _ Fr), (pendl_ext (pm s') (pm s)) by (intros; apply frame_pm; auto).
    apply nct; auto. apply ct_pm; auto.
Qed.

Lemma ncs_ctrl : forall k s s' U W cs t, ncs k s s' (cgate cs W t) -> alloc s t -> ~ In t cs ->
  (forall c, In c cs -> no_pend s c) -> unitary U -> mmul U (pm s t) = mmul (pm s t) W ->
  nst k s s' (cgate cs U t).
Proof.
  intros k s s' U W cs t C Al Hn Hc HU Hm. apply (ncs_abs k s s' (cgate cs W t)); auto.
  - intros psi. symmetry. apply pendl_cgate; auto; try apply ids_nodup.
    + intros. apply no_pend_pm; auto.
    + intros Hi. exfalso. apply Hi. apply ids_In. auto.
  - intros Bd. apply ct_cgate; auto.
Qed.

Lemma cx_reversed_n : forall k s s' c t, ncs k s s' (cgate [t] mX c) -> alloc s t -> alloc s c -> t <> c ->
  bit (h_flag s) c = true -> im_get (rx_queue s) c = None -> im_get (ry_queue s) c = None ->
  bit (h_flag s) t = true -> im_get (ry_queue s) t = None ->
  nst k s s' (cgate [c] mX t).
Proof.
  intros k s s' c t C At Ac Hne Hhc Hxc Hyc Hht Hyt.
  apply (ncs_abs k s s' (cgate [t] mX c)); auto.
  2:{ intros Bd. apply ct_cgate; auto using uX. simpl; intros [?|[]]; congruence. }
  intros psi.
    assert (Pc : pm s c = mH) by (unfold pm; rewrite Hhc, Hxc, Hyc; simpl; now rewrite !mmul_I_l).
    assert (Pt : pm s t = mmul (rxo (oval (im_get (rx_queue s) t))) mH)
      by (unfold pm; rewrite Hht, Hyt, effy_none; simpl; now rewrite !mmul_I_l).
    set (f := pm s) in *. set (f0 := upd (upd f c mI) t mI).
    assert (S : forall psi, pendl f (ids s) psi =
              gate1 (rxo (oval (im_get (rx_queue s) t))) t (gate1 mH t (gate1 mH c (pendl f0 (ids s) psi)))).
    { intros. rewrite (gate1_comp _ mH t). rewrite <- Pt.
      rewrite (pendl_post f0 (ids s) mH c) by (try apply ids_nodup; apply ids_In; auto).
      rewrite pendl_post by (try apply ids_nodup; apply ids_In; auto).
      apply pendl_ext. intros q _. unfold f0, upd.
      destruct (Nat.eqb_spec q t).
      - subst q. rewrite !Nat.eqb_refl. destruct (Nat.eqb_spec t c); [congruence|]. now rewrite mmul_I_r.
      - destruct (Nat.eqb_spec q c); auto. subst q.
        destruct (Nat.eqb_spec c t); [congruence|]. rewrite !Nat.eqb_refl, mmul_I_r. auto. }
    rewrite !S.
    rewrite (cgate_conj [c] mX (rxo (oval (im_get (rx_queue s) t))) mX t).
    2:{ simpl; intros [?|[]]; congruence. }
    2:{ generalize (X_rxo (oval (im_get (rx_queue s) t)) mI). now rewrite !mmul_I_r. }
    f_equal.
    rewrite (cgate_conj [c] mX mH mZ t).
    2:{ simpl; intros [?|[]]; congruence. }
    2:{ apply XH. }
    f_equal.
    rewrite mZ_phase. rewrite (cgate_phase_sym [c] t [t] c) by apply perm_swap. rewrite <- mZ_phase.
    rewrite (cgate_conj [t] mZ mH mX c).
    2:{ simpl; intros [?|[]]; congruence. }
    2:{ apply ZH. }
    f_equal. symmetry. apply pendl_cgate.
    + apply ids_nodup.
    + simpl; intros [?|[]]; congruence.
    + intros x [<-|[]] _. unfold f0, upd. now rewrite Nat.eqb_refl.
    + intros _. unfold f0, upd. destruct (Nat.eqb_spec c t); [congruence|].
      rewrite Nat.eqb_refl. now rewrite mmul_I_l, mmul_I_r.
    + intros Hi. exfalso. apply Hi. apply ids_In. auto.
Qed.

Lemma gate_mcx_n : forall s cs t, wf s -> NoDup (t :: cs) -> Forall (alloc s) (t :: cs) ->
  exists s', gate_mcx s cs t = Ok s' /\ nst (9 * length (t :: cs) + 1) s s' (cgate cs mX t) /\ less_pend s s'.
Proof.
  intros s cs t W D Al. destruct cs as [|c0 rest].
  { inversion Al; subst. destruct (gate_x_n s t W H1) as [s' [E [G L]]].
    exists s'. split; auto. split; auto. apply (nst_mono 1); [simpl; lia|].
    eapply nst_ext; [exact G|]. intros; symmetry; apply cgate_nil. }
  unfold gate_mcx. inversion D; subst. inversion Al; subst.
  set (cs := c0 :: rest) in *.
  (* flush of the target *)
  assert (S1 : exists s1, (if im_contains (ry_queue s) t then flush_queue s [t] LHRxRy else Ok s) = Ok s1 /\
     nst 9 s s1 (fun x => x) /\ less_pend s s1 /\ im_get (ry_queue s1) t = None).
  { destruct (im_contains (ry_queue s) t) eqn:Ey.
    - destruct (flush_queue_n LHRxRy [t] s W) as [s1 [E1 [G1 [L1 [_ [D1 _]]]]]]; auto.
      exists s1. split; auto. split; auto. split; auto. apply (D1 t); simpl; auto.
    - exists s. split; auto. split; [apply nst_none; auto|]. split; [apply less_refl|].
      apply im_contains_false; auto. }
  destruct S1 as [s1 [E1 [G1 [L1 Y1]]]]. rewrite E1. cbn [bind].
  assert (W1 : wf s1) by apply G1.
  assert (A1 : Forall (alloc s1) (t :: cs)) by (eapply nst_Forall; eauto).
  assert (Ac1 : Forall (alloc s1) cs) by (inversion A1; auto).
  (* flush of the controls *)
  assert (S2 : exists s2, (match rest with
         | _ :: _ => maybe_flush_queue s1 cs LHRxRy
         | [] =>
             if im_contains (ry_queue s1) c0 || im_contains (rx_queue s1) c0
                || (bit (h_flag s1) c0 && negb (bit (h_flag s1) t))
             then flush_queue s1 cs LHRxRy else Ok s1
         end) = Ok s2 /\ nst (9 * length cs) s1 s2 (fun x => x) /\ less_pend s1 s2 /\
         ((forall c, In c cs -> no_pend s2 c) \/
          (rest = [] /\ bit (h_flag s2) c0 = true /\ im_get (rx_queue s2) c0 = None /\
           im_get (ry_queue s2) c0 = None /\ bit (h_flag s2) t = true))).
  { destruct rest as [|c1 rest].
    - destruct (im_contains (ry_queue s1) c0 || im_contains (rx_queue s1) c0
                || (bit (h_flag s1) c0 && negb (bit (h_flag s1) t))) eqn:Ec.
      + destruct (flush_queue_n LHRxRy cs s1 W1 Ac1) as [s2 [E2 [G2 [L2 [_ [D2 _]]]]]].
        exists s2. refine (conj E2 (conj G2 (conj L2 _))). left. intros c Hc.
        destruct (D2 c Hc) as [? [? ?]]. repeat split; auto.
      + exists s1. split; auto. split; [apply nst_none; auto|]. split; [apply less_refl|].
        apply orb_false_iff in Ec. destruct Ec as [Ec Eh].
        apply orb_false_iff in Ec. destruct Ec as [Ey Ex].
        rewrite im_contains_false in Ey, Ex.
        destruct (bit (h_flag s1) c0) eqn:Hh.
        * right. repeat split; auto. destruct (bit (h_flag s1) t); auto.
        * left. intros c [<-|[]]. repeat split; auto.
    - destruct (maybe_flush_n cs s1 W1 Ac1) as [s2 [E2 [G2 [L2 [_ D2]]]]].
      exists s2. split; auto. }
  destruct S2 as [s2 [E2 [G2 [L2 P2]]]]. fold cs. rewrite E2. cbn [bind].
  assert (G12 : nst (9 * length (t :: cs)) s s2 (fun x => x)).
  { eapply nst_seq; [exact G1|exact G2|]. cbn [length]. lia. }
  assert (L12 : less_pend s s2) by (eapply less_trans; eauto).
  assert (W2 : wf s2) by apply G2.
  assert (A2 : Forall (alloc s2) (t :: cs)) by (eapply nst_Forall; eauto).
  assert (Y2 : im_get (ry_queue s2) t = None) by (apply L2; auto).
  assert (At2 : alloc s2 t) by (inversion A2; auto).
  assert (Fin : forall op W', opmat op = W' -> opang angB (cs, t, op) -> (forall c, In c cs -> no_pend s2 c) ->
     mmul mX (pm s2 t) = mmul (pm s2 t) W' ->
     exists s', enqueue_op s2 t cs op = Ok s' /\ nst (9 * length (t :: cs) + 1) s s' (cgate cs mX t) /\ less_pend s s').
  { intros op W' Ho Ha Hn Hm. destruct (enqueue_op_n s2 t cs op W2 D A2 (fun _ => Ha)) as [s' [E C]].
    exists s'. split; auto. rewrite Ho in C. split.
    - eapply nst_seq; [exact G12|eapply ncs_ctrl; eauto using uX|lia].
    - eapply less_trans; [exact L12|]. eapply ncs_less; eauto. }
  assert (Mx : mmul mX (pm s2 t) = mmul (pm s2 t) (if bit (h_flag s2) t then mZ else mX)).
  { unfold pm. rewrite Y2, effy_none. simpl. rewrite mmul_I_l, X_rxo, X_h. rewrite !mmul_assoc. reflexivity. }
  destruct (bit (h_flag s2) t) eqn:Ht.
  - destruct P2 as [P2|[Hr [Hc [Hx [Hy _]]]]].
    + assert (Hc0 : bit (h_flag s2) c0 = false) by (apply P2; simpl; auto).
      assert (R := Fin OZ mZ eq_refl Logic.I P2 Mx).
      destruct rest; [rewrite Hc0|]; exact R.
    + subst rest. rewrite Hc.
      assert (Hne : t <> c0) by (intro; subst; apply H1; simpl; auto).
      assert (Ac0 : alloc s2 c0) by (rewrite Forall_forall in A2; apply A2; simpl; auto).
      destruct (enqueue_op_n s2 c0 [t] OX W2) as [s' [E C]].
      { constructor; [simpl; intuition|apply nodup1]. }
      { constructor; auto. }
      { exact (fun _ => Logic.I). }
      exists s'. split; auto. split.
      * eapply nst_seq; [exact G12|eapply cx_reversed_n; eauto|lia].
      * eapply less_trans; [exact L12|]. eapply ncs_less; eauto.
  - destruct P2 as [P2|[Hr [Hc [Hx [Hy Ht']]]]]; [|congruence].
    apply (Fin OX mX eq_refl Logic.I P2 Mx).
Qed.

Lemma gate_mcy_n : forall s cs t, wf s -> NoDup (t :: cs) -> Forall (alloc s) (t :: cs) ->
  exists s', gate_mcy s cs t = Ok s' /\
    (cs <> [] \/ bit (h_flag s) t = false -> nst (9 * length (t :: cs) + 2) s s' (cgate cs mY t)) /\
    (cs = [] -> nst 1 s s' (fun psi => scale (ysign (bit (h_flag s) t)) (gate1 mY t psi))) /\
    less_pend s s'.
Proof.
  intros s cs t W D Al. destruct cs as [|c0 rest].
  { inversion Al; subst. destruct (gate_y_n s t W H1) as [s' [E [G L]]].
    exists s'. split; auto. split; [|split; auto].
    intros [Hf|Hf]; [congruence|]. rewrite Hf in G. simpl in G. apply (nst_mono 1); [simpl; lia|].
    eapply nst_ext; [exact G|]. intros. rewrite cgate_nil. apply scale_1. }
  unfold gate_mcy. inversion D; subst. inversion Al; subst.
  set (cs := c0 :: rest) in *.
  assert (Ac : Forall (alloc s) cs) by auto.
  destruct (maybe_flush_n cs s W Ac) as [s1 [E1 [G1 [L1 [_ D1]]]]].
  rewrite E1. cbn [bind].
  assert (W1 : wf s1) by apply G1.
  assert (A1 : Forall (alloc s1) (t :: cs)) by (eapply nst_Forall; eauto).
  assert (S2 : exists s2, (if im_contains (rx_queue s1) t then flush_queue s1 [t] LHRx else Ok s1) = Ok s2 /\
     nst 9 s1 s2 (fun x => x) /\ less_pend s1 s2 /\ im_get (rx_queue s2) t = None).
  { destruct (im_contains (rx_queue s1) t) eqn:Ex.
    - destruct (flush_queue_n LHRx [t] s1 W1) as [s2 [E2 [G2 [L2 [_ [D2 _]]]]]].
      + inversion A1; auto.
      + exists s2. split; auto. split; auto. split; auto. apply (D2 t); simpl; auto.
    - exists s1. split; auto. split; [apply nst_none; auto|]. split; [apply less_refl|].
      apply im_contains_false; auto. }
  destruct S2 as [s2 [E2 [G2 [L2 X2]]]]. rewrite E2. cbn [bind].
  assert (G12 : nst (9 * length (t :: cs)) s s2 (fun x => x)).
  { eapply nst_seq; [exact G1|exact G2|]. cbn [length]. lia. }
  assert (L12 : less_pend s s2) by (eapply less_trans; eauto).
  assert (W2 : wf s2) by apply G2.
  assert (A2 : Forall (alloc s2) (t :: cs)) by (eapply nst_Forall; eauto).
  assert (At2 : alloc s2 t) by (inversion A2; auto).
  assert (P2 : forall c, In c cs -> no_pend s2 c).
  { intros. apply (less_no_pend s1); auto. }
  assert (S3 : exists s3, (if bit (h_flag s2) t then enqueue_op s2 c0 rest OZ else Ok s2) = Ok s3 /\
     ncs 1 s2 s3 (cgate cs (mscale (ysign (bit (h_flag s2) t)) mI) t)).
  { destruct (bit (h_flag s2) t).
    - destruct (enqueue_op_n s2 c0 rest OZ W2) as [s3 [E3 C3]]; auto; try exact (fun _ => Logic.I).
      { inversion A2; auto. }
      exists s3. split; auto. eapply ncs_ext; [exact C3|]. intros psi.
      apply functional_extensionality. intros b. simpl opmat. rewrite mZ_phase, cgate_phase.
      fold cs. unfold cgate. rewrite gate1_mscale, gate1_I. reflexivity.
    - exists s2. split; auto. apply (ncs_mono 0); [lia|]. eapply ncs_ext; [apply ncs_refl; auto|].
      intros psi. simpl. rewrite mscale_1. symmetry. apply cgate_I. }
  destruct S3 as [s3 [E3 C3]]. rewrite E3. cbn [bind].
  assert (W3 : wf s3) by apply C3.
  assert (A3 : Forall (alloc s3) (t :: cs)).
  { eapply Forall_impl; [|exact A2]. intros. apply (frame_alloc s2); auto. apply C3. }
  destruct (enqueue_op_n s3 t cs OY W3 D A3 (fun _ => Logic.I)) as [s4 [E4 C4]].
  exists s4. split; auto.
  assert (C34 : ncs 2 s2 s4 (cgate cs (mscale (ysign (bit (h_flag s2) t)) mY) t)).
  { eapply ncs_ext; [exact (ncs_trans _ _ _ _ _ _ _ C3 C4)|].
    intros psi. simpl opmat. cbv beta. rewrite cgate_comp by auto.
    rewrite mmul_mscale_r, mmul_I_r. reflexivity. }
  assert (G : nst (9 * length (t :: cs) + 2) s s4 (cgate cs mY t)).
  { eapply nst_seq; [exact G12|eapply ncs_ctrl; eauto using uY|lia].
    unfold pm. rewrite X2. simpl. rewrite mmul_I_l, Y_ryo, Y_h, !mmul_mscale_r.
    rewrite !mmul_assoc. reflexivity. }
  split; auto. split; [discriminate|].
  eapply less_trans; [exact L12|]. eapply less_trans; [eapply ncs_less; exact C3|eapply ncs_less; exact C4].
Qed.

(** ** Controlled rotations *)
(** The factor acts through the queued rotations of the target. *)
Lemma rfac_n : forall k s s' cs f, ncs k s s' (cfactor cs f) -> Cn2 f <= 1 ->
  (forall c, In c cs -> no_pend s c) -> forall t, alloc s t -> ~ In t cs ->
  nst k s s' (cgate cs (mscale f mI) t).
Proof.
  intros k s s' cs f C Hf Hc t Al Hn. apply (ncs_abs k s s' (cfactor cs f)); auto.
  - intros psi. rewrite (cfactor_cgate cs f t). symmetry. apply pendl_cgate; auto; try apply ids_nodup.
    + intros. apply no_pend_pm; auto.
    + intros. apply mscale_I_comm.
  - intros Bd. replace (cgate cs (mscale f mI) t) with (cfactor cs f).
    + apply ct_cfactor; auto.
    + apply functional_extensionality. intros. apply cfactor_cgate.
Qed.

Definition rotcost (n : nat) : nat := (9 * n + 5)%nat.
Lemma mcrotation_n : forall s cs theta t sf, wf s -> NoDup (t :: cs) -> Forall (alloc s) (t :: cs) -> angB theta ->
  (forall c, In c cs -> no_pend s c) -> bit (h_flag s) t = false ->
  (if sf : bool then im_get (rx_queue s) t = None else im_get (ry_queue s) t = None) ->
  exists s', mcrotation s cs theta t sf = Ok s' /\ nst (rotcost (length (t :: cs))) s s' (cgate cs (rmat sf (tval theta)) t).
Proof.
  intros s cs theta t sf W D Al An Hc Hh Hq. unfold mcrotation.
  assert (At : alloc s t) by (inversion Al; auto). inversion D; subst.
  destruct (cz theta) eqn:Hcz.
  - assert (S1 : exists s1, (if sf then gate_mcy s cs t else gate_mcx s cs t) = Ok s1 /\
       nst (9 * length (t :: cs) + 2) s s1 (cgate cs (if sf then mY else mX) t) /\ less_pend s s1).
    { destruct sf.
      - destruct (gate_mcy_n s cs t W D Al) as [s1 [E [G [_ L]]]]. exists s1. auto.
      - destruct (gate_mcx_n s cs t W D Al) as [s1 [E [G L]]]. exists s1. split; auto. split; auto.
        eapply nst_mono; [|exact G]. lia. }
    destruct S1 as [s1 [E1 [G1 L1]]].
    destruct (mcrotation_sharp_n gate_mcx gate_mcy s cs theta t sf s1 D Al Hcz (fun _ => An) E1)
      as [s' [E C]]; try apply G1.
    exists s'. split; auto.
    assert (G2 : nst 1 s1 s' (cgate cs (mscale (ifac (tval theta)) mI) t)).
    { apply rfac_n; auto.
      - assert (K := Cn2_le _ _ (cmod_ifac (tval theta))). lra.
      - intros. eapply less_no_pend; eauto.
      - eapply nst_alloc; eauto. }
    destruct (nst_trans _ _ _ _ _ _ _ G1 G2) as [I3 R3 W3 X3 N3]. constructor; auto.
    intros Bd Sd Q. destruct (N3 Bd Sd) as [C3 D3]; [eapply budget_mono; [|exact Q]; unfold rotcost; lia|].
    split; [apply ct_cgate; auto; apply urmat|].
    replace (rotcost (length (t :: cs))) with (2 + (9 * length (t :: cs) + 2 + 1))%nat by (unfold rotcost; lia).
    eapply mva_near; [exact D3|].
    rewrite cgate_comp by auto. rewrite mmul_mscale_l, mmul_I_l.
    assert (K := cz_cos theta (angB_ok _ An) Hcz).
    assert (P : 0 <= cos (tval theta / 2) * cos (tval theta / 2)) by apply Rle_0_sqr.
    assert (P' : 0 <= step_err * step_err) by apply Rle_0_sqr.
    eapply near_instead; [| |apply rot_pauli| | |]; auto; [lra|].
    rewrite qnorm_abs by auto. eapply budget_norm; eauto.
  - destruct (mcrotation_smooth_n gate_mcx gate_mcy s cs theta t sf W D Al (fun _ => An) Hcz)
      as [s' [E C]].
    exists s'. split; auto. apply (nst_mono 3); [unfold rotcost; lia|]. eapply ncs_ctrl; eauto; [apply urmat|].
    unfold pm. rewrite Hh. simpl. rewrite mmul_I_r. unfold rmat. destruct sf; rewrite Hq, ?effy_none; simpl;
      rewrite ?mmul_I_l, ?mmul_I_r.
    + destruct (im_get (ry_queue s) t); simpl; [rewrite !RyRy; f_equal; ring|now rewrite mmul_I_l, mmul_I_r].
    + destruct (im_get (rx_queue s) t); simpl; [rewrite !RxRx; f_equal; ring|now rewrite mmul_I_l, mmul_I_r].
Qed.

Lemma flush_ctls_n : forall s cs t, wf s -> Forall (alloc s) (t :: cs) ->
  exists s1, flush_queue s cs LHRxRy = Ok s1 /\ nst (9 * length cs) s s1 (fun x => x) /\ wf s1 /\
    Forall (alloc s1) (t :: cs) /\ less_pend s s1 /\ (forall c, In c cs -> no_pend s1 c).
Proof.
  intros s cs t W Al. inversion Al; subst.
  destruct (flush_queue_n LHRxRy cs s W H2) as [s1 [E1 [G1 [L1 [_ [D1 _]]]]]].
  exists s1. split; auto. split; auto. split; [apply G1|].
  split; [eapply nst_Forall; eauto|]. split; auto.
Qed.

(** Number of error units of a gate on [n] qubits. *)
Definition gcost (n : nat) : nat := (23 * n)%nat.
Lemma gate_mcrx_n : forall s cs theta t, wf s -> NoDup (t :: cs) -> Forall (alloc s) (t :: cs) -> angB theta ->
  exists s', gate_mcrx s cs theta t = Ok s' /\ nst (gcost (length (t :: cs))) s s' (cgate cs (mRx (tval theta)) t).
Proof.
  intros s cs theta t W D Al An. unfold gate_mcrx.
  destruct (flush_ctls_n s cs t W Al) as [s1 [E1 [G1 [W1 [A1 [L1 N1]]]]]]. rewrite E1. cbn [bind].
  assert (At1 : Forall (alloc s1) [t]) by (inversion A1; auto).
  assert (S2 : exists s2, (if im_contains (ry_queue s1) t then flush_queue s1 [t] LHRxRy
              else if bit (h_flag s1) t then flush_queue s1 [t] LH else Ok s1) = Ok s2 /\
     nst 9 s1 s2 (fun x => x) /\ less_pend s1 s2 /\ bit (h_flag s2) t = false /\
     im_get (ry_queue s2) t = None).
  { destruct (im_contains (ry_queue s1) t) eqn:Ey.
    - destruct (flush_queue_n LHRxRy [t] s1 W1 At1) as [s2 [E2 [G2 [L2 [_ [D2 _]]]]]].
      exists s2. split; auto. split; auto. split; auto.
      destruct (D2 t) as [? [? ?]]; simpl; auto.
    - apply im_contains_false in Ey. destruct (bit (h_flag s1) t) eqn:Eh.
      + destruct (flush_queue_n LH [t] s1 W1 At1) as [s2 [E2 [G2 [L2 [_ [D2 _]]]]]].
        exists s2. split; auto. split; auto. split; auto. split; [apply (D2 t); simpl; auto|].
        apply L2; auto.
      + exists s1. split; auto. split; [apply nst_none; auto|]. split; [apply less_refl|]. auto. }
  destruct S2 as [s2 [E2 [G2 [L2 [H2 Y2]]]]]. rewrite E2. cbn [bind].
  destruct (mcrotation_n s2 cs theta t false) as [s3 [E3 G3]]; auto.
  - apply G2.
  - eapply nst_Forall; eauto.
  - intros. eapply less_no_pend; eauto.
  - exists s3. split; auto. eapply nst_seq; [exact G1|eapply nst_seq; [exact G2|exact G3|apply le_n]|].
    unfold gcost, rotcost. cbn [length]. lia.
Qed.

Lemma gate_mcry_n : forall s cs theta t, wf s -> NoDup (t :: cs) -> Forall (alloc s) (t :: cs) -> angB theta ->
  exists s', gate_mcry s cs theta t = Ok s' /\ nst (gcost (length (t :: cs))) s s' (cgate cs (mRy (tval theta)) t).
Proof.
  intros s cs theta t W D Al An. unfold gate_mcry.
  destruct (flush_ctls_n s cs t W Al) as [s1 [E1 [G1 [W1 [A1 [L1 N1]]]]]]. rewrite E1. cbn [bind].
  assert (At1 : Forall (alloc s1) [t]) by (inversion A1; auto).
  assert (S2 : exists s2, (if im_contains (rx_queue s1) t then flush_queue s1 [t] LHRx
              else if bit (h_flag s1) t then flush_queue s1 [t] LH else Ok s1) = Ok s2 /\
     nst 9 s1 s2 (fun x => x) /\ less_pend s1 s2 /\ bit (h_flag s2) t = false /\
     im_get (rx_queue s2) t = None).
  { destruct (im_contains (rx_queue s1) t) eqn:Ey.
    - destruct (flush_queue_n LHRx [t] s1 W1 At1) as [s2 [E2 [G2 [L2 [_ [D2 _]]]]]].
      exists s2. split; auto. split; auto. split; auto.
      destruct (D2 t) as [? ?]; simpl; auto.
    - apply im_contains_false in Ey. destruct (bit (h_flag s1) t) eqn:Eh.
      + destruct (flush_queue_n LH [t] s1 W1 At1) as [s2 [E2 [G2 [L2 [_ [D2 _]]]]]].
        exists s2. split; auto. split; auto. split; auto. split; [apply (D2 t); simpl; auto|].
        apply L2; auto.
      + exists s1. split; auto. split; [apply nst_none; auto|]. split; [apply less_refl|]. auto. }
  destruct S2 as [s2 [E2 [G2 [L2 [H2 Y2]]]]]. rewrite E2. cbn [bind].
  destruct (mcrotation_n s2 cs theta t true) as [s3 [E3 G3]]; auto.
  - apply G2.
  - eapply nst_Forall; eauto.
  - intros. eapply less_no_pend; eauto.
  - exists s3. split; auto. eapply nst_seq; [exact G1|eapply nst_seq; [exact G2|exact G3|apply le_n]|].
    unfold gcost, rotcost. cbn [length]. lia.
Qed.

(** ** Controlled H *)
Lemma gate_mch_n : forall s cs t, wf s -> NoDup (t :: cs) -> Forall (alloc s) (t :: cs) ->
  exists s', gate_mch s cs t = Ok s' /\ nst (gcost (length (t :: cs))) s s' (cgate cs mH t).
Proof.
  intros s cs t W D Al. unfold gate_mch.
  destruct (flush_ctls_n s cs t W Al) as [s1 [E1 [G1 [W1 [A1 [L1 N1]]]]]]. rewrite E1. cbn [bind].
  assert (At1 : Forall (alloc s1) [t]) by (inversion A1; auto).
  assert (S2 : exists s2, (if im_contains (ry_queue s1) t || im_contains (rx_queue s1) t
              then flush_queue s1 [t] LHRxRy else Ok s1) = Ok s2 /\
     nst 9 s1 s2 (fun x => x) /\ less_pend s1 s2 /\ im_get (rx_queue s2) t = None /\
     im_get (ry_queue s2) t = None).
  { destruct (im_contains (ry_queue s1) t || im_contains (rx_queue s1) t) eqn:Ey.
    - destruct (flush_queue_n LHRxRy [t] s1 W1 At1) as [s2 [E2 [G2 [L2 [_ [D2 _]]]]]].
      exists s2. split; auto. split; auto. split; auto.
      destruct (D2 t) as [? [? ?]]; simpl; auto.
    - apply orb_false_iff in Ey. rewrite !im_contains_false in Ey.
      exists s1. split; auto. split; [apply nst_none; auto|]. split; [apply less_refl|]. tauto. }
  destruct S2 as [s2 [E2 [G2 [L2 [X2 Y2]]]]]. rewrite E2. cbn [bind].
  assert (A2 : Forall (alloc s2) (t :: cs)) by (eapply nst_Forall; eauto).
  destruct (apply_mch_n s2 cs t (ns_wf _ _ _ _ G2) D A2) as [s3 [E3 C3]].
  exists s3. split; auto.
  assert (G3 : nst 1 s2 s3 (cgate cs mH t)).
  { inversion D; subst. inversion A2; subst. eapply ncs_ctrl; eauto using uH.
    - intros. eapply less_no_pend; eauto.
    - unfold pm. rewrite X2, Y2. simpl. rewrite !mmul_I_l.
      destruct (bit (h_flag s2) t); simpl; [reflexivity|now rewrite mmul_I_l, mmul_I_r]. }
  eapply nst_seq; [exact G1|eapply nst_seq; [exact G2|exact G3|apply le_n]|].
  unfold gcost. cbn [length]. lia.
Qed.

(** ** Phase-like gates *)
Lemma gate_diag_n : forall op s t, wf s -> alloc s t -> opang angB ([], t, op) ->
  exists s', gate_diag op s t = Ok s' /\ nst 10 s s' (gate1 (opmat op) t).
Proof.
  intros op s t W Al An. unfold gate_diag.
  destruct (maybe_flush_n [t] s W) as [s1 [E1 [G1 [L1 [_ D1]]]]]; auto.
  rewrite E1. cbn [bind].
  assert (A1 : alloc s1 t) by (eapply nst_alloc; eauto).
  destruct (enqueue_op_n s1 t [] op (ns_wf _ _ _ _ G1) (nodup1 t)) as [s2 [E2 C2]]; auto.
  exists s2. split; auto. eapply nst_seq; [exact G1| |simpl; apply le_n].
  eapply nst_ext with (F := cgate [] (opmat op) t); [|intros; apply cgate_nil].
  eapply ncs_ctrl; eauto using uop; simpl; try tauto.
  rewrite (no_pend_pm s1 t) by (apply D1; simpl; auto). now rewrite mmul_I_l, mmul_I_r.
Qed.

Lemma gate_mcdiag_n : forall op s cs t, wf s -> NoDup (t :: cs) -> Forall (alloc s) (t :: cs) -> opang angB (cs, t, op) ->
  exists s', gate_mcdiag op s cs t = Ok s' /\ nst (gcost (length (t :: cs))) s s' (cgate cs (opmat op) t).
Proof.
  intros op s cs t W D Al An. unfold gate_mcdiag. inversion Al; subst.
  destruct (maybe_flush_n cs s W) as [s1 [E1 [G1 [L1 [_ D1]]]]]; auto.
  rewrite E1. cbn [bind].
  assert (A1 : Forall (alloc s1) (t :: cs)) by (eapply nst_Forall; eauto).
  destruct (maybe_flush_n [t] s1 (ns_wf _ _ _ _ G1)) as [s2 [E2 [G2 [L2 [_ D2]]]]].
  { inversion A1; auto. }
  rewrite E2. cbn [bind].
  assert (A2 : Forall (alloc s2) (t :: cs)) by (eapply nst_Forall; eauto).
  destruct (enqueue_op_n s2 t cs op (ns_wf _ _ _ _ G2) D A2 (fun _ => An)) as [s3 [E3 C3]].
  exists s3. split; auto.
  assert (G3 : nst 1 s2 s3 (cgate cs (opmat op) t)).
  { inversion D; subst. inversion A2; subst. eapply ncs_ctrl; eauto using uop.
    - intros. eapply less_no_pend; eauto.
    - rewrite (no_pend_pm s2 t) by (apply D2; simpl; auto). now rewrite mmul_I_l, mmul_I_r. }
  eapply nst_seq; [exact G1|eapply nst_seq; [exact G2|exact G3|apply le_n]|].
  unfold gcost. cbn [length]. lia.
Qed.

(** Amplitudes scaled with an empty queue. *)
Lemma ncs_scale : forall s p z F, wf s -> op_queue s = [] -> factors p z ->
  (forall b, baseof (id_map s) (fun k => z k * lamp (state s) k)%C b = F (base s) b) -> (bounds s -> contraction w F) ->
  ncs 1 s (with_state s (scale_entries p (state s))) F.
Proof.
  intros s p z F W Qe Fc H Ct. constructor.
  - constructor; reflexivity.
  - destruct W; constructor; simpl; auto. unfold stok. rewrite keys_scale_entries. auto.
  - intros Bd Sd Q. split; auto.
    assert (Am : amps (state s)).
    { apply (amps_of_norm w (id_map s)); auto; try apply W; try apply Sd.
      apply budget_norm in Q. unfold core, base in Q. rewrite Qe in Q. exact Q. }
    assert (Nd : NoDup (keys (scale_entries p (state s)))) by (rewrite keys_scale_entries; apply W).
    destruct (good_all _ _ Nd (scale_good laws p z (state s) Fc Am)) as [F2 P2].
    split; [destruct Sd; constructor; simpl; auto|]. exists 1%nat. split; [unfold ql; simpl; lia|].
    unfold core. simpl. rewrite Qe. simpl. unfold base at 1. simpl. apply near_pw; auto. intros b _. rewrite <- H.
    apply baseof_pw; auto.
Qed.

Lemma flush_two_n : forall s cs ts, wf s -> Forall (alloc s) cs -> Forall (alloc s) ts ->
  exists s1 s2, flush_queue s cs LHRxRy = Ok s1 /\ flush_queue s1 ts LHRxRy = Ok s2 /\
    nst (9 * (length cs + length ts)) s s2 (fun x => x) /\ op_queue s2 = [] /\
    (forall q, In q cs \/ In q ts -> no_pend s2 q) /\ less_pend s s2.
Proof.
  intros s cs ts W Ac At.
  destruct (flush_queue_n LHRxRy cs s W Ac) as [s1 [E1 [G1 [L1 [_ [D1 _]]]]]].
  assert (At1 : Forall (alloc s1) ts) by (eapply nst_Forall; eauto).
  destruct (flush_queue_n LHRxRy ts s1 (ns_wf _ _ _ _ G1) At1)
    as [s2 [E2 [G2 [L2 [_ [D2 Q2]]]]]].
  exists s1, s2. split; auto. split; auto. split; [eapply nst_seq; [exact G1|exact G2|lia]|]. split; auto. split.
  - intros q [Hq|Hq].
    + eapply less_no_pend; [exact L2|]. destruct (D1 q Hq) as [? [? ?]]. repeat split; auto.
    + destruct (D2 q Hq) as [? [? ?]]. repeat split; auto.
  - eapply less_trans; eauto.
Qed.

Lemma gate_mcphase_n : forall s cs p z t, wf s -> NoDup (t :: cs) -> Forall (alloc s) (t :: cs) -> cl 10 p z -> Cn2 z = 1 ->
  exists s', gate_mcphase s cs p t = Ok s' /\ nst (gcost (length (t :: cs))) s s' (cgate cs (mPhase z) t).
Proof.
  intros s cs p z t W D Al Hp Hz. unfold gate_mcphase. inversion Al; subst.
  destruct (flush_two_n s cs [t] W) as [s1 [s2 [E1 [E2 [G2 [Q2 [N2 L2]]]]]]]; auto.
  rewrite E1. cbn [bind]. rewrite E2. cbn [bind].
  assert (A2 : Forall (alloc s2) (t :: cs)) by (eapply nst_Forall; eauto).
  assert (W2 : wf s2) by apply G2.
  destruct (resolve_ok s2 t cs D A2) as [t' [cs' [E [R1 R2]]]]. rewrite E. cbn [bind].
  eexists; split; [reflexivity|].
  eapply (nst_seq _ _ 1); [exact G2| |unfold gcost; cbn [length]; lia].
  inversion D; subst. inversion A2; subst.
  apply (ncs_ctrl 1 s2 _ _ (mPhase z)); auto.
  - assert (Eq : map (fun iv => if all_set cs' (fst iv) then phase_transform p t' iv else iv) (state s2)
           = scale_entries (fun k => if forallb (bit k) cs' then Some (if bit k t' then p else amp1) else None) (state s2)).
    { apply map_ext. intros [k v]. unfold phase_transform, all_set. simpl.
      destruct (bit k t'); destruct (forallb (bit k) cs'); simpl; reflexivity. }
    rewrite Eq. apply (ncs_scale s2 _ (fun k => if forallb (bit k) (t' :: cs') then z else C1)); auto.
    + intros k. simpl. destruct (forallb (bit k) cs'); [|now rewrite andb_false_r]. rewrite andb_true_r.
      destruct (bit k t'); split; auto; [apply cmod_unit; lra| |rewrite cmod_1; lra].
      apply (cl_mono laws) with (n := 0); [lra|]. apply cl_1; auto.
    + intros b. rewrite cgate_phase. unfold base, baseof.
      rewrite (forallb_to_loc (id_map s2) (i_inj s2 W2) (t :: cs)) by (constructor; auto).
      destruct (inb (id_map s2) b); destruct (forallb (bit b) (t :: cs)); ring.
    + intros Bd. apply ct_cgate; auto. apply uPhase; auto.
  - apply uPhase; auto.
  - rewrite (no_pend_pm s2 t) by (apply N2; simpl; auto). now rewrite mmul_I_l, mmul_I_r.
Qed.

(** ** Controlled Z *)
Lemma gate_mcz_n : forall s cs t, wf s -> NoDup (t :: cs) -> Forall (alloc s) (t :: cs) ->
  exists s', gate_mcz s cs t = Ok s' /\ nst (gcost (length (t :: cs))) s s' (cgate cs mZ t).
Proof.
  intros s cs t W D Al. destruct cs as [|c0 rest].
  { inversion Al; subst. destruct (gate_z_n s t W H1) as [s' [E G]].
    exists s'. split; auto. apply (nst_mono 1); [unfold gcost; cbn [length]; lia|]. eapply nst_ext; [exact G|]. intros. symmetry. apply cgate_nil. }
  unfold gate_mcz. set (cs := c0 :: rest) in *. rewrite fold_weight. rewrite Nat.add_0_l.
  inversion D; subst.
  destruct (Nat.eqb_spec (list_sum (map (pend_weight s) cs) + pend_weight s t) 1).
  - destruct (find (fun c => bit (h_flag s) c) cs) as [h|] eqn:F.
    + apply find_some in F. destruct F as [Fi Fb].
      assert (Wh := weight_h s h Fb). assert (Ws := sum_le_In (pend_weight s) cs h Fi).
      destruct (sum_one_other (pend_weight s) cs h) as [O1 O2]; auto; [lia|].
      assert (Pm := replace_perm cs h t H2 Fi).
      set (cs' := map (fun c => if Nat.eqb c h then t else c) cs) in *.
      assert (D' : NoDup (h :: cs')) by (eapply Permutation_NoDup; eauto).
      assert (Al' : Forall (alloc s) (h :: cs')).
      { rewrite Forall_forall in *. intros x Hx. apply Al.
        eapply Permutation_in; [apply Permutation_sym|]; eauto. }
      destruct (enqueue_op_n s h cs' OX W D' Al' (fun _ => Logic.I)) as [s' [E C]].
      exists s'. split; auto. apply (nst_mono 1); [unfold gcost; cbn [length]; lia|].
      eapply nst_ext with (F := cgate cs' mZ h).
      * inversion D'; subst. inversion Al'; subst. eapply ncs_ctrl; eauto using uZ.
        { intros c Hc. apply weight0.
          assert (In c (t :: cs)) by (eapply Permutation_in; [apply Permutation_sym; exact Pm|simpl; auto]).
          destruct H as [<-|Hi]; [lia|]. apply O2; auto. intro; subst; tauto. }
        { destruct (weight1 s h O1) as [_ Ph]. rewrite Ph. apply ZH. }
      * intros psi. rewrite mZ_phase. symmetry. apply cgate_phase_sym; auto.
    + assert (Hall : forall c, In c cs -> pend_weight s c = 0%nat).
      { intros c Hc. assert (Hh := find_none _ _ F c Hc). simpl in Hh.
        assert (Ws := sum_le_In (pend_weight s) cs c Hc).
        assert (Wc : (pend_weight s c <= 1)%nat) by lia. clear - Hh Wc.
        unfold pend_weight in *. rewrite Hh in *.
        destruct (im_contains (rx_queue s) c || im_contains (ry_queue s) c); lia. }
      assert (Ht : pend_weight s t = 1%nat).
      { assert (list_sum (map (pend_weight s) cs) = 0%nat); [|lia].
        clear -Hall. induction cs as [|a l IHl]; simpl; auto. rewrite (Hall a) by (simpl; auto).
        rewrite IHl; auto. intros; apply Hall; simpl; auto. }
      destruct (enqueue_op_n s t cs OX W D Al (fun _ => Logic.I)) as [s' [E C]].
      exists s'. split; auto. apply (nst_mono 1); [unfold gcost; cbn [length]; lia|]. inversion Al; subst. eapply ncs_ctrl; eauto using uZ.
      * intros. apply weight0; auto.
      * destruct (weight1 s t Ht) as [_ Ph]. rewrite Ph. apply ZH.
  - inversion Al; subst.
    destruct (flush_two_n s cs [t] W) as [s1 [s2 [E1 [E2 [G2 [Q2 [N2 L2]]]]]]]; auto.
    rewrite E1. cbn [bind]. rewrite E2. cbn [bind].
    assert (A2 : Forall (alloc s2) (t :: cs)) by (eapply nst_Forall; eauto).
    destruct (enqueue_op_n s2 t cs OZ (ns_wf _ _ _ _ G2) D A2 (fun _ => Logic.I)) as [s3 [E3 C3]].
    exists s3. split; auto.
    eapply (nst_seq _ _ 1); [exact G2| |unfold gcost; cbn [length]; lia].
    inversion A2; subst. eapply ncs_ctrl; eauto using uZ.
    rewrite (no_pend_pm s2 t) by (apply N2; simpl; auto). simpl.
    now rewrite mmul_I_l, mmul_I_r.
Qed.

(** ** H *)
Lemma flush_one_rx_n : forall s t, wf s -> alloc s t ->
  exists s', flush_queue s [t] LHRx = Ok s' /\ nst 9 s s' (fun x => x) /\ same_other t s s' /\
    bit (h_flag s') t = false /\ im_get (rx_queue s') t = None /\ ry_rel s s' t.
Proof.
  intros s t W Al. unfold flush_queue. simpl.
  destruct (flush_one_n LHRx s t W Al) as [s1 [E1 [G1 [SO1 [L1 [L2 L3]]]]]].
  rewrite E1. simpl. destruct (flush_ops_n s1) as [s2 [E2 [C2 Q2]]]; [apply G1|].
  exists s2. assert (G2 := ncs_nst_id _ _ _ C2). destruct C2 as [[] _ _].
  split; auto. split; [eapply nst_seq; [exact G1|exact G2|lia]|]. split.
  - destruct SO1. constructor; rewrite ?fr_h0, ?fr_rx0, ?fr_ry0; auto.
  - unfold ry_rel in *. rewrite fr_h0, fr_rx0, fr_ry0. auto.
Qed.

Lemma gate_h_n : forall s t, wf s -> alloc s t ->
  exists s', gate_h s t = Ok s' /\ nst 9 s s' (gate1 mH t).
Proof.
  intros s t W Al. unfold gate_h. simpl.
  assert (W1 := wf_upd_ry s t tneg W).
  set (s1 := with_ry _ _) in *.
  assert (A1 : alloc s1 t) by exact Al.
  assert (S2 : exists s2, (if im_contains (rx_queue s) t then flush_queue s1 [t] LHRx else Ok s1) = Ok s2 /\
    nst 9 s1 s2 (fun x => x) /\ im_get (rx_queue s2) t = None /\
    ry_rel s1 s2 t /\ (forall q, im_get (rx_queue s) q = None -> im_get (rx_queue s2) q = None)).
  { destruct (im_contains (rx_queue s) t) eqn:Ex.
    - destruct (flush_one_rx_n s1 t W1 A1) as [s2 [E2 [G2 [SO2 [H2 [X2 Y2]]]]]].
      exists s2. split; auto. split; auto. split; auto. split; auto.
      intros q Hq. destruct (Nat.eq_dec q t); [subst; auto|].
        destruct SO2. rewrite so_rx0; auto.
    - exists s1. split; auto. split; [apply nst_none; auto|].
      apply im_contains_false in Ex. split; auto. split; auto. unfold ry_rel.
      change (rx_queue s1) with (rx_queue s). rewrite Ex. simpl. tauto. }
  destruct S2 as [s2 [E2 [G2 [X2 [Y2 P2]]]]]. rewrite E2. cbn [bind].
  eexists; split; [reflexivity|].
  set (s3 := with_h _ _).
  assert (W2 : wf s2) by apply G2.
  constructor; simpl; try apply G2.
  - unfold s3. apply wf_set_h; auto. destruct G2 as [I2 _ _ _ _]. unfold alloc. rewrite I2. exact Al.
  - intros Bd Sd Q.
    set (b := effy (im_get (rx_queue s) t) (im_get (ry_queue s) t)).
    assert (Eb : im_get (ry_queue s2) t = oneg b).
    { destruct Y2 as [_ Y2]. rewrite Y2. unfold s1. simpl.
      rewrite im_get_update, Nat.eqb_refl. apply effy_neg. }
    assert (S : abs s = gate1 (mmul (ryo (oval b)) (ryo (oval b))) t (abs s1)).
    { apply (abs_local s1 s _ mI t); auto.
      - intros q Hq. unfold pm, s1. simpl. rewrite im_get_update.
        destruct (Nat.eqb_spec t q); congruence.
      - rewrite gate1_I. reflexivity.
      - rewrite mmul_I_r. unfold pm, s1. simpl. rewrite im_get_update, Nat.eqb_refl.
        change (option_map tneg (im_get (ry_queue s) t)) with (oneg (im_get (ry_queue s) t)).
        rewrite effy_neg. fold b. rewrite oval_neg.
        rewrite <- mmul_assoc, ryo_neg_l. reflexivity. }
    assert (S3 : abs s3 = gate1 (mmul (ryo (oval (oneg b))) (mmul mH (ryo (oval b)))) t (abs s2)).
    { apply (abs_local s2 s3 _ mI t); auto.
      - destruct G2 as [I2 _ _ _ _]. unfold alloc. rewrite I2. exact Al.
      - intros q Hq. unfold pm, s3. simpl. rewrite bit_set_other by auto. reflexivity.
      - rewrite gate1_I. reflexivity.
      - rewrite mmul_I_r. unfold pm, s3. simpl. rewrite bit_set_same, X2, Eb. simpl.
        rewrite !mmul_I_l, oval_neg. rewrite <- !mmul_assoc. rewrite ryo_neg_l, H_hmat. reflexivity. }
    assert (Bt : (t < w)%nat) by (apply Bd; auto).
    assert (B1 : bounds s1) by exact Bd.
    assert (U2 : unitary (mmul (ryo (oval (oneg b))) (mmul mH (ryo (oval b))))) by (auto using unitary_mmul, uryo, uH).
    destruct (ns_near _ _ _ _ G2 B1 (sd_neg_ry s t Sd) Q) as [C2 [Sd2 [j [Lj D2]]]].
    split; [apply ct_gate1; auto using uH|]. split; [apply sd_h; exact Sd2|]. exists j. split; [exact Lj|].
    assert (E : gate1 mH t (abs s) = gate1 (mmul (ryo (oval (oneg b))) (mmul mH (ryo (oval b)))) t (abs s1)).
    { rewrite S, gate1_comp. f_equal. rewrite H_ryo, oval_neg. reflexivity. }
    rewrite E, S3. apply nct; auto. apply ct_gate1; auto.
Qed.

(** ** Uncontrolled rotations *)
Lemma near_rot : forall sf a t psi, Rabs a <= step_err -> (t < w)%nat -> qnorm w psi <= 2 ->
  nearr w 2 psi (gate1 (rmat sf a) t psi).
Proof.
  intros sf a t psi Ha Ht HN.
  replace psi with (cgate [] (mscale (RtoC 1) mI) t psi) at 1
    by (rewrite cgate_nil; change (RtoC 1) with C1; rewrite mscale_1; apply gate1_I).
  rewrite <- (cgate_nil (rmat sf a)). apply sq_le in Ha.
  assert (P := cos_lower (a / 2)). assert (P' : 0 <= step_err * step_err) by apply Rle_0_sqr.
  assert (P1 := COS_bound (a / 2)).
  eapply near_instead; [| |apply rot_scalar| | |]; auto; nra.
Qed.

(** Adding an angle to a queue of rotations about one axis. *)
Definition fits (q : imap ang) (t : nat) (theta : ang) : Prop :=
  angle_ok theta /\ forall old, im_get q t = Some old -> angle_ok old.
Lemma queue_angle_n : forall sf (q : imap ang) t theta, fits q t theta -> exists a, Rabs a <= step_err /\
  mmul (rmat sf (tval theta)) (if sf then ryo (oval (im_get q t)) else rxo (oval (im_get q t)))
    = mmul (rmat sf a) (if sf then ryo (oval (im_get (queue_angle q t theta) t)) else rxo (oval (im_get (queue_angle q t theta) t))).
Proof.
  intros sf q t theta [Ft Fo]. unfold queue_angle. destruct (im_get q t) as [old|] eqn:E.
  - destruct (ap_tadd laws old theta (Fo old eq_refl) Ft) as [F1 F2].
    assert (Dl := ap_dlt laws). assert (Tp := ap_thr laws).
    destruct (tnz (tadd old theta)) eqn:Ez.
    + exists (tval old + tval theta)%R. assert (K := ap_tnz laws _ F1 Ez). split.
      * replace (tval old + tval theta) with (tval (tadd old theta) - (tval (tadd old theta) - (tval old + tval theta))) by ring.
        eapply Rle_trans; [apply Rabs_triang|]. rewrite Rabs_Ropp. unfold step_err. lra.
      * rewrite im_get_remove, Nat.eqb_refl. destruct sf; simpl; rewrite mmul_I_r, ?RyRy, ?RxRx; f_equal; lra.
    + exists (tval old + tval theta - tval (tadd old theta))%R. split.
      * rewrite <- Rabs_Ropp. replace (- (tval old + tval theta - tval (tadd old theta))) with (tval (tadd old theta) - (tval old + tval theta)) by ring.
        unfold step_err. lra.
      * rewrite im_get_update, Nat.eqb_refl, E. destruct sf; simpl; rewrite ?RyRy, ?RxRx; f_equal; lra.
  - exists 0. split; [rewrite Rabs_R0; apply step_pos; auto|]. rewrite im_get_insert, Nat.eqb_refl.
    destruct sf; simpl; rewrite ?Rx0, ?Ry0, mmul_I_l, mmul_I_r; reflexivity.
Qed.
(** The angle that is then stored. *)
Lemma queue_angle_val : forall q t theta a, fits q t theta -> im_get (queue_angle q t theta) t = Some a ->
  tfin a /\ (tval a = tval theta \/ exists old, im_get q t = Some old /\ Rabs (tval a - (tval old + tval theta)) <= dlt).
Proof.
  intros q t theta a [Ft Fo]. unfold queue_angle. destruct (im_get q t) as [old|] eqn:E.
  - destruct (ap_tadd laws old theta (Fo old eq_refl) Ft) as [F1 F2]. destruct (tnz (tadd old theta)).
    + rewrite im_get_remove, Nat.eqb_refl. discriminate.
    + rewrite im_get_update, Nat.eqb_refl, E. simpl. intros H. injection H as <-. split; auto. right. exists old. auto.
  - rewrite im_get_insert, Nat.eqb_refl. intros H. injection H as <-. split; [apply Ft|]. auto.
Qed.
Lemma queue_angle_B : forall B' q t theta, 0 <= B -> (forall x a, im_get q x = Some a -> angB a) -> angle_ok theta ->
  B + (Rabs (tval theta) + dlt) <= B' -> forall x a, im_get (queue_angle q t theta) x = Some a -> tfin a /\ Rabs (tval a) <= B'.
Proof.
  intros B' q t theta Hb Hq Ht HB x a H. assert (Dl := ap_dlt laws). assert (P := Rabs_pos (tval theta)).
  assert (HqB : forall x a, im_get q x = Some a -> tfin a /\ Rabs (tval a) <= B') by (intros y b Hy; destruct (Hq y b Hy); split; auto; lra).
  destruct (Nat.eq_dec x t); [|rewrite queue_angle_other in H by auto; eauto]. subst x.
  assert (Ft : fits q t theta) by (split; auto; intros old Ho; apply angB_ok; eauto).
  destruct (queue_angle_val q t theta a Ft H) as [F [E|[old [Ho E]]]]; split; auto.
  - rewrite E. lra.
  - destruct (Hq t old Ho) as [_ K].
    replace (tval a) with (tval a - (tval old + tval theta) + (tval old + tval theta)) by ring.
    eapply Rle_trans; [apply Rabs_triang|]. assert (K2 := Rabs_triang (tval old) (tval theta)). lra.
Qed.

Definition ry_angle (s : sim) (theta : ang) (t : nat) : R :=
  match im_get (rx_queue s) t with Some a => if cz a then - tval theta else tval theta | None => tval theta end.
(** After a single-qubit rotation: angles up to [B'], nearly the wanted vector. *)
Definition mvb (B' : R) (k : nat) (s s' : sim) (phi : qstate) : Prop :=
  soundB B' s' /\ exists j, (j + ql s' <= k + ql s)%nat /\ nearr w j (abs s') phi.

Lemma gate_rx_n : forall B' s theta t, wf s -> alloc s t -> angle_ok theta -> 0 <= B -> B + (Rabs (tval theta) + dlt) <= B' ->
  exists s', gate_rx s theta t = Ok s' /\ id_map s' = id_map s /\ rng s' = rng s /\ wf s' /\
    (forall G G' : R -> Prop, symm G -> (forall a, G a -> G' a) -> G' (tval theta) ->
       (forall a e, G a -> Rabs e <= dlt -> G' (a + tval theta + e)) -> bounds s -> sound s -> budget 11 s -> rxin G s -> rxin G' s') /\
    (bounds s -> sound s -> budget 11 s ->
       contraction w (gate1 (mRx (tval theta)) t) /\ mvb B' 11 s s' (gate1 (mRx (tval theta)) t (abs s))).
Proof.
  intros B' s theta t W Al An B0 HB. unfold gate_rx.
  assert (S1 : exists s1, (if bit (h_flag s) t || im_contains (ry_queue s) t
      then flush_queue s [t] LHRxRy else Ok s) = Ok s1 /\ nst 9 s s1 (fun x => x) /\
      bit (h_flag s1) t = false /\ im_get (ry_queue s1) t = None).
  { destruct (bit (h_flag s) t || im_contains (ry_queue s) t) eqn:E.
    - destruct (flush_queue_n LHRxRy [t] s W) as [s1 [E1 [G1 [L1 [_ [D1 _]]]]]]; auto.
      exists s1. split; auto. split; auto. destruct (D1 t) as [? [? ?]]; simpl; auto.
    - apply orb_false_iff in E. rewrite im_contains_false in E.
      exists s. split; auto. split; [apply nst_none; auto|]. tauto. }
  destruct S1 as [s1 [E1 [G1 [H1 Y1]]]]. rewrite E1. cbn [bind].
  eexists; split; [reflexivity|]. set (s2 := with_rx _ _).
  destruct G1 as [I1 R1 W1 X1 A1].
  assert (At : alloc s1 t) by (unfold alloc; rewrite I1; exact Al).
  split; [exact I1|]. split; [exact R1|]. split; [apply wf_ins_rx; auto|].
  assert (Ft : sound s1 -> fits (rx_queue s1) t theta).
  { intros Sd. split; auto. intros old Ho. apply angB_ok. eapply sd_rx; eauto. }
  split.
  - intros G G' SG GG Gt GP Bd Sd Q N. destruct (A1 Bd Sd (budget_mono 9 11 s ltac:(lia) Q)) as [_ [Sd1 _]].
    apply (X1 G SG) in N. intros q a Ha. unfold s2 in Ha. simpl in Ha. destruct (Nat.eq_dec q t).
    + subst q. destruct (queue_angle_val _ _ _ _ (Ft Sd1) Ha) as [_ [E|[old [Ho E]]]]; [now rewrite E|].
      replace (tval a) with (tval old + tval theta + (tval a - (tval old + tval theta))) by ring.
      apply GP; auto. apply (N t old Ho).
    + rewrite queue_angle_other in Ha by auto. apply GG. apply (N q a Ha).
  - intros Bd Sd Q. destruct (A1 Bd Sd (budget_mono 9 11 s ltac:(lia) Q)) as [_ [Sd1 [j [Lj D1]]]].
    assert (Bt : (t < w)%nat) by (apply Bd; auto).
    destruct (queue_angle_n false (rx_queue s1) t theta (Ft Sd1)) as [a [Ha Hq]]. simpl rmat in Hq.
    assert (S : gate1 (mRx a) t (abs s2) = gate1 (mRx (tval theta)) t (abs s1)).
    { unfold abs. replace (ids s2) with (ids s1) by reflexivity. replace (core s2) with (core s1) by reflexivity.
      rewrite !pendl_post by (try apply ids_nodup; apply ids_In; auto).
      apply pendl_ext. intros q _. unfold upd. destruct (Nat.eqb_spec q t).
      - subst q. unfold pm, s2. simpl. rewrite H1, Y1, !effy_none. simpl. rewrite !mmul_I_l, !mmul_I_r. symmetry. exact Hq.
      - unfold pm, s2. simpl. rewrite queue_angle_other by auto. reflexivity. }
    split; [apply ct_gate1; auto using uRx|]. split.
    { destruct Sd1. constructor; simpl; auto.
      - apply (queue_angle_B B'); auto.
      - intros q b Hb. destruct (sd_ry0 q b Hb) as [K1 K2]. split; auto.
        assert (Dl := ap_dlt laws). assert (P := Rabs_pos (tval theta)). lra.
      - eapply Forall_impl; [|exact sd_ops0]. intros o. unfold opang. destruct (snd o); auto. intros [K1 K2]. split; auto.
        assert (Dl := ap_dlt laws). assert (P := Rabs_pos (tval theta)). lra. }
    exists (2 + j)%nat. split; [change (ql s2) with (ql s1); lia|].
    eapply ntrans; [apply (near_rot false a t); auto|].
    { rewrite qnorm_abs by (eapply bounds_id; [|exact Bd]; exact I1). change (core s2) with (core s1).
      assert (K := budget_mva 9 2 s s1 (fun x => x) Bd I1 (ct_id w) (conj Sd1 (ex_intro _ j (conj Lj D1))) Q).
      eapply budget_norm; eauto. }
    change (rmat false a) with (mRx a). rewrite S. apply nct; auto. apply ct_gate1; auto using uRx.
Qed.

Lemma gate_ry_n : forall B' s theta t, wf s -> alloc s t -> angle_ok theta -> 0 <= B -> B + (Rabs (tval theta) + dlt) <= B' ->
  exists s', gate_ry s theta t = Ok s' /\ id_map s' = id_map s /\ rng s' = rng s /\ wf s' /\
    rx_queue s' = rx_queue s /\
    (bounds s -> sound s -> budget 2 s -> mvb B' 2 s s' (gate1 (mRy (ry_angle s theta t)) t (abs s))).
Proof.
  intros B' s theta t W Al An B0 HB. unfold gate_ry. eexists; split; [reflexivity|]. set (s2 := with_ry _ _).
  split; [reflexivity|]. split; [reflexivity|]. split; [apply wf_ins_ry; auto|].
  split; [reflexivity|].
  intros Bd Sd Q. assert (Bt : (t < w)%nat) by (apply Bd; auto).
  assert (Ft : fits (ry_queue s) t theta).
  { split; auto. intros old Ho. apply angB_ok. eapply sd_ry; eauto. }
  destruct (queue_angle_n true (ry_queue s) t theta Ft) as [a [Ha Hq]]. simpl rmat in Hq. simpl in Hq.
  assert (K : exists a', Rabs a' <= step_err /\
    mmul (mRy (ry_angle s theta t)) (ryo (oval (effy (im_get (rx_queue s) t) (im_get (ry_queue s) t)))) =
    mmul (mRy a') (ryo (oval (effy (im_get (rx_queue s) t) (im_get (queue_angle (ry_queue s) t theta) t))))).
  { revert Hq. generalize (im_get (queue_angle (ry_queue s) t theta) t). intros o Ho. unfold ry_angle, effy.
    destruct (im_get (rx_queue s) t) as [r|]; [|exists a; auto].
    destruct (cz r); [|exists a; auto].
    exists (- a). rewrite Rabs_Ropp. split; auto.
    rewrite !oval_neg, !ryo_oneg. rewrite !(mmul_assoc (mRy _)).
    rewrite <- (ZRy (tval theta)), <- (ZRy a).
    rewrite <- !mmul_assoc. f_equal. rewrite !mmul_assoc. f_equal. exact Ho. }
  destruct K as [a' [Ha' K]].
  assert (S : gate1 (mRy a') t (abs s2) = gate1 (mRy (ry_angle s theta t)) t (abs s)).
  { unfold abs. replace (ids s2) with (ids s) by reflexivity. replace (core s2) with (core s) by reflexivity.
    rewrite !pendl_post by (try apply ids_nodup; apply ids_In; auto).
    apply pendl_ext. intros q _. unfold upd. destruct (Nat.eqb_spec q t).
    - subst q. unfold pm, s2. simpl. rewrite (mmul_assoc (mRy a')), <- K, !mmul_assoc. reflexivity.
    - unfold pm, s2. simpl. rewrite queue_angle_other by auto. reflexivity. }
  split.
  { destruct Sd. constructor; simpl; auto.
    - intros q b Hb. destruct (sd_rx0 q b Hb) as [K1 K2]. split; auto.
      assert (Dl := ap_dlt laws). assert (P := Rabs_pos (tval theta)). lra.
    - apply (queue_angle_B B'); auto.
    - eapply Forall_impl; [|exact sd_ops0]. intros o. unfold opang. destruct (snd o); auto. intros [K1 K2]. split; auto.
      assert (Dl := ap_dlt laws). assert (P := Rabs_pos (tval theta)). lra. }
  exists 2%nat. split; [change (ql s2) with (ql s); lia|].
  rewrite <- S. change (mRy a') with (rmat true a'). apply near_rot; auto.
  rewrite qnorm_abs by exact Bd. eapply budget_norm. exact Q.
Qed.
End RG.
