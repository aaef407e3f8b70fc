(** * Calls without consequences: proofs *)
From Coq Require Import FunctionalExtensionality List NArith ZArith Reals Bool Lra Lia.
From Verif Require Import Cx Bits BitsLemmas QLib QSum Arith ArithR Sim SimExp Spec SpecExp SpecRun SimRun Text Backend SpecBackend Runner SpecIdeal BackLemmas BackMath BackThms
  SpecChance Chance SpecIdle.
Import ListNotations.
Local Open Scope R_scope.

(** ** Operators on some of the qubits *)
Inductive on (B : nat -> Prop) : (qstate -> qstate) -> Prop :=
| on_id : on B (fun psi => psi)
| on_gate : forall A q, B q -> on B (gate1 A q)
| on_comp : forall F G, on B F -> on B G -> on B (fun psi => F (G psi))
| on_sum : forall F G, on B F -> on B G -> on B (fun psi b => (F psi b + G psi b)%C)
| on_scale : forall c F, on B F -> on B (fun psi => scale c (F psi)).
Lemma on_ext : forall B F G, (forall psi, F psi = G psi) -> on B F -> on B G.
Proof. intros B F G H. replace G with F; [auto|]. apply functional_extensionality. exact H. Qed.
Lemma gate1_sum : forall A q f g, gate1 A q (fun b => (f b + g b)%C) = fun b => (gate1 A q f b + gate1 A q g b)%C.
Proof. intros. apply functional_extensionality. intros b. unfold gate1. ring. Qed.
Lemma gate1_scale' : forall A q c f, gate1 A q (scale c f) = scale c (gate1 A q f).
Proof. intros. apply functional_extensionality. intros b. unfold gate1, scale. ring. Qed.
Lemma on_linear : forall B F, on B F -> (forall f g, F (fun b => (f b + g b)%C) = fun b => (F f b + F g b)%C) /\ (forall c f, F (scale c f) = scale c (F f)).
Proof.
  intros B F H. induction H as [|A q Hq|F G H1 [A1 S1] H2 [A2 S2]|F G H1 [A1 S1] H2 [A2 S2]|c F H1 [A1 S1]].
  - auto.
  - split; intros; [apply gate1_sum|apply gate1_scale'].
  - split; intros; [rewrite A2, A1|rewrite S2, S1]; reflexivity.
  - split; intros; apply functional_extensionality; intros b; [rewrite A1, A2; ring|rewrite S1, S2; unfold scale; ring].
  - split; intros; apply functional_extensionality; intros b; [rewrite A1; unfold scale; ring|rewrite S1; unfold scale; ring].
Qed.
Lemma on_commute : forall B B' F G, on B F -> on B' G -> (forall q, B q -> B' q -> False) -> forall psi, F (G psi) = G (F psi).
Proof.
  intros B B' F G HF. revert G. induction HF as [|A q Hq|F1 F2 H1 IH1 H2 IH2|F1 F2 H1 IH1 H2 IH2|c F1 H1 IH1]; intros G HG Dj psi.
  - reflexivity.
  - induction HG as [|A' q' Hq'|G1 G2 K1 IK1 K2 IK2|G1 G2 K1 IK1 K2 IK2|c G1 K1 IK1] in psi |- *.
    + reflexivity.
    + apply gate1_comm. intros ->. eauto.
    + rewrite IK1, IK2. reflexivity.
    + rewrite gate1_sum, IK1, IK2. reflexivity.
    + rewrite gate1_scale', IK1. reflexivity.
  - rewrite IH2, IH1 by auto. reflexivity.
  - destruct (on_linear _ _ HG) as [LA LS]. rewrite LA. rewrite IH1, IH2 by auto. reflexivity.
  - destruct (on_linear _ _ HG) as [LA LS]. rewrite LS, IH1 by auto. reflexivity.
Qed.
Lemma on_mono : forall (B B' : nat -> Prop) F, (forall q, B q -> B' q) -> on B F -> on B' F.
Proof. intros B B' F H HF. induction HF; [apply on_id|apply on_gate|apply on_comp|apply on_sum|apply on_scale]; auto. Qed.
Definition mE (x y : bool) : mat := fun r c => if (Bool.eqb r x && Bool.eqb c y)%bool then C1 else C0.
Lemma gate1_E : forall x y q psi b, gate1 (mE x y) q psi b = if Bool.eqb (bit b q) x then psi (set_bit b q y) else C0.
Proof. intros. unfold gate1, mE. destruct (bit b q), x, y; cbn; ring. Qed.
Lemma on_proj : forall (B : nat -> Prop) q r, B q -> on B (proj [q] r).
Proof.
  intros B q r H. apply (on_ext B (gate1 (mE r r) q)); [|now apply on_gate]. intros psi. apply functional_extensionality. intros b.
  rewrite gate1_E. unfold proj. rewrite par1. destruct (Bool.eqb (bit b q) r) eqn:E; [|reflexivity]. apply eqb_prop in E. now rewrite set_bit_id'.
Qed.
Lemma on_drop : forall (B : nat -> Prop) q r, B q -> on B (fun psi => drop_qubit q r (proj [q] r psi)).
Proof.
  intros B q r H. apply (on_ext B (gate1 (mE false r) q)); [|now apply on_gate]. intros psi. apply functional_extensionality. intros b.
  rewrite gate1_E. unfold drop_qubit, proj. rewrite par1, bit_set_same, eqb_reflx. destruct (bit b q); reflexivity.
Qed.
Lemma on_ctrl : forall (B : nat -> Prop) cs F, (forall c, In c cs -> B c) -> on B F -> on B (ctrl_op cs F).
Proof.
  intros B cs F H HF. induction cs as [|c cs IH].
  - apply (on_ext B F); auto.
  - apply (on_ext B (fun psi b => (gate1 (mE false false) c psi b + gate1 (mE true true) c (ctrl_op cs F psi) b)%C)).
    + intros psi. apply functional_extensionality. intros b. rewrite !gate1_E. unfold ctrl_op. cbn [forallb].
      destruct (bit b c) eqn:E; cbn [Bool.eqb andb].
      * rewrite (set_bit_id' _ _ _ E). ring.
      * rewrite (set_bit_id' _ _ _ E). ring.
    + apply on_sum; [apply on_gate, H; now left|]. apply (on_comp B (gate1 (mE true true) c)); [apply on_gate, H; now left|]. apply IH. intros x Hx. apply H. now right.
Qed.
Lemma on_cgate : forall (B : nat -> Prop) cs U t, (forall c, In c (t :: cs) -> B c) -> on B (cgate cs U t).
Proof.
  intros B cs U t H. apply (on_ext B (ctrl_op cs (gate1 U t))); [reflexivity|].
  apply on_ctrl; [intros c Hc; apply H; now right|]. apply on_gate, H. now left.
Qed.
Lemma gate1_mI : forall q psi, gate1 mI q psi = psi.
Proof.
  intros q psi. apply functional_extensionality. intros b. unfold gate1, mI, mk2. destruct (bit b q) eqn:E; rewrite (set_bit_id' _ _ _ E); ring.
Qed.
Lemma on_pauli : forall (B : nat -> Prop) pl, (forall p q, In (p, q) pl -> p = PI_ \/ B q) -> on B (pauli_product pl).
Proof.
  intros B pl H. induction pl as [|[p q] pl IH]; [apply (on_ext B (fun psi => psi)); [reflexivity|constructor]|].
  assert (X : on B (pauli_product pl)) by (apply IH; intros; apply H; now right).
  apply (on_ext B (fun psi => gate1 (pmat p) q (pauli_product pl psi))); [reflexivity|].
  destruct (H p q (or_introl eq_refl)) as [-> |Hq].
  - apply (on_ext B (pauli_product pl)); [|exact X]. intros psi. cbn [pmat]. now rewrite gate1_mI.
  - apply (on_comp B (gate1 (pmat p) q)); [now apply on_gate|exact X].
Qed.
Lemma on_exp : forall (B : nat -> Prop) th pl, (forall p q, In (p, q) pl -> p = PI_ \/ B q) -> on B (exp_op th pl).
Proof.
  intros B th pl H. apply (on_ext B (fun psi b => (scale (RtoC (cos th)) psi b + scale (Ci * RtoC (sin th))%C (pauli_product pl psi) b)%C)); [reflexivity|].
  apply (on_sum B (fun psi => scale _ psi) (fun psi => scale _ (pauli_product pl psi))); apply on_scale; [apply (on_id B)|now apply on_pauli].
Qed.
Lemma on_eigen : forall (B : nat -> Prop) pl r, (forall p q, In (p, q) pl -> p = PI_ \/ B q) -> on B (eigen_proj pl r).
Proof.
  intros B pl r H. apply (on_ext B (fun psi => scale (RtoC (/ 2)) (fun b => (psi b + scale (if r then - C1 else C1)%C (pauli_product pl psi) b)%C))).
  - intros psi. apply functional_extensionality. intros b. unfold scale, eigen_proj. destruct r; ring.
  - apply on_scale. apply (on_sum B (fun psi => psi) (fun psi => scale _ (pauli_product pl psi))); [constructor|]. apply on_scale. now apply on_pauli.
Qed.
Lemma on_swap : forall (B : nat -> Prop) a b, B a -> B b -> on B (swap_qubits a b).
Proof.
  intros B a b Ha Hb. destruct (Nat.eq_dec a b) as [->|ne].
  - apply (on_ext B (fun psi => psi)); [|constructor]. intros psi. apply functional_extensionality. intros k. unfold swap_qubits, swap_assign.
    rewrite set_set_same. now rewrite set_bit_id.
  - assert (O : forall x y, on B (fun psi => gate1 (mE x y) a (gate1 (mE y x) b psi))).
    { intros x y. apply (on_comp B (gate1 (mE x y) a)); now apply on_gate. }
    apply (on_ext B (fun psi k => ((fun k => (gate1 (mE false false) a (gate1 (mE false false) b psi) k + gate1 (mE true true) a (gate1 (mE true true) b psi) k)%C) k
      + (fun k => (gate1 (mE false true) a (gate1 (mE true false) b psi) k + gate1 (mE true false) a (gate1 (mE false true) b psi) k)%C) k)%C)).
    + intros psi. apply functional_extensionality. intros k. cbv beta. rewrite !gate1_E. unfold swap_qubits, swap_assign.
      rewrite !bit_set_other by congruence. destruct (bit k a) eqn:Ea, (bit k b) eqn:Eb; cbn [Bool.eqb]; ring.
    + apply (on_sum B (fun psi k => (gate1 (mE false false) a (gate1 (mE false false) b psi) k + gate1 (mE true true) a (gate1 (mE true true) b psi) k)%C)
        (fun psi k => (gate1 (mE false true) a (gate1 (mE true false) b psi) k + gate1 (mE true false) a (gate1 (mE false true) b psi) k)%C));
      (apply on_sum; apply O).
Qed.

Section Idle.
Context {T : Tol} {EN : Env} {D : Doubles} {SW : Shows} {RN : Rand}.
Lemma on_bop : forall c F, bop c = Some F -> on (fun q => In q (bnames c)) F.
Proof.
  assert (Pr : forall (ps : list pauli) (qs : list nat) p q, In (p, q) (combine ps qs) -> p = PI_ \/ In q qs) by (intros ps qs p q H; right; eapply in_combine_r; eauto).
  intros c F E. destruct c; cbn [bop] in E; try discriminate; injection E as <-; cbn [bnames].
  - apply on_gate. now left.
  - apply on_cgate. cbn [In]. tauto.
  - apply on_cgate. cbn [In]. tauto.
  - apply on_cgate. cbn [In]. tauto.
  - apply on_gate. now left.
  - apply on_exp. cbn [In]. intros p q [H|[H|[]]]; injection H as <- <-; auto.
  - apply on_exp. cbn [In]. intros p q [H|[H|[]]]; injection H as <- <-; auto.
  - apply on_exp. cbn [In]. intros p q [H|[H|[]]]; injection H as <- <-; auto.
  - apply on_exp. cbn [In]. intros p' q' [H|[]]; injection H as <- <-. destruct p; auto; right; now left.
  - apply on_exp. cbn [In]. intros p' q' [H|[]]; injection H as <- <-. destruct p; auto; right; now left.
  - apply on_ctrl; [|apply on_exp; cbn [In]; intros p' q' [H|[]]; injection H as <- <-]; destruct cs as [|c0 cs], p; cbn [In]; auto; tauto.
  - apply on_ctrl; [|apply on_exp; cbn [In]; intros p' q' [H|[]]; injection H as <- <-]; destruct cs as [|c0 cs], p; cbn [In]; auto; tauto.
  - apply on_exp. apply Pr.
  - apply on_exp. apply Pr.
  - apply on_ctrl; [intros; apply in_or_app; auto|]. apply on_exp. intros p q H. destruct (Pr _ _ _ _ H); auto. right. apply in_or_app. auto.
  - apply on_ctrl; [intros; apply in_or_app; auto|]. apply on_exp. intros p q H. destruct (Pr _ _ _ _ H); auto. right. apply in_or_app. auto.
  - apply on_swap; cbn [In]; auto.
  - constructor.
Qed.

(** ** A family of operators on some qubits, under calls that do not use them *)
Definition kp (K : qstate -> qstate) (m : path) : path := mkPath (h_book m) (K (h_vec m)) (h_used m) (h_res m) (h_out m).
Definition side_map (K : qstate -> qstate) (x : side) : side := match x with Go r m => Go r (kp K m) | Halt e o => Halt e o end.
Lemma discards_K : forall Q K q0, on (fun q => In q Q) K -> In q0 Q -> forall qs l psi, (forall q, In q Q -> ~ In q qs) -> In q0 l ->
  discards qs l (K psi) = map K (discards qs l psi).
Proof.
  intros Q K q0 HK H0. induction qs as [|q qs IH]; intros l psi A Hl; [reflexivity|]. cbn [discards].
  assert (N0 : q0 <> q) by (intros ->; apply (A q H0); now left).
  assert (Hr : In q0 (remove_id q l)).
  { unfold remove_id. apply filter_In. split; [exact Hl|]. apply negb_true_iff, Nat.eqb_neq. exact N0. }
  destruct (remove_id q l) as [|k l'] eqn:El; [destruct Hr|].
  assert (C : forall r, drop_qubit q r (proj [q] r (K psi)) = K (drop_qubit q r (proj [q] r psi))).
  { intros r. apply (on_commute (fun x => x = q) (fun x => In x Q) (fun psi => drop_qubit q r (proj [q] r psi)) K).
    - now apply on_drop.
    - exact HK.
    - intros x -> Hx. apply (A q Hx). now left. }
  rewrite !C, map_app. f_equal; apply IH; auto; intros x Hx Hi; apply (A x Hx); now right.
Qed.
Lemma sides_K : forall Q K q0 m c, on (fun q => In q Q) K -> In q0 Q -> In q0 (bb_live (h_book m)) -> apart Q c ->
  sides (kp K m) c = map (side_map K) (sides m c).
Proof.
  intros Q K q0 m c HK H0 Hl [A B].
  assert (Cm : forall F, on (fun q => In q (bnames c)) F -> uses c = bnames c -> forall psi, F (K psi) = K (F psi)).
  { intros F HF Eu. apply (on_commute _ _ F K HF HK). intros q Hq Hq'. rewrite Eu in A. exact (A q Hq' Hq). }
  unfold sides. cbn [kp h_book h_vec]. destruct (bop c) as [F|] eqn:Eo.
  - cbn [map side_map]. do 2 f_equal. unfold moved, kp. cbn. f_equal. apply Cm; [now apply on_bop|]. destruct c; try discriminate; reflexivity.
  - destruct c; try discriminate; try contradiction; unfold bothways; cbn [map side_map]; try reflexivity.
    + assert (X : forall r, drop_qubit q r (proj [q] r (K (h_vec m))) = K (drop_qubit q r (proj [q] r (h_vec m)))).
      { intros r. apply (Cm (fun psi => drop_qubit q r (proj [q] r psi))); [apply on_drop; now left|reflexivity]. }
      now rewrite !X.
    + assert (X : forall r, drop_qubit q r (proj [q] r (K (h_vec m))) = K (drop_qubit q r (proj [q] r (h_vec m)))).
      { intros r. apply (Cm (fun psi => drop_qubit q r (proj [q] r psi))); [apply on_drop; now left|reflexivity]. }
      now rewrite !X.
    + assert (X : forall r, proj [q] r (K (h_vec m)) = K (proj [q] r (h_vec m))) by (intros r; apply Cm; [apply on_proj; now left|reflexivity]).
      now rewrite !X.
    + assert (X : forall r, proj [q] r (K (h_vec m)) = K (proj [q] r (h_vec m))) by (intros r; apply Cm; [apply on_proj; now left|reflexivity]).
      now rewrite !X.
    + assert (X : forall r, eigen_proj (paired ps qs) r (K (h_vec m)) = K (eigen_proj (paired ps qs) r (h_vec m))).
      { intros r. apply Cm; [|reflexivity]. apply on_eigen. intros p q H. right. cbn [bnames]. apply (in_map snd) in H. exact H. }
      now rewrite !X.
    + rewrite (discards_K Q K q0 HK H0) by assumption. rewrite !map_map. reflexivity.
    + rewrite (discards_K Q K q0 HK H0) by assumption. rewrite !map_map. reflexivity.
    + destruct location; [contradiction|reflexivity].
    + cbn [kp h_used h_res]. destruct (Nat.eqb (h_used m) 0); reflexivity.
    + cbn [kp h_used h_res]. destruct (Nat.eqb (h_used m) 0); reflexivity.
Qed.
Lemma fold_remove : forall qs l x, In x l -> ~ In x qs -> In x (fold_left (fun l q => remove_id q l) qs l).
Proof.
  induction qs as [|q qs IH]; intros l x H N; [exact H|]. cbn [fold_left]. apply IH; [|intros Hx; apply N; now right].
  unfold remove_id. apply filter_In. split; [exact H|]. apply negb_true_iff, Nat.eqb_neq. intros ->. apply N. now left.
Qed.
Lemma live_stays : forall Q m c r m', apart Q c -> In (Go r m') (sides m c) -> incl Q (bb_live (h_book m)) -> incl Q (bb_live (h_book m')).
Proof.
  intros Q m c r m' [A B] H I q Hq. assert (Hl := I q Hq). specialize (A q Hq).
  assert (E : h_book m' = bbstep (h_book m) c \/ h_book m' = h_book m).
  { unfold sides in H. destruct (bop c); [destruct H as [H|[]]; injection H as <- <-; now left|].
    destruct c; try contradiction; cbn [bothways In] in H;
    repeat (match goal with
    | H : _ \/ _ |- _ => destruct H as [H|H]
    | H : Go _ _ = Go _ _ |- _ => injection H as <- <-
    | H : Halt _ _ = Go _ _ |- _ => discriminate
    | H : False |- _ => destruct H
    end); auto; try (now left); try (now right).
    - apply in_map_iff in H as [psi [H _]]. injection H as <- <-. now left.
    - apply in_map_iff in H as [psi [H _]]. injection H as <- <-. now left.
    - destruct location; [contradiction|]. destruct H as [H|[]]. discriminate.
    - destruct (Nat.eqb (h_used m) 0); destruct H as [H|[]]; injection H as <- <-; now right.
    - destruct (Nat.eqb (h_used m) 0); destruct H as [H|[]]; injection H as <- <-; now right. }
  destruct E as [-> | ->]; [|exact Hl].
  destruct c; try contradiction; cbn [bbstep bb_live uses] in *; try (apply grow_incl; exact Hl).
  - apply (fold_remove [q0] _ q Hl A).
  - apply fold_remove; assumption.
Qed.
Lemma step_facts : forall m c, supported (bb_live (h_book m)) (h_vec m) -> hvalid m c -> c <> QCapture -> c <> QDump 0 ->
  (forall x, In x (sides m c) -> side_sup x) /\ Rsum (map (side_wt m) (sides m c)) = chance m.
Proof.
  intros m c S V NC ND. destruct (step_tiles m c S V NC ND) as (bs & T1 & F1 & Es). split; [|exact Es].
  rewrite Forall_forall in F1. intros x Hx. destruct T1 as [T1 _]. clear - T1 F1 Hx. revert bs T1 F1. generalize dependent (sides m c).
  intros xs. induction xs as [|y xs IH]; intros Hx bs T1 F1; [destruct Hx|].
  simpl in T1. inversion T1 as [|bx ? bs' ? [_ E] T2]; subst. destruct Hx as [<-|Hx].
  - cbn [snd] in E. rewrite <- E. apply F1. left. auto.
  - apply (IH Hx bs' T2). intros z Hz. apply F1. right. auto.
Qed.
Lemma apart_lists : forall Q c, apart Q c -> c <> QCapture /\ c <> QDump 0.
Proof. intros Q c [_ H]. split; intros ->; exact H. Qed.
Lemma Rsum_zero : forall l, (forall x, In x l -> 0 <= x) -> Rsum l = 0 -> forall x, In x l -> x = 0.
Proof.
  unfold Rsum. induction l as [|y l IH]; intros P Z x Hx; [destruct Hx|]. simpl in Z.
  assert (Y : 0 <= y) by (apply P; now left). assert (L : 0 <= fold_right Rplus 0 l).
  { clear - P. assert (P' : forall x, In x l -> 0 <= x) by (intros; apply P; now right). clear P. induction l as [|z l IH]; simpl; [lra|].
    assert (0 <= z) by (apply P'; now left). assert (0 <= fold_right Rplus 0 l) by (apply IH; intros; apply P'; now right). lra. }
  destruct Hx as [<-|Hx]; [lra|]. apply IH; auto; [intros; apply P; now right|lra].
Qed.
Lemma chance_pos : forall m, 0 <= chance m.
Proof. intros m. apply size2_pos. Qed.
Lemma side_pos : forall m x, 0 <= side_wt m x.
Proof. intros m [r m'|e o]; apply chance_pos. Qed.

Lemma odds_app : forall M (E : ended M -> bool) a b, odds E (a ++ b) = odds E a + odds E b.
Proof. intros. unfold odds. rewrite map_app. apply Rsum_app'. Qed.
Lemma odds_one : forall M (E : ended M -> bool) w e, odds E [(w, e)] = if E e then w else 0.
Proof. intros. unfold odds, Rsum. cbn. destruct (E e); ring. Qed.
(** The ways on from a path, as [chances] follows them. *)
Definition onward (p : program) (n : nat) (k : breply -> ploc p) (t : tgen) (m : path) (x : side) : list (R * ended (pmem p)) :=
  match x with
  | Go r m' => if Req_EM_T (chance m') 0 then [] else chances p n (k r) m' t
  | Halt e o => [(chance m, EStop (StopErr e) o)]
  end.
Lemma chances_call : forall p n l m t c k, pstep p l = ACall c k -> chances p (S n) l m t = flat_map (onward p n k t m) (sides m c).
Proof. intros p n l m t c k H. cbn [chances]. rewrite H. reflexivity. Qed.
Lemma odds_flat : forall p (E : ended (pmem p) -> bool) (f : side -> list (R * ended (pmem p))) xs, odds E (flat_map f xs) = Rsum (map (fun x => odds E (f x)) xs).
Proof. intros p E f xs. induction xs as [|x xs IH]; [reflexivity|]. cbn [flat_map]. rewrite odds_app, IH. reflexivity. Qed.
(** Paths of chance zero contribute nothing. *)
Lemma odds_zero : forall Q p E n l m0 m t, h_book m = h_book m0 -> supported (bb_live (h_book m)) (h_vec m) -> chance m = 0 ->
  sound (apart Q) p n l m0 t -> odds E (chances p n l m t) = 0.
Proof.
  intros Q p E. induction n as [|n IH]; intros l m0 m t Eb S Z Sd.
  - cbn [chances]. rewrite odds_one, Z. now destruct (E _).
  - cbn [sound] in Sd. destruct (pstep p l) as [mem|c k|lo hi k|] eqn:Ep.
    + cbn [chances]. rewrite Ep, odds_one, Z. now destruct (E _).
    + destruct Sd as (Pc & V & _). rewrite (chances_call _ _ _ _ _ _ _ Ep), odds_flat.
      destruct (apart_lists _ _ Pc) as [NC ND]. assert (V' : hvalid m c) by (unfold hvalid in *; rewrite Eb; exact V).
      destruct (step_facts m c S V' NC ND) as [Sup Es]. rewrite Z in Es.
      assert (A : forall x, In x (sides m c) -> odds E (onward p n k t m x) = 0).
      { intros x Hx. assert (W : side_wt m x = 0).
        { apply (Rsum_zero (map (side_wt m) (sides m c))); [|exact Es|now apply in_map].
          intros y Hy. apply in_map_iff in Hy as [z [<- _]]. apply side_pos. }
        destruct x as [r m'|e o]; cbn [onward side_wt] in *.
        - destruct (Req_EM_T (chance m') 0); [reflexivity|contradiction].
        - rewrite odds_one, W. now destruct (E _). }
      clear - A. induction (sides m c) as [|x xs IHx]; [reflexivity|]. cbn [map]. unfold Rsum in *. cbn [fold_right].
      rewrite (A x) by (now left). rewrite IHx by (intros; apply A; now right). ring.
    + cbn [chances]. rewrite Ep. destruct (Z.ltb hi lo) eqn:El; [rewrite odds_one, Z; now destruct (E _)|].
      apply Z.ltb_ge in El. eapply IH; eauto.
    + cbn [chances]. rewrite Ep, odds_one, Z. now destruct (E _).
Qed.

(** ** The rest of the program does not notice *)
Section Family.
Variable Q : list nat.
Variable q0 : nat.
Variable Ks : list (qstate -> qstate).
Hypothesis H0 : In q0 Q.
Hypothesis HK : forall K, In K Ks -> on (fun q => In q Q) K.
Hypothesis HS : forall K l psi, In K Ks -> incl Q l -> supported l psi -> supported l (K psi).
Hypothesis HW : forall l psi, incl Q l -> supported l psi -> Rsum (map (fun K => size2 l (K psi)) Ks) = size2 l psi.

Lemma Rsum_ext : forall A (f g : A -> R) l, (forall x, In x l -> f x = g x) -> Rsum (map f l) = Rsum (map g l).
Proof. intros A f g l H. f_equal. apply map_ext_in. exact H. Qed.
Lemma Rsum_plus : forall A (f g : A -> R) l, Rsum (map (fun x => f x + g x) l) = Rsum (map f l) + Rsum (map g l).
Proof. intros A f g l. unfold Rsum. induction l as [|x l IH]; simpl; [ring|]. rewrite IH. ring. Qed.
Lemma Rsum_swap : forall A B (f : A -> B -> R) l l', Rsum (map (fun x => Rsum (map (f x) l')) l) = Rsum (map (fun y => Rsum (map (fun x => f x y) l)) l').
Proof.
  intros A B f l l'. induction l as [|x l IH].
  - cbn [map]. unfold Rsum at 1. simpl. induction l' as [|y l' IH]; [reflexivity|]. cbn [map]. unfold Rsum in *. simpl. rewrite <- IH. ring.
  - cbn [map]. unfold Rsum at 1. cbn [fold_right]. change (fold_right Rplus 0 (map (fun x => Rsum (map (f x) l')) l)) with (Rsum (map (fun x => Rsum (map (f x) l')) l)).
    rewrite IH. rewrite <- Rsum_plus. apply Rsum_ext. intros y _. reflexivity.
Qed.
Lemma Rsum_if : forall A (b : bool) (f : A -> R) l, Rsum (map (fun x => if b then f x else 0) l) = if b then Rsum (map f l) else 0.
Proof. intros A b f l. destruct b; [reflexivity|]. unfold Rsum. induction l as [|x l IH]; simpl; [reflexivity|]. rewrite IH. ring. Qed.
Lemma family_chance : forall m, incl Q (bb_live (h_book m)) -> supported (bb_live (h_book m)) (h_vec m) -> Rsum (map (fun K => chance (kp K m)) Ks) = chance m.
Proof. intros m I S. apply (HW _ _ I S). Qed.
Lemma unnoticed : forall p E n l m t, supported (bb_live (h_book m)) (h_vec m) -> incl Q (bb_live (h_book m)) -> sound (apart Q) p n l m t ->
  Rsum (map (fun K => odds E (chances p n l (kp K m) t)) Ks) = odds E (chances p n l m t).
Proof.
  intros p E.
  assert (Leaf : forall m e, incl Q (bb_live (h_book m)) -> supported (bb_live (h_book m)) (h_vec m) ->
    Rsum (map (fun K => odds E [(chance (kp K m), e)]) Ks) = odds E [(chance m, e)]).
  { intros m e I S. rewrite odds_one. rewrite (Rsum_ext _ _ (fun K => if E e then chance (kp K m) else 0)) by (intros; apply odds_one).
    rewrite Rsum_if. now rewrite family_chance. }
  induction n as [|n IH]; intros l m t S I Sd; [exact (Leaf m (EMore (h_out m)) I S)|].
  cbn [sound] in Sd. destruct (pstep p l) as [mem|c k|lo hi k|] eqn:Ep.
  - cbn [chances]. rewrite Ep. exact (Leaf m (EDone mem (h_out m) t) I S).
  - destruct Sd as (Pc & V & Sd). rewrite (chances_call _ _ _ _ _ _ _ Ep), odds_flat. destruct (apart_lists _ _ Pc) as [NC ND].
    destruct (step_facts m c S V NC ND) as [Sup Es].
    rewrite (Rsum_ext _ _ (fun K => Rsum (map (fun x => odds E (onward p n k t (kp K m) (side_map K x))) (sides m c)))).
    2:{ intros K HKs. rewrite (chances_call _ _ _ _ _ _ _ Ep), odds_flat, (sides_K Q K q0) by auto. now rewrite map_map. }
    rewrite Rsum_swap. apply Rsum_ext. intros x Hx. destruct x as [r m'|e o]; cbn [side_map onward].
    + assert (S' := Sup _ Hx). cbn [side_sup] in S'. assert (I' := live_stays _ _ _ _ _ Pc Hx I).
      destruct (Req_EM_T (chance m') 0) as [Zr|Nz].
      * rewrite (Rsum_ext _ _ (fun _ => 0)); [clear; unfold Rsum, odds, Rsum; simpl; induction Ks as [|a K IHK]; simpl; [reflexivity|rewrite IHK; ring]|].
        intros K HKs. destruct (Req_EM_T (chance (kp K m')) 0) as [_|N]; [reflexivity|]. exfalso. apply N.
        apply (Rsum_zero (map (fun K => chance (kp K m')) Ks)); [|rewrite family_chance by auto; exact Zr|apply (in_map (fun K => chance (kp K m'))); exact HKs].
        intros y Hy. apply in_map_iff in Hy as [z [<- _]]. apply chance_pos.
      * assert (Sd' := Sd r m' Hx Nz). rewrite <- (IH (k r) m' t S' I' Sd'). apply Rsum_ext. intros K HKs.
        destruct (Req_EM_T (chance (kp K m')) 0) as [Zr|_]; [|reflexivity]. symmetry.
        eapply (odds_zero Q p E n (k r) m'); eauto; try reflexivity. apply HS; auto.
    + exact (Leaf m _ I S).
  - cbn [chances]. rewrite Ep. destruct (Z.ltb hi lo) eqn:El.
    + exact (Leaf m (EStop (StopErr (EFail bad_range)) (h_out m ++ render (RecMessage bad_range))) I S).
    + apply Z.ltb_ge in El. apply IH; auto.
  - cbn [chances]. rewrite Ep. exact (Leaf m (EStop StopTrap (h_out m)) I S).
Qed.
End Family.

(** ** Idle calls *)
Lemma opened_none : forall big l qs, (top qs <= big)%nat -> opened big l qs = l.
Proof. intros big l qs H. unfold opened. replace (top qs - big)%nat with 0%nat by lia. reflexivity. Qed.
Lemma bop_anywhere : forall k c F l, bop c = Some F -> bvalid k c -> incl (bnames c) l -> isometry l F.
Proof.
  intros k c F l E V I. set (big := top (bnames c)).
  assert (O1 : opened big l (bnames c) = l) by (apply opened_none; unfold big; lia).
  rewrite <- O1. apply (bop_iso (mkBBook big l) c F E). unfold bvalid. cbn [bb_max bb_live]. rewrite O1.
  destruct c; try discriminate E; cbn [bvalid] in V; repeat match goal with H : _ /\ _ |- _ => destruct H end; repeat split; auto;
    try (apply I; cbn [bnames]; auto with datatypes).
  all: apply grow_incl; apply I; cbn [bnames]; auto with datatypes.
Qed.
Lemma ordinary_family : forall m c, ordinary c -> hvalid m c -> bbstep (h_book m) c = h_book m ->
  exists Ks, (forall K, In K Ks -> on (fun q => In q (bnames c)) K) /\
    (forall K l psi, In K Ks -> incl (bnames c) l -> supported l psi -> supported l (K psi)) /\
    (forall l psi, incl (bnames c) l -> supported l psi -> Rsum (map (fun K => size2 l (K psi)) Ks) = size2 l psi) /\
    exists rs, sides m c = map (fun rk => Go (fst rk) (kp (snd rk) m)) (combine rs Ks) /\ length rs = length Ks.
Proof.
  intros m c O V B. destruct (bop c) as [F|] eqn:E.
  - assert (V' : bvalid (h_book m) c) by (destruct c; try discriminate E; exact V).
    exists [F]. split; [|split; [|split]].
    + intros K [<-|[]]. now apply on_bop.
    + intros K l psi [<-|[]] I S. destruct (bop_anywhere _ _ _ l E V' I) as [_ H]. now apply H.
    + intros l psi I S. destruct (bop_anywhere _ _ _ l E V' I) as [_ H]. unfold Rsum. cbn [map fold_right]. rewrite (proj2 (H _ S)). ring.
    + exists [VUnit]. split; [|reflexivity]. unfold sides. rewrite E, B. reflexivity.
  - assert (X : forall (P : bool -> qstate -> qstate) (rs : bool -> breply),
      (forall r, on (fun q => In q (bnames c)) (P r)) -> (forall l, incl (bnames c) l -> two l l P) ->
      sides m c = bothways (fun r => Go (rs r) (moved m (bbstep (h_book m) c) (P r (h_vec m)))) ->
      exists Ks, (forall K, In K Ks -> on (fun q => In q (bnames c)) K) /\
    (forall K l psi, In K Ks -> incl (bnames c) l -> supported l psi -> supported l (K psi)) /\
    (forall l psi, incl (bnames c) l -> supported l psi -> Rsum (map (fun K => size2 l (K psi)) Ks) = size2 l psi) /\
    exists rs, sides m c = map (fun rk => Go (fst rk) (kp (snd rk) m)) (combine rs Ks) /\ length rs = length Ks).
    { intros P rs HP HT Hs. exists [P true; P false]. split; [|split; [|split]].
      + intros K [<-|[<-|[]]]; apply HP.
      + intros K l psi [<-|[<-|[]]] I S; apply (two_sup _ _ _ (HT l I)); exact S.
      + intros l psi I S. unfold Rsum. cbn [map fold_right]. rewrite <- (two_sum _ _ _ (HT l I) psi S). ring.
      + exists [rs true; rs false]. split; [|reflexivity]. rewrite Hs, B. reflexivity. }
    destruct c; try discriminate E; try (exfalso; apply O; reflexivity); try contradiction.
    + apply (X (fun r psi => drop_qubit q r (proj [q] r psi)) (fun _ => VUnit)); [| |reflexivity].
      * intros r. apply on_drop. now left.
      * intros l I. apply two_reset. apply I. now left.
    + apply (X (proj [q]) as_result); [| |reflexivity].
      * intros r. apply on_proj. now left.
      * intros l I. apply two_proj.
    + apply (X (eigen_proj (paired ps qs)) as_result); [| |reflexivity].
      * intros r. apply on_eigen. intros p q H. right. cbn [bnames]. apply (in_map snd) in H. exact H.
      * intros l I. destruct V as (V1 & V2 & V3). apply two_eigen; auto. intros p q H. apply filter_In in H. intros ->. destruct H as [_ H]. discriminate.
Qed.
Lemma stays : forall k c, ordinary c -> (top (bnames c) <= bb_max k)%nat -> bbstep k c = k.
Proof.
  intros [big l] c O H. cbn [bb_max] in H.
  assert (X : mkBBook (Nat.max big (top (bnames c))) (opened big l (bnames c)) = mkBBook big l) by (rewrite opened_none by exact H; f_equal; lia).
  destruct c; try exact X; exfalso; apply O; reflexivity.
Qed.
Lemma named : forall k c, ordinary c -> bvalid k c -> (top (bnames c) <= bb_max k)%nat -> incl (bnames c) (bb_live k).
Proof.
  intros k c O V H. assert (E := opened_none _ (bb_live k) _ H). unfold bvalid in V. rewrite E in V.
  destruct c; try (exfalso; apply O; reflexivity); repeat match goal with H : _ /\ _ |- _ => destruct H end; auto.
  - cbn [bnames] in *. intros x [<-|[<-|[]]]; auto. rewrite <- E. exact (opened_incl _ _ [a] [b] a H0).
  - cbn [bnames] in *. intros x [<-|[<-|[]]]; auto. rewrite <- E. exact (opened_incl _ _ [a] [b] a H0).
  - cbn [bnames] in *. intros x [<-|[<-|[]]]; auto.
Qed.
Lemma idle_step : forall p E n l n' l' m t c k, supported (bb_live (h_book m)) (h_vec m) -> pstep p l = ACall c k -> touching m c ->
  sound (apart (bnames c)) p n' l' m t ->
  (forall r m', In (Go r m') (sides m c) -> chance m' <> 0 -> supported (bb_live (h_book m')) (h_vec m') ->
    odds E (chances p n (k r) m' t) = odds E (chances p n' l' m' t)) ->
  odds E (chances p (S n) l m t) = odds E (chances p n' l' m t).
Proof.
  intros p E n l n' l' m t c k S Ep (O & Hq & V & Hm) Sd Hs.
  assert (B := stays _ _ O Hm).
  assert (V' : bvalid (h_book m) c) by (destruct c; try exact V; exfalso; apply O; reflexivity).
  assert (I := named _ _ O V' Hm).
  destruct (ordinary_family m c O V B) as (Ks & HK & HS & HW & rs & Es & El).
  destruct (bnames c) as [|q0 Q'] eqn:Eq; [congruence|].
  rewrite <- (unnoticed (q0 :: Q') q0 Ks (or_introl eq_refl) HK HS HW p E n' l' m t S I Sd).
  rewrite (chances_call _ _ _ _ _ _ _ Ep), odds_flat. rewrite Es in Hs |- *. rewrite map_map.
  assert (HK' : forall K, In K Ks -> supported (bb_live (h_book m)) (K (h_vec m))) by (intros; apply HS; auto).
  clear - HK' El Sd Hs. revert rs El Hs. induction Ks as [|K Ks IH]; intros [|r rs] El Hs; try discriminate; [reflexivity|].
  cbn [combine map]. unfold Rsum. cbn [fold_right]. f_equal.
  - cbn [fst snd onward]. destruct (Req_EM_T (chance (kp K m)) 0) as [Z|Nz].
    + symmetry. apply (odds_zero (q0 :: Q') p E n' l' m); auto. apply HK'. now left.
    + apply Hs; [now left|exact Nz|]. apply (HK' K). now left.
  - apply IH; [intros; apply HK'; now right|now injection El|]. intros r' m' H. apply Hs. now right.
Qed.
Lemma idle_thm : forall p E n l m t c l', supported (bb_live (h_book m)) (h_vec m) -> idle p n l m t c l' ->
  odds E (chances p (S n) l m t) = odds E (chances p n l' m t).
Proof.
  intros p E n l m t c l' S ((k & Ep & Hk) & Ht & Sd). apply (idle_step p E n l n l' m t c k S Ep Ht Sd). intros r m' _ _ _. now rewrite Hk.
Qed.
Lemma stays_supported : forall m c r m', supported (bb_live (h_book m)) (h_vec m) -> hvalid m c -> In (Go r m') (sides m c) ->
  supported (bb_live (h_book m')) (h_vec m').
Proof.
  intros m c r m' S V Hx. assert (Dc : {c = QCapture \/ c = QDump 0} + {c <> QCapture /\ c <> QDump 0}).
  { destruct c; try (right; split; discriminate); try (left; left; reflexivity). destruct location; [left; now right|right; split; discriminate]. }
  destruct Dc as [[-> | ->]|[N1 N2]].
  - destruct Hx as [Hx|[]]. injection Hx as <- <-. exact S.
  - destruct Hx as [Hx|[]]. injection Hx as <- <-. exact S.
  - exact (proj1 (step_facts m c S V N1 N2) _ Hx).
Qed.
Lemma trims_thm : forall p E n l n' l' m t, trims p n l n' l' m t -> supported (bb_live (h_book m)) (h_vec m) ->
  odds E (chances p n l m t) = odds E (chances p n' l' m t).
Proof.
  intros p E n l n' l' m t H. induction H as [n l m t|n l n' l' m t c k Ep Ht Sd H IH|n l n' l' m t c k k' E1 E2 V H IH|n l n' l' m t lo hi k k' E1 E2 H IH]; intros S.
  - reflexivity.
  - apply (idle_step p E n l n' l' m t c k S Ep Ht Sd). auto.
  - rewrite (chances_call _ _ _ _ _ _ _ E1), (chances_call _ _ _ _ _ _ _ E2), !odds_flat. apply Rsum_ext. intros x Hx.
    destruct x as [r m'|e o]; [|reflexivity]. cbn [onward]. destruct (Req_EM_T (chance m') 0) as [Z|Nz]; [reflexivity|].
    apply (IH r m' Hx Nz). exact (stays_supported m c r m' S V Hx).
  - cbn [chances]. rewrite E1, E2. destruct (Z.ltb hi lo); [reflexivity|]. auto.
Qed.
(** ** Starting elsewhere *)
Lemma started_chances : forall p s n l m t, chances (started p s) n l m t = chances p n l m t.
Proof.
  intros p s. induction n as [|n IH]; intros l m t; [reflexivity|]. cbn [chances]. change (pstep (started p s) l) with (pstep p l).
  destruct (pstep p l) as [mem|c k|lo hi k|]; try reflexivity.
  - induction (sides m c) as [|x xs IHx]; [reflexivity|]. cbn [flat_map]. rewrite IHx. f_equal. destruct x as [r m'|]; [|reflexivity].
    destruct (Req_EM_T (chance m') 0); [reflexivity|]. apply IH.
  - destruct (Z.ltb hi lo); [reflexivity|]. apply IH.
Qed.
Lemma bulk_odds : forall M (E : ended M -> bool) leaves ws, Forall2 (fun leaf w => volume (fst leaf) = fst w /\ snd leaf = snd w) leaves ws -> bulk E leaves = odds E ws.
Proof.
  intros M E leaves ws H. unfold bulk, odds. induction H as [|a w ls ws [H1 H2] H IH]; [reflexivity|]. cbn [map]. unfold Rsum in *. cbn [fold_right].
  rewrite IH, H1, H2. reflexivity.
Qed.
End Idle.
