(** * Proofs about the chances of a program *)
From Coq Require Import String List NArith ZArith Reals Bool Lia Lra Arith FunctionalExtensionality.
From Verif Require Import Cx Bits BitsLemmas Arith ArithR Sim SimExp Spec SpecExp SpecRun SimRun QLib QSum ExpLemmas SpecLemmas StateLemmas RunLemmas Text
  Backend SpecBackend BackLemmas BackMath Runner SpecRunner SpecIdeal Ideal RunnerThms SpecChance.
Import ListNotations.
Local Open Scope R_scope.
Local Open Scope list_scope.

(** ** Lengths of vectors *)
Lemma usx : unitary mSX.
Proof. rewrite <- sx_mat. repeat apply unitary_mmul; auto using uH, uS. Qed.
Lemma supported_incl : forall l l' psi, incl l l' -> supported l psi -> supported l' psi.
Proof. intros l l' psi I S b i B N. apply (S b i B). intros H. apply N, I, H. Qed.
Lemma size2_incl : forall l l' psi, incl l l' -> supported l psi -> size2 l' psi = size2 l psi.
Proof. intros l l' psi I S. unfold size2. apply norm2_width; auto. intros q H. apply width_lt; auto. Qed.
Lemma size2_scale : forall l c psi, size2 l (scale c psi) = Cn2 c * size2 l psi.
Proof. intros. apply norm2_scale. Qed.
Lemma size2_pos : forall l psi, 0 <= size2 l psi.
Proof.
  intros l psi. unfold size2, norm2, qsum, Rsum. generalize (basis (width l)). induction l0 as [|b bs IH]; [simpl; lra|].
  cbn [map fold_right]. assert (X := Cn2_nonneg (psi b)). lra.
Qed.

(** An operator on the qubits [l] that keeps lengths. *)
Definition isometry (l : list nat) (F : qstate -> qstate) : Prop :=
  (forall c psi, F (scale c psi) = scale c (F psi)) /\
  forall psi, supported l psi -> supported l (F psi) /\ size2 l (F psi) = size2 l psi.

Lemma iso_gate1 : forall l U q, unitary U -> In q l -> isometry l (gate1 U q).
Proof.
  intros l U q Hu I. split; [intros; apply gate1_scale|]. intros psi S. split; [apply supported_gate1; auto|].
  unfold size2. apply norm2_gate1; auto. apply width_lt; auto.
Qed.
Lemma iso_cgate : forall l U cs q, unitary U -> In q l -> ~ In q cs -> isometry l (cgate cs U q).
Proof.
  intros l U cs q Hu I N. split; [intros; apply cgate_scale|]. intros psi S. split; [apply supported_cgate; auto|].
  unfold size2. apply norm2_cgate; auto. apply width_lt; auto.
Qed.
Lemma iso_cexp : forall l cs th ps qs, NoDup (cs ++ qs) -> incl qs l -> isometry l (ctrl_op cs (exp_op th (combine ps qs))).
Proof.
  intros l cs th ps qs N I. split; [intros; apply ctrl_exp_scale|]. intros psi S. split; [apply supported_exp; auto|].
  unfold size2. apply norm2_exp; auto. intros; apply width_lt; auto.
Qed.
Lemma iso_exp : forall l th ps qs, NoDup qs -> incl qs l -> isometry l (exp_op th (combine ps qs)).
Proof. intros l th ps qs N I. exact (iso_cexp l [] th ps qs N I). Qed.
Lemma iso_phase : forall l th q, isometry l (exp_op th [(PI_, q)]).
Proof.
  intros l th q. assert (E : forall psi, exp_op th [(PI_, q)] psi = scale (Cis th) psi).
  { intros. replace th with (- (- 2 * th / 2)) at 1 by field. rewrite ri_exp. do 2 f_equal. field. }
  split; [intros; apply exp_op_scale|]. intros psi S. rewrite E. split; [apply supported_scale; auto|].
  rewrite size2_scale, Cn2_Cis. ring.
Qed.
Lemma iso_swap : forall l a b, In a l -> In b l -> isometry l (swap_qubits a b).
Proof.
  intros l a b Ia Ib. split; [reflexivity|]. intros psi S. split; [apply supported_swap; auto|].
  unfold size2. apply norm2_swap; apply width_lt; auto.
Qed.
Lemma iso_r : forall l p th q, (p <> PI_ -> In q l) -> isometry l (exp_op th [(p, q)]).
Proof.
  intros l p th q H.
  assert (X : p <> PI_ -> isometry l (exp_op th [(p, q)])).
  { intros E. apply (iso_exp l th [p] [q]); [repeat constructor; auto|]. intros x [<-|[]]. auto. }
  destruct p; [apply iso_phase|apply X; discriminate..].
Qed.
Lemma iso_rc : forall l cs p th q, (cs <> [] \/ p <> PI_ -> NoDup (q :: cs) /\ incl (q :: cs) l) -> isometry l (ctrl_op cs (exp_op th [(p, q)])).
Proof.
  intros l cs p th q H. destruct cs as [|h cs].
  - change (isometry l (exp_op th [(p, q)])). apply iso_r. intros N. apply H; simpl; auto.
  - destruct H as [N I]; [left; discriminate|]. apply (iso_cexp l (h :: cs) th [p] [q]).
    + apply NoDup_cons_iff in N. destruct N as [N1 N2]. apply NoDup_app_intro; auto. { repeat constructor; auto. }
      intros x Hx [<-|[]]. auto.
    + intros x [<-|[]]. apply I. simpl; auto.
Qed.


(** ** Boxes *)
Lemma volume_app : forall a b, volume (a ++ b) = volume a * volume b.
Proof. induction a as [|[lo hi] a IH]; intros b; simpl; [ring|]. rewrite IH. ring. Qed.
Lemma inside_ext : forall b xs ys, (forall n, xs n = ys n) -> inside xs b -> inside ys b.
Proof.
  induction b as [|[lo hi] b IH]; simpl; auto. intros xs ys E [H1 H2]. rewrite <- E. split; auto.
  apply (IH (fun n => xs (S n))); auto.
Qed.
Lemma inside_app : forall a b xs, inside xs (a ++ b) <-> inside xs a /\ inside (fun n => xs (length a + n)%nat) b.
Proof.
  induction a as [|[lo hi] a IH]; intros b xs; simpl.
  - split; [intros H; split; auto|intros [_ H]; auto].
  - rewrite IH. tauto.
Qed.
Lemma inside_flat : forall b xs, Forall (fun r : R * R => 0 <= fst r /\ fst r <= snd r /\ snd r <= 1) b -> inside xs b -> volume b <> 0.
Proof.
  induction b as [|[lo hi] b IH]; simpl; intros xs F H; [lra|]. inversion F as [|? ? F1 F2]; subst. destruct H as [H1 H2].
  apply Rmult_integral_contrapositive. split; [lra|eauto].
Qed.
Lemma volume_bounds : forall b, Forall (fun r : R * R => 0 <= fst r /\ fst r <= snd r /\ snd r <= 1) b -> 0 <= volume b.
Proof. induction 1 as [|[lo hi] b H F IH]; simpl in *; [lra|]. apply Rmult_le_pos; lra. Qed.
Lemma partition_one : partition [[]].
Proof.
  split; [repeat constructor|]. split; [repeat constructor|]. intros xs _. left. exact I.
Qed.
Lemma partition_two : forall p, 0 <= p <= 1 -> partition [[(0, p)]; [(p, 1)]].
Proof.
  intros p H. split; [repeat (apply Forall_cons || apply Forall_nil); simpl; lra|]. split.
  - repeat (apply FOP_cons || apply FOP_nil || apply Forall_cons || apply Forall_nil). intros xs [[A _] [B _]]. lra.
  - intros xs U. assert (X := U 0%nat). destruct (Rlt_dec (xs 0%nat) p); [left|right; left]; simpl; split; auto; lra.
Qed.

(** Boxes with what happens in them, against a list of chances; [W] is the chance of getting there. *)
Definition tiling {X : Type} (W : R) (ls : list (box * X)) (ws : list (R * X)) : Prop :=
  Forall2 (fun y wy => volume (fst y) * W = fst wy /\ snd y = snd wy) ls ws /\ partition (map fst ls).

Definition graft {X Y : Type} (t : (box * X) * list (box * Y)) : list (box * Y) :=
  map (fun y => (fst (fst t) ++ fst y, snd y)) (snd t).
Lemma graft_in : forall X Y (t : (box * X) * list (box * Y)) b, In b (map fst (graft t)) ->
  exists b', In b' (map fst (snd t)) /\ b = fst (fst t) ++ b'.
Proof.
  intros X Y t b H. unfold graft in H. rewrite map_map in H. apply in_map_iff in H. destruct H as (y & <- & Hy).
  exists (fst y). split; auto. apply in_map; auto.
Qed.
Lemma FOP_app : forall (A : Type) (Q : A -> A -> Prop) a b, ForallOrdPairs Q a -> ForallOrdPairs Q b ->
  (forall x y, In x a -> In y b -> Q x y) -> ForallOrdPairs Q (a ++ b).
Proof.
  induction a as [|x a IH]; simpl; intros b Ha Hb H; auto. inversion Ha; subst. constructor.
  - apply Forall_app. split; auto. apply Forall_forall. auto.
  - apply IH; auto.
Qed.
Lemma partition_graft : forall X Y (ts : list ((box * X) * list (box * Y))), partition (map (fun t => fst (fst t)) ts) ->
  Forall (fun t => (snd t = [] /\ volume (fst (fst t)) = 0) \/ partition (map fst (snd t))) ts ->
  partition (map fst (flat_map graft ts)).
Proof.
  intros X Y ts (R1 & D1 & C1) F.
  assert (Fl : map fst (flat_map graft ts) = flat_map (fun t => map fst (graft t)) ts).
  { clear. induction ts; simpl; auto. rewrite map_app. congruence. }
  rewrite Fl. split; [|split].
  - apply Forall_forall. intros b Hb. apply in_flat_map in Hb. destruct Hb as (t & Ht & Hb). apply graft_in in Hb. destruct Hb as (b' & Hb' & ->).
    rewrite Forall_forall in F, R1. apply Forall_app. split.
    + apply R1. apply (in_map (fun t => fst (fst t))). auto.
    + destruct (F t Ht) as [[E _]|[R2 _]]; [rewrite E in Hb'; destruct Hb'|]. rewrite Forall_forall in R2. auto.
  - clear C1 Fl R1. induction ts as [|t ts IH]; simpl; [constructor|]. simpl in D1. inversion D1 as [|? ? D2 D3]; subst.
    inversion F as [|? ? F1 F2]; subst. apply FOP_app.
    + destruct F1 as [[E _]|(_ & D & _)]; [unfold graft; rewrite E; constructor|].
      unfold graft. clear - D. destruct t as [[b x] ls]; cbn [fst snd] in *. induction ls as [|y ls IH]; simpl in *; [constructor|].
      inversion D as [|? ? D1 D2]; subst. constructor; [|apply IH; auto]. apply Forall_forall. intros c Hc. rewrite map_map in Hc.
      apply in_map_iff in Hc. destruct Hc as (z & <- & Hz). cbn [fst]. intros xs [A B]. apply inside_app in A. apply inside_app in B.
      rewrite Forall_forall in D1. apply (D1 (fst z) (in_map fst _ _ Hz) (fun n => xs (length b + n)%nat)). tauto.
    + apply IH; auto.
    + intros c d Hc Hd xs [A B]. apply graft_in in Hc. destruct Hc as (c' & _ & ->). apply in_flat_map in Hd. destruct Hd as (u & Hu & Hd).
      apply graft_in in Hd. destruct Hd as (d' & _ & ->). apply inside_app in A. apply inside_app in B. rewrite Forall_forall in D2.
      apply (D2 (fst (fst u)) (in_map (fun t => fst (fst t)) _ _ Hu) xs). tauto.
  - intros xs U. specialize (C1 xs U). apply Exists_exists in C1. destruct C1 as (b & Hb & Hi). apply in_map_iff in Hb.
    destruct Hb as (t & <- & Ht). rewrite Forall_forall in F, R1. destruct (F t Ht) as [[_ Z]|(_ & _ & C2)].
    + exfalso. apply (inside_flat _ xs) in Z; auto. apply R1. apply (in_map (fun t => fst (fst t))). auto.
    + specialize (C2 (fun n => xs (length (fst (fst t)) + n)%nat)). assert (U2 : unit_samples (fun n => xs (length (fst (fst t)) + n)%nat)) by (intros n; apply U).
      apply C2 in U2. apply Exists_exists in U2. destruct U2 as (c & Hc & Ic). apply Exists_exists. exists (fst (fst t) ++ c). split.
      * apply in_flat_map. exists t. split; auto. unfold graft. rewrite map_map. apply in_map_iff in Hc. destruct Hc as (y & <- & Hy).
        apply in_map_iff. exists y. auto.
      * apply inside_app. auto.
Qed.

Lemma pick : forall (A B : Type) (Q : A -> B -> Prop) l, Forall (fun x => exists y, Q x y) l ->
  exists ts : list (A * B), map fst ts = l /\ Forall (fun t => Q (fst t) (snd t)) ts.
Proof.
  intros A B Q l F. induction F as [|x l [y H] F (ts & E & IH)].
  - exists []. auto.
  - exists ((x, y) :: ts). simpl. rewrite E. auto.
Qed.
(** One step after another. *)
Lemma tiling_bind : forall (X Y : Type) (W : R) (wt : X -> R) (bs : list (box * X)) (xs : list X) (f : X -> list (R * Y)) (G : box -> Y -> Prop),
  tiling W bs (map (fun x => (wt x, x)) xs) ->
  Forall (fun bx => exists ls, Forall2 (fun y wy => volume (fst y) * wt (snd bx) = fst wy /\ snd y = snd wy) ls (f (snd bx)) /\
    ((ls = [] /\ wt (snd bx) = 0 /\ W <> 0) \/ partition (map fst ls)) /\ Forall (fun y => G (fst bx ++ fst y) (snd y)) ls) bs ->
  exists ls, tiling W ls (flat_map f xs) /\ Forall (fun y => G (fst y) (snd y)) ls.
Proof.
  intros X Y W wt bs xs f G [V P] F. apply pick in F. destruct F as (ts & E & F). exists (flat_map graft ts). split; [split|].
  - subst bs. clear P. revert xs V. induction ts as [|t ts IH]; simpl; intros xs V; destruct xs as [|x xs]; simpl in V; inversion V as [|? ? ? ? V1 V2]; subst.
    + constructor.
    + inversion F as [|? ? (F1 & _) F2]; subst. cbn [fst snd] in V1. destruct V1 as [V1 Ex]. simpl. apply Forall2_app; [|apply IH; auto].
      subst x. unfold graft. clear - V1 F1. destruct t as [[b x] ls]; cbn [fst snd] in *. revert F1. generalize (f x). induction ls as [|y ls IH]; intros ws F1;
        inversion F1 as [|? wy ? ws' [A1 A2] F2]; subst; simpl; constructor; auto. cbn [fst snd]. split; auto. rewrite volume_app, <- A1, <- V1. rewrite (Rmult_comm (volume b)), Rmult_assoc. reflexivity.
  - subst bs. apply partition_graft.
    + rewrite map_map in P. exact P.
    + clear P. revert xs V. induction ts as [|t ts IH]; simpl; intros xs V; constructor;
        destruct xs as [|x xs]; simpl in V; inversion V as [|? ? ? ? V1 V2]; subst; inversion F as [|? ? (_ & F1 & _) F2]; subst; eauto.
      cbn [fst snd] in V1. destruct V1 as [V1 Ex]. destruct F1 as [(Z & Wt & Nz)|Hp]; auto. left. split; auto. subst x. assert (V3 := eq_trans V1 Wt).
      apply Rmult_integral in V3. destruct V3; [auto|congruence].
  - clear E V P. induction F as [|t ts (_ & _ & H) F IH]; simpl; [constructor|]. apply Forall_app. split; auto. unfold graft. clear - H.
    apply Forall_forall. intros y Hy. apply in_map_iff in Hy. destruct Hy as (z & <- & Hz). rewrite Forall_forall in H. exact (H z Hz).
Qed.

(** ** Measurements *)
(** Two results: the parts of the vector on the qubits [l'] are as long together as the vector on [l]. *)
Record two (l l' : list nat) (P : bool -> qstate -> qstate) : Prop := mkTwo {
  two_lin : forall r c psi, P r (scale c psi) = scale c (P r psi);
  two_sup : forall r psi, supported l psi -> supported l' (P r psi);
  two_sum : forall psi, supported l psi -> size2 l' (P true psi) + size2 l' (P false psi) = size2 l psi }.
Lemma size2_proj : forall l q r psi, size2 l (proj [q] r psi) = if r then born (width l) [q] psi else size2 l psi - born (width l) [q] psi.
Proof. intros. unfold size2. rewrite norm2_proj. reflexivity. Qed.
Lemma two_proj : forall l q, two l l (proj [q]).
Proof.
  intros l q. split.
  - intros. apply proj_scale.
  - intros. apply supported_proj; auto.
  - intros psi S. rewrite !size2_proj. ring.
Qed.
Lemma drop_scale' : forall q r c psi, drop_qubit q r (scale c psi) = scale c (drop_qubit q r psi).
Proof.
  intros. apply functional_extensionality. intros b. unfold drop_qubit, scale. destruct (bit b q); auto. ring.
Qed.
Lemma proj_off : forall q r psi b, bit b q <> r -> proj [q] r psi b = C0.
Proof.
  intros q r psi b H. unfold proj. rewrite par1. destruct (Bool.eqb (bit b q) r) eqn:E; auto. apply eqb_prop in E. contradiction.
Qed.
Lemma remove_incl : forall q l, incl (remove_id q l) l.
Proof. intros q l x H. unfold remove_id in H. apply filter_In in H. tauto. Qed.
Lemma size2_drop : forall l q r psi, In q l -> size2 l (drop_qubit q r (proj [q] r psi)) = size2 l (proj [q] r psi).
Proof. intros l q r psi I. unfold size2. apply norm2_drop; [apply width_lt; auto|]. intros. apply proj_off; auto. Qed.
Lemma two_drop : forall l q, In q l -> two l (remove_id q l) (fun r psi => drop_qubit q r (proj [q] r psi)).
Proof.
  intros l q I. assert (S1 : forall r psi, supported l psi -> supported (remove_id q l) (drop_qubit q r (proj [q] r psi))).
  { intros. apply supported_drop, supported_proj; auto. }
  split; auto.
  - intros. rewrite proj_scale, drop_scale'. reflexivity.
  - intros psi S. assert (E : forall r, size2 (remove_id q l) (drop_qubit q r (proj [q] r psi)) = size2 l (proj [q] r psi)).
    { intros r. rewrite <- size2_drop by auto. symmetry. apply size2_incl; auto. apply remove_incl. }
    rewrite !E. apply (two_sum _ _ _ (two_proj l q)); auto.
Qed.
Lemma two_reset : forall l q, In q l -> two l l (fun r psi => drop_qubit q r (proj [q] r psi)).
Proof.
  intros l q I. destruct (two_drop l q I) as [L S1 S2]. split; auto.
  - intros. eapply supported_incl; [apply remove_incl|apply S1; auto].
  - intros psi S. rewrite <- (S2 psi S). f_equal; apply size2_incl; auto; apply remove_incl.
Qed.
Lemma two_eigen : forall l cl, NoDup (map snd cl) -> (forall p q, In (p, q) cl -> p <> PI_) -> incl (map snd cl) l -> two l l (eigen_proj cl).
Proof.
  intros l cl N H I.
  assert (PS : forall c psi, pauli_product cl (scale c psi) = scale c (pauli_product cl psi)).
  { intros c psi. clear. induction cl as [|[p t] cl IH]; simpl; auto. rewrite IH. apply gate1_scale. }
  split.
  - intros r c psi. apply functional_extensionality. intros b. unfold eigen_proj. rewrite PS. unfold scale. destruct r; ring.
  - intros r psi S b i Hb Hi. unfold eigen_proj. rewrite (S b i Hb Hi). rewrite (supported_pauli l cl psi I S b i Hb Hi). destruct r; ring.
  - intros psi S. unfold size2. assert (L : forall q, In q (map snd cl) -> (q < width l)%nat) by (intros; apply width_lt; auto).
    rewrite <- (norm2_turn zmat (width l) cl (eigen_proj cl true psi)), <- (norm2_turn zmat (width l) cl (eigen_proj cl false psi)) by auto using uzmat.
    rewrite <- !turn_eigen, !norm2_proj by auto. rewrite <- (norm2_turn zmat (width l) cl psi) by auto using uzmat. ring.
Qed.

(** A vector that is a positive multiple of a state. *)
Definition ray (l : list nat) (phi psi : qstate) : Prop :=
  exists a, 0 < a /\ phi = scale (RtoC a) psi /\ size2 l psi = 1 /\ supported l psi.
Lemma ray_size : forall l phi psi, ray l phi psi -> 0 < size2 l phi.
Proof. intros l phi psi (a & A & -> & N & _). rewrite size2_scale, N, Cn2_RtoC. nra. Qed.
Lemma ray_incl : forall l l' phi psi, incl l l' -> ray l phi psi -> ray l' phi psi.
Proof.
  intros l l' phi psi I (a & A & E & N & S). exists a. repeat (split; auto). { rewrite (size2_incl l); auto. } eapply supported_incl; eauto.
Qed.
Lemma ray_iso : forall l F phi psi, isometry l F -> ray l phi psi -> ray l (F phi) (F psi).
Proof.
  intros l F phi psi [L I] (a & A & -> & N & S). exists a. rewrite L. destruct (I psi S) as [S1 N1]. rewrite N1. auto.
Qed.
Lemma ray_frac : forall l l' P phi psi r, two l l' P -> ray l phi psi -> size2 l' (P r phi) / size2 l phi = size2 l' (P r psi).
Proof.
  intros l l' P phi psi r [L _ _] (a & A & -> & N & S). rewrite L, !size2_scale, N, Cn2_RtoC. field. lra.
Qed.
Lemma ray_part : forall l l' P phi psi r, two l l' P -> ray l phi psi -> 0 < size2 l' (P r psi) ->
  ray l' (P r phi) (scale (RtoC (1 / sqrt (size2 l' (P r psi)))) (P r psi)).
Proof.
  intros l l' P phi psi r [L S1 _] (a & A & -> & N & S) H. set (p := size2 l' (P r psi)) in *. assert (Hs := sqrt_lt_R0 p H).
  exists (a * sqrt p). split; [nra|]. split; [|split].
  - rewrite L, scale_scale. f_equal. unfold RtoC, Cmul. simpl. apply pair_equal_spec. split; field; lra.
  - rewrite size2_scale, Cn2_RtoC. fold p. rewrite <- (sqrt_sqrt p) at 3 by lra. field. lra.
  - apply supported_scale. auto.
Qed.
Lemma ray_nothing : forall l phi psi, ray l phi psi -> ray [] (nothing l phi) ket0.
Proof.
  intros l phi psi R0. assert (H := ray_size l phi psi R0). exists (sqrt (size2 l phi)). split; [apply sqrt_lt_R0; auto|]. split; auto. split.
  - apply ket0_norm.
  - apply ket0_supported.
Qed.
Lemma size2_nothing : forall l phi, size2 [] (nothing l phi) = size2 l phi.
Proof.
  intros l phi. unfold nothing. rewrite size2_scale, Cn2_RtoC. unfold size2 at 3. rewrite ket0_norm. rewrite Rmult_1_r. apply sqrt_sqrt. apply size2_pos.
Qed.
Lemma supported_nothing : forall l phi, supported [] (nothing l phi).
Proof. intros. apply supported_scale, ket0_supported. Qed.

(** The share of the first result. *)
Definition share (l l' : list nat) (P : bool -> qstate -> qstate) (phi : qstate) : R := size2 l' (P true phi) / size2 l phi.
Lemma share_ok : forall l l' P phi, two l l' P -> supported l phi -> 0 <= share l l' P phi <= 1 /\
  share l l' P phi * size2 l phi = size2 l' (P true phi) /\ (1 - share l l' P phi) * size2 l phi = size2 l' (P false phi).
Proof.
  intros l l' P phi [L S1 S2] S. unfold share. specialize (S2 phi S). assert (A := size2_pos l' (P true phi)). assert (B := size2_pos l' (P false phi)).
  destruct (Req_dec (size2 l phi) 0) as [E|E].
  - rewrite E in *. assert (E1 : size2 l' (P true phi) = 0) by lra. assert (E2 : size2 l' (P false phi) = 0) by lra. rewrite E1, E2.
    unfold Rdiv. rewrite Rmult_0_l. lra.
  - assert (W : 0 < size2 l phi) by (assert (X := size2_pos l phi); lra). split; [|split].
    + split; [apply Rmult_le_pos; auto; left; apply Rinv_0_lt_compat; auto|]. apply (Rmult_le_reg_r (size2 l phi)); auto.
      unfold Rdiv. rewrite Rmult_assoc, Rinv_l, Rmult_1_r, Rmult_1_l by auto. lra.
    + field. auto.
    + replace (size2 l' (P false phi)) with (size2 l phi - size2 l' (P true phi)) by lra. field. auto.
Qed.
Definition two_boxes {X : Type} (p : R) (f : bool -> X) : list (box * X) := [([(0, p)], f true); ([(p, 1)], f false)].
Lemma two_tiling : forall l l' P phi (X : Type) (f : bool -> X) (wt : X -> R), two l l' P -> supported l phi ->
  (forall r, wt (f r) = size2 l' (P r phi)) ->
  tiling (size2 l phi) (two_boxes (share l l' P phi) f) (map (fun x => (wt x, x)) [f true; f false]).
Proof.
  intros l l' P phi X f wt Hw S E. destruct (share_ok l l' P phi Hw S) as (B & A1 & A2). split.
  - repeat constructor; cbn [fst snd volume]; rewrite E; [rewrite <- A1|rewrite <- A2]; ring.
  - apply partition_two. exact B.
Qed.
(** In the box of a result the sample gives that result, and the result has a chance. *)
Lemma two_inside : forall l l' P phi psi (x : R) (r : bool), two l l' P -> ray l phi psi -> 
  (if r then 0 <= x < share l l' P phi else share l l' P phi <= x < 1) ->
  (if Rlt_dec x (size2 l' (P true psi)) then true else false) = r /\ 0 < size2 l' (P r psi) /\
  size2 l' (P r psi) = (if r then size2 l' (P true psi) else 1 - size2 l' (P true psi)).
Proof.
  intros l l' P phi psi x r Hw R0 H. assert (E := ray_frac l l' P phi psi true Hw R0). unfold share in H. rewrite E in H.
  assert (E1 : size2 l' (P false psi) = 1 - size2 l' (P true psi)).
  { destruct R0 as (a & _ & _ & N & S). assert (X := two_sum _ _ _ Hw psi S). lra. }
  destruct r; destruct (Rlt_dec x (size2 l' (P true psi))); split; auto; try lra.
Qed.

Lemma nodup2 : forall a b : nat, a <> b -> NoDup [a; b].
Proof. intros a b N. repeat constructor; auto. intros [E|[]]. auto. Qed.
Section WithEnv.
Context {T : Tol} {EN : Env} {D : Doubles} {SW : Shows} {RN : Rand}.

Lemma live_opens : forall k c F, bop c = Some F -> bb_live (bbstep k c) = opened (bb_max k) (bb_live k) (bnames c).
Proof. intros k c F E. destruct c; try discriminate E; reflexivity. Qed.
Lemma bop_iso : forall k c F, bop c = Some F -> bvalid k c -> isometry (opened (bb_max k) (bb_live k) (bnames c)) F.
Proof.
  intros k c F E V. destruct c; try discriminate E; injection E as <-; cbn [bvalid bnames] in V |- *;
    repeat match goal with H : _ /\ _ |- _ => destruct H end.
  - apply iso_gate1; [apply ugmat|]; auto with datatypes.
  - apply iso_cgate; [apply ugmat|auto with datatypes|inversion H; auto].
  - apply iso_cgate; [apply ugmat|auto with datatypes|inversion H; auto].
  - apply iso_cgate; [apply ugmat|auto with datatypes|inversion H; auto].
  - apply iso_gate1; [apply usx|]; auto with datatypes.
  - apply (iso_exp _ _ [PX_; PX_] [a; b]); [apply nodup2; auto|]. intros x [<-|[<-|[]]]; auto. exact (opened_incl _ _ [a] [b] a H).
  - apply (iso_exp _ _ [PY_; PY_] [a; b]); [apply nodup2; auto|]. intros x [<-|[<-|[]]]; auto. exact (opened_incl _ _ [a] [b] a H).
  - apply (iso_exp _ _ [PZ_; PZ_] [a; b]); auto.
  - apply iso_r. intros N. destruct p; try congruence; auto with datatypes.
  - apply iso_r. intros N. destruct p; try congruence; auto with datatypes.
  - apply iso_rc. intros N. destruct cs as [|h cs]; destruct p; auto; destruct N; congruence.
  - apply iso_rc. intros N. destruct cs as [|h cs]; destruct p; auto; destruct N; congruence.
  - apply iso_exp; auto.
  - apply iso_exp; auto.
  - apply iso_cexp; auto. intros x Hx. apply H0. apply in_or_app. auto.
  - apply iso_cexp; auto. intros x Hx. apply H0. apply in_or_app. auto.
  - apply iso_swap; auto.
  - split; auto.
Qed.

(** ** Samples *)
Lemma gen_after_add : forall a b g, gen_after (a + b) g = gen_after b (gen_after a g).
Proof. induction a as [|a IH]; intros b g; simpl; auto. Qed.
Lemma samples_shift : forall k g n, samples_of g (k + n)%nat = samples_of (gen_after k g) n.
Proof. intros. unfold samples_of. rewrite gen_after_add. reflexivity. Qed.
Lemma inside_samples : forall a b g, inside (samples_of g) (a ++ b) <-> inside (samples_of g) a /\ inside (samples_of (gen_after (length a) g)) b.
Proof.
  intros a b g. rewrite inside_app. split; intros [H1 H2]; split; auto; (eapply inside_ext; [|exact H2]); intros n; cbv beta;
    [|symmetry]; apply samples_shift.
Qed.

(** ** Giving up qubits *)
Lemma remove_keeps : forall q qs l, ~ In q qs -> incl (q :: qs) l -> incl qs (remove_id q l).
Proof.
  intros q qs l N I x Hx. unfold remove_id. apply filter_In. split; [apply I; simpl; auto|]. apply negb_true_iff, Nat.eqb_neq. intros ->. auto.
Qed.
Lemma outcome_size : forall l q psi x, SpecRun.outcome l [q] psi x = if Rlt_dec x (size2 l (proj [q] true psi)) then true else false.
Proof. intros. rewrite size2_proj. reflexivity. Qed.
Lemma size2_dropped : forall l q r psi, In q l -> supported l psi ->
  size2 (remove_id q l) (drop_qubit q r (proj [q] r psi)) = size2 l (proj [q] r psi).
Proof.
  intros l q r psi I S. rewrite <- size2_drop by auto. symmetry. apply size2_incl; [apply remove_incl|]. apply supported_drop, supported_proj; auto.
Qed.
Lemma discards_tiles : forall qs l phi, NoDup qs -> incl qs l -> supported l phi ->
  let l' := fold_left (fun l q => remove_id q l) qs l in
  exists ls, tiling (size2 l phi) ls (map (fun psi => (size2 l' psi, psi)) (discards qs l phi)) /\
    Forall (fun y => supported l' (snd y) /\ forall psi g, ray l phi psi -> inside (samples_of g) (fst y) ->
      exists psi', fold_left discard qs (l, psi, g) = (l', psi', gen_after (length (fst y)) g) /\ ray l' (snd y) psi') ls.
Proof.
  induction qs as [|q qs IH]; intros l phi N I S l'; simpl in l'.
  - exists [([], phi)]. split.
    + split; [|apply partition_one]. simpl. repeat constructor. cbn [fst volume]. unfold l'. ring.
    + constructor; [|constructor]. cbn [fst snd]. split; auto. intros psi g R0 _. exists psi. auto.
  - apply NoDup_cons_iff in N. destruct N as [N1 N2]. assert (I2 := remove_keeps q qs l N1 I). cbn [discards].
    assert (Iq : In q l) by (apply I; simpl; auto). destruct (remove_id q l) as [|k0 l0] eqn:El.
    + destruct (IH [] (nothing l phi) N2 I2 (supported_nothing l phi)) as (ls & T1 & F1). rewrite size2_nothing in T1. exists ls. split; [exact T1|].
      eapply Forall_impl; [|exact F1]. intros y [Sy Fy]. split; [exact Sy|]. intros psi g R0 Hi. cbn [fold_left].
      replace (discard (l, psi, g) q) with (@nil nat, ket0, g) by (unfold discard; rewrite El; reflexivity). apply Fy; auto. eapply ray_nothing; eauto.
    + assert (Tw := two_drop l q Iq). rewrite El in Tw. set (l1 := k0 :: l0) in *. set (P := fun r psi => drop_qubit q r (proj [q] r psi)) in *.
      assert (Tt := two_tiling l l1 P phi qstate (fun r => P r phi) (size2 l1) Tw S (fun r => eq_refl)).
      destruct (tiling_bind qstate qstate (size2 l phi) (size2 l1) _ _ (fun x => map (fun psi => (size2 l' psi, psi)) (discards qs l1 x))
        (fun b x => supported l' x /\ forall psi g, ray l phi psi -> inside (samples_of g) b ->
           exists psi', fold_left discard (q :: qs) (l, psi, g) = (l', psi', gen_after (length b) g) /\ ray l' x psi') Tt) as (ls & T1 & F1).
      * assert (X : forall (r : bool) (rg : R * R), (forall x : R, fst rg <= x < snd rg -> if r then 0 <= x < share l l1 P phi else share l l1 P phi <= x < 1) ->
          exists ls : list (box * qstate),
            Forall2 (fun y wy => volume (fst y) * size2 l1 (P r phi) = fst wy /\ snd y = snd wy) ls (map (fun psi => (size2 l' psi, psi)) (discards qs l1 (P r phi))) /\
            ((ls = [] /\ size2 l1 (P r phi) = 0 /\ size2 l phi <> 0) \/ partition (map fst ls)) /\
            Forall (fun y => supported l' (snd y) /\ forall psi g, ray l phi psi -> inside (samples_of g) ([rg] ++ fst y) ->
              exists psi', fold_left discard (q :: qs) (l, psi, g) = (l', psi', gen_after (length ([rg] ++ fst y)) g) /\ ray l' (snd y) psi') ls).
        { intros r rg Hrg. destruct (IH l1 (P r phi) N2 I2 (two_sup _ _ _ Tw r phi S)) as (ls & [T1 T2] & F1). exists ls. split; [exact T1|]. split; [auto|].
          eapply Forall_impl; [|exact F1]. intros y [Sy Fy]. split; [exact Sy|]. intros psi g R0 Hi. apply inside_samples in Hi. destruct Hi as [Hx Hi].
          destruct rg as [lo hi]. simpl in Hx. destruct Hx as [Hx _]. apply (Hrg (samples_of g 0%nat)) in Hx. change (samples_of g 0%nat) with (fst (draw g)) in Hx.
          destruct (two_inside l l1 P phi psi _ r Tw R0 Hx) as (E1 & E2 & E3). assert (R1 := ray_part l l1 P phi psi r Tw R0 E2).
          assert (Sp : supported l psi) by (destruct R0 as (? & _ & _ & _ & Sp); exact Sp).
          destruct (Fy _ (snd (draw g)) R1 Hi) as (psi' & E4 & R2). exists psi'. split; [|exact R2].
          change (length ([(lo, hi)] ++ fst y)) with (Datatypes.S (length (fst y))). refine (eq_trans _ E4). cbn [fold_left]. f_equal. unfold discard. rewrite El. fold l1.
          assert (Ez : forall r : bool, size2 l1 (P r psi) = size2 l (proj [q] r psi)).
          { intros r0. unfold P. rewrite <- El. apply size2_dropped; auto. }
          rewrite outcome_size, <- Ez, E1. unfold collapsed. rewrite drop_scale'. fold (P r psi). rewrite E3, (Ez true), size2_proj. reflexivity. }
        unfold two_boxes. constructor; [|constructor; [|constructor]]; cbn [fst snd]; apply X; simpl; auto.
      * exists ls. split; [|exact F1]. cbn [flat_map] in T1. rewrite app_nil_r, <- map_app in T1. exact T1.
Qed.

(** ** One call *)
Definition agree (m : ideal) (h : path) : Prop :=
  i_book m = h_book h /\ i_used m = h_used h /\ i_res m = h_res h /\ i_out m = h_out h.
Definition along (m : ideal) (h : path) : Prop := agree m h /\ ray (bb_live (h_book h)) (h_vec h) (i_psi m).
Definition side_wt (h : path) (x : side) : R := match x with Go _ h' => chance h' | Halt _ _ => chance h end.
Definition follows (h : path) (c : bcall) (b : box) (x : side) : Prop :=
  forall m, along m h -> inside (samples_of (i_gen m)) b ->
  match x with
  | Go r h' => exists m', ideal_step m c = IGo r m' /\ along m' h' /\ i_gen m' = gen_after (length b) (i_gen m)
  | Halt e o => ideal_step m c = IHalt e o
  end.
Definition side_sup (x : side) : Prop := match x with Go _ h' => supported (bb_live (h_book h')) (h_vec h') | Halt _ _ => True end.
Definition steps (h : path) (c : bcall) : Prop :=
  exists bs, tiling (chance h) bs (map (fun x => (side_wt h x, x)) (sides h c)) /\
    Forall (fun bx => side_sup (snd bx) /\ follows h c (fst bx) (snd bx)) bs /\
    Rsum (map (side_wt h) (sides h c)) = chance h.

Lemma one_step : forall h c x, sides h c = [x] -> side_wt h x = chance h -> side_sup x ->
  (forall m, along m h -> match x with
     | Go r h' => exists m', ideal_step m c = IGo r m' /\ along m' h' /\ i_gen m' = i_gen m
     | Halt e o => ideal_step m c = IHalt e o end) -> steps h c.
Proof.
  intros h c x E W S F. exists [([], x)]. rewrite E. split; [|split].
  - split; [|apply partition_one]. repeat constructor. cbn [fst volume]. rewrite W. ring.
  - constructor; [|constructor]. cbn [fst snd]. split; auto. intros m A _. apply (F m A).
  - unfold Rsum. simpl. rewrite W. ring.
Qed.
Lemma two_step : forall h c l1 P rep hh, sides h c = bothways (fun r => Go (rep r) (hh r)) ->
  incl (bb_live (h_book h)) l1 -> supported (bb_live (h_book h)) (h_vec h) -> two l1 l1 P ->
  (forall r, bb_live (h_book (hh r)) = l1 /\ h_vec (hh r) = P r (h_vec h)) ->
  (forall m r, along m h -> (if Rlt_dec (fst (draw (i_gen m))) (size2 l1 (P true (i_psi m))) then true else false) = r ->
     size2 l1 (P r (i_psi m)) = (if r then size2 l1 (P true (i_psi m)) else 1 - size2 l1 (P true (i_psi m))) ->
     exists m', ideal_step m c = IGo (rep r) m' /\ agree m' (hh r) /\ i_gen m' = snd (draw (i_gen m)) /\
       i_psi m' = scale (RtoC (1 / sqrt (size2 l1 (P r (i_psi m))))) (P r (i_psi m))) -> steps h c.
Proof.
  intros h c l1 P rep hh E I S Tw Eh F. assert (S1 := supported_incl _ _ _ I S). set (phi := h_vec h) in *.
  exists (two_boxes (share l1 l1 P phi) (fun r => Go (rep r) (hh r))). rewrite E. split; [|split].
  - unfold chance. fold phi. rewrite <- (size2_incl (bb_live (h_book h)) l1 phi I S). apply (two_tiling l1 l1 P phi side (fun r => Go (rep r) (hh r)) (side_wt h) Tw S1).
    intros r. simpl. unfold chance. destruct (Eh r) as [-> ->]. reflexivity.
  - assert (X : forall (r : bool) (rg : R * R), (forall x : R, fst rg <= x < snd rg -> if r then 0 <= x < share l1 l1 P phi else share l1 l1 P phi <= x < 1) ->
      side_sup (Go (rep r) (hh r)) /\ follows h c [rg] (Go (rep r) (hh r))).
    { intros r rg Hrg. split.
      - simpl. destruct (Eh r) as [-> ->]. apply (two_sup _ _ _ Tw); auto.
      - intros m A Hi. destruct rg as [lo hi]. simpl in Hi. destruct Hi as [Hx _]. apply (Hrg (samples_of (i_gen m) 0%nat)) in Hx.
        change (samples_of (i_gen m) 0%nat) with (fst (draw (i_gen m))) in Hx.
        assert (R0 := ray_incl _ _ _ _ I (proj2 A)). fold phi in R0. destruct (two_inside l1 l1 P phi (i_psi m) _ r Tw R0 Hx) as (E1 & E2 & E3).
        destruct (F m r A E1 E3) as (m' & F1 & F2 & F3 & F4). exists m'. split; auto. split; auto. split; auto. destruct (Eh r) as [-> ->].
        rewrite F4. apply (ray_part l1 l1 P); auto. }
    unfold two_boxes. constructor; [|constructor; [|constructor]]; cbn [fst snd]; apply X; simpl; auto.
  - unfold Rsum, bothways. cbn [map fold_right side_wt]. unfold chance. destruct (Eh true) as [-> ->], (Eh false) as [-> ->]. fold phi.
    rewrite Rplus_0_r, (two_sum _ _ _ Tw phi S1). apply size2_incl; auto.
Qed.

Lemma collapse_form : forall l q (r : bool) psi, size2 l (proj [q] r psi) = (if r then size2 l (proj [q] true psi) else 1 - size2 l (proj [q] true psi)) ->
  collapsed l [q] r psi = scale (RtoC (1 / sqrt (size2 l (proj [q] r psi)))) (proj [q] r psi).
Proof. intros l q r psi E. rewrite E. unfold collapsed. rewrite !size2_proj. reflexivity. Qed.
Lemma live_named : forall k c, match c with QAlloc | QAllocArray _ | QRelease _ | QReleaseArray _ | QInit => True | _ =>
  incl (bb_live k) (bb_live (bbstep k c)) end.
Proof. intros k c. destruct c; try exact I; apply grow_incl. Qed.
Lemma paired_fst : forall ps qs p q, In (p, q) (paired ps qs) -> p <> PI_.
Proof. exact paired_no_id. Qed.

Lemma tiling_map : forall (X Y : Type) (g : X -> Y) W ls (wt : X -> R) (wt' : Y -> R) ds, (forall x, wt' (g x) = wt x) ->
  tiling W ls (map (fun x => (wt x, x)) ds) -> tiling W (map (fun y => (fst y, g (snd y))) ls) (map (fun y => (wt' y, y)) (map g ds)).
Proof.
  intros X Y g W ls wt wt' ds E [F P]. split.
  - clear P. revert ds F. induction ls as [|y ls IH]; intros ds F; destruct ds as [|d ds]; simpl in F; inversion F as [|? ? ? ? F1 F2]; subst; simpl; constructor; auto.
    cbn [fst snd] in *. rewrite E. destruct F1 as [F1 F3]. split; [exact F1|congruence].
  - rewrite map_map. exact P.
Qed.
Lemma Rsum_app' : forall a b, Rsum (a ++ b) = Rsum a + Rsum b.
Proof. unfold Rsum. induction a as [|x a IH]; intros b; simpl; [ring|]. rewrite IH. ring. Qed.
Lemma discards_sum : forall qs l phi, NoDup qs -> incl qs l -> supported l phi ->
  Rsum (map (size2 (fold_left (fun l q => remove_id q l) qs l)) (discards qs l phi)) = size2 l phi.
Proof.
  induction qs as [|q qs IH]; intros l phi N I S.
  - unfold Rsum. simpl. ring.
  - apply NoDup_cons_iff in N. destruct N as [N1 N2]. assert (I2 := remove_keeps q qs l N1 I). assert (Iq : In q l) by (apply I; simpl; auto).
    cbn [fold_left discards]. destruct (remove_id q l) as [|k0 l0] eqn:El.
    + rewrite IH by (auto; apply supported_nothing). apply size2_nothing.
    + assert (Tw := two_drop l q Iq). rewrite El in Tw. rewrite map_app, Rsum_app', !IH; auto; try (apply (two_sup _ _ _ Tw); auto). apply (two_sum _ _ _ Tw); auto.
Qed.
Lemma release_step : forall h c qs k, sides h c = map (fun psi' => Go VUnit (moved h k psi')) (discards qs (bb_live (h_book h)) (h_vec h)) ->
  bb_live k = fold_left (fun l q => remove_id q l) qs (bb_live (h_book h)) -> NoDup qs -> incl qs (bb_live (h_book h)) ->
  supported (bb_live (h_book h)) (h_vec h) ->
  (forall m, i_book m = h_book h -> forall x psi' g', fold_left discard qs (bb_live (h_book h), i_psi m, i_gen m) = (x, psi', g') -> ideal_step m c = IGo VUnit (put m k psi' g')) ->
  steps h c.
Proof.
  intros h c qs k E Ek N I S F. destruct (discards_tiles qs _ _ N I S) as (ls & T1 & F1). rewrite <- Ek in T1, F1.
  exists (map (fun y => (fst y, Go VUnit (moved h k (snd y)))) ls). rewrite E. split; [|split].
  - apply (tiling_map qstate side (fun psi' => Go VUnit (moved h k psi')) (chance h) ls (size2 (bb_live k)) (side_wt h)); [reflexivity|exact T1].
  - apply Forall_forall. intros bx Hb. apply in_map_iff in Hb. destruct Hb as (y & <- & Hy). rewrite Forall_forall in F1. destruct (F1 y Hy) as [Sy Fy].
    cbn [fst snd]. split; [exact Sy|]. intros m A Hi. destruct A as [(A1 & A2 & A3 & A4) R0]. destruct (Fy _ _ R0 Hi) as (psi' & E1 & R1).
    eexists. split; [apply (F m A1 _ _ _ E1)|]. split; [|reflexivity]. unfold along, agree. simpl. repeat (split; auto).
  - rewrite map_map. assert (X := discards_sum qs _ _ N I S). rewrite <- Ek in X. exact X.
Qed.

Ltac agreed A := unfold along in A; destruct A as [(A1 & A2 & A3 & A4) R0].
Lemma step_tiles : forall h c, supported (bb_live (h_book h)) (h_vec h) -> hvalid h c -> c <> QCapture -> c <> QDump 0 -> steps h c.
Proof.
  intros h c S V NC ND. destruct (bop c) as [F|] eqn:E.
  { assert (V' : bvalid (h_book h) c) by (destruct c; try discriminate E; exact V).
    assert (Iso := bop_iso _ _ _ E V'). rewrite <- (live_opens _ _ _ E) in Iso.
    assert (I : incl (bb_live (h_book h)) (bb_live (bbstep (h_book h) c))) by (rewrite (live_opens _ _ _ E); apply grow_incl).
    assert (S1 := supported_incl _ _ _ I S). destruct Iso as [L Iso]. destruct (Iso _ S1) as [S2 N2].
    apply one_step with (Go VUnit (moved h (bbstep (h_book h) c) (F (h_vec h)))).
    - unfold sides. rewrite E. reflexivity.
    - simpl. unfold chance. simpl. rewrite N2. apply size2_incl; auto.
    - exact S2.
    - intros m A. agreed A. unfold ideal_step. rewrite E. eexists. split; [reflexivity|]. split; [|reflexivity]. unfold along, agree. simpl. rewrite A1.
      split; [repeat (split; auto)|]. apply ray_iso; [split; auto|]. eapply ray_incl; eauto. }
  destruct c; try discriminate E; try congruence.
  - (* QReset *)
    assert (Iq : In q (bb_live (bbstep (h_book h) (QReset q)))) by (apply V; simpl; auto).
    eapply (two_step h (QReset q) (bb_live (bbstep (h_book h) (QReset q))) (fun r psi => drop_qubit q r (proj [q] r psi)) (fun _ => VUnit)); [reflexivity|apply grow_incl|exact S|apply (two_reset _ q Iq)|auto|].
    intros m r A Er Ez. agreed A. rewrite !size2_drop in Er by auto. rewrite !size2_drop in Ez by auto. rewrite size2_drop by auto.
    unfold ideal_step. cbn [bop]. rewrite A1, outcome_size, Er. eexists. split; [reflexivity|]. unfold agree. simpl. rewrite A2, A3, A4. repeat (split; auto).
    rewrite collapse_form, drop_scale' by exact Ez. reflexivity.
  - (* QMresetz *)
    assert (Iq : In q (bb_live (bbstep (h_book h) (QMresetz q i)))) by (apply V; simpl; auto).
    eapply (two_step h (QMresetz q i) (bb_live (bbstep (h_book h) (QMresetz q i))) (fun r psi => drop_qubit q r (proj [q] r psi)) (fun _ => VUnit)); [reflexivity|apply grow_incl|exact S|apply (two_reset _ q Iq)|auto|].
    intros m r A Er Ez. agreed A. rewrite !size2_drop in Er by auto. rewrite !size2_drop in Ez by auto. rewrite size2_drop by auto.
    unfold ideal_step. cbn [bop]. rewrite A1, outcome_size, Er. eexists. split; [reflexivity|]. unfold agree. simpl. rewrite A2, A3, A4. repeat (split; auto).
    rewrite collapse_form, drop_scale' by exact Ez. reflexivity.
  - (* QMz *)
    eapply (two_step h (QMz q i) (bb_live (bbstep (h_book h) (QMz q i))) (proj [q]) (fun _ => VUnit)); [reflexivity|apply grow_incl|exact S|apply two_proj|auto|].
    intros m r A Er Ez. agreed A.
    unfold ideal_step. cbn [bop]. rewrite A1, outcome_size, Er. eexists. split; [reflexivity|]. unfold agree. simpl. rewrite A2, A3, A4. repeat (split; auto).
    rewrite collapse_form by exact Ez. reflexivity.
  - (* QReadResult *)
    eapply one_step; [reflexivity|reflexivity|exact S|]. intros m A. agreed A. unfold ideal_step. cbn [bop]. rewrite A3. eexists. split; [reflexivity|].
    unfold along, agree. simpl. rewrite A2. repeat (split; auto).
  - (* QWriteResult *)
    eapply one_step; [reflexivity|reflexivity|exact S|]. intros m A. agreed A. unfold ideal_step. cbn [bop]. eexists. split; [reflexivity|].
    unfold along, agree. simpl. rewrite A2, A3. repeat (split; auto).
  - (* QM *)
    eapply (two_step h (QM q) (bb_live (bbstep (h_book h) (QM q))) (proj [q]) as_result); [reflexivity|apply grow_incl|exact S|apply two_proj|auto|].
    intros m r A Er Ez. agreed A.
    unfold ideal_step. cbn [bop]. rewrite A1, outcome_size, Er. eexists. split; [reflexivity|]. unfold agree. simpl. rewrite A2, A3, A4. repeat (split; auto).
    rewrite collapse_form by exact Ez. reflexivity.
  - (* QMeasure *)
    destruct V as (V1 & V2 & V3).
    eapply (two_step h (QMeasure ps qs) (bb_live (bbstep (h_book h) (QMeasure ps qs))) (eigen_proj (paired ps qs)) as_result); [reflexivity|apply grow_incl|exact S|
      apply two_eigen; [exact V1|apply paired_fst|exact V2]|auto|].
    intros m r A Er Ez. agreed A.
    unfold ideal_step. cbn [bop]. rewrite A1. unfold truly, one_prob. unfold size2 in Er. rewrite Er.
    eexists. split; [reflexivity|]. unfold agree. simpl. rewrite A2, A3, A4. repeat (split; auto).
    apply (f_equal (fun z => scale (RtoC (1 / sqrt z)) (eigen_proj (paired ps qs) r (i_psi m)))). symmetry. exact Ez.
  - (* QIsZero *)
    eapply one_step; [reflexivity| | |].
    + simpl. unfold chance. simpl. apply size2_incl; [apply grow_incl|auto].
    + simpl. eapply supported_incl; [apply grow_incl|auto].
    + intros m A. agreed A. unfold ideal_step. cbn [bop]. rewrite A1. destruct R0 as (a & Ha & Ea & R1). eexists. split; [|split; [|]].
      * f_equal. f_equal. rewrite Ea, born_scale, Cn2_RtoC. unfold truly.
        set (w := born _ [q] (i_psi m)). destruct (Req_EM_T w 0) as [Z|Z], (Req_EM_T (a * a * w) 0) as [Z'|Z']; auto.
        -- rewrite Z in Z'. exfalso. apply Z'. ring.
        -- apply Rmult_integral in Z'. exfalso. destruct Z'; [nra|auto].
      * unfold along, agree. simpl. rewrite ?A1. split; [repeat (split; auto)|]. eapply ray_incl; [apply grow_incl|]. exists a. auto.
      * reflexivity.
  - (* QAssert *)
    destruct V as (V1 & V2 & V3). assert (Tw : two (bb_live (bbstep (h_book h) (QAssert ps qs result prob msg tolerance)))
      (bb_live (bbstep (h_book h) (QAssert ps qs result prob msg tolerance))) (eigen_proj (paired ps qs))).
    { apply two_eigen; [exact V1|apply paired_fst|exact V2]. }
    set (l1 := bb_live (bbstep (h_book h) (QAssert ps qs result prob msg tolerance))) in *.
    assert (X : forall m, along m h -> result_prob (width l1) (paired ps qs) (negb (Nat.eqb result 0)) (i_psi m) =
      size2 l1 (eigen_proj (paired ps qs) (negb (Nat.eqb result 0)) (h_vec h)) / size2 l1 (h_vec h)).
    { intros m A. agreed A. assert (R1 := ray_incl _ l1 _ _ (grow_incl _ _) R0). rewrite (ray_frac _ _ _ _ _ _ Tw R1). unfold result_prob, one_prob.
      destruct (negb (Nat.eqb result 0)); [reflexivity|]. destruct R1 as (a & _ & _ & N & Sp). assert (Y := two_sum _ _ _ Tw _ Sp). unfold size2 in *. lra. }
    destruct (Rlt_dec tolerance (Rabs (size2 l1 (eigen_proj (paired ps qs) (negb (Nat.eqb result 0)) (h_vec h)) / size2 l1 (h_vec h) - prob))) as [Y|Y].
    + apply one_step with (Halt (EFail msg) (h_out h ++ render (RecMessage msg))); [|reflexivity|exact I|].
      * unfold sides. cbn [bop]. fold l1. destruct (Rlt_dec _ _); [reflexivity|contradiction].
      * intros m A. assert (Xm := X m A). agreed A. unfold ideal_step. cbn [bop]. rewrite A1. fold l1. rewrite Xm, A4. destruct (Rlt_dec _ _); [reflexivity|contradiction].
    + eapply one_step; [| | |].
      * unfold sides. cbn [bop]. fold l1. destruct (Rlt_dec _ _); [contradiction|reflexivity].
      * simpl. unfold chance. simpl. apply size2_incl; [apply grow_incl|auto].
      * simpl. eapply supported_incl; [apply grow_incl|auto].
      * intros m A. assert (Xm := X m A). agreed A. unfold ideal_step. cbn [bop]. rewrite A1. fold l1. rewrite Xm. destruct (Rlt_dec _ _); [contradiction|].
        eexists. split; [reflexivity|]. split; [|reflexivity]. unfold along, agree. simpl. split; [repeat (split; auto)|]. eapply ray_incl; [apply grow_incl|auto].
  - (* QAlloc *)
    eapply one_step; [reflexivity| | |].
    + simpl. unfold chance. simpl. apply size2_incl; [apply (grow_incl 1)|auto].
    + simpl. eapply supported_incl; [apply (grow_incl 1)|auto].
    + intros m A. agreed A. unfold ideal_step. cbn [bop]. rewrite A1. eexists. split; [reflexivity|]. split; [|reflexivity]. unfold along, agree. simpl. split; [repeat (split; auto)|].
      eapply ray_incl; [apply (grow_incl 1)|auto].
  - (* QAllocArray *)
    eapply one_step; [reflexivity| | |].
    + simpl. unfold chance. simpl. apply size2_incl; [apply grow_incl|auto].
    + simpl. eapply supported_incl; [apply grow_incl|auto].
    + intros m A. agreed A. unfold ideal_step. cbn [bop]. rewrite A1. eexists. split; [reflexivity|]. split; [|reflexivity]. unfold along, agree. simpl. split; [repeat (split; auto)|].
      eapply ray_incl; [apply grow_incl|auto].
  - (* QRelease *)
    apply (release_step h (QRelease q) [q] (bbstep (h_book h) (QRelease q))); auto.
    + repeat constructor; auto.
    + intros x [<-|[]]. exact V.
    + intros m Em x psi' g' Ed. unfold ideal_step. cbn [bop]. cbn [fold_left] in Ed. rewrite Em, Ed. reflexivity.
  - (* QReleaseArray *)
    apply (release_step h (QReleaseArray qs) qs (bbstep (h_book h) (QReleaseArray qs))); auto; try apply V.
    intros m Em x psi' g' Ed. unfold ideal_step. cbn [bop]. rewrite Em, Ed. reflexivity.
  - (* QQubitString *)
    eapply one_step; [reflexivity|reflexivity|exact S|]. intros m A. eexists. split; [reflexivity|]. auto.
  - (* QDump *)
    destruct location; [congruence|]. eapply one_step; [reflexivity|reflexivity|exact I|]. intros m A. agreed A. unfold ideal_step. cbn [bop]. rewrite A4. reflexivity.
  - (* QResult *)
    destruct (Nat.eqb (h_used h) 0) eqn:Z.
    + eapply one_step; [unfold sides; cbn [bop]; rewrite Z; reflexivity|reflexivity|exact S|]. intros m A. agreed A. unfold ideal_step. cbn [bop]. rewrite A2, Z.
      eexists. split; [reflexivity|]. unfold along, agree. simpl. rewrite A4. repeat (split; auto).
    + eapply one_step; [unfold sides; cbn [bop]; rewrite Z; reflexivity|reflexivity|exact S|]. intros m A. agreed A. unfold ideal_step. cbn [bop]. rewrite A2, Z.
      eexists. split; [reflexivity|]. unfold along, agree. simpl. rewrite A2, A3, A4. repeat (split; auto).
  - (* QResultLegacy *)
    destruct (Nat.eqb (h_used h) 0) eqn:Z.
    + eapply one_step; [unfold sides; cbn [bop]; rewrite Z; reflexivity|reflexivity|exact S|]. intros m A. agreed A. unfold ideal_step. cbn [bop]. rewrite A2, Z.
      eexists. split; [reflexivity|]. unfold along, agree. simpl. rewrite A4. repeat (split; auto).
    + eapply one_step; [unfold sides; cbn [bop]; rewrite Z; reflexivity|reflexivity|exact S|]. intros m A. agreed A. unfold ideal_step. cbn [bop]. rewrite A2, Z.
      eexists. split; [reflexivity|]. unfold along, agree. simpl. rewrite A2, A3, A4. repeat (split; auto).
  - (* QRecord *)
    eapply one_step; [reflexivity|reflexivity|exact S|]. intros m A. agreed A. eexists. split; [reflexivity|]. unfold along, agree. simpl. rewrite A4. repeat (split; auto).
  - (* QFail *)
    eapply one_step; [reflexivity|reflexivity|exact I|]. intros m' A. agreed A. unfold ideal_step. cbn [bop]. rewrite A4. reflexivity.
  - (* QInit *)
    eapply one_step; [reflexivity| | |].
    + simpl. unfold chance. simpl. apply size2_nothing.
    + simpl. apply supported_nothing.
    + intros m A. agreed A. eexists. split; [reflexivity|]. split; [|reflexivity]. unfold along, agree. simpl. split; [repeat (split; auto)|]. eapply ray_nothing; eauto.
Qed.

(** ** Programs *)
Definition with_gen {M : Type} (g : gen) (e : ended M) : outcome_of M :=
  match e with EDone mem o t => ODone mem o g t | EStop e o => OStop e o | EMore o => OMore o end.
Lemma tiling_in : forall (X : Type) W (wt : X -> R) bs xs, tiling W bs (map (fun x => (wt x, x)) xs) -> forall bx, In bx bs -> In (snd bx) xs.
Proof.
  intros X W wt bs xs [F _] bx H. revert xs F. induction bs as [|b bs IH]; intros xs F; [destruct H|].
  destruct xs as [|x xs]; simpl in F; inversion F as [|? ? ? ? [_ F1] F2]; subst. cbn [snd] in F1. destruct H as [<-|H]; [left; auto|right; auto].
Qed.
Lemma single : forall (X : Type) W x, @tiling X W [([], x)] [(W, x)].
Proof. intros. split; [|apply partition_one]. repeat constructor. cbn [fst volume]. ring. Qed.
Lemma plain_step : forall m c x, c <> QCapture -> c <> QDump 0 -> istep m c x <-> x = ideal_step m c.
Proof. intros m c x N1 N2. destruct c; try tauto. destruct location; [congruence|tauto]. Qed.

Lemma run_tiles : forall P p, lists_nothing P -> forall fuel l h t, supported (bb_live (h_book h)) (h_vec h) -> chance h <> 0 -> sound P p fuel l h t ->
  exists ls, tiling (chance h) ls (chances p fuel l h t) /\
    Forall (fun y => forall m, along m h -> inside (samples_of (i_gen m)) (fst y) ->
      irun p fuel l m t (with_gen (gen_after (length (fst y)) (i_gen m)) (snd y))) ls.
Proof.
  intros P p LN. induction fuel as [|n IH]; intros l h t S C Sd.
  - exists [([], EMore (h_out h))]. split; [apply single|]. constructor; [|constructor]. intros m A _. agreed A. simpl. rewrite <- A4. constructor.
  - simpl in Sd. simpl. destruct (pstep p l) as [mem|c k|lo hi k|] eqn:Ep.
    + exists [([], EDone mem (h_out h) t)]. split; [apply single|]. constructor; [|constructor]. intros m A _. agreed A. simpl. rewrite <- A4. constructor. auto.
    + destruct Sd as (Pc & V & Sd). destruct (LN c Pc) as [NC ND]. destruct (step_tiles h c S V NC ND) as (bs & T1 & F1 & _).
      apply (tiling_bind side _ (chance h) (side_wt h) bs (sides h c) _ (fun b e => forall m, along m h -> inside (samples_of (i_gen m)) b ->
        irun p (Datatypes.S n) l m t (with_gen (gen_after (length b) (i_gen m)) e)) T1).
      rewrite Forall_forall in F1. apply Forall_forall. intros [b x] Hb. destruct (F1 _ Hb) as [Sx Fx]. assert (Hin := tiling_in _ _ _ _ _ T1 _ Hb).
      cbn [fst snd] in *. destruct x as [r h'|e o]; simpl in Sx.
      * cbn [side_wt]. destruct (Req_EM_T (chance h') 0) as [Z|Z].
        -- exists []. split; [constructor|]. split; [left; auto|constructor].
        -- destruct (IH (k r) h' t Sx Z (Sd r h' Hin Z)) as (ls & [T2 T3] & F2). exists ls. split; [exact T2|]. split; [right; exact T3|].
           eapply Forall_impl; [|exact F2]. intros y Fy m A Hi. apply inside_samples in Hi. destruct Hi as [Hi1 Hi2].
           destruct (Fx m A Hi1) as (m' & Es & A' & Eg). rewrite <- Eg in Hi2. specialize (Fy m' A' Hi2). rewrite app_length, gen_after_add, <- Eg.
           eapply ir_call; [exact Ep| |exact Fy]. apply plain_step; auto.
      * exists [([], EStop (StopErr e) o)]. cbn [side_wt]. destruct (single (ended (pmem p)) (chance h) (EStop (StopErr e) o)) as [T2 T3]. split; [exact T2|]. split; [right; exact T3|].
        constructor; [|constructor]. intros m A Hi. rewrite app_nil_r in *. eapply ir_halt; [exact Ep|]. apply plain_step; auto. symmetry. apply (Fx m A Hi).
    + destruct (Z.ltb hi lo) eqn:El.
      * apply Z.ltb_lt in El. exists [([], EStop (StopErr (EFail bad_range)) (h_out h ++ render (RecMessage bad_range)))]. split; [apply single|].
        constructor; [|constructor]. intros m A _. agreed A. simpl. rewrite <- A4. eapply ir_range; eauto.
      * apply Z.ltb_ge in El. destruct (IH _ h _ S C (Sd El)) as (ls & T1 & F1). exists ls. split; [exact T1|]. eapply Forall_impl; [|exact F1].
        intros y Fy m A Hi. eapply ir_draw; eauto.
    + exists [([], EStop StopTrap (h_out h))]. split; [apply single|]. constructor; [|constructor]. intros m A _. agreed A. simpl. rewrite <- A4. constructor. auto.
Qed.

Lemma run_safe : samples_ok -> forall P p, lists_nothing P -> forall fuel l h t m, supported (bb_live (h_book h)) (h_vec h) -> along m h -> sound P p fuel l h t ->
  isafe P p fuel l m t.
Proof.
  intros SO P p LN. induction fuel as [|n IH]; intros l h t m S A Sd; simpl; auto. simpl in Sd. destruct (pstep p l) as [mem|c k|lo hi k|]; auto.
  - destruct Sd as (Pc & V & Sd). split; [exact Pc|]. assert (A' := A). agreed A'. split.
    { unfold ivalid. rewrite A1. exact V. }
    destruct (LN c Pc) as [NC ND]. intros r m' Es. apply plain_step in Es; auto. destruct (step_tiles h c S V NC ND) as (bs & T1 & F1 & _).
    assert (U : unit_samples (samples_of (i_gen m))) by (intros j; apply SO). assert (T2 := T1). destruct T2 as [_ (_ & _ & Cv)]. apply Cv in U. apply Exists_exists in U.
    destruct U as (b & Hb & Hi). apply in_map_iff in Hb. destruct Hb as (bx & <- & Hb). rewrite Forall_forall in F1. destruct (F1 _ Hb) as [Sx Fx].
    assert (Hin := tiling_in _ _ _ _ _ T1 _ Hb). specialize (Fx m A Hi). destruct (snd bx) as [r0 h0|e o].
    + destruct Fx as (m0 & E0 & A0 & _). rewrite E0 in Es. injection Es as -> ->. apply (IH _ h0); auto. apply Sd; auto. unfold chance. apply Rgt_not_eq. eapply ray_size. apply A0.
    + rewrite Fx in Es. discriminate.
  - intros El. apply (IH _ h); auto.
Qed.

Lemma start_along : forall g, along (ideal0 g) path0.
Proof.
  intros g. unfold along, agree. simpl. repeat (split; auto). exists 1. split; [lra|]. split; [|split].
  - symmetry. apply scale_1.
  - apply ket0_norm.
  - apply ket0_supported.
Qed.
Lemma start_chance : chance path0 = 1.
Proof. apply ket0_norm. Qed.
Lemma start_supported : supported (bb_live (h_book path0)) (h_vec path0).
Proof. apply ket0_supported. Qed.

Lemma chances_sum : forall P p, lists_nothing P -> forall fuel l h t, supported (bb_live (h_book h)) (h_vec h) -> chance h <> 0 -> sound P p fuel l h t ->
  Rsum (map fst (chances p fuel l h t)) = chance h /\ Forall (fun w => 0 < fst w) (chances p fuel l h t).
Proof.
  intros P p LN. assert (Pos : forall h, chance h <> 0 -> 0 < chance h) by (intros h C; assert (X := size2_pos (bb_live (h_book h)) (h_vec h)); unfold chance in *; lra).
  assert (One : forall (h : path) (e : ended (pmem p)), chance h <> 0 -> Rsum (map fst [(chance h, e)]) = chance h /\ Forall (fun w => 0 < fst w) [(chance h, e)]).
  { intros h e C. split; [unfold Rsum; simpl; ring|]. repeat constructor. simpl. auto. }
  induction fuel as [|n IH]; intros l h t S C Sd; simpl; [apply One; auto|]. simpl in Sd. destruct (pstep p l) as [mem|c k|lo hi k|]; try (apply One; auto).
  - destruct Sd as (Pc & V & Sd). destruct (LN c Pc) as [NC ND]. destruct (step_tiles h c S V NC ND) as (bs & T1 & F1 & Es).
    match goal with |- Rsum ?a = _ /\ ?b => enough (X : Rsum a = Rsum (map (side_wt h) (sides h c)) /\ b) by (rewrite Es in X; exact X) end.
    assert (Sup : forall x, In x (sides h c) -> side_sup x).
    { rewrite Forall_forall in F1. intros x Hx. destruct T1 as [T1 _]. clear - T1 F1 Hx. revert bs T1 F1. generalize dependent (sides h c). intros xs. induction xs as [|y xs IH]; intros Hx bs T1 F1; [destruct Hx|].
      simpl in T1. inversion T1 as [|bx ? bs' ? [_ E] T2]; subst. destruct Hx as [<-|Hx].
      - cbn [snd] in E. rewrite <- E. apply F1. left. auto.
      - apply (IH Hx bs' T2). intros z Hz. apply F1. right. auto. }
    clear T1 F1 Es. induction (sides h c) as [|x xs IHx]; simpl; [split; [reflexivity|constructor]|].
    destruct IHx as [E1 F1]. { intros; apply Sd; simpl; auto. } { intros; apply Sup; simpl; auto. }
    assert (X : Rsum (map fst (match x with Go r m' => if Req_EM_T (chance m') 0 then [] else chances p n (k r) m' t | Halt e o => [(chance h, EStop (StopErr e) o)] end)) = side_wt h x /\
      Forall (fun w => 0 < fst w) (match x with Go r m' => if Req_EM_T (chance m') 0 then [] else chances p n (k r) m' t | Halt e o => [(chance h, EStop (StopErr e) o)] end)).
    { destruct x as [r h'|e o]; [|apply One; auto]. cbn [side_wt]. destruct (Req_EM_T (chance h') 0) as [Z|Z]; [split; [unfold Rsum; simpl; auto|constructor]|].
      apply IH; auto; [apply (Sup (Go r h')); simpl; auto|apply Sd; simpl; auto]. }
    destruct X as [X1 X2]. split; [|apply Forall_app; auto]. rewrite map_app, Rsum_app'. exact (f_equal2 Rplus X1 E1).
  - destruct (Z.ltb hi lo) eqn:El; [apply One; auto|]. apply Z.ltb_ge in El. apply IH; auto.
Qed.

(** ** Shots *)
Lemma observed_gen : forall (M : Type) (r : prun M) g e, observed r = with_gen g e ->
  ending r = e /\ match e with EDone mem o t => exists w, r = PDone mem w /\ bout (wback w) = o /\ rng (bsim (wback w)) = g /\ wtgen w = t | _ => True end.
Proof. intros M r g e H. destruct r as [m w|x o|o], e as [m' o' t'|x' o'|o']; try discriminate H; simpl in *; injection H; intros; subst; eauto 6. Qed.
Lemma shot_tiles : exact_world -> forall P f fuel mem t, careful P -> lists_nothing P -> sound P (fprog f) fuel (pstart (fprog f) mem) path0 t ->
  exists ls, tiling 1 ls (chances (fprog f) fuel (pstart (fprog f) mem) path0 t) /\
    Forall (fun y => forall g, inside (samples_of g) (fst y) -> observed (fresh_run f fuel mem g t) = with_gen (gen_after (length (fst y)) g) (snd y)) ls.
Proof.
  intros EW P f fuel mem t CP LN Sd. assert (C : chance path0 <> 0) by (rewrite start_chance; lra).
  destruct (run_tiles P (fprog f) LN fuel _ path0 t start_supported C Sd) as (ls & T1 & F1). rewrite start_chance in T1. exists ls. split; [exact T1|].
  eapply Forall_impl; [|exact F1]. intros y Fy g Hi. specialize (Fy (ideal0 g) (start_along g) Hi).
  assert (Sf : isafe P (fprog f) fuel (pstart (fprog f) mem) (ideal0 g) t).
  { apply (run_safe (proj2 (proj2 EW)) P (fprog f) LN fuel _ path0); auto using start_supported, start_along. }
  exact (irun_det P _ LN _ _ _ _ _ _ Sf (fresh_ideal EW P f fuel mem g t CP Sf) Fy).
Qed.

Lemma tiling_pairs : forall (X : Type) W ls (ws : list (R * X)) (G : box -> X -> Prop), tiling W ls ws -> Forall (fun y => G (fst y) (snd y)) ls ->
  exists bs, tiling W bs (map (fun wx => (fst wx, wx)) ws) /\ Forall (fun y => G (fst y) (snd (snd y))) bs.
Proof.
  intros X W ls ws G [F P] H. assert (L : map fst (combine (map fst ls) ws) = map fst ls).
  { clear - F. revert ws F. induction ls as [|y ls IH]; intros ws F; inversion F; subst; simpl; auto. f_equal. auto. }
  exists (combine (map fst ls) ws). split; [split|].
  - clear - F. revert ws F. induction ls as [|y ls IH]; intros ws F; inversion F as [|? ? ? ? [F1 F2] F3]; subst; simpl; constructor; auto.
  - rewrite L. exact P.
  - clear - F H. revert ws F. induction H as [|y ls H0 H IH]; intros ws F; inversion F as [|? ? ? ? [F1 F2] F3]; subst; simpl; constructor; auto.
    cbn [fst snd]. rewrite <- F2. auto.
Qed.
Lemma shots_fun : forall f fuel n mem g t recs m' g' t' recs2 m2 g2 t2, shots_of f fuel n mem g t recs m' g' t' -> shots_of f fuel n mem g t recs2 m2 g2 t2 -> recs = recs2.
Proof.
  intros f fuel n mem g t recs m' g' t' recs2 m2 g2 t2 H. revert recs2 m2 g2 t2. induction H as [|n m g t m1 w recs m' g' t' E H IH]; intros recs2 m2 g2 t2 H2.
  - inversion H2; auto.
  - inversion H2; subst. match goal with E2 : fresh_run f fuel m g t = PDone _ _ |- _ => rewrite E in E2; injection E2 as <- <- end. f_equal. eauto.
Qed.
Definition settled (f : func) (fuel n : nat) (mem : pmem (fprog f)) (g : gen) (t : tgen) (r : option (list text)) : Prop :=
  match r with
  | Some recs => exists m' g' t', shots_of f fuel n mem g t recs m' g' t'
  | None => forall recs m' g' t', ~ shots_of f fuel n mem g t recs m' g' t'
  end.
Lemma series_tiles : exact_world -> forall P f fuel, careful P -> lists_nothing P -> (forall mem t, sound P (fprog f) fuel (pstart (fprog f) mem) path0 t) ->
  forall n mem t, exists ls, tiling 1 ls (series (fprog f) fuel n mem t) /\
    Forall (fun y => forall g, inside (samples_of g) (fst y) -> settled f fuel n mem g t (snd y)) ls.
Proof.
  intros EW P f fuel CP LN Sd. induction n as [|n IH]; intros mem t.
  - exists [([], Some [])]. split; [apply single|]. constructor; [|constructor]. intros g _. simpl. exists mem, g, t. constructor.
  - destruct (shot_tiles EW P f fuel mem t CP LN (Sd mem t)) as (ls0 & T0 & F0).
    destruct (tiling_pairs _ _ _ _ (fun b e => forall g, inside (samples_of g) b -> observed (fresh_run f fuel mem g t) = with_gen (gen_after (length b) g) e) T0 F0) as (bs & T1 & F1).
    cbn [series]. apply (tiling_bind _ _ 1 fst bs _ _ (fun b r => forall g, inside (samples_of g) b -> settled f fuel (Datatypes.S n) mem g t r) T1).
    eapply Forall_impl; [|exact F1]. clear T1 F1 T0 F0. intros [b [w e]] Fe. cbn [fst snd] in *.
    assert (Stop : (forall g, inside (samples_of g) b -> forall m1 w1, fresh_run f fuel mem g t <> PDone m1 w1) ->
      exists ls : list (box * option (list text)), Forall2 (fun y wy => volume (fst y) * w = fst wy /\ snd y = snd wy) ls [(w, None)] /\
        ((ls = [] /\ w = 0 /\ 1 <> 0) \/ partition (map fst ls)) /\
        Forall (fun y => forall g, inside (samples_of g) (b ++ fst y) -> settled f fuel (Datatypes.S n) mem g t (snd y)) ls).
    { intros H. exists [([], None)]. destruct (single (option (list text)) w None) as [T2 T3]. split; [exact T2|]. split; [right; exact T3|]. constructor; [|constructor].
      cbn [fst snd]. rewrite app_nil_r. intros g Hi recs m' g' t' Hs. inversion Hs; subst. eapply H; eauto. }
    destruct e as [mem' out t'|e out|out].
    + destruct (IH mem' t') as (ls & [T2 T3] & F2). exists (map (fun y => (fst y, option_map (cons out) (snd y))) ls). split; [|split].
      * clear - T2. induction T2 as [|y wy ls ws [E1 E2] T2 IH]; simpl; constructor; auto. cbn [fst snd]. rewrite <- E1, E2. split; [ring|reflexivity].
      * right. rewrite map_map. exact T3.
      * apply Forall_forall. intros z Hz. apply in_map_iff in Hz. destruct Hz as (y & <- & Hy). cbn [fst snd]. intros g Hi. apply inside_samples in Hi. destruct Hi as [Hi1 Hi2].
        rewrite Forall_forall in F2. specialize (F2 y Hy _ Hi2). specialize (Fe g Hi1). apply observed_gen in Fe. destruct Fe as [_ (w1 & Er & <- & Eg & <-)]. rewrite <- Eg in F2.
        destruct (snd y) as [recs|]; simpl in *.
        -- destruct F2 as (m' & g' & t' & F2). exists m', g', t'. econstructor; eauto.
        -- intros recs m' g' t' Hs. inversion Hs; subst. match goal with E2 : fresh_run f fuel mem g t = PDone _ _ |- _ => rewrite Er in E2; injection E2 as <- <- end.
           eapply F2; eauto.
    + apply Stop. intros g Hi m1 w1 E1. specialize (Fe g Hi). rewrite E1 in Fe. discriminate.
    + apply Stop. intros g Hi m1 w1 E1. specialize (Fe g Hi). rewrite E1 in Fe. discriminate.
Qed.
Lemma series_sum : exact_world -> forall P f fuel, lists_nothing P -> (forall mem t, sound P (fprog f) fuel (pstart (fprog f) mem) path0 t) ->
  forall n mem t, Rsum (map fst (series (fprog f) fuel n mem t)) = 1.
Proof.
  intros EW P f fuel LN Sd. induction n as [|n IH]; intros mem t; [unfold Rsum; simpl; ring|].
  assert (C : chance path0 <> 0) by (rewrite start_chance; lra).
  destruct (chances_sum P (fprog f) LN fuel _ path0 t start_supported C (Sd mem t)) as [E _]. rewrite start_chance in E. rewrite <- E. cbn [series].
  clear E. induction (chances (fprog f) fuel (pstart (fprog f) mem) path0 t) as [|[w e] ws IHw]; simpl; auto. rewrite map_app, Rsum_app'.
  assert (X : Rsum (map fst (match e with EDone mem' out t' => map (fun wr => (w * fst wr, option_map (cons out) (snd wr))) (series (fprog f) fuel n mem' t') | _ => [(w, None)] end)) = w).
  { destruct e as [mem' out t'|e out|out]; [|unfold Rsum; simpl; ring..]. rewrite map_map. cbn [fst]. transitivity (w * Rsum (map fst (series (fprog f) fuel n mem' t'))); [|rewrite IH; ring].
    generalize (series (fprog f) fuel n mem' t'). clear. unfold Rsum. induction l as [|a l IH]; simpl; [ring|]. rewrite IH. ring. }
  exact (f_equal2 Rplus X IHw).
Qed.

Lemma module_tiles : forall {LL : Llvm}, exact_world -> forall P fs fs' name f fuel, careful P -> lists_nothing P ->
  prepare fs = inl fs' -> bind_functions fs' = Linked -> only_one (wanted name) fs' f -> fparams f = 0%nat ->
  (forall mem t, sound P (fprog f) fuel (pstart (fprog f) mem) path0 t) ->
  forall n t, exists ls, tiling 1 ls (series (fprog f) fuel n (pinit (fprog f)) t) /\
    Forall (fun y => forall p, pbuffer p = [] -> ptgen p = t -> inside (samples_of (pgen p)) (fst y) ->
      match snd y with
      | Some recs => exists evs p', run_module fs name fuel n p = (evs, ROk, p') /\ at_both evs = concat (map (block (fattrs f)) recs)
      | None => forall evs p', run_module fs name fuel n p <> (evs, ROk, p')
      end) ls.
Proof.
  intros LL EW P fs fs' name f fuel CP LN Ep El Eo Ef Sd n t.
  destruct (series_tiles EW P f fuel CP LN Sd n (pinit (fprog f)) t) as (ls & T1 & F1). exists ls. split; [exact T1|]. eapply Forall_impl; [|exact F1].
  intros y Fy p Hb Ht Hi. specialize (Fy _ Hi). subst t. assert (M := module_cases fs name fuel n p). rewrite Ep in M. destruct M as (_ & _ & _ & M). rewrite (M f El Eo).
  assert (X := run_shots_thm f fuel n (pinit (fprog f)) p Hb Ef). destruct (snd y) as [recs|]; simpl in Fy.
  - destruct Fy as (m' & g' & t' & Fy). destruct (shots_run f fuel n _ p recs m' g' t' Hb Ef Fy) as (evs & p' & Er). exists evs, p'. split; [exact Er|].
    rewrite Er in X. destruct X as (recs2 & m2 & g2 & t2 & X1 & (X2 & _) & _). rewrite (shots_fun _ _ _ _ _ _ _ _ _ _ _ _ _ _ Fy X1). exact X2.
  - intros evs p' Er. rewrite Er in X. destruct X as (recs2 & m2 & g2 & t2 & X1 & _). exact (Fy _ _ _ _ X1).
Qed.
End WithEnv.
