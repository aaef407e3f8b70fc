(** * Application of an arbitrary matrix *)
From Coq Require Import Reals NArith List Bool Lia Lra Permutation Arith Sorted FunctionalExtensionality.
From Verif Require Import Cx Arith ArithR IndexMap IndexMapLemmas Bits BitsLemmas Spec QLib QSum Sim SimApply SpecExp SpecApply
  StateLemmas Loc Abs Gates Gates2 Meas Reg ExpLemmas.
Import ListNotations.
Local Open Scope R_scope.

(** ** Complex sums *)
Lemma Csum_app : forall l l', Csum (l ++ l') = (Csum l + Csum l')%C.
Proof. induction l; simpl; intros; [ring|]. rewrite IHl. ring. Qed.
Lemma Csum_ext : forall (A : Type) (f g : A -> C) l, (forall x, In x l -> f x = g x) ->
  Csum (map f l) = Csum (map g l).
Proof. induction l; simpl; intros; auto. rewrite H, IHl by auto. auto. Qed.
Lemma Csum_add : forall (A : Type) (f g : A -> C) l,
  Csum (map (fun x => f x + g x)%C l) = (Csum (map f l) + Csum (map g l))%C.
Proof. induction l; simpl; [ring|]. rewrite IHl. ring. Qed.
Lemma Csum_scal : forall (A : Type) (f : A -> C) c l,
  Csum (map (fun x => c * f x)%C l) = (c * Csum (map f l))%C.
Proof. induction l; simpl; [ring|]. rewrite IHl. ring. Qed.
Lemma Csum_zero : forall (A : Type) (f : A -> C) l, (forall x, In x l -> f x = C0) -> Csum (map f l) = C0.
Proof. induction l; simpl; intros; auto. rewrite H, IHl by auto. ring. Qed.
Lemma Csum_single : forall (f : nat -> C) l x, NoDup l -> In x l ->
  (forall y, In y l -> y <> x -> f y = C0) -> Csum (map f l) = f x.
Proof.
  induction l as [|a l IH]; intros x D H Z; [destruct H|]. inversion D; subst. simpl. destruct H as [->|H].
  - rewrite Csum_zero; [ring|]. intros y Hy. apply Z; [right; auto|]. intro; subst; tauto.
  - rewrite (IH x) by (auto; intros; apply Z; simpl; auto).
    rewrite (Z a); [ring|left; auto|]. intro; subst; tauto.
Qed.

(** ** Numbers split at bit n *)
Lemma pow2_N : forall n, N.of_nat (Nat.pow 2 n) = (2 ^ N.of_nat n)%N.
Proof. intros. rewrite Nat2N.inj_pow. reflexivity. Qed.
Lemma pow2_pos : forall n, (0 < 2 ^ N.of_nat n)%N.
Proof. intros. apply N.neq_0_lt_0. apply N.pow_nonzero. lia. Qed.
Lemma join_mod : forall i l n, (l < 2 ^ N.of_nat n)%N -> ((i * 2 ^ N.of_nat n + l) mod 2 ^ N.of_nat n = l)%N.
Proof.
  intros. pose proof (pow2_pos n). rewrite N.add_comm, N.mod_add by lia. apply N.mod_small; auto.
Qed.
Lemma join_div : forall i l n, (l < 2 ^ N.of_nat n)%N -> ((i * 2 ^ N.of_nat n + l) / 2 ^ N.of_nat n = i)%N.
Proof.
  intros. pose proof (pow2_pos n). rewrite N.div_add_l by lia. rewrite N.div_small by auto. lia.
Qed.
Lemma join_bit : forall i l n j, (l < 2 ^ N.of_nat n)%N ->
  bit (i * 2 ^ N.of_nat n + l) j = if Nat.ltb j n then bit l j else bit i (j - n).
Proof.
  intros i l n j H. unfold bit. destruct (Nat.ltb_spec j n).
  - rewrite <- (N.mod_pow2_bits_low _ (N.of_nat n)) by lia. now rewrite join_mod.
  - replace (N.of_nat j) with (N.of_nat (j - n) + N.of_nat n)%N by lia.
    rewrite <- N.div_pow2_bits. now rewrite join_div.
Qed.
Lemma split_N : forall k n, k = (k / 2 ^ N.of_nat n * 2 ^ N.of_nat n + k mod 2 ^ N.of_nat n)%N.
Proof. intros. pose proof (pow2_pos n). rewrite N.mul_comm. apply N.div_mod. lia. Qed.

Lemma of_nat_lt_pow : forall x n, (x < Nat.pow 2 n)%nat -> (N.of_nat x < 2 ^ N.of_nat n)%N.
Proof. intros x n. rewrite <- pow2_N. generalize (Nat.pow 2 n). intros. lia. Qed.
Lemma mod_lt_nat : forall k n, (N.to_nat (k mod 2 ^ N.of_nat n) < Nat.pow 2 n)%nat.
Proof.
  intros. assert (H : (k mod 2 ^ N.of_nat n < 2 ^ N.of_nat n)%N).
  { apply N.mod_lt. pose proof (pow2_pos n). lia. }
  rewrite <- pow2_N in H at 2. generalize dependent (k mod 2 ^ N.of_nat n)%N.
  generalize (Nat.pow 2 n). intros. lia.
Qed.
Lemma msb_lt : forall qs b, (msb_index qs b < Nat.pow 2 (length qs))%nat.
Proof.
  induction qs; intros; simpl; [lia|]. specialize (IHqs b). destruct (bit b a); lia.
Qed.
Lemma msb_bit : forall qs b j q, nth_error qs j = Some q ->
  bit (N.of_nat (msb_index qs b)) (length qs - 1 - j) = bit b q.
Proof.
  induction qs as [|a qs IH]; intros b j q H; [destruct j; discriminate|].
  cbn [msb_index length]. pose proof (msb_lt qs b).
  assert (E : N.of_nat ((if bit b a then Nat.pow 2 (length qs) else 0) + msb_index qs b) =
    ((if bit b a then 1 else 0) * 2 ^ N.of_nat (length qs) + N.of_nat (msb_index qs b))%N).
  { rewrite Nat2N.inj_add. destruct (bit b a); [rewrite pow2_N|]; lia. }
  rewrite E, join_bit by (rewrite <- pow2_N; lia).
  destruct j; simpl in H.
  - inversion H; subst. replace (S (length qs) - 1 - 0)%nat with (length qs) by lia.
    rewrite Nat.ltb_irrefl, Nat.sub_diag. destruct (bit b q); reflexivity.
  - assert (j < length qs)%nat by (apply nth_error_Some; congruence).
    replace (S (length qs) - 1 - S j)%nat with (length qs - 1 - j)%nat by lia.
    destruct (Nat.ltb_spec (length qs - 1 - j) (length qs)); [|lia]. apply IH; auto.
Qed.
Lemma assign_out : forall qs x b q, ~ In q qs -> bit (assign qs x b) q = bit b q.
Proof.
  induction qs; simpl; intros; auto. rewrite bit_set_other by tauto. apply IHqs. tauto.
Qed.
Lemma assign_in : forall qs x b j q, NoDup qs -> nth_error qs j = Some q ->
  bit (assign qs x b) q = bit (N.of_nat x) (length qs - 1 - j).
Proof.
  induction qs as [|a qs IH]; intros x b j q D H; [destruct j; discriminate|]. inversion D; subst.
  destruct j; cbn [nth_error assign length] in *.
  - inversion H; subst. rewrite bit_set_same. f_equal. lia.
  - rewrite bit_set_other by (intros ->; apply H2; eapply nth_error_In; eauto).
    rewrite (IH x b j q) by auto. f_equal. lia.
Qed.
Lemma msb_set_out : forall qs b q v, ~ In q qs -> msb_index qs (set_bit b q v) = msb_index qs b.
Proof.
  induction qs; simpl; intros; auto. rewrite IHqs by tauto. rewrite bit_set_other by (intro; subst; tauto). auto.
Qed.
Lemma assign_set_out : forall qs x b q v, ~ In q qs -> assign qs x (set_bit b q v) = set_bit (assign qs x b) q v.
Proof.
  induction qs; simpl; intros; auto. rewrite IHqs by tauto. apply set_set_comm. intro; subst; tauto.
Qed.
Lemma bit_of_small : forall x n j, (x < Nat.pow 2 n)%nat -> (n <= j)%nat -> bit (N.of_nat x) j = false.
Proof.
  intros x n j H H'. destruct (bit (N.of_nat x) j) eqn:E; auto.
  apply (bits_small _ n) in E; [lia|]. rewrite <- pow2_N. lia.
Qed.
Lemma nat_bits_ext : forall x y n, (x < Nat.pow 2 n)%nat -> (y < Nat.pow 2 n)%nat ->
  (forall j, (j < n)%nat -> bit (N.of_nat x) j = bit (N.of_nat y) j) -> x = y.
Proof.
  intros x y n Hx Hy H. apply Nat2N.inj. apply bits_ext. intros j.
  destruct (Nat.lt_ge_cases j n); auto. rewrite !(bit_of_small _ n) by auto. auto.
Qed.
Lemma msb_assign : forall qs x b, NoDup qs -> (x < Nat.pow 2 (length qs))%nat -> msb_index qs (assign qs x b) = x.
Proof.
  intros qs x b D H. apply (nat_bits_ext _ _ (length qs)); auto using msb_lt.
  intros j Hj. destruct (nth_error qs (length qs - 1 - j)) as [q|] eqn:E; [|apply nth_error_None in E; lia].
  pose proof (msb_bit qs (assign qs x b) _ _ E) as M. rewrite (assign_in _ _ _ _ _ D E) in M.
  replace (length qs - 1 - (length qs - 1 - j))%nat with j in M by lia. exact M.
Qed.
Lemma assign_msb : forall qs b, NoDup qs -> assign qs (msb_index qs b) b = b.
Proof.
  intros qs b D. apply bits_ext. intros i. destruct (in_dec Nat.eq_dec i qs) as [H|H].
  - apply In_nth_error in H. destruct H as [j Hj]. rewrite (assign_in _ _ _ _ _ D Hj). apply msb_bit; auto.
  - apply assign_out; auto.
Qed.
Lemma assign_assign : forall qs x y b, NoDup qs -> assign qs x (assign qs y b) = assign qs x b.
Proof.
  intros qs x y b D. apply bits_ext. intros i. destruct (in_dec Nat.eq_dec i qs) as [H|H].
  - apply In_nth_error in H. destruct H as [j Hj]. now rewrite !(assign_in _ _ _ _ _ D Hj).
  - now rewrite !assign_out.
Qed.

Lemma mat_op_gate1 : forall V qs U q psi, ~ In q qs ->
  mat_op V qs (gate1 U q psi) = gate1 U q (mat_op V qs psi).
Proof.
  intros. apply functional_extensionality. intros b. unfold mat_op, gate1.
  rewrite !msb_set_out by auto. rewrite <- !Csum_scal, <- Csum_add. apply Csum_ext. intros l _.
  rewrite assign_out by auto. rewrite !assign_set_out by auto. ring.
Qed.
Lemma mat_op_scale : forall V qs c psi, mat_op V qs (scale c psi) = scale c (mat_op V qs psi).
Proof.
  intros. apply functional_extensionality. intros b. unfold mat_op, scale.
  rewrite <- Csum_scal. apply Csum_ext. intros. ring.
Qed.
Lemma ctrl_mat_gate1 : forall cs V qs U q psi, ~ In q cs -> ~ In q qs ->
  ctrl_op cs (mat_op V qs) (gate1 U q psi) = gate1 U q (ctrl_op cs (mat_op V qs) psi).
Proof.
  intros. apply functional_extensionality. intros b. unfold ctrl_op.
  rewrite mat_op_gate1 by auto. unfold gate1.
  assert (E : forall v, forallb (bit (set_bit b q v)) cs = forallb (bit b) cs).
  { intros. clear - H. induction cs; simpl in *; auto. rewrite IHcs by tauto.
    rewrite bit_set_other by (intro; subst; tauto). reflexivity. }
  rewrite !E. destruct (forallb (bit b) cs); ring.
Qed.

Section Ap.
Context {T : Tol} {EN : Env}.
Hypothesis horder_perm : horder_ok.

(** ** Maps *)
Lemma hm_get_put : forall m k v k', hm_get (hm_put m k v) k' = if N.eqb k k' then Some v else hm_get m k'.
Proof.
  induction m as [|[k0 v0] m IH]; simpl; intros; auto.
  destruct (N.eqb_spec k0 k).
  - subst. simpl. destruct (N.eqb_spec k k'); auto.
  - simpl. rewrite IH. destruct (N.eqb_spec k0 k'); auto. destruct (N.eqb_spec k k'); congruence.
Qed.
Lemma keys_put : forall m k v x, In x (keys (hm_put m k v)) <-> x = k \/ In x (keys m).
Proof.
  intros. rewrite <- !hm_get_keys. rewrite hm_get_put. destruct (N.eqb_spec k x); [subst; split; eauto|].
  split; [auto|]. intros [?|?]; auto. congruence.
Qed.
Lemma put_nodup : forall m k v, NoDup (keys m) -> NoDup (keys (hm_put m k v)).
Proof.
  induction m as [|[k0 v0] m IH]; simpl; intros; [repeat constructor; auto|]. inversion H; subst.
  destruct (N.eqb_spec k0 k); simpl.
  - subst. constructor; auto.
  - constructor; auto. change (~ In k0 (keys (hm_put m k v))). rewrite keys_put. intros [E|E]; [congruence|tauto].
Qed.
Lemma keys_remove : forall m k x, NoDup (keys m) -> (In x (keys (hm_remove m k)) <-> x <> k /\ In x (keys m)).
Proof.
  induction m as [|[k0 v0] m IH]; simpl; intros; [tauto|]. inversion H; subst.
  destruct (N.eqb_spec k0 k); simpl.
  - subst. change (In x (map fst m)) with (In x (keys m)). split.
    + intros Hx. split; auto. intro; subst; tauto.
    + intros [? [?|?]]; congruence.
  - change (In x (map fst (hm_remove m k))) with (In x (keys (hm_remove m k))).
    change (In x (map fst m)) with (In x (keys m)). rewrite IH by auto.
    split; [intros [<-|?]; intuition|intuition].
Qed.
Lemma remove_nodup : forall m k, NoDup (keys m) -> NoDup (keys (hm_remove m k)).
Proof.
  induction m as [|[k0 v0] m IH]; simpl; intros; auto. inversion H; subst.
  destruct (N.eqb_spec k0 k); simpl; auto. constructor; auto.
  change (~ In k0 (keys (hm_remove m k))). rewrite keys_remove by auto. tauto.
Qed.
Lemma lamp_put : forall m k v k', lamp (hm_put m k v) k' = if N.eqb k k' then v else lamp m k'.
Proof. intros. unfold lamp. rewrite hm_get_put. destruct (N.eqb k k'); auto. Qed.
Lemma hm_get_remove : forall m k k', NoDup (keys m) ->
  hm_get (hm_remove m k) k' = if N.eqb k k' then None else hm_get m k'.
Proof.
  induction m as [|[k0 v0] m IH]; simpl; intros; [destruct (N.eqb k k'); auto|]. inversion H; subst.
  destruct (N.eqb_spec k0 k).
  - subst. destruct (N.eqb_spec k k'); auto. subst. exact (proj2 (@hm_get_None RArith m k') H2).
  - simpl. rewrite IH by auto. destruct (N.eqb_spec k0 k'); auto. destruct (N.eqb_spec k k'); congruence.
Qed.
Lemma lamp_remove : forall m k k', NoDup (keys m) ->
  lamp (hm_remove m k) k' = if N.eqb k k' then C0 else lamp m k'.
Proof. intros. unfold lamp. rewrite hm_get_remove by auto. destruct (N.eqb k k'); auto. Qed.

(** ** The accumulation *)
Section Acc.
Variables (u : @matrix RArith) (n : nat).
Hypothesis size : nrows u = Nat.pow 2 n.
Notation sz := (2 ^ N.of_nat n)%N.

Lemma cell_keys : forall i l val acc j x, NoDup (keys acc) -> (j < Nat.pow 2 n)%nat ->
  NoDup (keys (apply_cell u i l val acc j)) /\
  (In x (keys (apply_cell u i l val acc j)) -> In x (keys acc) \/ (x / sz)%N = i).
Proof.
  intros i l val acc j x D Hj. unfold apply_cell. destruct (@anz RArith (entry u j l)); [auto|].
  destruct (@anz RArith _).
  - split; [apply remove_nodup; auto|]. intros H. apply keys_remove in H; auto. tauto.
  - split; [apply put_nodup; auto|]. intros H. apply keys_put in H. destruct H as [->|H]; auto.
    right. rewrite size, pow2_N. apply join_div. rewrite <- pow2_N. lia.
Qed.
Lemma cell_amp : forall i l val acc j k, tol = 0 -> NoDup (keys acc) ->
  lamp (apply_cell u i l val acc j) k =
  (lamp acc k + if N.eqb (i * sz + N.of_nat j) k then entry u j l * val else C0)%C.
Proof.
  intros i l val acc j k H0 D. unfold apply_cell. rewrite size, pow2_N.
  set (loc := (i * sz + N.of_nat j)%N).
  destruct (@anz RArith (entry u j l)) eqn:Z.
  - apply anz_zero in Z; auto. rewrite Z. destruct (N.eqb loc k); ring.
  - set (v := match hm_get acc loc with Some e => _ | None => _ end).
    assert (Ev : v = (lamp acc loc + entry u j l * val)%C).
    { unfold v, lamp. destruct (hm_get acc loc); [reflexivity|]. aring. }
    destruct (@anz RArith v) eqn:Zv.
    + apply anz_zero in Zv; auto. rewrite lamp_remove by auto. destruct (N.eqb_spec loc k); [|ring].
      subst k. rewrite <- Ev. auto.
    + rewrite lamp_put. destruct (N.eqb_spec loc k); [|ring]. subst k. auto.
Qed.

Lemma cells_keys : forall js i l val acc x, NoDup (keys acc) -> (forall j, In j js -> (j < Nat.pow 2 n)%nat) ->
  NoDup (keys (fold_left (apply_cell u i l val) js acc)) /\
  (In x (keys (fold_left (apply_cell u i l val) js acc)) -> In x (keys acc) \/ (x / sz)%N = i).
Proof.
  induction js as [|j js IH]; intros i l val acc x D Hj; simpl; [auto|].
  destruct (cell_keys i l val acc j x D) as [D1 K1]; [apply Hj; left; auto|].
  destruct (IH i l val (apply_cell u i l val acc j) x D1) as [D2 K2]; [intros; apply Hj; right; auto|].
  split; auto. intros H. apply K2 in H. tauto.
Qed.
Lemma cells_amp : forall js i l val acc k, tol = 0 -> NoDup (keys acc) -> NoDup js ->
  (forall j, In j js -> (j < Nat.pow 2 n)%nat) ->
  lamp (fold_left (apply_cell u i l val) js acc) k =
  (lamp acc k + if (N.eqb (k / sz) i && existsb (Nat.eqb (N.to_nat (k mod sz))) js)%bool
                then entry u (N.to_nat (k mod sz)) l * val else C0)%C.
Proof.
  induction js as [|j js IH]; intros i l val acc k H0 D Dj Hj; simpl.
  - rewrite andb_false_r. ring.
  - inversion Dj; subst.
    assert (Lj : (j < Nat.pow 2 n)%nat) by (apply Hj; left; auto).
    destruct (cell_keys i l val acc j 0%N D Lj) as [D1 _].
    rewrite IH by (auto; intros; apply Hj; right; auto). rewrite cell_amp by auto.
    assert (Lj' : (N.of_nat j < sz)%N) by (rewrite <- pow2_N; lia).
    destruct (N.eqb_spec (i * sz + N.of_nat j) k).
    + subst k. rewrite join_div, join_mod by auto. rewrite N.eqb_refl, Nat2N.id, Nat.eqb_refl. simpl.
      assert (Ex : existsb (Nat.eqb j) js = false).
      { apply not_true_iff_false. intros H. apply existsb_exists in H. destruct H as [x [H E]].
        apply Nat.eqb_eq in E. subst. tauto. }
      rewrite Ex. ring.
    + destruct (N.eqb_spec (k / sz) i); simpl; [|ring].
      destruct (Nat.eqb_spec (N.to_nat (k mod sz)) j); simpl; [|ring].
      exfalso. apply n0. rewrite (split_N k n). subst. rewrite N2Nat.id. auto.
Qed.

Lemma row_amp : forall acc iv k, tol = 0 -> NoDup (keys acc) ->
  lamp (apply_row u acc iv) k =
  (lamp acc k + if N.eqb (k / sz) (fst iv / sz)
                then entry u (N.to_nat (k mod sz)) (N.to_nat (fst iv mod sz)) * snd iv else C0)%C.
Proof.
  intros. unfold apply_row. rewrite size, pow2_N. rewrite cells_amp; auto using seq_NoDup.
  - assert (E : existsb (Nat.eqb (N.to_nat (k mod sz))) (seq 0 (Nat.pow 2 n)) = true).
    { apply existsb_exists. exists (N.to_nat (k mod sz)). split; [|apply Nat.eqb_refl]. apply in_seq.
      split; [apply Nat.le_0_l|]. apply mod_lt_nat. }
    rewrite E, andb_true_r. reflexivity.
  - intros j Hj. apply in_seq in Hj. lia.
Qed.
Lemma row_keys : forall acc iv x, NoDup (keys acc) ->
  NoDup (keys (apply_row u acc iv)) /\
  (In x (keys (apply_row u acc iv)) -> In x (keys acc) \/ (x / sz)%N = (fst iv / sz)%N).
Proof.
  intros. unfold apply_row. rewrite size, pow2_N. apply cells_keys; auto.
  intros j Hj. apply in_seq in Hj. lia.
Qed.

Lemma rows_keys : forall st acc x, NoDup (keys acc) ->
  NoDup (keys (fold_left (apply_row u) st acc)) /\
  (In x (keys (fold_left (apply_row u) st acc)) -> In x (keys acc) \/
    exists y, In y (keys st) /\ (x / sz)%N = (y / sz)%N).
Proof.
  induction st as [|iv st IH]; intros acc x D; simpl; [auto|].
  destruct (row_keys acc iv x D) as [D1 K1]. destruct (IH (apply_row u acc iv) x D1) as [D2 K2].
  split; auto. intros H. apply K2 in H. destruct H as [H|[y [Hy E]]]; [|right; eauto].
  apply K1 in H. destruct H as [H|H]; auto. right. exists (fst iv). auto.
Qed.

Definition loc_op (phi : qstate) : qstate := fun k =>
  Csum (map (fun l => entry u (N.to_nat (k mod sz)) l * phi (k / sz * sz + N.of_nat l)%N)%C
            (seq 0 (Nat.pow 2 n))).

Lemma rows_amp : forall st acc k, tol = 0 -> NoDup (keys acc) -> NoDup (keys st) ->
  lamp (fold_left (apply_row u) st acc) k = (lamp acc k + loc_op (lamp st) k)%C.
Proof.
  induction st as [|[x v] st IH]; intros acc k H0 D Ds; simpl.
  - unfold loc_op. rewrite Csum_zero; [ring|]. intros. unfold lamp. simpl. ring.
  - simpl in Ds. inversion Ds; subst.
    destruct (row_keys acc (x, v) 0%N D) as [D1 _]. rewrite IH by auto. rewrite row_amp by auto. simpl.
    assert (Lc : forall y, lamp ((x, v) :: st) y = (lamp st y + if N.eqb x y then v else C0)%C).
    { intros y. unfold lamp. simpl. destruct (N.eqb_spec x y).
      - subst. assert (E : hm_get st y = None) by (apply (proj2 (@hm_get_None RArith _ _)); auto). rewrite E. aring.
      - aring. }
    assert (E : loc_op (lamp ((x, v) :: st)) k = (loc_op (lamp st) k +
      Csum (map (fun l => entry u (N.to_nat (k mod sz)) l * (if N.eqb x (k / sz * sz + N.of_nat l) then v else C0))%C
        (seq 0 (Nat.pow 2 n))))%C).
    { unfold loc_op. rewrite <- Csum_add. apply Csum_ext. intros. rewrite Lc. ring. }
    etransitivity; [|exact (f_equal (fun z => lamp acc k + z)%C (eq_sym E))].
    assert (E2 : Csum (map (fun l => entry u (N.to_nat (k mod sz)) l * (if N.eqb x (k / sz * sz + N.of_nat l) then v else C0))%C
        (seq 0 (Nat.pow 2 n))) = (if N.eqb (k / sz) (x / sz)
                then entry u (N.to_nat (k mod sz)) (N.to_nat (x mod sz)) * v else C0)%C).
    { assert (Lx : (x mod sz < sz)%N) by (apply N.mod_lt; pose proof (pow2_pos n); lia).
      destruct (N.eqb_spec (k / sz) (x / sz)).
      - rewrite (Csum_single _ _ (N.to_nat (x mod sz))).
        + rewrite e, N2Nat.id, <- split_N, N.eqb_refl. reflexivity.
        + apply seq_NoDup.
        + apply in_seq. split; [apply Nat.le_0_l|]. apply mod_lt_nat.
        + intros y Hy Ny. apply in_seq in Hy. destruct (N.eqb_spec x (k / sz * sz + N.of_nat y)); [|ring].
          exfalso. apply Ny. rewrite e0 at 1. rewrite join_mod by (rewrite <- pow2_N; lia). now rewrite Nat2N.id.
      - apply Csum_zero. intros y Hy. apply in_seq in Hy.
        destruct (N.eqb_spec x (k / sz * sz + N.of_nat y)); [|ring].
        exfalso. apply n0. rewrite e at 1. rewrite join_div by (rewrite <- pow2_N; lia). auto. }
    rewrite E2. ring.
Qed.
End Acc.

(** ** Moving the targets *)
Lemma flush_one_unalloc : forall lv s t, wf s -> ~ alloc s t -> flush_one lv s t = Ok s.
Proof.
  intros lv s t W H. unfold flush_one.
  destruct (bit (h_flag s) t) eqn:Eh; [exfalso; apply H, (wf_h s W); auto|].
  cbn [bind]. unfold flush_rx, flush_ry.
  destruct (im_get (rx_queue s) t) eqn:Ex; [exfalso; apply H; eapply (wf_rx s W); eauto|].
  cbn [bind].
  destruct (im_get (ry_queue s) t) eqn:Ey; [exfalso; apply H; eapply (wf_ry s W); eauto|].
  destruct lv; auto.
Qed.
Lemma alloc_dec : forall s q, {alloc s q} + {~ alloc s q}.
Proof.
  intros. unfold alloc. destruct (im_get (id_map s) q); [left; eauto|right; intros [? ?]; discriminate].
Qed.
Lemma flush_any_ok : forall lv qs s, wf s ->
  exists s', flush_queue s qs lv = Ok s' /\ gstep s s' (fun x => x) /\ less_pend s s' /\ op_queue s' = [].
Proof.
  intros lv qs s W. set (qs' := filter (fun q => if alloc_dec s q then true else false) qs).
  assert (A : Forall (alloc s) qs').
  { rewrite Forall_forall. intros q Hq. apply filter_In in Hq. destruct (alloc_dec s q); [auto|destruct Hq; discriminate]. }
  destruct (flush_queue_ok horder_perm lv qs' s W A) as [s' [E [G [L [_ [_ Q]]]]]].
  exists s'. split; [|auto]. rewrite <- E. unfold flush_queue. f_equal.
  assert (P : forall l s1, wf s1 -> (forall q, alloc s1 q <-> alloc s q) ->
    foldM (flush_one lv) l s1 = foldM (flush_one lv) (filter (fun q => if alloc_dec s q then true else false) l) s1).
  { induction l as [|q l IH]; intros s1 W1 A1; simpl; auto. destruct (alloc_dec s q) as [Aq|Aq]; simpl.
    - destruct (flush_one_ok horder_perm lv s1 q W1) as [s2 [E2 [G2 _]]]; [apply A1; auto|].
      rewrite E2. simpl. apply IH; [apply G2|]. intros x. rewrite (gstep_alloc _ _ _ x G2). auto.
    - rewrite flush_one_unalloc by (auto; rewrite A1; auto). simpl. apply IH; auto. }
  rewrite P by (auto; tauto). reflexivity.
Qed.

(** Like [gstep], but locations may change. *)
Record rstep (s s' : sim) (F : qstate -> qstate) : Prop := {
  rs_alloc : forall q, alloc s' q <-> alloc s q;
  rs_rng : rng s' = rng s;
  rs_wf : wf s';
  rs_norx : forall G, symm G -> rxin G s -> rxin G s';
  rs_abs : tol = 0 -> abs s' = F (abs s)
}.
Lemma gstep_rstep : forall s s' F, gstep s s' F -> rstep s s' F.
Proof. intros s s' F G. assert (A := fun q => gstep_alloc s s' F q G). destruct G; constructor; auto. Qed.
Lemma rstep_trans : forall a b c F G, rstep a b F -> rstep b c G -> rstep a c (fun x => G (F x)).
Proof.
  intros a b c F G [] []; constructor; auto; try congruence.
  - intros. rewrite rs_alloc1. auto.
  - intros. rewrite rs_abs1, rs_abs0; auto.
Qed.
Lemma relabel_rstep : forall s s' a b, relabel s s' a b -> wf s -> rstep s s' (fun x => x).
Proof.
  intros s s' a b R W. constructor.
  - intros; eapply relabel_alloc; eauto.
  - apply R.
  - eapply relabel_wf; eauto.
  - destruct R. intros G _. apply rxin_eq. exact rl_rx.
  - intros. eapply relabel_abs; eauto.
Qed.

Definition occupied (s : sim) (l : nat) : Prop := exists q, im_get (id_map s) q = Some l.

Lemma swap_keys_ok : forall s s1 q1 q2 l1 l2, wf s -> id_map s1 = id_map s ->
  im_get (id_map s) q1 = Some l1 -> im_get (id_map s) q2 = Some l2 ->
  forall i, im_get (im_update (im_update (id_map s1) q2 (fun _ => l1)) q1 (fun _ => l2)) i =
    option_map (sw l1 l2) (im_get (id_map s) i).
Proof.
  intros s s1 q1 q2 l1 l2 W E H1 H2 i. rewrite !im_get_update, E.
  destruct (Nat.eqb_spec q1 i).
  - subst. destruct (Nat.eqb_spec q2 i).
    + subst. rewrite H1 in *. inversion H2; subst. simpl. unfold sw. now rewrite Nat.eqb_refl.
    + rewrite H1. simpl. unfold sw. now rewrite Nat.eqb_refl.
  - destruct (Nat.eqb_spec q2 i).
    + subst. rewrite H2. simpl. f_equal. unfold sw. destruct (Nat.eqb_spec l2 l1); auto.
      now rewrite Nat.eqb_refl.
    + destruct (im_get (id_map s) i) as [l|] eqn:Ei; auto. simpl. f_equal. unfold sw.
      destruct (Nat.eqb_spec l l1); [subst; exfalso; apply n; eapply (wf_inj s W); eauto|].
      destruct (Nat.eqb_spec l l2); auto. subst. exfalso. apply n0. eapply (wf_inj s W); eauto.
Qed.

Lemma place_target_ok : forall s i q cur, wf s -> op_queue s = [] -> im_get (id_map s) q = Some cur -> occupied s i ->
  exists s', place_target s (i, q) = Ok s' /\ rstep s s' (fun x => x) /\ less_pend s s' /\ op_queue s' = [] /\
    (forall x, im_get (id_map s') x = option_map (sw cur i) (im_get (id_map s) x)).
Proof.
  intros s i q cur W Q E [p Hp]. unfold place_target. rewrite (find_ok _ _ _ E). cbn [bind].
  destruct (key_of_loc (id_map s) i) as [p'|] eqn:Ek; [|exfalso; eapply key_of_loc_None; eauto].
  apply key_of_loc_Some in Ek. assert (p' = p) by (eapply (wf_inj s W); eauto). subst p'. clear Ek.
  unfold swap_qubit_state. destruct (Nat.eqb_spec cur i).
  - subst i. cbn [bind]. eexists; split; [reflexivity|].
    set (s' := with_id_map _ _).
    assert (G : forall x, im_get (id_map s') x = option_map (sw cur cur) (im_get (id_map s) x)).
    { apply (swap_keys_ok s s q p cur cur W eq_refl E Hp). }
    assert (R : relabel s s' cur cur).
    { constructor; try reflexivity; auto. change (state s') with (state s).
      rewrite <- (map_id (state s)) at 1. apply map_ext. intros [k v]. simpl. f_equal.
      unfold swap_bits. now rewrite eqb_reflx. }
    split; [eapply relabel_rstep; eauto|]. split; [intros x; split; [exact (fun h => h)|split; exact (fun h => h)]|]. split; [exact Q|exact G].
  - destruct (flush_any_ok LHRxRy [cur; i] s W) as [s1 [E1 [G1 [L1 Q1]]]]. rewrite E1. cbn [bind].
    eexists; split; [reflexivity|]. set (s' := with_id_map _ _).
    assert (I1 : id_map s1 = id_map s) by apply G1.
    assert (G : forall x, im_get (id_map s') x = option_map (sw cur i) (im_get (id_map s) x)).
    { apply (swap_keys_ok s s1 q p cur i W I1 E Hp). }
    assert (R : relabel s1 s' cur i).
    { constructor; try reflexivity. intros x. rewrite G, I1. reflexivity. }
    split; [apply (rstep_trans s s1 s' (fun x => x) (fun x => x)); [apply gstep_rstep; auto|];
            eapply relabel_rstep; eauto; apply G1|].
    split; [exact L1|]. split; [exact Q1|exact G].
Qed.

Lemma sw_cases : forall a b l, sw a b l = b /\ l = a \/ sw a b l = a /\ l = b \/ sw a b l = l /\ l <> a /\ l <> b.
Proof. intros. unfold sw. destruct (Nat.eqb_spec l a); [auto|]. destruct (Nat.eqb_spec l b); auto. Qed.

Lemma place_targets_ok : forall l pre s, wf s -> op_queue s = [] -> NoDup (pre ++ l) -> Forall (alloc s) l ->
  (forall i, (i < length (pre ++ l))%nat -> occupied s i) ->
  (forall j q, nth_error pre j = Some q -> im_get (id_map s) q = Some j) ->
  exists s', foldM place_target (enumerate_from (length pre) l) s = Ok s' /\ rstep s s' (fun x => x) /\
    less_pend s s' /\ op_queue s' = [] /\ (forall i, occupied s i -> occupied s' i) /\
    (forall j q, nth_error (pre ++ l) j = Some q -> im_get (id_map s') q = Some j).
Proof.
  induction l as [|q l IH]; intros pre s W Q D A O P.
  - rewrite app_nil_r in *. exists s. split; [reflexivity|].
    split; [apply gstep_rstep, gstep_refl; auto|]. split; [apply less_refl|]. auto.
  - inversion A as [|? ? [cur Hc] A']; subst. cbn [enumerate_from foldM].
    destruct (place_target_ok s (length pre) q cur W Q Hc) as [s1 [E1 [R1 [L1 [Q1 G1]]]]].
    { apply O. rewrite app_length. simpl. lia. }
    rewrite E1. cbn [bind].
    assert (O1 : forall i, occupied s i -> occupied s1 i).
    { assert (Oc : occupied s cur) by (exists q; auto).
      assert (Op : occupied s (length pre)) by (apply O; rewrite app_length; simpl; lia).
      intros i [x Hx].
      destruct (sw_cases cur (length pre) i) as [[S1 S2]|[[S1 S2]|[S1 [S2 S3]]]].
      - destruct Op as [y Hy]. exists y. rewrite G1, Hy. simpl. f_equal. subst.
        unfold sw. destruct (Nat.eqb_spec (length pre) cur); auto. now rewrite Nat.eqb_refl.
      - exists q. rewrite G1, Hc. simpl. f_equal. subst. unfold sw. now rewrite Nat.eqb_refl.
      - exists x. rewrite G1, Hx. simpl. now rewrite S1. }
    destruct (IH (pre ++ [q]) s1) as [s2 [E2 [R2 [L2 [Q2 [O2 P2]]]]]]; auto.
    + apply R1.
    + rewrite <- app_assoc. exact D.
    + eapply Forall_impl; [|exact A']. intros x Hx. apply R1. exact Hx.
    + intros i Hi. apply O1. apply O. rewrite <- app_assoc in Hi. exact Hi.
    + intros j x Hj. rewrite G1. destruct (Nat.lt_ge_cases j (length pre)).
      * rewrite nth_error_app1 in Hj by auto. rewrite (P j x Hj). simpl. f_equal. unfold sw.
        destruct (Nat.eqb_spec j cur).
        { subst. exfalso. apply (NoDup_remove_2 pre l q D). apply in_or_app. left.
          rewrite (wf_inj s W q x cur Hc (P _ _ Hj)). eapply nth_error_In; eauto. }
        destruct (Nat.eqb_spec j (length pre)); auto. lia.
      * rewrite nth_error_app2 in Hj by auto.
        destruct (j - length pre)%nat eqn:Ej; simpl in Hj.
        { inversion Hj; subst. replace j with (length pre) by lia. rewrite Hc. simpl. unfold sw.
          now rewrite Nat.eqb_refl. }
        { destruct n; discriminate. }
    + exists s2. replace (S (length pre)) with (length (pre ++ [q])) by (rewrite app_length; simpl; lia).
      split; [exact E2|]. rewrite <- app_assoc in P2.
      split; [apply (rstep_trans s s1 s2 (fun x => x) (fun x => x)); auto|].
      split; [eapply less_trans; eauto|]. split; [auto|]. split; [auto|]. exact P2.
Qed.

(** ** Controls *)
Lemma msb_app : forall cs ts b, msb_index (cs ++ ts) b = (msb_index cs b * Nat.pow 2 (length ts) + msb_index ts b)%nat.
Proof.
  induction cs; intros; simpl; auto. rewrite IHcs, app_length, Nat.pow_add_r.
  destruct (bit b a); lia.
Qed.
Lemma msb_all : forall cs b, forallb (bit b) cs = true -> msb_index cs b = (Nat.pow 2 (length cs) - 1)%nat.
Proof.
  induction cs; simpl; intros; auto. apply andb_prop in H. destruct H as [-> H]. rewrite IHcs by auto.
  assert (0 < Nat.pow 2 (length cs))%nat by (apply Nat.neq_0_lt_0, Nat.pow_nonzero; lia). lia.
Qed.
Lemma msb_not_all : forall cs b, forallb (bit b) cs = false -> (msb_index cs b < Nat.pow 2 (length cs) - 1)%nat.
Proof.
  induction cs; simpl; intros; [discriminate|].
  assert (0 < Nat.pow 2 (length cs))%nat by (apply Nat.neq_0_lt_0, Nat.pow_nonzero; lia).
  pose proof (msb_lt cs b). destruct (bit b a); simpl in H.
  - apply IHcs in H. lia.
  - lia.
Qed.

Lemma map_add_seq : forall a n s, map (fun l => (a + l)%nat) (seq s n) = seq (a + s) n.
Proof. induction n; intros; simpl; auto. f_equal. rewrite IHn. f_equal. lia. Qed.

Lemma controlled_op : forall u cs ts psi, NoDup (cs ++ ts) -> nrows u = Nat.pow 2 (length ts) -> ncols u = nrows u ->
  mat_op (entry (@controlled RArith u (length cs))) (cs ++ ts) psi = ctrl_op cs (mat_op (entry u) ts) psi.
Proof.
  intros u cs ts psi D Hr Hc. apply functional_extensionality. intros b. unfold mat_op, ctrl_op.
  destruct (NoDup_app_inv _ _ _ D) as [Dc [Dt Dx]].
  set (c := Nat.pow 2 (length cs)). set (t := Nat.pow 2 (length ts)) in *.
  assert (c0 : (0 < c)%nat) by (apply Nat.neq_0_lt_0, Nat.pow_nonzero; lia).
  assert (t0 : (0 < t)%nat) by (apply Nat.neq_0_lt_0, Nat.pow_nonzero; lia).
  rewrite app_length, Nat.pow_add_r. fold c t. rewrite msb_app. fold t.
  pose proof (msb_lt ts b) as Lt. fold t in Lt.
  assert (Sq : (c * t = (c * t - t) + t)%nat) by nia.
  rewrite Sq, seq_app, map_app, Csum_app. simpl (0 + _)%nat.
  unfold controlled. simpl entry. rewrite Hc, Hr.
  replace (t * Nat.pow 2 (length cs))%nat with (c * t)%nat by (unfold c; lia).
  destruct (forallb (bit b) cs) eqn:F.
  - rewrite (msb_all cs b F). fold c.
    assert (Eb : ((c - 1) * t + msb_index ts b = (c * t - t) + msb_index ts b)%nat) by nia. rewrite Eb.
    rewrite Csum_zero.
    2:{ intros l Hl. apply in_seq in Hl. destruct (Nat.leb_spec (c * t - t) l); [lia|]. rewrite andb_false_r.
        destruct (Nat.eqb_spec (c * t - t + msb_index ts b) l); [lia|]. aring. }
    replace (seq (c * t - t) t) with (map (fun l => (c * t - t + l)%nat) (seq 0 t)).
    2:{ rewrite map_add_seq. f_equal. lia. }
    rewrite map_map.
    transitivity (Csum (map (fun l => entry u (msb_index ts b) l * psi (assign ts l b))%C (seq 0 t))).
    2:{ reflexivity. }
    match goal with |- (?a + ?b)%C = _ => replace (a + b)%C with b by (unfold C0; toC; ceq) end.
    apply Csum_ext. intros l Hl. apply in_seq in Hl.
    destruct (Nat.leb_spec (c * t - t) (c * t - t + msb_index ts b)); [|lia].
    destruct (Nat.leb_spec (c * t - t) (c * t - t + l)); [|lia]. simpl.
    replace (c * t - t + msb_index ts b - (c * t - t))%nat with (msb_index ts b) by lia.
    replace (c * t - t + l - (c * t - t))%nat with l by lia. f_equal. f_equal.
    apply bits_ext. intros i.
    assert (Ln : length (cs ++ ts) = (length cs + length ts)%nat) by apply app_length.
    assert (En : N.of_nat (c * t - t + l) = ((2 ^ N.of_nat (length cs) - 1) * 2 ^ N.of_nat (length ts) + N.of_nat l)%N).
    { rewrite <- !pow2_N. fold c t. nia. }
    assert (Ll : (N.of_nat l < 2 ^ N.of_nat (length ts))%N) by (rewrite <- pow2_N; fold t; lia).
    destruct (in_dec Nat.eq_dec i (cs ++ ts)) as [Hi|Hi].
    + apply In_nth_error in Hi. destruct Hi as [j Hj]. rewrite (assign_in _ _ _ _ _ D Hj).
      rewrite En, join_bit by auto. rewrite Ln.
      assert (Lj : (j < length (cs ++ ts))%nat) by (apply nth_error_Some; congruence). rewrite Ln in Lj.
      destruct (Nat.lt_ge_cases j (length cs)).
      * rewrite nth_error_app1 in Hj by auto.
        destruct (Nat.ltb_spec (length cs + length ts - 1 - j) (length ts)); [lia|].
        rewrite assign_out by (apply Dx; eapply nth_error_In; eauto).
        rewrite forallb_forall in F. rewrite (F i) by (eapply nth_error_In; eauto).
        assert (Eo : bit (2 ^ N.of_nat (length cs) - 1) (length cs + length ts - 1 - j - length ts) = true).
        { unfold bit. rewrite <- N.pred_sub, <- N.ones_equiv. apply N.ones_spec_low. lia. }
        exact Eo.
      * rewrite nth_error_app2 in Hj by auto.
        destruct (Nat.ltb_spec (length cs + length ts - 1 - j) (length ts)); [|lia].
        rewrite (assign_in ts l b (j - length cs) i Dt Hj). f_equal. lia.
    + rewrite in_app_iff in Hi. rewrite !assign_out by (rewrite ?in_app_iff; tauto). reflexivity.
  - pose proof (msb_not_all cs b F) as Ln. fold c in Ln.
    set (r := (msb_index cs b * t + msb_index ts b)%nat).
    assert (Lr : (r < c * t - t)%nat) by (unfold r; nia).
    rewrite (Csum_single _ (seq 0 (c * t - t)) r).
    + rewrite Csum_zero.
      2:{ intros l Hl. apply in_seq in Hl. destruct (Nat.leb_spec (c * t - t) r); [lia|]. simpl.
          destruct (Nat.eqb_spec r l); [lia|]. aring. }
      destruct (Nat.leb_spec (c * t - t) r); [lia|]. simpl. rewrite Nat.eqb_refl.
      unfold r. unfold t. rewrite <- msb_app. rewrite assign_msb by auto. aring.
    + apply seq_NoDup.
    + apply in_seq. lia.
    + intros y Hy Ny. apply in_seq in Hy. destruct (Nat.leb_spec (c * t - t) r); [lia|]. simpl.
      destruct (Nat.eqb_spec r y); [congruence|]. aring.
Qed.

(** ** Lifting to identifiers *)
Lemma baseof_loc_op : forall m u ts phi, im_inj m -> NoDup ts ->
  (forall j q, nth_error (rev ts) j = Some q -> im_get m q = Some j) ->
  baseof m (loc_op u (length ts) phi) = mat_op (entry u) ts (baseof m phi).
Proof.
  intros m u ts phi I D P.
  assert (P' : forall j q, nth_error ts j = Some q -> im_get m q = Some (length ts - 1 - j)%nat).
  { intros j q H. apply P. assert (Lj : (j < length ts)%nat) by (apply nth_error_Some; congruence).
    assert (Hn : nth (length ts - 1 - j) (rev ts) q = q).
    { rewrite rev_nth by lia. replace (length ts - S (length ts - 1 - j))%nat with j by lia.
      eapply nth_error_nth; eauto. }
    rewrite (nth_error_nth' (rev ts) q) by (rewrite rev_length; lia). now rewrite Hn. }
  apply functional_extensionality. intros b. unfold baseof at 1. unfold mat_op.
  assert (Ib : forall l, inb m (assign ts l b) = inb m b).
  { intros l. apply eq_true_iff_eq. rewrite !inb_spec by auto. split; intros H i Hi.
    - destruct (in_dec Nat.eq_dec i ts) as [Hn|Hn].
      + apply In_nth_error in Hn. destruct Hn as [j Hj]. eauto.
      + apply H. rewrite assign_out; auto.
    - destruct (in_dec Nat.eq_dec i ts) as [Hn|Hn].
      + apply In_nth_error in Hn. destruct Hn as [j Hj]. eauto.
      + apply H. rewrite assign_out in Hi; auto. }
  destruct (inb m b) eqn:Eb.
  - unfold loc_op. set (k := to_loc m b). set (n := length ts).
    assert (Low : N.to_nat (k mod 2 ^ N.of_nat n) = msb_index ts b).
    { apply (nat_bits_ext _ _ n).
      - apply mod_lt_nat.
      - apply msb_lt.
      - intros j Hj. rewrite N2Nat.id. unfold bit at 1. rewrite N.mod_pow2_bits_low by lia. fold (bit k j).
        destruct (nth_error ts (n - 1 - j)) as [q|] eqn:Eq; [|apply nth_error_None in Eq; unfold n in *; lia].
        pose proof (P' _ _ Eq) as Hq. replace (length ts - 1 - (n - 1 - j))%nat with j in Hq by (unfold n in *; lia).
        unfold k. rewrite (bit_to_loc m I _ _ _ Hq).
        pose proof (msb_bit ts b _ _ Eq) as M. replace (length ts - 1 - (n - 1 - j))%nat with j in M by (unfold n in *; lia).
        symmetry. exact M. }
    rewrite Low. apply Csum_ext. intros l Hl. apply in_seq in Hl. f_equal. unfold baseof. rewrite Ib. f_equal.
    assert (Ll : (N.of_nat l < 2 ^ N.of_nat n)%N) by (apply of_nat_lt_pow; apply Hl).
    symmetry. apply to_loc_char; auto.
    + intros i Hi. rewrite join_bit in Hi by auto. destruct (Nat.ltb_spec i n).
      * destruct (nth_error ts (n - 1 - i)) as [q|] eqn:Eq; [|apply nth_error_None in Eq; unfold n in *; lia].
        exists q. rewrite (P' _ _ Eq). f_equal. unfold n in *. lia.
      * apply (to_loc_locs m b). fold k. rewrite <- Hi. rewrite (split_N k n) at 1.
        rewrite join_bit by (apply N.mod_lt; pose proof (pow2_pos n); lia).
        destruct (Nat.ltb_spec i n); [lia|]. reflexivity.
    + intros i j Hj. rewrite join_bit by auto. destruct (Nat.ltb_spec j n).
      * destruct (nth_error ts (n - 1 - j)) as [q|] eqn:Eq; [|apply nth_error_None in Eq; unfold n in *; lia].
        pose proof (P' _ _ Eq) as Hq. replace (length ts - 1 - (n - 1 - j))%nat with j in Hq by (unfold n in *; lia).
        assert (i = q) by (eapply I; eauto). subst q.
        rewrite (assign_in ts l b _ _ D Eq). f_equal. unfold n in *. lia.
      * assert (Hn : ~ In i ts).
        { intros Hn. apply In_nth_error in Hn. destruct Hn as [x Hx].
          assert (x < length ts)%nat by (apply nth_error_Some; congruence).
          rewrite (P' _ _ Hx) in Hj. inversion Hj. unfold n in *. lia. }
        rewrite assign_out by auto. rewrite <- (bit_to_loc m I b i j Hj). fold k.
        rewrite (split_N k n) at 2. rewrite join_bit by (apply N.mod_lt; pose proof (pow2_pos n); lia).
        destruct (Nat.ltb_spec j n); [lia|]. reflexivity.
  - symmetry. apply Csum_zero. intros l _. unfold baseof. rewrite Ib. ring.
Qed.

Definition opt_list {A} (o : option (list A)) : list A := match o with Some l => l | None => [] end.
Definition qzero : qstate := fun _ => C0.

Lemma pendl_qzero : forall f l, pendl f l qzero = qzero.
Proof.
  induction l; simpl; auto. rewrite IHl.
  apply functional_extensionality. intros b. unfold gate1, qzero. ring.
Qed.
Lemma ctrl_nil : forall F psi, ctrl_op [] F psi = F psi.
Proof. reflexivity. Qed.

Lemma apply_ok : forall s u ts cs, wf s -> NoDup (opt_list cs ++ ts) -> Forall (alloc s) (opt_list cs ++ ts) ->
  nrows u = Nat.pow 2 (length ts) -> ncols u = nrows u ->
  (forall i, (i < length (opt_list cs ++ ts))%nat -> occupied s i) ->
  let F := ctrl_op (opt_list cs) (mat_op (entry u) ts) in
  (exists s', apply_matrix s u ts cs = Ok s' /\ rstep s s' F /\ (forall i, occupied s i -> occupied s' i)) \/
  (apply_matrix s u ts cs = Panic EEmptyState /\ (tol = 0 -> F (abs s) = qzero)).
Proof.
  intros s u ts cs W D A Hr Hc O F. unfold apply_matrix.
  rewrite Hc, Hr, !Nat.eqb_refl. simpl negb. cbv iota.
  set (all := opt_list cs ++ ts) in *.
  set (u' := match cs with Some l => controlled u (length l) | None => u end).
  assert (Em : match cs with Some l => (l ++ ts, controlled u (length l)) | None => (ts, u) end = (all, u')).
  { destruct cs; reflexivity. }
  rewrite Em. clear Em.
  assert (Su : nrows u' = Nat.pow 2 (length all)).
  { unfold u', all. destruct cs; simpl; rewrite ?app_length, ?Nat.pow_add_r; [rewrite Hr; lia|auto]. }
  assert (FE : forall psi, mat_op (entry u') all psi = F psi).
  { intros psi. unfold u', all, F. destruct cs; simpl; [apply controlled_op; auto|reflexivity]. }
  unfold check_for_duplicates. rewrite check_dup_ok by auto. cbn [bind].
  destruct (flush_queue_ok horder_perm LHRxRy all s W A) as [s1 [E1 [G1 [L1 [_ [D1 Q1]]]]]].
  rewrite E1. cbn [bind].
  assert (I1 : id_map s1 = id_map s) by apply G1.
  destruct (place_targets_ok (rev all) [] s1) as [s2 [E2 [R2 [L2 [Q2 [O2 P2]]]]]]; auto.
  { apply G1. }
  { simpl. apply NoDup_rev. auto. }
  { eapply gstep_Forall; eauto. rewrite Forall_forall in *. intros x Hx. apply A. apply in_rev. auto. }
  { intros i Hi. simpl in Hi. rewrite rev_length in Hi. destruct (O i Hi) as [q Hq]. exists q. congruence. }
  { intros [|j] q; discriminate. }
  unfold enumerate. simpl in E2. rewrite E2. cbn [bind]. simpl in P2.
  assert (W2 : wf s2) by apply R2. destruct (wf_st s2 W2) as [S1 S2].
  destruct (rows_keys u' (length all) Su (state s2) [] 0%N) as [K1 _]; [constructor|].
  set (acc := fold_left (apply_row u') (state s2) []) in *.
  assert (Pm : Permutation (horder acc) acc) by apply horder_perm.
  assert (Kh : NoDup (keys (horder acc))) by (eapply perm_nodup_keys; [apply Permutation_sym; eauto|auto]).
  assert (Am : tol = 0 -> lamp (horder acc) = loc_op u' (length all) (lamp (state s2))).
  { intros H0. rewrite (lamp_perm _ _ Kh Pm). apply functional_extensionality. intros k.
    unfold acc. rewrite (rows_amp u' (length all) Su) by (auto; constructor). unfold lamp at 1. simpl. ring. }
  assert (Lo : forall k, In k (keys (horder acc)) -> locs_of (id_map s2) k).
  { intros k Hk. apply (Permutation_in _ (perm_keys _ _ Pm)) in Hk. intros i Hi.
    destruct (rows_keys u' (length all) Su (state s2) [] k) as [_ K2]; [constructor|].
    destruct (K2 Hk) as [Hn|[y [Hy Ey]]]; [destruct Hn|].
    destruct (Nat.lt_ge_cases i (length all)).
    - destruct (O2 i) as [q Hq]; [|exists q; auto]. destruct (O i) as [q Hq]; auto. exists q. congruence.
    - apply (S2 y Hy). rewrite (split_N k (length all)) in Hi.
      rewrite join_bit in Hi by (apply N.mod_lt; pose proof (pow2_pos (length all)); lia).
      rewrite (split_N y (length all)).
      rewrite join_bit by (apply N.mod_lt; pose proof (pow2_pos (length all)); lia).
      destruct (Nat.ltb_spec i (length all)); [lia|]. rewrite <- Ey. auto. }
  assert (C : cstep s2 (with_state s2 (horder acc)) F).
  { apply cstep_state0; auto; [split; auto|]. intros H0. rewrite Am by auto. rewrite <- FE.
    apply baseof_loc_op; auto. apply W2. }
  assert (R : rstep s (with_state s2 (horder acc)) F).
  { apply (rstep_trans s s1 _ (fun x => x) F); [apply gstep_rstep; auto|].
    apply (rstep_trans s1 s2 _ (fun x => x) F); [auto|]. constructor.
    - intros; tauto.
    - reflexivity.
    - apply C.
    - auto.
    - intros H0. rewrite (cstep_abs _ _ _ C) by auto. unfold abs. apply pendl_commute.
      intros q U phi Hq. destruct (in_dec Nat.eq_dec q all) as [Hi|Hi].
      + left. apply no_pend_pm. apply (less_no_pend s1); auto. destruct (D1 q Hi) as [? [? ?]]. repeat split; auto.
      + right. unfold all in Hi. rewrite in_app_iff in Hi. apply ctrl_mat_gate1; tauto. }
  destruct (horder acc) as [|e st] eqn:Eh.
  - right. split; auto. intros H0. rewrite <- (rs_abs _ _ _ R) by auto.
    assert (C0' : core (with_state s2 []) = qzero).
    { unfold core. assert (Q : op_queue (with_state s2 []) = []) by (simpl; auto). rewrite Q.
      apply functional_extensionality. intros b. unfold opsem, base, baseof, qzero. simpl.
      destruct (inb _ _); auto. }
    unfold abs. rewrite C0'. apply pendl_qzero.
  - left. eexists. split; [reflexivity|]. split; [exact R|]. intros i [q Hq]. apply O2. exists q. congruence.
Qed.
End Ap.
