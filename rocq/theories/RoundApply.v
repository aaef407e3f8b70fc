(** * Application of a matrix with rounding

    The sums that [apply] accumulates for the amplitudes of the new state, with rounded products and
    sums and with entries left out when they fall below the threshold. *)
From Coq Require Import Reals NArith List Bool Lia Lra Permutation Arith Sorted FunctionalExtensionality.
From Verif Require Import Cx Arith ArithR IndexMap IndexMapLemmas Bits BitsLemmas Spec QLib QSum Sim SimApply SpecExp SpecApply
  StateLemmas Loc Abs Gates Gates2 Meas Reg ExpLemmas ApplyLemmas SpecRun SpecLemmas SpecAny Any AnyRun
  SpecNear Near NearGates NearGates2 NearExp NearRun SpecRound Round RoundGates RoundReg.
Import ListNotations.
Local Open Scope R_scope.

(** ** Entries of isometries *)
Lemma Rsum_term : forall (f : nat -> R) l x, (forall y, In y l -> 0 <= f y) -> In x l -> f x <= Rsum (map f l).
Proof.
  induction l as [|a l IH]; intros x H Hx; [destruct Hx|]. unfold Rsum in *. simpl.
  assert (P : 0 <= fold_right Rplus 0 (map f l)) by (apply (Rsum_nonneg _ f); intros; apply H; simpl; auto).
  destruct Hx as [->|Hx]; [lra|]. assert (Q := IH x (fun y Hy => H y (or_intror Hy)) Hx).
  assert (0 <= f a) by (apply H; simpl; auto). lra.
Qed.
Lemma Rsum_delta : forall (f : nat -> R) l x, NoDup l -> In x l -> (forall y, In y l -> y <> x -> f y = 0) -> Rsum (map f l) = f x.
Proof.
  induction l as [|a l IH]; intros x D H Z; [destruct H|]. inversion D; subst. unfold Rsum in *. simpl. destruct H as [->|H].
  - assert (E := Rsum_zero _ f l). unfold Rsum in E. rewrite E; [lra|]. intros y Hy. apply Z; [right; auto|]. intro; subst; tauto.
  - rewrite (IH x) by (auto; intros; apply Z; simpl; auto). rewrite (Z a); [lra|left; auto|]. intro; subst; tauto.
Qed.
Lemma iso_entry : forall d U r c, isometry d U -> (r < d)%nat -> (c < d)%nat -> cmod (U r c) <= 1.
Proof.
  intros d U r c HU Hr Hc. apply cmod_unit.
  assert (E := HU (fun l => if Nat.eqb l c then C1 else C0)).
  assert (E2 : Rsum (map (fun l => Cn2 (if Nat.eqb l c then C1 else C0)) (seq 0 d)) = 1).
  { rewrite (Rsum_delta _ _ c); [rewrite Nat.eqb_refl; apply Cn2_C1|apply seq_NoDup|apply in_seq; lia|].
    intros y _ Hy. destruct (Nat.eqb_spec y c); [congruence|apply Cn2_C0]. }
  cbv beta in E. rewrite E2 in E. rewrite <- E.
  assert (Z : Csum (map (fun l => U r l * (if Nat.eqb l c then C1 else C0))%C (seq 0 d)) = U r c).
  { rewrite (Csum_single _ _ c); [rewrite Nat.eqb_refl; ring|apply seq_NoDup|apply in_seq; lia|].
    intros y _ Hy. destruct (Nat.eqb_spec y c); [congruence|ring]. }
  rewrite <- Z at 1.
  apply (Rsum_term (fun r => Cn2 (Csum (map (fun l => U r l * (if Nat.eqb l c then C1 else C0))%C (seq 0 d))))).
  - intros. apply Cn2_nonneg.
  - apply in_seq. lia.
Qed.
Lemma ct_mat : forall n cs U ts, NoDup (cs ++ ts) -> (forall q, In q ts -> (q < n)%nat) ->
  isometry (Nat.pow 2 (length ts)) U -> contraction n (ctrl_op cs (mat_op U ts)).
Proof.
  intros n cs U ts D L HU. constructor.
  - intros phi psi. apply functional_extensionality. intros b. unfold ctrl_op, qdiff, mat_op.
    destruct (forallb (bit b) cs); [|reflexivity].
    assert (E := Csum_add _ (fun l => U (msb_index ts b) l * phi (assign ts l b))%C
      (fun l => - C1 * (U (msb_index ts b) l * psi (assign ts l b)))%C (seq 0 (Nat.pow 2 (length ts)))).
    rewrite Csum_scal in E.
    transitivity (Csum (map (fun l => U (msb_index ts b) l * phi (assign ts l b) + - C1 * (U (msb_index ts b) l * psi (assign ts l b)))%C
      (seq 0 (Nat.pow 2 (length ts))))).
    + apply Csum_ext. intros. ring.
    + rewrite E. ring.
  - intros psi. rewrite norm2_mat; auto. lra.
Qed.
Lemma ctrl_mat_scale : forall cs U ts d psi, ctrl_op cs (mat_op U ts) (scale d psi) = scale d (ctrl_op cs (mat_op U ts) psi).
Proof.
  intros. apply functional_extensionality. intros b. unfold ctrl_op. rewrite mat_op_scale. unfold scale.
  destruct (forallb _ _); ring.
Qed.

(** ** The exact operation on locations *)
Section Exact.
Variables (U : nat -> nat -> C) (n : nat).
Notation sz := (2 ^ N.of_nat n)%N.
Definition lop (phi : qstate) : qstate := fun k =>
  Csum (map (fun l => U (N.to_nat (k mod sz)) l * phi (k / sz * sz + N.of_nat l)%N)%C (seq 0 (Nat.pow 2 n))).
Lemma lop_zero : lop (fun _ => C0) = fun _ => C0.
Proof. apply functional_extensionality. intros k. unfold lop. apply Csum_zero. intros. ring. Qed.
Lemma lop_more : forall phi x v k,
  lop (fun y => phi y + if N.eqb x y then v else C0)%C k =
  (lop phi k + if N.eqb (k / sz) (x / sz) then U (N.to_nat (k mod sz)) (N.to_nat (x mod sz)) * v else C0)%C.
Proof.
  intros phi x v k.
  assert (E : lop (fun y => phi y + if N.eqb x y then v else C0)%C k = (lop phi k +
    Csum (map (fun l => U (N.to_nat (k mod sz)) l * (if N.eqb x (k / sz * sz + N.of_nat l) then v else C0))%C
      (seq 0 (Nat.pow 2 n))))%C).
  { unfold lop. rewrite <- Csum_add. apply Csum_ext. intros. ring. }
  rewrite E. f_equal.
  assert (Lx : (x mod sz < sz)%N) by (apply N.mod_lt; pose proof (pow2_pos n); lia).
  destruct (N.eqb_spec (k / sz) (x / sz)).
  - rewrite (Csum_single _ _ (N.to_nat (x mod sz))).
    + rewrite e, N2Nat.id, <- split_N, N.eqb_refl. reflexivity.
    + apply seq_NoDup.
    + apply in_seq. split; [apply Nat.le_0_l|]. apply mod_lt_nat.
    + intros y Hy Ny. apply in_seq in Hy. destruct (N.eqb_spec x (k / sz * sz + N.of_nat y)); [|ring].
      exfalso. apply Ny. rewrite e0 at 1. rewrite join_mod by (rewrite <- pow2_N; lia). now rewrite Nat2N.id.
  - apply Csum_zero. intros y Hy. apply in_seq in Hy.
    destruct (N.eqb_spec x (k / sz * sz + N.of_nat y)); [|ring].
    exfalso. apply n0. rewrite e at 1. rewrite join_div by (rewrite <- pow2_N; lia). auto.
Qed.
End Exact.
(** The exact counterpart of [controlled]. *)
Definition cmat (U : nat -> nat -> C) (d c : nat) : nat -> nat -> C :=
  fun r l => let m := (d * Nat.pow 2 c - d)%nat in
    if (Nat.leb m r && Nat.leb m l)%bool then U (r - m)%nat (l - m)%nat else if Nat.eqb r l then C1 else C0.

Definition exactT : Tol := {| tol := 0 |}.
Lemma baseof_lop : forall m U ts phi, im_inj m -> NoDup ts ->
  (forall j q, nth_error (rev ts) j = Some q -> im_get m q = Some j) ->
  baseof m (lop U (length ts) phi) = mat_op U ts (baseof m phi).
Proof.
  intros m U ts phi I D P.
  exact (@baseof_loc_op exactT m (@mkMatrix (@RArith exactT) 0 0 U) ts phi I D P).
Qed.
Lemma cmat_op : forall U cs ts psi, NoDup (cs ++ ts) ->
  mat_op (cmat U (Nat.pow 2 (length ts)) (length cs)) (cs ++ ts) psi = ctrl_op cs (mat_op U ts) psi.
Proof.
  intros U cs ts psi D.
  exact (@controlled_op exactT (@mkMatrix (@RArith exactT) (Nat.pow 2 (length ts)) (Nat.pow 2 (length ts)) U) cs ts psi D eq_refl eq_refl).
Qed.

Section RA.
Context {A : Arith} {EN : Env} {AP : Approx}.
Hypothesis laws : approx_ok.
Hypothesis horder_perm : any_order.
Notation lamp := Round.lamp.

(** ** The accumulation *)
Definition tn : R := sqrt tiny.
Lemma tn_pos : 0 <= tn. Proof. apply sqrt_pos. Qed.
Lemma tn_le : forall a, Cn2 a <= tiny -> cmod a <= tn.
Proof. intros a H. apply sqrt_le_1_alt. exact H. Qed.
Lemma tn_step : step_err <= tn.
Proof.
  unfold tn, tiny. assert (P := step_pos laws).
  rewrite <- (sqrt_square step_err) at 1 by auto. apply sqrt_le_1_alt. nra.
Qed.
Lemma tn_dlt : 22 * dlt <= tn.
Proof. assert (P := tn_step). unfold step_err in P. assert (D := ap_dlt laws). assert (Q := ap_thr laws). lra. Qed.

Definition getv (o : option amp) : C := match o with Some v => aval v | None => C0 end.
Lemma lamp_getv : forall l k, lamp l k = getv (hm_get l k).
Proof. reflexivity. Qed.
Definition cellstep (c val : amp) (o : option amp) : option amp :=
  if anz c then o
  else let v := match o with Some e => aadd e (amul c val) | None => amul c val end in
       if anz v then None else Some v.
Definition fino (o : option amp) : Prop := forall v, o = Some v -> afin v.

Lemma cellstep_near : forall c z val o s e, cl 10 c z -> cmod z <= 1 -> afin val -> cmod (aval val) <= 2 ->
  fino o -> cmod s <= 2 -> e <= 2 -> cmod (getv o - s)%C <= e ->
  fino (cellstep c val o) /\ cmod (getv (cellstep c val o) - (s + z * aval val))%C <= e + 2 * tn.
Proof.
  intros c z val o s e Hc Hz Fv Hv Fo Hs He Ho. assert (T0 := tn_pos). assert (T1 := tn_dlt).
  unfold cellstep. destruct (anz c) eqn:Zc.
  - split; auto. assert (K := tn_le _ (nz_tiny laws 10 c z ltac:(lra) Hc Zc)).
    replace (getv o - (s + z * aval val))%C with ((getv o - s) - z * aval val)%C by ring.
    eapply Rle_trans; [apply cmod_sub|]. rewrite cmod_mul. assert (P := cmod_nonneg z). assert (P2 := cmod_nonneg (aval val)). nra.
  - assert (M : cl 21 (amul c val) (z * aval val)%C).
    { apply (cl_mono laws (10 * 2 + (1 + 10 / 64) * 0 + 1)); [lra|]. apply (cl_mul laws); auto using cl_self; lra. }
    assert (Zb : cmod (z * aval val)%C <= 2).
    { rewrite cmod_mul. assert (P := cmod_nonneg z). assert (P2 := cmod_nonneg (aval val)). nra. }
    assert (Mm : cmod (aval (amul c val)) <= 2 + 21 / 64) by (apply (cl_mod laws 21 (amul c val) (z * aval val)%C 2); auto; lra).
    set (v := match o with Some e0 => aadd e0 (amul c val) | None => amul c val end).
    assert (V : afin v /\ cmod (aval v - (getv o + z * aval val))%C <= tn).
    { unfold v. destruct M as [Fm M]. assert (D := ap_dlt laws). destruct o as [x|]; simpl.
      - assert (Fx : afin x) by (apply Fo; auto).
        assert (Bx : cmod (aval x) <= 4).
        { replace (aval x) with ((aval x - s) + s)%C by ring. eapply Rle_trans; [apply cmod_add|]. simpl in Ho. lra. }
        destruct (ap_add laws x (amul c val)) as [Fa Ha]; [split; auto; lra|split; auto; lra|].
        split; auto. eapply Rle_trans; [apply (cmod_tri _ (aval x + aval (amul c val))%C)|].
        replace (aval x + aval (amul c val) - (aval x + z * aval val))%C with (aval (amul c val) - z * aval val)%C by ring.
        lra.
      - split; auto. replace (C0 + z * aval val)%C with (z * aval val)%C by ring. lra. }
    destruct V as [Fv' V].
    assert (B : cmod (aval v - (s + z * aval val))%C <= e + tn).
    { eapply Rle_trans; [apply (cmod_tri _ (getv o + z * aval val)%C)|].
      replace (getv o + z * aval val - (s + z * aval val))%C with (getv o - s)%C by ring. lra. }
    destruct (anz v) eqn:Zv.
    + split; [intros ? H; discriminate|]. assert (K := tn_le _ (nz_tiny laws 0 v (aval v) ltac:(lra) (cl_self _ Fv') Zv)).
      simpl. replace (C0 - (s + z * aval val))%C with ((aval v - (s + z * aval val)) - aval v)%C by ring.
      eapply Rle_trans; [apply cmod_sub|]. lra.
    + split; [intros ? H; inversion H; subst; auto|]. simpl. lra.
Qed.

Lemma ahm_get_remove : forall (m : sstate) k k', NoDup (keys m) ->
  hm_get (hm_remove m k) k' = if N.eqb k k' then None else hm_get m k'.
Proof.
  induction m as [|[k0 v0] m IH]; simpl; intros; [destruct (N.eqb k k'); auto|]. inversion H; subst.
  destruct (N.eqb_spec k0 k).
  - subst. destruct (N.eqb_spec k k'); auto. subst. exact (proj2 (hm_get_None m k') H2).
  - simpl. rewrite IH by auto. destruct (N.eqb_spec k0 k'); auto. destruct (N.eqb_spec k k'); congruence.
Qed.

Section Acc.
Variables (u : matrix) (n : nat).
Hypothesis size : nrows u = Nat.pow 2 n.
Notation sz := (2 ^ N.of_nat n)%N.
Lemma acell_get : forall i l val acc j k, NoDup (keys acc) ->
  hm_get (apply_cell u i l val acc j) k =
  if N.eqb (i * sz + N.of_nat j) k then cellstep (entry u j l) val (hm_get acc k) else hm_get acc k.
Proof.
  intros i l val acc j k D. unfold apply_cell, cellstep. rewrite size, pow2_N.
  set (loc := (i * sz + N.of_nat j)%N).
  destruct (anz (entry u j l)) eqn:Z; [destruct (N.eqb loc k); auto|]. cbv zeta.
  match goal with |- context[if anz ?c then _ else _] => set (v := c) end.
  destruct (anz v) eqn:Zv.
  - rewrite ahm_get_remove by auto. destruct (N.eqb_spec loc k); auto. subst k. fold v. now rewrite Zv.
  - rewrite ahm_get_put. destruct (N.eqb_spec loc k); auto. subst k. fold v. now rewrite Zv.
Qed.
Lemma acells_get : forall js i l val acc k, NoDup (keys acc) -> NoDup js ->
  (forall j, In j js -> (j < Nat.pow 2 n)%nat) ->
  hm_get (fold_left (apply_cell u i l val) js acc) k =
  if (N.eqb (k / sz) i && existsb (Nat.eqb (N.to_nat (k mod sz))) js)%bool
  then cellstep (entry u (N.to_nat (k mod sz)) l) val (hm_get acc k) else hm_get acc k.
Proof.
  induction js as [|j js IH]; intros i l val acc k D Dj Hj; simpl.
  - rewrite andb_false_r. auto.
  - inversion Dj; subst.
    assert (Lj : (j < Nat.pow 2 n)%nat) by (apply Hj; left; auto).
    destruct (acell_keys u n size i l val acc j 0%N D Lj) as [D1 _].
    rewrite IH by (auto; intros; apply Hj; right; auto). rewrite acell_get by auto.
    assert (Lj' : (N.of_nat j < sz)%N) by (rewrite <- pow2_N; lia).
    destruct (N.eqb_spec (i * sz + N.of_nat j) k).
    + subst k. rewrite join_div, join_mod by auto. rewrite N.eqb_refl, Nat2N.id, Nat.eqb_refl. simpl.
      assert (Ex : existsb (Nat.eqb j) js = false).
      { apply not_true_iff_false. intros H. apply existsb_exists in H. destruct H as [x [H E]].
        apply Nat.eqb_eq in E. subst. tauto. }
      rewrite Ex. auto.
    + destruct (N.eqb_spec (k / sz) i); simpl; auto.
      destruct (Nat.eqb_spec (N.to_nat (k mod sz)) j); simpl; auto.
      exfalso. apply n0. rewrite (split_N k n). subst. rewrite N2Nat.id. auto.
Qed.
Lemma arow_get : forall acc iv k, NoDup (keys acc) ->
  hm_get (apply_row u acc iv) k = if N.eqb (k / sz) (fst iv / sz)
    then cellstep (entry u (N.to_nat (k mod sz)) (N.to_nat (fst iv mod sz))) (snd iv) (hm_get acc k) else hm_get acc k.
Proof.
  intros. unfold apply_row. rewrite size, pow2_N. rewrite acells_get; auto using seq_NoDup.
  - assert (E : existsb (Nat.eqb (N.to_nat (k mod sz))) (seq 0 (Nat.pow 2 n)) = true).
    { apply existsb_exists. exists (N.to_nat (k mod sz)). split; [|apply Nat.eqb_refl]. apply in_seq.
      split; [apply Nat.le_0_l|]. apply mod_lt_nat. }
    rewrite E, andb_true_r. reflexivity.
  - intros j Hj. apply in_seq in Hj. lia.
Qed.

Variable U : nat -> nat -> C.
Hypothesis entries : forall r c, (r < Nat.pow 2 n)%nat -> (c < Nat.pow 2 n)%nat ->
  cl 10 (entry u r c) (U r c) /\ cmod (U r c) <= 1.

(** Entries of [l] in the block of [k]. *)
Definition inblock (k : N) (l : sstate) : list (N * amp) := filter (fun iv => N.eqb (k / sz) (fst iv / sz)) l.
Lemma lamp_snoc : forall (l : sstate) x v, ~ In x (keys l) ->
  lamp (l ++ [(x, v)]) = fun y => (lamp l y + if N.eqb x y then aval v else C0)%C.
Proof.
  intros l x v H. apply functional_extensionality. intros y. unfold lamp.
  assert (G : hm_get (l ++ [(x, v)]) y = match hm_get l y with Some v' => Some v' | None => if N.eqb x y then Some v else None end).
  { clear H. induction l as [|[k0 v0] l IH]; simpl; auto. destruct (N.eqb k0 y); auto. }
  rewrite G. destruct (hm_get l y) eqn:E.
  - destruct (N.eqb_spec x y); [|ring]. subst. exfalso. apply H. eapply hm_get_keys. eauto.
  - destruct (N.eqb x y); ring.
Qed.
Lemma arows_near : forall st k, NoDup (keys st) -> amps st ->
  (forall pre suf, st = pre ++ suf -> cmod (lop U n (lamp pre) k) <= 2) ->
  INR (length (inblock k st)) * (2 * tn) <= 2 ->
  fino (hm_get (fold_left (apply_row u) st []) k) /\
  cmod (lamp (fold_left (apply_row u) st []) k - lop U n (lamp st) k)%C <= INR (length (inblock k st)) * (2 * tn).
Proof.
  intros st k. induction st as [|[x v] st IH] using rev_ind; intros D Am Pb Bn.
  - split; [intros ? H; discriminate|]. simpl. unfold Round.lamp. simpl. rewrite lop_zero.
    replace (C0 - C0)%C with C0 by ring. rewrite cmod_0. lra.
  - assert (D0 : NoDup (keys st) /\ ~ In x (keys st)).
    { unfold keys in D. rewrite map_app in D. simpl in D. apply NoDup_remove in D. rewrite app_nil_r in D. exact D. }
    destruct D0 as [D1 D2]. apply Forall_app in Am. destruct Am as [Am1 Am2]. inversion Am2 as [|? ? [Fv Bv] _]; subst. simpl in Fv, Bv.
    assert (Pb1 : forall pre suf, st = pre ++ suf -> cmod (lop U n (lamp pre) k) <= 2).
    { intros pre suf ->. apply (Pb pre (suf ++ [(x, v)])). now rewrite app_assoc. }
    assert (Li : inblock k (st ++ [(x, v)]) = inblock k st ++ (if N.eqb (k / sz) (x / sz) then [(x, v)] else [])).
    { unfold inblock. rewrite filter_app. simpl. destruct (N.eqb _ _); auto. }
    rewrite Li, app_length, plus_INR in *. assert (T := tn_pos).
    rewrite fold_left_app. simpl. set (acc := fold_left (apply_row u) st []) in *.
    assert (Da : NoDup (keys acc)) by (apply (arows_keys u n size st [] 0%N); constructor).
    rewrite lamp_snoc, lop_more by auto. rewrite (lamp_getv (apply_row u acc (x, v))), arow_get by auto. simpl fst. simpl snd.
    destruct (N.eqb (k / sz) (x / sz)) eqn:Eb.
    + simpl in Bn. simpl (INR (length [(x, v)])).
      destruct IH as [F1 N1]; auto; [lra|].
      destruct (entries (N.to_nat (k mod sz)) (N.to_nat (x mod sz))) as [Ec Em]; [apply mod_lt_nat|apply mod_lt_nat|].
      destruct (cellstep_near _ _ v (hm_get acc k) (lop U n (lamp st) k) (INR (length (inblock k st)) * (2 * tn)) Ec Em Fv Bv F1)
        as [F2 N2]; auto.
      * apply (Pb1 st []). now rewrite app_nil_r.
      * lra.
      * split; auto. eapply Rle_trans; [exact N2|]. simpl. lra.
    + simpl in Bn. simpl (INR (length [])). rewrite Rplus_0_r in *. destruct IH as [F1 N1]; auto.
      split; auto. replace (lop U n (lamp st) k + C0)%C with (lop U n (lamp st) k) by ring. exact N1.
Qed.
Lemma inblock_le : forall st k, NoDup (keys st) -> (length (inblock k st) <= Nat.pow 2 n)%nat.
Proof.
  intros st k D. rewrite <- (map_length (fun iv => N.to_nat (fst iv mod sz))), <- (seq_length (Nat.pow 2 n) 0).
  apply NoDup_incl_length.
  - assert (Db : NoDup (map fst (inblock k st))).
    { unfold inblock. clear - D. induction st as [|[x v] st IH]; simpl; [constructor|]. inversion D; subst.
      destruct (N.eqb _ _); simpl; auto. constructor; auto. intros Hi. apply H1. apply in_map_iff in Hi.
      destruct Hi as [kv [E Hi]]. apply filter_In in Hi. apply in_map_iff. exists kv. tauto. }
    rewrite <- (map_map fst (fun y => N.to_nat (y mod sz))). apply NoDup_map_inj; auto.
    intros y z Hy Hz E. apply N2Nat.inj in E. apply in_map_iff in Hy. apply in_map_iff in Hz.
    destruct Hy as [a [<- Ha]]. destruct Hz as [b [<- Hb]]. apply filter_In in Ha. apply filter_In in Hb.
    destruct Ha as [_ Ha]. destruct Hb as [_ Hb]. apply N.eqb_eq in Ha. apply N.eqb_eq in Hb.
    rewrite (split_N (fst a) n), (split_N (fst b) n). congruence.
  - intros y Hy. apply in_map_iff in Hy. destruct Hy as [a [<- _]]. apply in_seq. split; [apply Nat.le_0_l|]. apply mod_lt_nat.
Qed.
End Acc.

(** ** Vectors *)
Variable w : nat.
Notation wf := inv.
Notation alloc := RoundGates.alloc.
Notation base := RoundGates.base.
Notation core := RoundGates.core.
Notation pm := RoundGates.pm.
Notation ids := RoundGates.ids.
Notation abs := RoundGates.abs.
Notation rxin := RoundGates.rxin.
Notation bounds := (RoundGates.bounds w).
Notation less_pend := RoundGates.less_pend.
Notation no_pend := RoundGates.no_pend.

Lemma runit_tn : runit w = tn * sqrt (2 ^ w).
Proof.
  unfold runit, unit_err, tn, tiny. simpl. assert (P := step_pos laws). assert (P2 : 0 <= 2 ^ w) by (apply pow_le; lra).
  rewrite (sqrt_mult 2 (2 ^ w)), (sqrt_mult 2 (step_err * step_err)) by (try lra; nra). rewrite sqrt_square by auto. ring.
Qed.
Lemma tn_runit : tn <= runit w.
Proof.
  rewrite runit_tn. assert (T := tn_pos).
  assert (1 <= sqrt (2 ^ w)).
  { rewrite <- sqrt_1. apply sqrt_le_1_alt. apply pow_R1_Rle. lra. }
  nra.
Qed.
Lemma near_pws : forall j phi psi, (forall b, In b (basis w) -> cmod (phi b - psi b)%C <= INR j * tn) -> nearr w j phi psi.
Proof.
  intros j phi psi H. unfold nearr, near. fold (runit w). assert (T := tn_pos). assert (J := pos_INR j).
  assert (P := runit_pos laws w).
  apply dist_le; [apply Rmult_le_pos; auto|].
  eapply Rle_trans; [apply (Rsum_const_le _ (fun b => Cn2 (qdiff phi psi b)) (INR j * tn * (INR j * tn)) (basis w))|].
  - intros b Hb. apply Cn2_le. apply H; auto.
  - rewrite length_basis, runit_tn.
    replace (INR j * (tn * sqrt (2 ^ w)) * (INR j * (tn * sqrt (2 ^ w)))) with
      (INR j * tn * (INR j * tn) * (sqrt (2 ^ w) * sqrt (2 ^ w))) by ring.
    rewrite sqrt_sqrt by (apply pow_le; lra). lra.
Qed.

(** The new amplitudes against the exact ones. *)
Lemma arows_vec : forall m u U all st, im_inj m -> idbound w m -> stok m st -> amps st ->
  nrows u = Nat.pow 2 (length all) -> NoDup all -> Forall (has m) all ->
  (forall r c, (r < Nat.pow 2 (length all))%nat -> (c < Nat.pow 2 (length all))%nat ->
    cl 10 (entry u r c) (U r c) /\ cmod (U r c) <= 1) ->
  (forall psi, norm2 w (mat_op U all psi) = norm2 w psi) ->
  (forall j q, nth_error (rev all) j = Some q -> im_get m q = Some j) ->
  qnorm w (baseof m (lamp st)) <= 2 -> INR (2 * Nat.pow 2 (length all)) * runit w <= 2 ->
  let acc := fold_left (apply_row u) st [] in
  (forall k, locs_of m k -> fino (hm_get acc k)) /\
  nearr w (2 * Nat.pow 2 (length all)) (baseof m (lamp acc)) (mat_op U all (baseof m (lamp st))).
Proof.
  intros m u U all st I B [D S] Am Su Da Ha En Iso P Qn Bg acc. set (n := length all) in *.
  assert (T := tn_pos). assert (T2 := tn_runit).
  assert (K : forall k, locs_of m k -> fino (hm_get acc k) /\
    cmod (lamp acc k - lop U n (lamp st) k)%C <= INR (2 * Nat.pow 2 n) * tn).
  { intros k Lk.
    assert (Le := le_INR _ _ (inblock_le n st k D)). rewrite mult_INR in Bg. simpl (INR 2) in Bg. rewrite mult_INR. simpl (INR 2).
    assert (J := pos_INR (Nat.pow 2 n)).
    assert (Le2 : INR (length (inblock n k st)) * (2 * tn) <= INR (Nat.pow 2 n) * (2 * tn)) by (apply Rmult_le_compat_r; lra).
    assert (Le3 : INR (Nat.pow 2 n) * (2 * tn) <= INR (Nat.pow 2 n) * (2 * runit w)) by (apply Rmult_le_compat_l; lra).
    destruct (arows_near u n Su U En st k D Am) as [F1 N1].
    - intros pre suf Eq.
      set (b := from_loc m k).
      assert (Ib : inb m b = true) by (apply inb_spec; auto; apply from_loc_ids).
      assert (Hb : In b (basis w)).
      { apply basis_bits. intros i Hb. apply B. destruct (from_loc_ids m k i Hb) as [l' Hl']. exists l'. exact Hl'. }
      assert (E : baseof m (lop U n (lamp pre)) b = lop U n (lamp pre) k).
      { unfold baseof. rewrite Ib. unfold b. rewrite to_from by auto. reflexivity. }
      rewrite <- E. eapply Rle_trans; [apply (amp_le_qnorm w _ b Hb)|].
      unfold n. rewrite (baseof_lop m U all (lamp pre)) by auto. unfold qnorm. rewrite Iso. fold (qnorm w (baseof m (lamp pre))).
      eapply Rle_trans; [|exact Qn]. apply sqrt_le_1_alt. unfold norm2, qsum. apply Rsum_le. intros x _.
      unfold baseof. destruct (inb m x); [|lra]. set (y := to_loc m x). clearbody y.
      rewrite Eq. unfold lamp.
      assert (G : forall suf', hm_get (pre ++ suf') y = match hm_get pre y with Some v' => Some v' | None => hm_get suf' y end).
      { intros suf'. clear. induction pre as [|[k0 v0] l IH]; simpl; auto. destruct (N.eqb k0 y); auto. }
      rewrite G. destruct (hm_get pre y); [lra|]. rewrite Cn2_C0. apply Cn2_nonneg.
    - lra.
    - split; auto. eapply Rle_trans; [exact N1|]. lra. }
  split; [intros; apply K; auto|].
  rewrite <- (baseof_lop m U all (lamp st)) by auto. fold n. apply near_pws. intros b Hb. unfold baseof.
  destruct (inb m b) eqn:E.
  - apply K. apply to_loc_locs.
  - replace (C0 - C0)%C with C0 by ring. rewrite cmod_0. apply Rmult_le_pos; auto. apply pos_INR.
Qed.

(** ** Moving the targets *)
Variable B : R.
Hypothesis B_lim : B <= lim.
Notation sound := (soundB B).
Notation moved := AnyRun.moved.
Notation nst := (RoundGates.nst w B).
Notation mva := (RoundGates.mva w B).
Notation budget := (RoundGates.budget w).

Lemma flush_one_none : forall lv s t, wf s -> ~ alloc s t -> flush_one lv s t = Ok s.
Proof.
  intros lv s t W H. unfold flush_one.
  destruct (bit (h_flag s) t) eqn:Eh; [exfalso; apply H, (i_h s W); auto|].
  cbn [bind]. unfold flush_rx, flush_ry.
  destruct (im_get (rx_queue s) t) eqn:Ex; [exfalso; apply H; eapply (i_rx s W); eauto|].
  cbn [bind].
  destruct (im_get (ry_queue s) t) eqn:Ey; [exfalso; apply H; eapply (i_ry s W); eauto|].
  destruct lv; auto.
Qed.
Lemma alloc_dec' : forall s q, {alloc s q} + {~ alloc s q}.
Proof.
  intros. unfold alloc, has. destruct (im_get (id_map s) q); [left; eauto|right; intros [? ?]; discriminate].
Qed.
Lemma filter_len : forall (X : Type) (f : X -> bool) l, (length (filter f l) <= length l)%nat.
Proof. induction l; simpl; auto. destruct (f a); simpl; lia. Qed.
Lemma flush_any_n : forall lv qs s, wf s ->
  exists s', flush_queue s qs lv = Ok s' /\ nst (9 * length qs) s s' (fun x => x) /\ less_pend s s' /\ op_queue s' = [].
Proof.
  intros lv qs s W. set (f := fun q => if alloc_dec' s q then true else false). set (qs' := filter f qs).
  assert (Al : Forall (alloc s) qs').
  { rewrite Forall_forall. intros q Hq. apply filter_In in Hq. unfold f in Hq. destruct (alloc_dec' s q); [auto|destruct Hq; discriminate]. }
  destruct (flush_queue_n laws horder_perm w B B_lim lv qs' s W Al) as [s' [E [G [L [_ [_ Q]]]]]].
  exists s'. split; [|split; [|auto]].
  2:{ eapply (nst_mono laws); [|exact G]. assert (X := filter_len _ f qs). fold qs' in X. lia. }
  rewrite <- E. unfold flush_queue. f_equal.
  assert (P : forall l s1, wf s1 -> (forall q, alloc s1 q <-> alloc s q) ->
    foldM (flush_one lv) l s1 = foldM (flush_one lv) (filter f l) s1).
  { induction l as [|q l IH]; intros s1 W1 A1; simpl; auto. unfold f at 1. destruct (alloc_dec' s q) as [Aq|Aq]; simpl.
    - destruct (flush_one_n laws horder_perm w B B_lim lv s1 q W1) as [s2 [E2 [G2 _]]]; [apply A1; auto|].
      rewrite E2. simpl. apply IH; [apply (ns_wf _ _ _ _ _ _ G2)|]. intros x. rewrite (nst_alloc _ _ _ _ _ _ x G2). auto.
    - rewrite flush_one_none by (auto; rewrite A1; auto). simpl. apply IH; auto. }
  rewrite P by (auto; tauto). reflexivity.
Qed.

Record npl (k : nat) (s s' : sim) : Prop := {
  np_mv : moved s s';
  np_norx : forall G, symm G -> rxin G s -> rxin G s';
  np_less : less_pend s s';
  np_q : op_queue s' = [];
  np_near : bounds s -> sound s -> budget k s -> mva k s s' (abs s)
}.
Lemma moved_bounds : forall s s', moved s s' -> bounds s -> bounds s'.
Proof. intros s s' M Bd q Hq. apply Bd. apply (mv_has _ _ M). exact Hq. Qed.
Lemma budget_moved : forall j k s s', bounds s -> bounds s' -> mva j s s' (abs s) -> budget (j + k) s -> budget k s'.
Proof.
  unfold budget, RoundGates.budget. intros j k s s' Bd Bd' [_ [i [L N]]] Q. assert (P := runit_pos laws w).
  rewrite <- qnorm_abs in Q by auto. rewrite <- (qnorm_abs w s') by auto.
  assert (Q1 := qnorm_near _ _ _ _ N).
  assert (I := le_INR (i + (k + ql s')) (j + k + ql s) ltac:(lia)). rewrite plus_INR in I.
  assert (M := Rmult_le_compat_r _ _ _ P I). unfold nearr, runit in *. rewrite Rmult_plus_distr_r in M. lra.
Qed.
Lemma npl_refl : forall s, wf s -> op_queue s = [] -> npl 0 s s.
Proof.
  intros s W Q. constructor; auto; [apply moved_r; auto|apply less_refl|].
  intros. split; auto. exists 0%nat. split; auto. apply (nrefl laws).
Qed.
Lemma npl_trans : forall j k a b c, npl j a b -> npl k b c -> npl (j + k) a c.
Proof.
  intros j k a b c [M1 X1 L1 Q1 N1] [M2 X2 L2 Q2 N2]. constructor; auto.
  - eapply moved_t; eauto.
  - eapply less_trans; eauto.
  - intros Bd Sd Q. assert (V1 := N1 Bd Sd (budget_mono laws w j (j + k) _ ltac:(lia) Q)).
    assert (Bd1 := moved_bounds _ _ M1 Bd).
    assert (V2 := N2 Bd1 (proj1 V1) (budget_moved _ _ _ _ Bd Bd1 V1 Q)).
    destruct V1 as [S1 [i1 [I1 E1]]]. destruct V2 as [S2 [i2 [I2 E2]]]. split; auto.
    exists (i2 + i1)%nat. split; [lia|]. eapply (ntrans w); eauto.
Qed.
Lemma npl_mono : forall j k a b, (j <= k)%nat -> npl j a b -> npl k a b.
Proof.
  intros j k a b H [M1 X1 L1 Q1 N1]. constructor; auto. intros Bd Sd Q.
  eapply (mva_mono w B); [exact H|]. apply N1; auto. eapply (budget_mono laws); eauto.
Qed.
Lemma npl_relabel : forall s s' a b, arelabel s s' a b -> moved s s' -> wf s -> op_queue s = [] -> npl 0 s s'.
Proof.
  intros s s' a b R M W Q. constructor; auto.
  - intros G _. apply rxin_eq. apply R.
  - destruct R. intros q. rewrite ar_h, ar_rx, ar_ry. auto.
  - destruct R. congruence.
  - intros Bd Sd _. split; [eapply relabel_sound; eauto|]. exists 0%nat. unfold ql. rewrite (ar_ops _ _ _ _ R).
    split; [lia|]. rewrite (relabel_abs _ _ _ _ R W). apply (nrefl laws).
Qed.
Lemma nst_npl : forall k s s', nst k s s' (fun x => x) -> wf s -> less_pend s s' -> op_queue s' = [] -> npl k s s'.
Proof.
  intros k s s' G W L Q. constructor; auto.
  - split; [eapply ns_wf; eauto|eapply ns_rng; eauto| |]; rewrite (ns_id _ _ _ _ _ _ G); tauto.
  - apply (ns_norx _ _ _ _ _ _ G).
  - intros Bd Sd Bg. exact (proj2 (ns_near _ _ _ _ _ _ G Bd Sd Bg)).
Qed.

Lemma place_target_n : forall s i q cur, wf s -> op_queue s = [] -> im_get (id_map s) q = Some cur -> has_loc (id_map s) i ->
  exists s', place_target s (i, q) = Ok s' /\ npl 18 s s' /\
    (forall x, im_get (id_map s') x = option_map (sw cur i) (im_get (id_map s) x)).
Proof.
  intros s i q cur W Q E Oi.
  destruct (aplace_target horder_perm s i q cur W E Oi) as [s' [E' [M G]]].
  exists s'. split; [exact E'|]. split; [|exact G]. destruct Oi as [p Hp]. unfold place_target in E'. rewrite (afind _ _ _ E) in E'. cbn [bind] in E'.
  destruct (key_of_loc (id_map s) i) as [p'|] eqn:Ek; [|discriminate].
  apply key_of_loc_Some in Ek. assert (p' = p) by (eapply (i_inj s W); eauto). subst p'. clear Ek.
  unfold swap_qubit_state in E'. destruct (Nat.eqb_spec cur i).
  - subst i. cbn [bind] in E'. inversion E'. subst s'. apply (npl_mono 0); [lia|]. apply (npl_relabel s _ cur cur); auto.
    constructor; try reflexivity; auto. simpl.
    rewrite <- (map_id (state s)) at 1. apply map_ext. intros [k v]. simpl. f_equal.
    unfold swap_bits. now rewrite eqb_reflx.
  - destruct (flush_any_n LHRxRy [cur; i] s W) as [s1 [E1 [G1 [L1 Q1]]]]. rewrite E1 in E'. cbn [bind] in E'.
    inversion E'. subst s'. clear E'. match goal with |- npl _ _ ?x => set (s' := x) in * end.
    assert (I1 : id_map s1 = id_map s) by apply (ns_id _ _ _ _ _ _ G1).
    assert (W1 : wf s1) by apply (ns_wf _ _ _ _ _ _ G1).
    assert (R : arelabel s1 s' cur i).
    { constructor; try reflexivity. intros x. rewrite G, I1. reflexivity. }
    change 18%nat with (9 * length [cur; i] + 0)%nat. apply (npl_trans _ _ s s1 s').
    + apply nst_npl; auto.
    + apply (npl_relabel s1 s' cur i); auto. destruct M as [M1 M2 M3 M4]. split; auto.
      * intros x. rewrite I1. auto.
      * intros x. rewrite I1. auto.
Qed.
Lemma place_targets_n : forall l pre s, wf s -> op_queue s = [] -> NoDup (pre ++ l) -> Forall (alloc s) l ->
  (forall i, (i < length (pre ++ l))%nat -> has_loc (id_map s) i) ->
  (forall j q, nth_error pre j = Some q -> im_get (id_map s) q = Some j) ->
  exists s', foldM place_target (enumerate_from (length pre) l) s = Ok s' /\ npl (18 * length l) s s' /\
    (forall j q, nth_error (pre ++ l) j = Some q -> im_get (id_map s') q = Some j).
Proof.
  induction l as [|q l IH]; intros pre s W Q D Al O P.
  - rewrite app_nil_r in *. exists s. split; [reflexivity|]. split; [apply npl_refl; auto|auto].
  - inversion Al as [|? ? [cur Hc] A']; subst. cbn [enumerate_from foldM].
    destruct (place_target_n s (length pre) q cur W Q Hc) as [s1 [E1 [R1 G1]]].
    { apply O. rewrite app_length. simpl. lia. }
    rewrite E1. cbn [bind]. assert (M1 := np_mv _ _ _ R1).
    destruct (IH (pre ++ [q]) s1) as [s2 [E2 [R2 P2]]].
    + apply M1.
    + apply R1.
    + rewrite <- app_assoc. exact D.
    + eapply Forall_impl; [|exact A']. intros x Hx. apply (mv_has _ _ M1). exact Hx.
    + intros i Hi. apply (mv_loc _ _ M1). apply O. rewrite <- app_assoc in Hi. exact Hi.
    + intros j x Hj. rewrite G1. destruct (Nat.lt_ge_cases j (length pre)).
      * rewrite nth_error_app1 in Hj by auto. rewrite (P j x Hj). simpl. f_equal. unfold sw.
        destruct (Nat.eqb_spec j cur).
        { subst. exfalso. apply (NoDup_remove_2 pre l q D). apply in_or_app. left.
          rewrite (i_inj s W q x cur Hc (P _ _ Hj)). eapply nth_error_In; eauto. }
        destruct (Nat.eqb_spec j (length pre)); auto. lia.
      * rewrite nth_error_app2 in Hj by auto.
        destruct (j - length pre)%nat eqn:Ej; simpl in Hj.
        { inversion Hj; subst. replace j with (length pre) by lia. rewrite Hc. simpl. unfold sw.
          now rewrite Nat.eqb_refl. }
        { destruct n; discriminate. }
    + exists s2. replace (S (length pre)) with (length (pre ++ [q])) by (rewrite app_length; simpl; lia).
      split; [exact E2|]. rewrite <- app_assoc in P2. split; [|exact P2].
      replace (18 * length (q :: l))%nat with (18 + 18 * length l)%nat by (simpl; lia). eapply npl_trans; eauto.
Qed.

(** ** The whole call *)
Lemma cmat_entries : forall u U d c, nrows u = d -> ncols u = d ->
  (forall r l, (r < d)%nat -> (l < d)%nat -> cl 10 (entry u r l) (U r l) /\ cmod (U r l) <= 1) ->
  forall r l, (r < d * Nat.pow 2 c)%nat -> (l < d * Nat.pow 2 c)%nat ->
  cl 10 (entry (controlled u c) r l) (cmat U d c r l) /\ cmod (cmat U d c r l) <= 1.
Proof.
  intros u U d c Hr Hc H r l Lr Ll. unfold controlled, cmat. simpl entry. rewrite Hr, Hc. cbv zeta.
  destruct (Nat.leb_spec (d * Nat.pow 2 c - d) r); destruct (Nat.leb_spec (d * Nat.pow 2 c - d) l); simpl.
  1: apply H; assert (0 < Nat.pow 2 c)%nat by (apply Nat.neq_0_lt_0, Nat.pow_nonzero; lia); nia.
  all: destruct (Nat.eqb r l).
  all: assert (D := ap_dlt laws).
  all: first [ split; [|rewrite cmod_1; lra]; apply (cl_mono laws 0); [lra|apply (cl_1 laws)]
             | split; [|rewrite cmod_0; lra]; destruct (ap_0 laws) as [F E]; split; auto; rewrite E;
               replace (C0 - C0)%C with C0 by ring; rewrite cmod_0; lra ].
Qed.

Definition mcost (n : nat) : nat := (27 * n + 2 * Nat.pow 2 n)%nat.
Lemma apply_n : forall s u U ts cs, wf s -> NoDup (ctl_list cs ++ ts) -> Forall (alloc s) (ctl_list cs ++ ts) ->
  nrows u = Nat.pow 2 (length ts) -> ncols u = nrows u ->
  (forall i, (i < length (ctl_list cs ++ ts))%nat -> has_loc (id_map s) i) ->
  (forall r c, (r < Nat.pow 2 (length ts))%nat -> (c < Nat.pow 2 (length ts))%nat -> cl 10 (entry u r c) (U r c)) ->
  isometry (Nat.pow 2 (length ts)) U ->
  let F := ctrl_op (ctl_list cs) (mat_op U ts) in
  let n := length (ctl_list cs ++ ts) in
  (exists s', apply_matrix s u ts cs = Ok s' /\ (forall G, symm G -> rxin G s -> rxin G s') /\
     (bounds s -> sound s -> budget (mcost n) s -> mva (mcost n) s s' (F (abs s)))) \/
  (apply_matrix s u ts cs = Panic EEmptyState /\
     (bounds s -> sound s -> budget (mcost n) s -> qnorm w (abs s) <= INR (mcost n + ql s) * runit w)).
Proof.
  intros s u U ts cs W D Al Hr Hc O En Iso F n. unfold apply_matrix.
  rewrite Hc, Hr, !Nat.eqb_refl. simpl negb. cbv iota.
  set (all := ctl_list cs ++ ts) in *.
  set (u' := match cs with Some l => controlled u (length l) | None => u end).
  set (U' := match cs with Some l => cmat U (Nat.pow 2 (length ts)) (length l) | None => U end).
  assert (Em : match cs with Some l => (l ++ ts, controlled u (length l)) | None => (ts, u) end = (all, u')) by (destruct cs; reflexivity).
  rewrite Em. clear Em.
  assert (Su : nrows u' = Nat.pow 2 n).
  { unfold u', n, all. destruct cs; simpl; rewrite ?app_length, ?Nat.pow_add_r; [rewrite Hr; lia|auto]. }
  assert (En' : forall r c, (r < Nat.pow 2 n)%nat -> (c < Nat.pow 2 n)%nat ->
    cl 10 (entry u' r c) (U' r c) /\ cmod (U' r c) <= 1).
  { assert (E0 : forall r c, (r < Nat.pow 2 (length ts))%nat -> (c < Nat.pow 2 (length ts))%nat ->
      cl 10 (entry u r c) (U r c) /\ cmod (U r c) <= 1).
    { intros r c H1 H2. split; auto. apply (iso_entry (Nat.pow 2 (length ts))); auto. }
    unfold u', U', n, all. destruct cs as [l|]; simpl; auto. rewrite app_length, Nat.pow_add_r, Nat.mul_comm.
    apply cmat_entries; auto. congruence. }
  assert (FE : forall psi, mat_op U' all psi = F psi).
  { intros psi. unfold U', all, F. destruct cs; simpl; [apply cmat_op; auto|reflexivity]. }
  rewrite acheck by auto. cbn [bind].
  destruct (flush_queue_n laws horder_perm w B B_lim LHRxRy all s W Al) as [s1 [E1 [G1 [L1 [_ [D1 Q1]]]]]].
  rewrite E1. cbn [bind].
  assert (I1 : id_map s1 = id_map s) by apply (ns_id _ _ _ _ _ _ G1).
  assert (P1 := nst_npl _ _ _ G1 W L1 Q1).
  destruct (place_targets_n (rev all) [] s1) as [s2 [E2 [P2 N2]]].
  { apply (ns_wf _ _ _ _ _ _ G1). }
  { exact Q1. }
  { simpl. apply NoDup_rev. auto. }
  { eapply nst_Forall; eauto. rewrite Forall_forall in *. intros x Hx. apply Al. apply in_rev. auto. }
  { intros i Hi. simpl in Hi. rewrite rev_length in Hi. rewrite I1. auto. }
  { intros [|j] q; discriminate. }
  unfold enumerate. simpl in E2. rewrite E2. cbn [bind]. simpl in N2. rewrite rev_length in P2.
  assert (P := npl_trans _ _ _ _ _ P1 P2). fold n in P.
  assert (M := np_mv _ _ _ P). assert (W2 : wf s2) by apply M.
  destruct (i_st _ W2) as [S1 S2].
  replace (9 * n + 18 * n)%nat with (27 * n)%nat in P by lia.
  set (acc := fold_left (apply_row u') (state s2) []) in *.
  assert (Pm : Permutation (horder acc) acc) by apply horder_perm.
  assert (Ka : NoDup (keys acc)) by (apply (arows_keys u' n Su (state s2) [] 0%N); constructor).
  assert (Lo : forall k, In k (keys acc) -> locs_of (id_map s2) k).
  { intros k Hk i Hi.
    destruct (arows_keys u' n Su (state s2) [] k) as [_ K2]; [constructor|].
    destruct (K2 Hk) as [Hn|[y [Hy Ey]]]; [destruct Hn|].
    destruct (Nat.lt_ge_cases i n); [apply (mv_loc _ _ M); auto|].
    apply (S2 y Hy). rewrite (split_N k n) in Hi.
    rewrite join_bit in Hi by (apply N.mod_lt; pose proof (pow2_pos n); lia).
    rewrite (split_N y n).
    rewrite join_bit by (apply N.mod_lt; pose proof (pow2_pos n); lia).
    destruct (Nat.ltb_spec i n); [lia|]. rewrite <- Ey. auto. }
  assert (Kh : NoDup (keys (horder acc))) by (eapply perm_nodup_keys; [apply Permutation_sym; eauto|auto]).
  assert (St : stok (id_map s2) (horder acc)).
  { split; auto. intros k Hk. apply Lo. apply (Permutation_in _ (perm_keys _ _ Pm)); auto. }
  assert (Al2 : forall q, In q all -> alloc s2 q).
  { intros q Hq. apply (mv_has _ _ M). rewrite Forall_forall in Al. apply Al. exact Hq. }
  assert (CtF : bounds s -> contraction w F).
  { intros Bd. apply ct_mat; auto. intros q Hq. apply Bd. rewrite Forall_forall in Al. apply Al. unfold all. apply in_or_app; auto. }
  assert (Iso' : bounds s -> forall psi, norm2 w (mat_op U' all psi) = norm2 w psi).
  { intros Bd psi. rewrite FE. apply norm2_mat; auto. intros q Hq. apply Bd. rewrite Forall_forall in Al. apply Al. unfold all. apply in_or_app; auto. }
  assert (PC : forall psi, pendl (pm s2) (ids s2) (F psi) = F (pendl (pm s2) (ids s2) psi)).
  { intros psi. apply pendl_commute. intros q V phi Hq. destruct (in_dec Nat.eq_dec q all) as [Hi|Hi].
    - left. apply RoundGates.no_pend_pm. apply (less_no_pend s1); [apply (np_less _ _ _ P2)|].
      destruct (D1 q Hi) as [? [? ?]]. repeat split; auto.
    - right. unfold all in Hi. rewrite in_app_iff in Hi. apply ctrl_mat_gate1; tauto. }
  assert (V : bounds s -> sound s -> budget (mcost n) s ->
    sound s2 /\ (forall k, locs_of (id_map s2) k -> fino (hm_get acc k)) /\
    exists j, (j <= mcost n + ql s)%nat /\ nearr w j (pendl (pm s2) (ids s2) (baseof (id_map s2) (lamp acc))) (F (abs s))).
  { intros Bd Sd Bg.
    assert (Bg1 : budget (27 * n) s) by (eapply (budget_mono laws); [|exact Bg]; unfold mcost; lia).

    assert (V1 := np_near _ _ _ P Bd Sd Bg1). assert (Bd2 := moved_bounds _ _ M Bd).
    assert (Bg2 : budget (2 * Nat.pow 2 n) s2) by exact (budget_moved (27 * n) (2 * Nat.pow 2 n) s s2 Bd Bd2 V1 Bg).
    destruct V1 as [Sd2 [j [Lj Nj]]]. assert (Qe : op_queue s2 = []) by apply P.
    assert (Eb : core s2 = baseof (id_map s2) (lamp (state s2))) by (unfold RoundGates.core; rewrite Qe; reflexivity).
    assert (Qn : qnorm w (core s2) <= 2) by (eapply (budget_norm laws); eauto).
    assert (Qc : INR (2 * Nat.pow 2 n) * runit w <= 2).
    { unfold RoundGates.budget in Bg2. unfold ql in Bg2. rewrite Qe in Bg2. simpl length in Bg2. rewrite Nat.add_0_r in Bg2.
      assert (X := qnorm_nonneg w (core s2)). lra. }
    rewrite Eb in Qn.
    assert (Am : amps (state s2)).
    { apply (amps_of_norm w (id_map s2)); auto; [apply W2|apply W2|apply Sd2]. }
    destruct (arows_vec (id_map s2) u' U' all (state s2) (i_inj _ W2) Bd2 (i_st _ W2) Am Su D) as [Fi Nv]; auto.
    { apply Forall_forall. exact Al2. }
    split; [exact Sd2|]. split; [exact Fi|].
    exists (2 * Nat.pow 2 n + j)%nat. split; [unfold ql in *; rewrite Qe in Lj; simpl length in Lj; unfold mcost; lia|].
    eapply (ntrans w); [|apply (nct w); [apply CtF; auto|exact Nj]].
    unfold RoundGates.abs at 1. rewrite <- PC, Eb, <- FE. apply (nct w); [|exact Nv].
    apply (RoundGates.ct_pm w s2); auto. }
  destruct (horder acc) as [|e st] eqn:Eh.
  - right. split; auto. intros Bd Sd Bg. destruct (V Bd Sd Bg) as [_ [_ [j [Lj Nj]]]].
    assert (Ea : acc = []) by (apply Permutation_nil; auto). rewrite Ea in Nj.
    assert (Z : pendl (pm s2) (ids s2) (baseof (id_map s2) (lamp [])) = qzero).
    { rewrite <- (pendl_qzero (pm s2) (ids s2)). f_equal. apply functional_extensionality. intros b.
      unfold baseof, qzero, Round.lamp. simpl. destruct (inb _ _); auto. }
    rewrite Z in Nj.
    assert (Nq : qnorm w (abs s) = qnorm w (F (abs s))).
    { unfold qnorm. rewrite <- FE, Iso'; auto. }
    rewrite Nq. assert (Q0 : qnorm w qzero = 0).
    { unfold qnorm. replace (norm2 w qzero) with 0; [apply sqrt_0|]. unfold norm2, qsum. symmetry. apply Rsum_zero. intros. apply Cn2_C0. }
    assert (X := qnorm_dist w (F (abs s)) qzero). rewrite Q0 in X.
    assert (Y : dist w (F (abs s)) qzero = dist w qzero (F (abs s))) by apply dist_comm.
    unfold nearr, near in Nj. fold (runit w) in Nj.
    assert (Z2 := Rmult_le_compat_r _ _ _ (runit_pos laws w) (le_INR _ _ Lj)). lra.
  - left. eexists. split; [reflexivity|]. split.
    + intros G SG R. apply (np_norx _ _ _ P G SG) in R. exact R.
    + intros Bd Sd Bg. destruct (V Bd Sd Bg) as [Sd2 [Fi [j [Lj Nj]]]]. split.
      * destruct Sd2 as [Z1 Z2 Z3 Z4]. constructor; simpl; auto.
        change (finl (e :: st)). unfold finl. apply Forall_forall. intros [k v] Hk. simpl.
        apply (Permutation_in _ Pm) in Hk. apply (Fi k); [apply Lo; eapply In_keys; eauto|].
        apply In_hm_get; auto.
      * exists j. unfold ql. simpl op_queue. rewrite (np_q _ _ _ P). simpl length. rewrite Nat.add_0_r. split; auto.
        change (abs (with_state s2 (e :: st))) with
          (pendl (pm s2) (ids s2) (core (with_state s2 (e :: st)))).
        unfold RoundGates.core, RoundGates.base. simpl op_queue. rewrite (np_q _ _ _ P).
        change (Round.opsem [] (baseof (id_map (with_state s2 (e :: st))) (lamp (state (with_state s2 (e :: st))))))
          with (baseof (id_map s2) (lamp (e :: st))).
        rewrite (Round.lamp_perm (e :: st) acc); auto.
Qed.
End RA.
