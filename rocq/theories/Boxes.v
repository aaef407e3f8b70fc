(** * Boxes of samples: a set of samples has only one volume

    Two divisions of the unit cube into boxes, with labels that agree, give every set of labels the same volume: count the points of
    ever finer grids. *)
From Coq Require Import Reals NArith List Bool Lia Lra Arith.
From Verif Require Import SpecChance SpecOdds Odds SpecShot.
Import ListNotations.
Local Open Scope R_scope.

(** ** Averages over the points of a grid *)
Definition scons (x : R) (ys : nat -> R) : nat -> R := fun n => match n with O => x | S n' => ys n' end.
Definition sumn (n : nat) (f : nat -> R) : R := fold_right (fun k x => f k + x) 0 (seq 0 n).
Fixpoint avg (N D : nat) (f : (nat -> R) -> R) : R :=
  match D with
  | O => f (fun _ => 0)
  | S D' => / INR N * sumn N (fun k => avg N D' (fun ys => f (scons (INR k / INR N) ys)))
  end.
Definition ind1 (r : R * R) (x : R) : R := if in_range r x then 1 else 0.
Fixpoint ind (b : box) (xs : nat -> R) : R :=
  match b with [] => 1 | r :: b' => ind1 r (xs O) * ind b' (fun n => xs (S n)) end.
Definition shareb (N : nat) (b : box) : R := fold_right (fun r x => grid N r * x) 1 b.

Lemma sumn_ext : forall n f g, (forall k, (k < n)%nat -> f k = g k) -> sumn n f = sumn n g.
Proof.
  intros n f g H. unfold sumn. assert (G : forall l, (forall k, In k l -> f k = g k) -> fold_right (fun k x => f k + x) 0 l = fold_right (fun k x => g k + x) 0 l).
  { induction l as [|k l IH]; intros Hl; [reflexivity|]. cbn. rewrite (Hl k) by (left; reflexivity). rewrite IH; [reflexivity|]. intros; apply Hl; right; auto. }
  apply G. intros k Hk. apply in_seq in Hk. apply H. lia.
Qed.
Lemma sumn_plus : forall n f g, sumn n (fun k => f k + g k) = sumn n f + sumn n g.
Proof. intros n f g. unfold sumn. generalize (seq 0 n). induction l as [|k l IH]; cbn; [ring|]. rewrite IH. ring. Qed.
Lemma sumn_scale : forall n c f, sumn n (fun k => f k * c) = sumn n f * c.
Proof. intros n c f. unfold sumn. generalize (seq 0 n). induction l as [|k l IH]; cbn; [ring|]. rewrite IH. ring. Qed.
Lemma sumn_const : forall n c, sumn n (fun _ => c) = INR n * c.
Proof.
  intros n c. unfold sumn. rewrite <- (seq_length n 0) at 2. generalize (seq 0 n). induction l as [|k l IH]; cbn [fold_right length]; [simpl; ring|].
  rewrite IH, S_INR. ring.
Qed.
Lemma sumn_ind1 : forall N r, / INR N * sumn N (fun k => ind1 r (INR k / INR N)) = grid N r.
Proof.
  intros N r. unfold grid, Rdiv. rewrite Rmult_comm. f_equal. unfold sumn. generalize (seq 0 N). induction l as [|k l IH]; [reflexivity|].
  cbn [fold_right filter]. unfold ind1 at 1. destruct (in_range r _); cbn [length]; [rewrite S_INR|]; rewrite IH; unfold Rdiv; ring.
Qed.

Section Grid.
Variable N : nat.
Hypothesis N0 : (0 < N)%nat.
Lemma N0' : 0 < INR N. Proof. apply lt_0_INR. exact N0. Qed.
Lemma point : forall k, (k < N)%nat -> 0 <= INR k / INR N < 1.
Proof.
  intros k H. assert (P := N0'). assert (0 <= INR k) by apply pos_INR. assert (INR k < INR N) by (apply lt_INR; auto).
  unfold Rdiv. assert (0 < / INR N) by (apply Rinv_0_lt_compat; auto). split; [apply Rmult_le_pos; lra|].
  rewrite <- (Rinv_r (INR N)) by lra. apply Rmult_lt_compat_r; auto.
Qed.
Lemma unit_cons : forall x ys, 0 <= x < 1 -> unit_samples ys -> unit_samples (scons x ys).
Proof. intros x ys Hx Hy [|n]; cbn; auto. Qed.
Lemma avg_ext : forall D f g, (forall xs, unit_samples xs -> f xs = g xs) -> avg N D f = avg N D g.
Proof.
  induction D as [|D IH]; intros f g H; cbn [avg].
  - apply H. intros n. lra.
  - f_equal. apply sumn_ext. intros k Hk. apply IH. intros ys Hy. apply H. apply unit_cons; auto. apply point; auto.
Qed.
Lemma avg_plus : forall D f g, avg N D (fun xs => f xs + g xs) = avg N D f + avg N D g.
Proof.
  induction D as [|D IH]; intros f g; cbn [avg]; [reflexivity|]. rewrite <- Rmult_plus_distr_l, <- sumn_plus. f_equal.
  apply sumn_ext. intros k _. apply IH.
Qed.
Lemma avg_scale : forall D c f, avg N D (fun xs => c * f xs) = c * avg N D f.
Proof.
  induction D as [|D IH]; intros c f; cbn [avg]; [reflexivity|].
  rewrite (sumn_ext N _ (fun k => avg N D (fun ys => f (scons (INR k / INR N) ys)) * c)).
  - rewrite sumn_scale. ring.
  - intros k _. rewrite (IH c (fun ys => f (scons (INR k / INR N) ys))). ring.
Qed.
Lemma avg_const : forall D c, avg N D (fun _ => c) = c.
Proof.
  induction D as [|D IH]; intros c; cbn [avg]; [reflexivity|]. rewrite (sumn_ext N _ (fun _ => c)) by (intros; apply IH).
  rewrite sumn_const. assert (P := N0'). field. lra.
Qed.
Lemma avg_ind : forall b D, (length b <= D)%nat -> avg N D (ind b) = shareb N b.
Proof.
  induction b as [|r b IH]; intros D L; [exact (avg_const D 1)|]. destruct D as [|D]; [cbn in L; lia|]. cbn [avg shareb fold_right].
  rewrite (sumn_ext N _ (fun k => ind1 r (INR k / INR N) * shareb N b)).
  - rewrite sumn_scale, <- Rmult_assoc, sumn_ind1. reflexivity.
  - intros k _. cbn [ind]. change (fun ys : nat -> R => ind1 r (scons (INR k / INR N) ys O) * ind b (fun n => scons (INR k / INR N) ys (S n)))
      with (fun ys : nat -> R => ind1 r (INR k / INR N) * ind b ys). rewrite avg_scale, IH by (cbn in L; lia). reflexivity.
Qed.
Lemma grid_1 : forall r, 0 <= grid N r <= 1.
Proof.
  intros r. unfold grid. assert (P := N0'). assert (0 < / INR N) by (apply Rinv_0_lt_compat; auto).
  assert (L : (length (filter (fun k => in_range r (INR k / INR N)) (seq 0 N)) <= N)%nat).
  { rewrite <- (seq_length N 0) at 2. generalize (seq 0 N). induction l as [|k l IH]; [reflexivity|]. cbn. destruct (in_range _ _); cbn; lia. }
  apply le_INR in L. set (a := INR (length _)) in *. assert (0 <= a) by apply pos_INR. unfold Rdiv. split; [apply Rmult_le_pos; lra|].
  rewrite <- (Rinv_r (INR N)) by lra. apply Rmult_le_compat_r; lra.
Qed.
Lemma share_volume : forall b, Forall (fun r => 0 <= fst r /\ fst r <= snd r /\ snd r <= 1) b ->
  0 <= shareb N b <= 1 /\ 0 <= volume b <= 1 /\ Rabs (shareb N b - volume b) <= INR (length b) * / INR N.
Proof.
  induction 1 as [|[lo hi] b (B1 & B2 & B3) Hb (I1 & I2 & I3)].
  - cbn. split; [lra|]. split; [lra|]. rewrite Rminus_eq_0, Rabs_R0. lra.
  - cbn [shareb fold_right volume length fst snd] in *. fold (shareb N b). assert (G := grid_1 (lo, hi)).
    destruct (grid_ok N N0 (lo, hi) B1 B2 B3) as [_ G2]. cbn [fst snd] in G2. set (x := grid N (lo, hi)) in *. set (y := shareb N b) in *. set (v := volume b) in *.
    split; [split; [apply Rmult_le_pos; lra|]; replace 1 with (1 * 1) by ring; apply Rmult_le_compat; lra|].
    split; [split; [apply Rmult_le_pos; lra|]; replace 1 with (1 * 1) by ring; apply Rmult_le_compat; lra|].
    replace (x * y - (hi - lo) * v) with ((x - (hi - lo)) * y + (hi - lo) * (y - v)) by ring.
    eapply Rle_trans; [apply Rabs_triang|]. rewrite !Rabs_mult, S_INR.
    rewrite (Rabs_pos_eq y), (Rabs_pos_eq (hi - lo)) by lra.
    assert (P1 : Rabs (x - (hi - lo)) * y <= / INR N * 1) by (apply Rmult_le_compat; try lra; apply Rabs_pos).
    assert (P2 : (hi - lo) * Rabs (y - v) <= 1 * (INR (length b) * / INR N)) by (apply Rmult_le_compat; try lra; apply Rabs_pos). lra.
Qed.
End Grid.

(** ** Labelled boxes *)
Section Labels.
Context {X : Type}.
Lemma ind_inside : forall b xs, inside xs b -> ind b xs = 1.
Proof.
  induction b as [|[lo hi] b IH]; intros xs H; [reflexivity|]. destruct H as [H1 H2]. cbn [ind]. rewrite (IH _ H2).
  unfold ind1, in_range. cbn [fst snd]. destruct (Rle_dec lo (xs O)); [|lra]. destruct (Rlt_dec (xs O) hi); lra.
Qed.
Lemma ind_outside : forall b xs, ~ inside xs b -> ind b xs = 0.
Proof.
  induction b as [|[lo hi] b IH]; intros xs H; [exfalso; apply H; exact I|]. cbn [ind]. unfold ind1, in_range. cbn [fst snd].
  destruct (Rle_dec lo (xs O)); [|ring]. destruct (Rlt_dec (xs O) hi); [|ring]. rewrite IH; [ring|]. intros G. apply H. split; [lra|exact G].
Qed.
Lemma mass_out : forall E (ls : list (box * X)) xs, (forall l, In l ls -> ~ inside xs (fst l)) -> mass (fun b => ind b xs) E ls = 0.
Proof.
  induction ls as [|l ls IH]; intros xs H; [reflexivity|]. unfold mass in *. cbn. rewrite (ind_outside (fst l)) by (apply H; left; reflexivity).
  rewrite IH by (intros; apply H; right; auto). destruct (E _); lra.
Qed.
Lemma mass_in : forall E (ls : list (box * X)) xs l0, ForallOrdPairs (fun b c => forall ys, ~ (inside ys b /\ inside ys c)) (map fst ls) ->
  In l0 ls -> inside xs (fst l0) -> mass (fun b => ind b xs) E ls = if E (snd l0) then 1 else 0.
Proof.
  induction ls as [|l ls IH]; intros xs l0 F Hi Hx; [destruct Hi|]. cbn [map] in F. inversion F as [|? ? F1 F2]; subst. rewrite Forall_forall in F1.
  unfold mass. cbn [map fold_right]. fold (mass (fun b => ind b xs) E ls). destruct Hi as [->|Hi].
  - rewrite (ind_inside _ _ Hx), mass_out; [destruct (E _); lra|]. intros l Hl G. apply (F1 (fst l) (in_map fst _ _ Hl) xs). auto.
  - rewrite (IH xs l0 F2 Hi Hx), (ind_outside (fst l)); [destruct (E (snd l)), (E (snd l0)); lra|].
    intros G. apply (F1 (fst l0) (in_map fst _ _ Hi) xs). auto.
Qed.
Lemma avg_mass : forall N D E (ls : list (box * X)), (0 < N)%nat -> Forall (fun l : box * X => (length (fst l : box) <= D)%nat) ls ->
  avg N D (fun xs => mass (fun b => ind b xs) E ls) = mass (shareb N) E ls.
Proof.
  intros N D E ls N0 F. induction ls as [|l ls IH]; unfold mass in *; cbn [map fold_right].
  - apply (avg_const N N0 D 0).
  - assert (Hl := Forall_inv F). cbv beta in Hl. apply Forall_inv_tail in F. rewrite (avg_plus N D), (IH F). f_equal. destruct (E (snd l)); [apply (avg_ind N N0); auto|apply (avg_const N N0)].
Qed.
Lemma mass_near : forall N D E (ls : list (box * X)), (0 < N)%nat -> Forall (fun l : box * X => (length (fst l : box) <= D)%nat) ls ->
  Forall (fun l => Forall (fun r => 0 <= fst r /\ fst r <= snd r /\ snd r <= 1) (fst l)) ls ->
  Rabs (mass (shareb N) E ls - mass volume E ls) <= INR (length ls * D) * / INR N.
Proof.
  intros N D E ls N0 F U. assert (I0 : 0 < / INR N) by (apply Rinv_0_lt_compat; apply lt_0_INR; auto).
  induction ls as [|l ls IH]; unfold mass in *; cbn [map fold_right length].
  - rewrite Rminus_eq_0, Rabs_R0. simpl. lra.
  - assert (U1 := Forall_inv U). cbv beta in U1. apply Forall_inv_tail in U. assert (Hl := Forall_inv F). cbv beta in Hl. apply Forall_inv_tail in F. specialize (IH F U). rewrite Nat.mul_succ_l, plus_INR.
    destruct (share_volume N N0 (fst l) U1) as (_ & _ & S3). assert (L : INR (length (fst l)) * / INR N <= INR D * / INR N).
    { apply Rmult_le_compat_r; [lra|]. apply le_INR. exact Hl. }
    assert (Z : 0 <= INR D * / INR N) by (apply Rmult_le_pos; [apply pos_INR|lra]).
    set (A := fold_right _ _ (map _ ls)) in *. set (B := fold_right _ _ (map (fun l0 => if E (snd l0) then volume (fst l0) else 0) ls)) in *.
    assert (Q : Rabs ((if E (snd l) then shareb N (fst l) else 0) - (if E (snd l) then volume (fst l) else 0)) <= INR D * / INR N).
    { destruct (E (snd l)); [lra|]. rewrite Rminus_eq_0, Rabs_R0. exact Z. }
    set (a := if E (snd l) then shareb N (fst l) else 0) in *. set (b := if E (snd l) then volume (fst l) else 0) in *.
    replace (a + A - (b + B)) with ((a - b) + (A - B)) by ring. eapply Rle_trans; [apply Rabs_triang|]. lra.
Qed.
Lemma small_zero : forall x K, (forall N, (0 < N)%nat -> Rabs x <= K * / INR N) -> x = 0.
Proof.
  intros x K H. destruct (Req_dec x 0) as [|Nz]; auto. exfalso. assert (P := Rabs_pos_lt x Nz).
  destruct (archimed_cor1 (Rabs x / (Rabs K + 1))) as [N [L N0]].
  { apply Rdiv_lt_0_compat; auto. assert (0 <= Rabs K) by apply Rabs_pos. lra. }
  specialize (H N N0). assert (PK : 0 <= Rabs K) by apply Rabs_pos. assert (KK := Rle_abs K).
  assert (I0 : 0 < / INR N) by (apply Rinv_0_lt_compat; apply lt_0_INR; auto).
  apply (Rmult_lt_compat_r (Rabs K + 1)) in L; [|lra]. replace (Rabs x / (Rabs K + 1) * (Rabs K + 1)) with (Rabs x) in L by (field; lra). nra.
Qed.

Theorem one_volume : forall (ls1 ls2 : list (box * X)), partition (map fst ls1) -> partition (map fst ls2) ->
  (forall xs l1 l2, unit_samples xs -> In l1 ls1 -> In l2 ls2 -> inside xs (fst l1) -> inside xs (fst l2) -> snd l1 = snd l2) ->
  forall E, mass volume E ls1 = mass volume E ls2.
Proof.
  intros ls1 ls2 (U1 & A1 & C1) (U2 & A2 & C2) Ag E. rewrite Forall_map in U1, U2.
  set (D := list_max (map (fun l => length (fst l)) (ls1 ++ ls2))).
  assert (F : Forall (fun l => (length (fst l) <= D)%nat) (ls1 ++ ls2)).
  { assert (M := proj1 (list_max_le (map (fun l : box * X => length (fst l)) (ls1 ++ ls2)) D) (le_n _)). rewrite Forall_map in M. exact M. }
  apply Forall_app in F. destruct F as [F1 F2].
  apply Rminus_diag_uniq. apply (small_zero _ (INR (length ls1 * D) + INR (length ls2 * D))). intros N N0.
  assert (Eq : mass (shareb N) E ls1 = mass (shareb N) E ls2).
  { rewrite <- (avg_mass N D E ls1 N0 F1), <- (avg_mass N D E ls2 N0 F2). apply (avg_ext N N0). intros xs Hx.
    specialize (C1 xs Hx). specialize (C2 xs Hx). rewrite Exists_exists in C1, C2. destruct C1 as (b1 & I1 & H1). destruct C2 as (b2 & I2 & H2).
    apply in_map_iff in I1. destruct I1 as (l1 & <- & I1). apply in_map_iff in I2. destruct I2 as (l2 & <- & I2).
    rewrite (mass_in E ls1 xs l1 A1 I1 H1), (mass_in E ls2 xs l2 A2 I2 H2), (Ag xs l1 l2 Hx I1 I2 H1 H2). reflexivity. }
  assert (N1 := mass_near N D E ls1 N0 F1 U1). assert (N2 := mass_near N D E ls2 N0 F2 U2). rewrite Eq in N1.
  rewrite Rabs_minus_sym in N1. replace (mass volume E ls1 - mass volume E ls2) with
    ((mass volume E ls1 - mass (shareb N) E ls2) + (mass (shareb N) E ls2 - mass volume E ls2)) by ring.
  eapply Rle_trans; [apply Rabs_triang|]. lra.
Qed.
End Labels.
