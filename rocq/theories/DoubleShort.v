(** * The plain format of a double is the shortest decimal number that reads back *)
From Coq Require Import String Ascii List NArith ZArith Reals Bool Lia Lra.
From Flocq Require Import Core IEEE754.BinarySingleNaN.
From Verif Require Import Text SpecText SpecOutput TextLemmas Math MathThms DoubleText SpecDouble DoubleThms.
Import ListNotations.
Local Instance P53d : Prec_gt_0 53 := prec53.
Local Open Scope R_scope.

(** ** The numbers that read as a double are those in reach *)
Section Reach.
Variables (m : positive) (e : Z).
Hypothesis Bd : SpecFloat.bounded 53 1024 m e = true.
Let x := IZR (Zpos m) * b2 e.
Let b := (Z.eqb (Zpos m) (2 ^ 52) && Z.ltb (-1074) e)%bool.
Let g := if b then b2 (e - 1) else b2 e.

Lemma x_canonical : canonical radix2 fx (Float radix2 (Zpos m) e).
Proof. exact (canonical_bounded 53 1024 false m e Bd). Qed.
Lemma x_fmt : fmt x.
Proof. exact (generic_format_canonical radix2 fx _ x_canonical). Qed.
Lemma x_large : b2 e <= x.
Proof. assert (1 <= IZR (Zpos m)) by (apply IZR_le; lia). assert (0 < b2 e) by apply bpow_gt_0. unfold x. nra. Qed.
Lemma x_ulp : ulp radix2 fx x = b2 e.
Proof. apply (ulp_canonical radix2 fx (Zpos m) e); [discriminate|exact x_canonical]. Qed.
Lemma x_pred : pred radix2 fx x = x - g.
Proof.
  assert (L0 := x_large). assert (Be : 0 < b2 e) by apply bpow_gt_0.
  rewrite pred_eq_pos by lra. unfold pred_pos. assert (Ce : e = fx (mag radix2 x)) by exact x_canonical.
  destruct (Req_bool_spec x (b2 (mag radix2 x - 1))) as [E|E].
  - unfold FLT_exp in *. set (k := mag_val radix2 x (mag radix2 x)) in *. destruct (Z.le_gt_cases e (-1074)) as [L|L].
    + replace (Z.max (k - 1 - 53) (-1074)) with e by lia. unfold g, b. destruct (Z.ltb_spec (-1074) e); [lia|]. rewrite Bool.andb_false_r. reflexivity.
    + replace (Z.max (k - 1 - 53) (-1074)) with (e - 1)%Z by lia. replace (k - 1)%Z with (52 + e)%Z in E by lia.
      unfold x in E. rewrite bpow_plus in E. apply Rmult_eq_reg_r in E; [|lra]. change (b2 52) with (IZR (2 ^ 52)) in E. apply eq_IZR in E.
      unfold g, b. rewrite E, Z.eqb_refl. destruct (Z.ltb_spec (-1074) e); [reflexivity|lia].
  - rewrite x_ulp. unfold g, b. destruct (Z.eqb_spec (Zpos m) (2 ^ 52)) as [M|M]; [|reflexivity]. exfalso. apply E.
    assert (K : mag radix2 x = (53 + e)%Z :> Z).
    { apply mag_unique_pos. unfold x. rewrite M. change (IZR (2 ^ 52)) with (b2 52). rewrite <- bpow_plus.
      split; [apply bpow_le; lia|apply bpow_lt; lia]. }
    rewrite K. unfold x. rewrite M. change (IZR (2 ^ 52)) with (b2 52). rewrite <- bpow_plus. f_equal. lia.
Qed.
Lemma in_reach_complete : forall c p, nearest (IZR c * ten p) = x -> in_reach (Zpos m) e c p = true.
Proof.
  intros c p. set (v := IZR c * ten p). intros R.
  assert (L0 := x_large). assert (Be : 0 < b2 e) by apply bpow_gt_0.
  assert (Be1 : b2 e = 2 * b2 (e - 1)) by (replace e with (1 + (e - 1))%Z at 1 by lia; rewrite bpow_plus; reflexivity).
  assert (Be2 : b2 (e - 1) = 2 * b2 (e - 2)) by (replace (e - 1)%Z with (1 + (e - 2))%Z at 1 by lia; rewrite bpow_plus; reflexivity).
  assert (G0 : 0 < g) by (unfold g; destruct b; lra).
  assert (Fp : fmt (x - g)) by (rewrite <- x_pred; apply generic_format_pred; auto with typeclass_instances; exact x_fmt).
  assert (Fs : fmt (x + b2 e)).
  { rewrite <- x_ulp, <- (succ_eq_pos radix2 fx x) by lra. apply generic_format_succ; auto with typeclass_instances. exact x_fmt. }
  assert (N : Rnd_NE_pt radix2 fx v x).
  { rewrite <- R. apply round_NE_pt; [apply FLT_exp_valid; exact prec53|apply exists_NE_FLT; right; lia]. }
  destruct N as [[_ Nx] T].
  assert (Lo : x - g / 2 <= v).
  { specialize (Nx _ Fp). unfold Rabs in Nx. destruct (Rcase_abs (x - v)), (Rcase_abs (x - g - v)); lra. }
  assert (Hi : v <= x + b2 e / 2).
  { specialize (Nx _ Fs). unfold Rabs in Nx. destruct (Rcase_abs (x - v)), (Rcase_abs (x + b2 e - v)); lra. }
  assert (Ev : v = x - g / 2 \/ v = x + b2 e / 2 -> Z.even (Zpos m) = true).
  { intros Mid. destruct T as [(f & F1 & F2 & F3)|T].
    - assert (f = Float radix2 (Zpos m) e) by (apply (canonical_unique radix2 fx); [exact F2|exact x_canonical|rewrite <- F1; reflexivity]). subst f. exact F3.
    - exfalso. destruct Mid as [Mid|Mid].
      + assert (A : x - g = x); [|lra]. apply T. split; [exact Fp|]. intros y Fy. specialize (Nx y Fy).
        replace (Rabs (x - g - v)) with (Rabs (x - v)); [exact Nx|]. rewrite Mid. unfold Rabs. destruct (Rcase_abs (x - (x - g / 2))), (Rcase_abs (x - g - (x - g / 2))); lra.
      + assert (A : x + b2 e = x); [|lra]. apply T. split; [exact Fs|]. intros y Fy. specialize (Nx y Fy).
        replace (Rabs (x + b2 e - v)) with (Rabs (x - v)); [exact Nx|]. rewrite Mid. unfold Rabs. destruct (Rcase_abs (x - (x + b2 e / 2))), (Rcase_abs (x + b2 e - (x + b2 e / 2))); lra. }
  unfold in_reach. fold b. rewrite !cmp_spec. fold v.
  assert (LoE : IZR (if b then 4 * Zpos m - 1 else 4 * Zpos m - 2) * b2 (e - 2) = x - g / 2).
  { unfold g, x. rewrite Be1, Be2. destruct b; rewrite minus_IZR, mult_IZR; field. }
  assert (HiE : IZR (4 * Zpos m + 2) * b2 (e - 2) = x + b2 e / 2).
  { unfold x. rewrite Be1, Be2. rewrite plus_IZR, mult_IZR. field. }
  rewrite LoE, HiE.
  destruct (Rcompare_spec v (x - g / 2)); try lra; destruct (Rcompare_spec v (x + b2 e / 2)); try lra; auto.
Qed.
Lemma in_reach_iff : forall c p, in_reach (Zpos m) e c p = true <-> nearest (IZR c * ten p) = x.
Proof. intros c p. split; [apply reach; exact Bd|apply in_reach_complete]. Qed.
Lemma nearest_between : forall u v, nearest u = x -> (u <= v <= x \/ x <= v <= u) -> nearest v = x.
Proof.
  intros u v U H. assert (X : nearest x = x) by (apply fmt_double; exact Bd).
  assert (Mo : forall a c, a <= c -> nearest a <= nearest c) by (intros; apply round_le; auto with typeclass_instances).
  destruct H as [[A B]|[A B]]; apply Mo in A; apply Mo in B; lra.
Qed.
Lemma read_bound : forall u, nearest u = x -> u <= 2 * x.
Proof.
  intros u U. assert (L0 := x_large). assert (Be : 0 < b2 e) by apply bpow_gt_0.
  destruct (Rle_or_lt u (2 * x)) as [|L]; [assumption|exfalso].
  assert (Fs : fmt (x + b2 e)).
  { rewrite <- x_ulp, <- (succ_eq_pos radix2 fx x) by lra. apply generic_format_succ; auto with typeclass_instances. exact x_fmt. }
  assert (x + b2 e <= nearest u) by (apply round_ge_generic; auto with typeclass_instances; lra). lra.
Qed.

(** ** The search finds the shortest *)
Notation quo p := (Zpos m * pw 2 e * pw 10 (- p) / (pw 2 (- e) * pw 10 p))%Z.
Lemma quo_spec : forall p, (0 <= quo p)%Z /\ IZR (quo p) * ten p <= x < IZR (quo p + 1) * ten p.
Proof.
  intros p. assert (P2 : forall k, (0 < pw 2 k)%Z) by (intros k; apply lt_IZR; exact (pw_pos radix2 k)).
  assert (P10 : forall k, (0 < pw 10 k)%Z) by (intros k; apply lt_IZR; exact (pw_pos radix10 k)).
  set (d := (pw 2 (- e) * pw 10 p)%Z). assert (D : (0 < d)%Z) by (apply Z.mul_pos_pos; auto).
  set (n := (Zpos m * pw 2 e * pw 10 (- p))%Z). assert (N : (0 < n)%Z) by (unfold n; apply Z.mul_pos_pos; [apply Z.mul_pos_pos|]; auto; lia).
  split; [apply Z.div_pos; lia|].
  assert (A := pw_bpow radix10 p). assert (B := pw_bpow radix2 e). change (radix_val radix10) with 10%Z in A. change (radix_val radix2) with 2%Z in B.
  assert (V : x * (IZR (pw 2 (- e)) * IZR (pw 10 (- p))) = IZR n) by (unfold n, x; rewrite !mult_IZR, B; ring).
  assert (W : ten p * (IZR (pw 2 (- e)) * IZR (pw 10 (- p))) = IZR d) by (unfold d; rewrite mult_IZR, A; ring).
  assert (K : 0 < IZR (pw 2 (- e)) * IZR (pw 10 (- p))) by (apply Rmult_lt_0_compat; apply IZR_lt; auto).
  assert (Q := Z.div_mod n d ltac:(lia)). assert (Q' := Z.mod_pos_bound n d D).
  split.
  - apply Rmult_le_reg_r with (1 := K). rewrite Rmult_assoc, V, W, <- mult_IZR. apply IZR_le. nia.
  - apply Rmult_lt_reg_r with (1 := K). rewrite Rmult_assoc, V, W, <- mult_IZR. apply IZR_lt. nia.
Qed.
Definition best (c q c' q' : Z) : Prop :=
  (q' <= q)%Z /\ (q' = q -> Rabs (IZR c * ten q - x) <= Rabs (IZR c' * ten q' - x)).
Lemma search_best : forall f p c q, p = (Z.min e 0 + Z.of_nat f)%Z -> search (S f) (Zpos m) e p = (c, q) ->
  forall c' q', (0 < c')%Z -> (q' <= p)%Z -> nearest (IZR c' * ten q') = x -> best c q c' q'.
Proof.
  assert (X : nearest x = x) by (apply fmt_double; exact Bd).
  induction f as [|f IH]; intros p c q P H c' q' C' Q' R.
  all: assert (T : 0 < ten p) by apply bpow_gt_0; destruct (quo_spec p) as [C0 [L U]]; remember (S f) as f1 eqn:Ef1 in H || idtac; cbn [search] in H.
  all: set (c0 := quo p) in *.
  all: assert (U1 : IZR (c0 + 1) * ten p = IZR c0 * ten p + ten p) by (rewrite plus_IZR; ring).
  all: assert (Below : forall c1, (c1 <= c0)%Z -> IZR c1 * ten p <= IZR c0 * ten p) by (intros c1 HH; apply Rmult_le_compat_r; [lra|apply IZR_le; exact HH]).
  all: assert (Above : forall c1, (c0 < c1)%Z -> IZR (c0 + 1) * ten p <= IZR c1 * ten p) by (intros c1 HH; apply Rmult_le_compat_r; [lra|apply IZR_le; lia]).
  all: assert (E1 : q' = p -> (c' <= c0)%Z -> ((0 <? c0)%Z && in_reach (Zpos m) e c0 p)%bool = true).
  1, 3: intros -> HH; apply andb_true_intro; split; [apply Z.ltb_lt; lia|]; apply in_reach_iff; apply (nearest_between _ _ R); left; specialize (Below _ HH); lra.
  all: assert (E2 : q' = p -> (c0 < c')%Z -> in_reach (Zpos m) e (c0 + 1) p = true).
  1, 3: intros -> HH; apply in_reach_iff; apply (nearest_between _ _ R); right; specialize (Above _ HH); lra.
  all: assert (Cs : (c' <= c0)%Z \/ (c0 < c')%Z) by lia.
  all: assert (A0 : Rabs (IZR c0 * ten p - x) = x - IZR c0 * ten p) by (rewrite Rabs_left1; lra).
  all: assert (A1 : Rabs (IZR (c0 + 1) * ten p - x) = IZR (c0 + 1) * ten p - x) by (rewrite Rabs_right; lra).
  all: assert (B0 : (c' <= c0)%Z -> x - IZR c0 * ten p <= Rabs (IZR c' * ten p - x)) by (intros HH; specialize (Below _ HH); rewrite Rabs_left1; lra).
  all: assert (B1 : (c0 < c')%Z -> IZR (c0 + 1) * ten p - x <= Rabs (IZR c' * ten p - x)) by (intros HH; specialize (Above _ HH); rewrite Rabs_right; lra).
  all: destruct ((0 <? c0)%Z && in_reach (Zpos m) e c0 p)%bool eqn:D1; destruct (in_reach (Zpos m) e (c0 + 1) p) eqn:D2.
  all: try (assert (Pick : c = c0 -> 2 * x <= IZR (2 * c0 + 1) * ten p -> best c q c' q' \/ q <> p) by
    (intros -> HH; rewrite plus_IZR, mult_IZR in HH; destruct (Z.eq_dec q p) as [-> |]; [left|right; assumption];
     split; [exact Q'|]; intros ->; rewrite A0; destruct Cs as [Cs|Cs]; [apply B0, Cs|specialize (B1 Cs); lra])).
  all: try (assert (Pick' : c = (c0 + 1)%Z -> IZR (2 * c0 + 1) * ten p <= 2 * x -> best c q c' q' \/ q <> p) by
    (intros -> HH; rewrite plus_IZR, mult_IZR in HH; destruct (Z.eq_dec q p) as [-> |]; [left|right; assumption];
     split; [exact Q'|]; intros ->; rewrite A1; destruct Cs as [Cs|Cs]; [specialize (B0 Cs); lra|apply B1, Cs])).
  all: try (destruct (cmp (2 * c0 + 1) p (2 * Zpos m) e) eqn:Cm; rewrite cmp_spec in Cm; injection H as <- <-;
    replace (IZR (2 * Zpos m) * b2 e) with (2 * x) in Cm by (rewrite mult_IZR; unfold x; ring);
    destruct (Rcompare_spec (IZR (2 * c0 + 1) * ten p) (2 * x)); try discriminate;
    [destruct Pick'; [reflexivity|lra|assumption|congruence]|destruct Pick'; [reflexivity|lra|assumption|congruence]|destruct Pick; [reflexivity|lra|assumption|congruence]]).
  all: try (injection H as <- <-; split; [exact Q'|]; intros ->; destruct Cs as [Cs|Cs];
    [rewrite A0; apply B0, Cs | specialize (E2 eq_refl Cs); discriminate]).
  all: try (injection H as <- <-; split; [exact Q'|]; intros ->; destruct Cs as [Cs|Cs];
    [specialize (E1 eq_refl Cs); discriminate | rewrite A1; apply B1, Cs]).
  - exfalso. (* the exact value is tried last *)
    assert (Ex := exact_value (Zpos m) e). fold x in Ex. replace (Z.min e 0) with p in Ex by lia. set (w := (Zpos m * pw 2 e * pw 5 (- e))%Z) in *.
    assert (Wc : w = c0).
    { assert (w < c0 + 1)%Z by (apply lt_IZR; apply Rmult_lt_reg_r with (ten p); lra). assert (c0 <= w)%Z by (apply le_IZR; apply Rmult_le_reg_r with (ten p); lra). lia. }
    rewrite Wc in Ex. assert (0 < c0)%Z.
    { apply lt_IZR. apply Rmult_lt_reg_r with (ten p); [exact T|]. assert (L0 := x_large). assert (0 < b2 e) by apply bpow_gt_0. lra. }
    rewrite (proj2 (Z.ltb_lt 0 c0)) in D1 by assumption. cbn [andb] in D1.
    assert (in_reach (Zpos m) e c0 p = true) by (apply in_reach_iff; rewrite Ex; exact X). congruence.
  - subst f1. apply (IH (p - 1)%Z c q); [lia|exact H|exact C'| |exact R].
    assert (q' <> p) by (intros ->; destruct Cs as [Cs|Cs]; [specialize (E1 eq_refl Cs)|specialize (E2 eq_refl Cs)]; discriminate). lia.
Qed.
End Reach.

(** ** The starting power of ten *)
Lemma pow_reg : forall n a b, 0 <= a -> 0 <= b -> (0 < n)%nat -> a ^ n <= b ^ n -> a <= b.
Proof.
  intros n a b A B N H. destruct (Rle_or_lt a b) as [|L]; [assumption|exfalso]. assert (b ^ n < a ^ n); [|lra]. clear H.
  destruct n as [|n]; [lia|]. clear N. induction n as [|n IH]; [simpl; lra|].
  change (b * b ^ S n < a * a ^ S n). assert (0 <= b ^ S n) by (apply pow_le; lra). apply Rle_lt_trans with (a * b ^ S n).
  - apply Rmult_le_compat_r; lra.
  - apply Rmult_lt_compat_l; lra.
Qed.
Lemma bpow_pow : forall r k n, bpow r k ^ n = bpow r (Z.of_nat n * k).
Proof.
  intros r k n. induction n as [|n IH]; [reflexivity|]. change (bpow r k * bpow r k ^ n = bpow r (Z.of_nat (S n) * k)).
  rewrite IH, <- bpow_plus. f_equal. lia.
Qed.
Lemma small_logs : forall n : nat, ten (3 * Z.of_nat n) <= b2 (10 * Z.of_nat n) /\ b2 (100 * Z.of_nat n) <= ten (31 * Z.of_nat n).
Proof.
  intros n. assert (H : forall r k, bpow r (k * Z.of_nat n) = bpow r k ^ n) by (intros r k; rewrite bpow_pow; f_equal; lia).
  rewrite !H. split; apply pow_incr; (split; [apply bpow_ge_0|]).
  - change (ten 3) with (IZR (10 ^ 3)). change (b2 10) with (IZR (2 ^ 10)). apply IZR_le. vm_compute. discriminate.
  - change (b2 100) with (IZR (2 ^ 100)). change (ten 31) with (IZR (10 ^ 31)). apply IZR_le. vm_compute. discriminate.
Qed.
Lemma start_above : forall e, b2 (54 + e) <= ten (18 + (if e <? 0 then e * 3 / 10 else e * 31 / 100))%Z.
Proof.
  intros e. destruct (Z.ltb_spec e 0) as [E|E].
  - apply (pow_reg 10); try apply bpow_ge_0; [lia|]. rewrite !bpow_pow.
    set (d := (e * 3 / 10)%Z). assert (D : (e * 3 <= 10 * d + 9)%Z) by (unfold d; assert (Q := Z.div_mod (e * 3) 10 ltac:(lia)); assert (Q' := Z.mod_pos_bound (e * 3) 10 ltac:(lia)); lia).
    apply Rle_trans with (ten (171 + 3 * e)); [|apply bpow_le; lia].
    replace (Z.of_nat 10 * (54 + e))%Z with (540 + 10 * e)%Z by lia. rewrite !bpow_plus.
    assert (A : b2 540 <= ten 171).
    { rewrite <- (IZR_Zpower radix2), <- (IZR_Zpower radix10) by lia. apply IZR_le. vm_compute. discriminate. }
    assert (B : b2 (10 * e) <= ten (3 * e)).
    { destruct (small_logs (Z.to_nat (- e))) as [H _]. replace (10 * e)%Z with (- (10 * Z.of_nat (Z.to_nat (- e))))%Z by lia.
      replace (3 * e)%Z with (- (3 * Z.of_nat (Z.to_nat (- e))))%Z by lia. rewrite !bpow_opp. apply Rinv_le; [apply bpow_gt_0|exact H]. }
    apply Rmult_le_compat; try apply bpow_ge_0; assumption.
  - apply (pow_reg 100); try apply bpow_ge_0; [lia|]. rewrite !bpow_pow.
    set (d := (e * 31 / 100)%Z). assert (D : (e * 31 <= 100 * d + 99)%Z) by (unfold d; assert (Q := Z.div_mod (e * 31) 100 ltac:(lia)); assert (Q' := Z.mod_pos_bound (e * 31) 100 ltac:(lia)); lia).
    apply Rle_trans with (ten (1701 + 31 * e)); [|apply bpow_le; lia].
    replace (Z.of_nat 100 * (54 + e))%Z with (5400 + 100 * e)%Z by lia. rewrite !bpow_plus.
    assert (A : b2 5400 <= ten 1701).
    { rewrite <- (IZR_Zpower radix2), <- (IZR_Zpower radix10) by lia. apply IZR_le. vm_compute. discriminate. }
    assert (B : b2 (100 * e) <= ten (31 * e)).
    { destruct (small_logs (Z.to_nat e)) as [_ H]. rewrite !Z2Nat.id in H by exact E. exact H. }
    apply Rmult_le_compat; try apply bpow_ge_0; assumption.
Qed.
Lemma shortest_best : forall m e c q, SpecFloat.bounded 53 1024 m e = true -> shortest (Zpos m) e = (c, q) ->
  forall c' q', (0 < c')%Z -> nearest (IZR c' * ten q') = IZR (Zpos m) * b2 e -> best m e c q c' q'.
Proof.
  intros m e c q Bd H c' q' C' R. unfold shortest in H. set (p := (18 + (if e <? 0 then e * 3 / 10 else e * 31 / 100))%Z) in *.
  assert (P : (Z.min e 0 <= p)%Z).
  { unfold p. destruct (Z.ltb_spec e 0); [assert (Q := Z.div_mod (e * 3) 10 ltac:(lia)); assert (Q' := Z.mod_pos_bound (e * 3) 10 ltac:(lia)); lia|].
    assert (0 <= e * 31 / 100)%Z by (apply Z.div_pos; lia). lia. }
  replace (Z.to_nat (p + 1 - Z.min e 0)) with (S (Z.to_nat (p - Z.min e 0))) in H by lia.
  apply (search_best m e Bd (Z.to_nat (p - Z.min e 0)) p c q); [lia|exact H|exact C'| |exact R].
  destruct (Z.le_gt_cases q' p) as [|L]; [assumption|exfalso].
  assert (Bn := read_bound m e Bd _ R). assert (St := start_above e). fold p in St.
  assert (M : IZR (Zpos m) < b2 53).
  { change (b2 53) with (IZR (2 ^ 53)). apply IZR_lt. unfold SpecFloat.bounded in Bd. apply andb_prop in Bd. destruct Bd as [B _].
    unfold SpecFloat.canonical_mantissa in B. apply Zeq_bool_eq in B. unfold SpecFloat.fexp, SpecFloat.emin in B.
    assert (D : (Zdigits radix2 (Zpos m) <= 53)%Z) by (rewrite <- Digits.Zpos_digits2_pos; lia). exact (Zpower_gt_Zdigits radix2 53 (Zpos m) D). }
  assert (X : 2 * (IZR (Zpos m) * b2 e) < b2 (54 + e)).
  { change 54%Z with (1 + 53)%Z. rewrite !bpow_plus. change (b2 1) with 2. assert (0 < b2 e) by apply bpow_gt_0.
    assert (IZR (Zpos m) * b2 e < b2 53 * b2 e) by (apply Rmult_lt_compat_r; assumption). lra. }
  assert (Y : ten p <= ten q') by (apply bpow_le; lia). assert (T : 0 < ten q') by apply bpow_gt_0.
  assert (Z : 1 * ten q' <= IZR c' * ten q') by (apply Rmult_le_compat_r; [lra|apply IZR_le; lia]). lra.
Qed.
Lemma ten_neg : forall k, ten (- Z.of_nat k) = / 10 ^ k.
Proof. intros k. rewrite bpow_opp. f_equal. rewrite <- IZR_Zpower by lia. rewrite <- pow_IZR. reflexivity. Qed.
Theorem shortest_text : forall (x : f64) t, is_finite x = true -> ~ integral x -> reads t x ->
  exists s n k n' k', read_decimal (@double_to_string D64 x) = Some (s, n, k) /\ read_decimal t = Some (s, n', k') /\
    (k <= k')%nat /\ (k = k' -> Rabs (IZR (Z.of_N n) / 10 ^ k - Rabs (B2R x)) <= Rabs (IZR (Z.of_N n') / 10 ^ k' - Rabs (B2R x))).
Proof.
  intros x t F NI R. destruct x as [s|s| |s m e B]; try discriminate; [exfalso; apply NI; exists 0%Z; reflexivity|].
  destruct (text_finite s m e B) as [(z & Hz & _)|[_ E]]; [exfalso; apply NI; unfold integral; rewrite val_finite, Hz; apply int_signed|].
  destruct R as (s' & n' & k' & D & S & V). simpl in S. subst s'. rewrite val_finite, nearest_signed in V.
  assert (V' : nearest (IZR (Z.of_N n') / 10 ^ k') = IZR (Zpos m) * b2 e) by (destruct s; unfold signed in V; lra). clear V.
  assert (P : 0 < IZR (Zpos m) * b2 e) by (apply Rmult_lt_0_compat; [apply IZR_lt; lia|apply bpow_gt_0]).
  assert (N : (0 < Z.of_N n')%Z).
  { destruct (N.eq_0_gt_0_cases n') as [-> |]; [exfalso|lia]. change (IZR (Z.of_N 0)) with 0 in V'. unfold Rdiv, nearest in V'.
    rewrite Rmult_0_l, round_0 in V' by (auto with typeclass_instances). lra. }
  assert (A : Rabs (B2R (B754_finite s m e B)) = IZR (Zpos m) * b2 e).
  { rewrite val_finite. destruct s; unfold signed; [rewrite Rabs_Ropp|]; apply Rabs_right; lra. }
  rewrite A. unfold Rdiv in V'. rewrite <- ten_neg in V'. rewrite E. unfold show. destruct (shortest (Zpos m) e) as [c q] eqn:Sh.
  destruct (search_sound _ _ _ _ _ _ B Sh) as [C Rc]. destruct (shortest_best m e c q B Sh _ _ N V') as [Q W].
  assert (Q0 : (q < 0)%Z).
  { destruct (Z.lt_ge_cases q 0) as [|G]; [assumption|exfalso].
    apply NI. rewrite <- (IZR_Zpower radix10 q G), <- mult_IZR in Rc. change (radix_val radix10) with 10%Z in Rc.
    destruct (nearest_int m e (c * 10 ^ q) B) as [z Hz]; [|exact Rc|].
    - apply Z.mul_pos_pos; [exact C|]. apply Z.pow_pos_nonneg; lia.
    - unfold integral. rewrite val_finite, Hz. apply int_signed. }
  exists s, (Z.to_N c), (Z.to_nat (- q)), n', k'. split; [apply read_positional; assumption|]. split; [exact D|]. split; [lia|].
  intros K. unfold Rdiv. rewrite <- !ten_neg. rewrite Z2N.id by lia. replace (- Z.of_nat (Z.to_nat (- q)))%Z with q by lia. apply W. lia.
Qed.
