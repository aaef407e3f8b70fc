(** * The bytes of a big integer: proofs *)
From Coq Require Import ZArith List Lia Bool.
From Coq.Strings Require Import Byte.
From Verif Require Import Text Heap SpecHeap HeapLemmas HeapThms SpecBig.
Import ListNotations.
Local Open Scope Z_scope.

Lemma bytes_at : forall n z i b, nth_error (bytes_le n z) i = Some b -> byte_Z b = (z / 2 ^ (8 * Z.of_nat i)) mod 256.
Proof.
  induction n as [|n IH]; intros z i b E; [destruct i; discriminate|]. destruct i as [|i]; cbn [bytes_le nth_error] in E.
  - injection E as <-. rewrite byte_mod. change (2 ^ (8 * Z.of_nat 0)) with 1. rewrite Z.div_1_r. reflexivity.
  - rewrite (IH _ _ _ E). replace (8 * Z.of_nat (S i)) with (8 + 8 * Z.of_nat i) by lia. rewrite Z.pow_add_r by lia. change (2 ^ 8) with 256.
    rewrite Z.div_div by (try lia; apply Z.pow_pos_nonneg; lia). reflexivity.
Qed.
Lemma data_spells : forall z, spells (to_signed_le z) z.
Proof.
  intros z. split; [intros i b E; exact (bytes_at _ _ _ _ E)|]. unfold to_signed_le. rewrite bytes_len. exact (count_bound z).
Qed.
Lemma byte_range : forall b, 0 <= byte_Z b < 256.
Proof. intros b. unfold byte_Z. pose proof (Byte.to_N_bounded b). lia. Qed.
Lemma unsigned_at : forall l i b, nth_error l i = Some b -> byte_Z b = (unsigned_le l / 2 ^ (8 * Z.of_nat i)) mod 256.
Proof.
  induction l as [|c l IH]; intros i b E; [destruct i; discriminate|]. pose proof (byte_range c) as R. destruct i as [|i]; cbn [unsigned_le nth_error] in *.
  - injection E as <-. change (2 ^ (8 * Z.of_nat 0)) with 1. rewrite Z.div_1_r, (Z.mul_comm 256), Z.mod_add, Z.mod_small by lia. reflexivity.
  - rewrite (IH _ _ E). replace (8 * Z.of_nat (S i)) with (8 + 8 * Z.of_nat i) by lia. rewrite Z.pow_add_r by lia. change (2 ^ 8) with 256.
    rewrite <- Z.div_div by (try lia; apply Z.pow_pos_nonneg; lia). rewrite (Z.mul_comm 256 (unsigned_le l)), Z.div_add, (Z.div_small (byte_Z c) 256) by lia. reflexivity.
Qed.
Lemma parsed_spells : forall l, l <> [] -> spells l (signed_le l).
Proof.
  intros l Nl. assert (Lp : 0 < Z.of_nat (length l)) by (destruct l; [congruence|cbn; lia]). pose proof (unsigned_range l) as U. unfold signed_le. split.
  - intros i b E. change (byte_Z b = (let n := 8 * Z.of_nat (length l) in let u := unsigned_le l in if n =? 0 then 0 else if 2 ^ (n - 1) <=? u then u - 2 ^ n else u) / 2 ^ (8 * Z.of_nat i) mod 256).
    cbv zeta. destruct (Z.eqb_spec (8 * Z.of_nat (length l)) 0); [lia|]. destruct (Z.leb _ _); [|exact (unsigned_at _ _ _ E)].
    rewrite (unsigned_at _ _ _ E). assert (Li : (i < length l)%nat) by (apply nth_error_Some; rewrite E; discriminate).
    replace (8 * Z.of_nat (length l)) with (8 * (Z.of_nat (length l) - Z.of_nat i - 1) + 8 + 8 * Z.of_nat i) by lia.
    rewrite !Z.pow_add_r by lia. set (p := 2 ^ (8 * Z.of_nat i)). set (q := 2 ^ (8 * _)). assert (0 < p) by (apply Z.pow_pos_nonneg; lia).
    replace (unsigned_le l - q * 2 ^ 8 * p) with (unsigned_le l + (- q * 256) * p) by (change (2 ^ 8) with 256; ring).
    rewrite Z.div_add, Z.mod_add by lia. reflexivity.
  - cbv zeta. set (n := 8 * Z.of_nat (length l)) in *. assert (E2 : 2 ^ n = 2 * 2 ^ (n - 1)) by (rewrite <- Z.pow_succ_r by lia; f_equal; lia).
    destruct (Z.eqb_spec n 0); [lia|]. destruct (Z.leb_spec (2 ^ (n - 1)) (unsigned_le l)); lia.
Qed.
Section Big.
Context {M : Mode}.
Lemma big_data_thm : forall h a z, big_is h a z ->
  exists l, hcall1 (HBigData a) h = HOk (RBytes l) h /\ l <> [] /\ spells l z.
Proof.
  intros h a z B. exists (to_signed_le z). split; [|split; [discriminate|apply data_spells]].
  cbn [hcall1]. unfold bigint_get_data. unfold hbind at 1. rewrite (bind_ok _ _ _ _ _ _ _ (big_get _ _ _ B)). reflexivity.
Qed.
Lemma big_parse_thm : forall h l, exists z, makes_object (hcall1 (HBigBytes l)) h (VBig z) /\ (l = [] -> z = 0) /\ (l <> [] -> spells l z).
Proof.
  intros h l. exists (signed_le l). split; [apply makes_new; reflexivity|]. split; [intros ->; reflexivity|apply parsed_spells].
Qed.
Lemma big_create_thm : forall h z, is_i64 z -> makes_object (hcall1 (HBigCreate z)) h (VBig z) /\
  forall b h', hcall1 (HBigCreate z) h = HOk (RObj b) h' ->
    exists l, hcall1 (HBigData b) h' = HOk (RBytes l) h' /\ spells l z /\ (length l <= 8)%nat.
Proof.
  intros h z R. assert (C : makes_object (hcall1 (HBigCreate z)) h (VBig z)) by (apply makes_new; reflexivity). split; [exact C|].
  intros b h' E. destruct C as (b1 & h1 & E1 & _ & A & _). rewrite E in E1. injection E1 as <- <-.
  destruct (big_data_thm h' b z) as (l & El & _ & Sp); [exists 1%nat, 0%nat; exact A|]. exists l. split; [exact El|]. split; [exact Sp|].
  assert (B : big_is h' b z) by (exists 1%nat, 0%nat; exact A).
  destruct (big_bytes_thm _ _ _ B) as (l2 & El2 & _ & _ & Sh). rewrite El in El2. injection El2 as <-.
  rewrite <- (bytes_len 8 z). apply Sh; [discriminate|].
  assert (Ez : signed_le (bytes_le 8 z) = z); [|rewrite <- Ez at 2; apply makes_new; reflexivity].
  unfold signed_le. rewrite bytes_len, unsigned_bytes. cbv zeta. change (8 * Z.of_nat 8) with 64. change (64 =? 0) with false. cbv iota. change (64 - 1) with 63.
  unfold is_i64 in R. assert (E2 : 2 ^ 64 = 2 * 2 ^ 63) by reflexivity. destruct (Z.lt_ge_cases z 0) as [Neg|Pos].
  - assert (Em : z mod 2 ^ 64 = z + 2 ^ 64) by (symmetry; apply (Z.mod_unique_pos z (2 ^ 64) (-1)); lia).
    rewrite Em. destruct (Z.leb_spec (2 ^ 63) (z + 2 ^ 64)); lia.
  - rewrite Z.mod_small by lia. destruct (Z.leb_spec (2 ^ 63) z); lia.
Qed.
End Big.
