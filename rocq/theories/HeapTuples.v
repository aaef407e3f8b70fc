(** * Tuples and captured values: proofs *)
From Coq Require Import ZArith List Bool Arith Lia.
From Coq.Init Require Import Byte.
From Verif Require Import Text Heap SpecHeap HeapLemmas HeapThms HeapCalls Captures.
Import ListNotations.

Lemma tuple_create_thm : forall (M : Mode) h size, (0 <= size < 2 ^ 63 - 8)%Z ->
  makes_object (hcall1 (HTupleCreate size)) h (VTup (repeat (Raw x00) (Z.to_nat size))).
Proof.
  intros M h size R. unfold makes_object. cbn [hcall1]. unfold robj, tuple_create.
  exists (length h), (h ++ [live 1 0 (VTup (repeat (Raw x00) (Z.to_nat size)))]).
  assert (U : usize_ok (size + 8) = true) by (unfold usize_ok; apply andb_true_iff; split; [apply Z.leb_le|apply Z.ltb_lt]; lia).
  split.
  - unfold hbind at 1. rewrite (bind_ok _ _ (usize (size + 8)) _ h (size + 8)%Z h (usize_fits h _ U)).
    replace (size + 8 <? 8)%Z with false by (symmetry; apply Z.ltb_ge; lia).
    replace (size + 8 <? 2 ^ 63)%Z with true by (symmetry; apply Z.ltb_lt; lia).
    replace (size + 8 - 8)%Z with size by lia. reflexivity.
  - split; [apply nth_error_None; lia|]. split.
    + apply alive_iff. split; [lia|]. rewrite nth_error_app2, Nat.sub_diag by lia. reflexivity.
    + intros x L. now rewrite nth_error_app1.
Qed.

Lemma nth_splice : forall d off bs j, off + length bs <= length d ->
  nth_error (splice d off bs) j =
  if (off <=? j) && (j <? off + length bs) then nth_error bs (j - off) else nth_error d j.
Proof.
  intros d off bs j L. unfold splice. assert (Lf : length (firstn off d) = off) by (apply firstn_length_le; lia).
  destruct (Nat.leb_spec off j); cbn [andb].
  - rewrite nth_error_app2, Lf by lia. destruct (Nat.ltb_spec j (off + length bs)).
    + rewrite nth_error_app1 by lia. reflexivity.
    + rewrite nth_error_app2 by lia. rewrite <- (firstn_skipn (off + length bs) d) at 2.
      rewrite nth_error_app2; rewrite firstn_length_le by lia; [|lia]. f_equal. lia.
  - rewrite nth_error_app1 by lia. rewrite <- (firstn_skipn off d) at 2. rewrite nth_error_app1 by lia. reflexivity.
Qed.
Lemma splice_length : forall d off bs, off + length bs <= length d -> length (splice d off bs) = length d.
Proof. intros. unfold splice. rewrite !app_length, skipn_length, firstn_length_le by lia. lia. Qed.

Lemma tuple_set_thm : forall (M : Mode) h a n al d i p, alive h a n al (VTup d) -> 8 * i + 8 <= length d ->
  exists h' d', hcall1 (HTupleSet a i p) h = HOk RUnit h' /\ alive h' a n al (VTup d') /\ length d' = length d /\
    (forall k, k < 8 -> nth_error d' (8 * i + k) = nth_error (ptr_bytes (PObj p)) k) /\
    (forall j, j < 8 * i \/ 8 * i + 8 <= j -> nth_error d' j = nth_error d j) /\
    others_same h h' a /\ length h' = length h.
Proof.
  intros M h a n al d i p A L. apply alive_iff in A. destruct A as [Nz C].
  assert (Lp := ptr_bytes_len (PObj p)).
  exists (list_put h a (live n al (VTup (splice d (8 * i) (ptr_bytes (PObj p)))))), (splice d (8 * i) (ptr_bytes (PObj p))).
  split.
  { cbn [hcall1]. unfold runit, set_tuple_ptr. unfold hbind at 1. rewrite (bind_ok _ _ _ _ _ _ _ (get_tup_live _ _ _ _ _ C)).
    replace (8 * i + 8 <=? length d) with true by (symmetry; apply Nat.leb_le; lia).
    rewrite (set_live _ _ _ _ _ C). reflexivity. }
  split; [apply alive_iff; split; [exact Nz|]; apply nth_put_eq; apply nth_error_Some; congruence|].
  split; [apply splice_length; lia|].
  split; [|split; [|split]].
  - intros k Hk. rewrite nth_splice by lia. rewrite Lp.
    replace (8 * i <=? 8 * i + k) with true by (symmetry; apply Nat.leb_le; lia).
    replace (8 * i + k <? 8 * i + 8) with true by (symmetry; apply Nat.ltb_lt; lia). cbn [andb]. f_equal. lia.
  - intros j Hj. rewrite nth_splice by lia. rewrite Lp. destruct (Nat.leb_spec (8 * i) j); cbn [andb]; auto.
    replace (j <? 8 * i + 8) with false by (symmetry; apply Nat.ltb_ge; lia). reflexivity.
  - intros b Nb _. apply nth_put_neq. auto.
  - apply len_put.
Qed.
Lemma set_outside_thm : forall (M : Mode) h a n al d i p, alive h a n al (VTup d) -> length d < 8 * i + 8 ->
  hcall1 (HTupleSet a i p) h = HUB.
Proof.
  intros M h a n al d i p A L. apply alive_iff in A. destruct A as [Nz C].
  cbn [hcall1]. unfold runit, set_tuple_ptr. unfold hbind at 1. rewrite (bind_ok _ _ _ _ _ _ _ (get_tup_live _ _ _ _ _ C)).
  replace (8 * i + 8 <=? length d) with false by (symmetry; apply Nat.leb_gt; lia). reflexivity.
Qed.

Lemma slice_below : forall sz d e st s h, (s < 0)%Z -> (s <= e)%Z -> slice_loop sz d (steps_up s e st) h = HPanic.
Proof.
  intros sz d e st s h L Le. unfold steps_up. apply Z.leb_le in Le. rewrite Le.
  generalize (Z.to_nat ((e - s) / st)). intros m. cbn [seq map slice_loop]. unfold slice_at at 1.
  replace (s + Z.of_nat 0 * st <? 0)%Z with true by (symmetry; apply Z.ltb_lt; lia). reflexivity.
Qed.
Lemma i64_far : forall (M : Mode) h, i64 (2 ^ 60 * 8) h = if overflow_checks then HPanic else HOk (- 2 ^ 63)%Z h.
Proof. intros [[|]] h; reflexivity. Qed.
Lemma i64_near : forall (M : Mode) h z, (0 <= z <= 8)%Z -> i64 z h = HOk z h.
Proof.
  intros M h z R. unfold i64. replace (i64_ok z) with true; [reflexivity|]. symmetry. unfold i64_ok.
  apply andb_true_iff. split; [apply Z.leb_le|apply Z.ltb_lt]; lia.
Qed.
Lemma bind_panic : forall X Y (m : Hp X) (f : X -> Hp Y) h, m h = HPanic -> hbind m f h = HPanic.
Proof. intros X Y m f h E. unfold hbind. now rewrite E. Qed.
Lemma slice_far : forall (M : Mode) h a n al d, nth_error h a = Some (live n al (VArr 8 d)) ->
  array_slice_1d a (mkRange (2 ^ 60) 1 0) h = HPanic.
Proof.
  intros M h a n al d C. unfold array_slice_1d. rewrite (bind_ok _ _ _ _ _ _ _ (get_arr_live _ _ _ _ _ _ C)).
  cbn [r_start r_end r_step]. assert (F := i64_far M h). destruct overflow_checks.
  { apply bind_panic. exact F. }
  rewrite (bind_ok _ _ _ _ _ _ _ F). clear F.
  rewrite (bind_ok _ _ _ _ _ _ _ (i64_near M h (0 * 8) ltac:(lia))).
  rewrite (bind_ok _ _ _ _ _ _ _ (i64_near M h (Z.abs 1) ltac:(lia))).
  rewrite (bind_ok _ _ _ _ _ _ _ (i64_near M h (Z.abs 1 * 8) ltac:(lia))).
  change (Z.abs 1 * 8 <=? 0)%Z with false. change (0 <? 1)%Z with true. cbv iota.
  apply bind_panic. apply slice_below; lia.
Qed.
Lemma slice_empty_thm : forall (M : Mode) h a n al els, array_is h a n al 8 els ->
  range_list (mkRange (2 ^ 60) 1 0) [] /\ hcall1 (HSlice a (mkRange (2 ^ 60) 1 0)) h = HPanic.
Proof.
  intros M h a n al els [A F]. split.
  - intros k i. cbn [r_start r_step r_end]. change (0 <? 1)%Z with true. cbv iota. split; [now destruct k|]. intros [-> H]. lia.
  - apply alive_iff in A. destruct A as [Nz C]. cbn [hcall1]. unfold robj. apply bind_panic. exact (slice_far M h a n al _ C).
Qed.

Lemma capture_thm : forall mf h cal n al c k is_alias, alive h cal n al (VCall c) ->
  capture_update mf cal k is_alias h =
  match c_mem c with
  | None => HOk tt h
  | Some t => match entry mf t (if is_alias then 1 else 0) with None => HOk tt h | Some f => run mf f (c_capture c) k h end
  end.
Proof.
  intros mf h cal n al c k is_alias A. apply alive_iff in A. destruct A as [Nz C]. unfold capture_update.
  rewrite (bind_ok _ _ _ _ _ _ _ (get_call_live _ _ _ _ _ C)). destruct (c_mem c); auto. now destruct (entry mf _ _).
Qed.
