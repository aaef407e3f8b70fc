(** * Theorems on arrays of qubits *)
From Coq Require Import String Ascii Reals NArith ZArith List Bool Arith Lia.
From Verif Require Import Arith ArithR Sim SimRun SpecRun Text Backend SpecBackend BackLemmas BackThms Heap SpecHeap HeapLemmas HeapThms HeapCalls QubitArray.
Import ListNotations.

Section Thms.
Context {T : Tol} {EN : Env} {D : Doubles} {SW : Shows} {M : Mode}.
Definition qword (q : nat) : list mval := ptr_bytes (PQubit q).

Lemma qmem : forall X Y (m : Hp X) (f : X -> QM Y) h b x h', m h = HOk x h' -> qbind (mem m) f h b = f x h' b.
Proof. intros. unfold qbind, mem. rewrite H. reflexivity. Qed.
Lemma qdev : forall X Y (m : B X) (f : X -> QM Y) h b x b', m b = BOk x b' -> qbind (dev m) f h b = f x h b'.
Proof. intros. unfold qbind, dev. rewrite H. reflexivity. Qed.

Lemma write_at : forall h a n al sz els i bs, array_is h a n al sz els -> (0 < sz)%Z ->
  (sz * Z.of_nat (length els) < 2 ^ 64)%Z -> i < length els -> Z.of_nat (length bs) = sz ->
  exists p, array_get_element_ptr_1d a (Z.of_nat i) h = HOk p h /\
    forall h0 els0, array_is h0 a n al sz els0 -> length els0 = length els ->
    ptr_write p bs h0 = HOk tt (list_put h0 a (live n al (VArr sz (concat (list_put els0 i bs))))).
Proof.
  intros h a n al sz els i bs A P B L Lb. eexists. split; [apply (elem_ptr _ _ _ _ _ _ _ A); lia|].
  intros h0 els0 A0 L0. destruct (arr_cell _ _ _ _ _ _ A0) as [N [C [Ga F]]]. pose proof (concat_len _ _ F) as Lc.
  unfold ptr_write. cbn [fst snd]. rewrite (bind_ok _ _ _ _ _ _ _ Ga). cbn [fst snd].
  destruct (Nat.leb_spec (Z.to_nat (sz * Z.of_nat i) + length bs) (length (concat els0))); [|nia].
  rewrite (set_live _ _ _ _ _ C), (splice_concat _ _ _ _ F) by lia. reflexivity.
Qed.
Lemma read_at : forall h a n al sz els i x, array_is h a n al sz els -> (0 < sz)%Z ->
  (sz * Z.of_nat (length els) < 2 ^ 64)%Z -> nth_error els i = Some x ->
  exists p, array_get_element_ptr_1d a (Z.of_nat i) h = HOk p h /\ ptr_read p (Z.to_nat sz) h = HOk x h.
Proof.
  intros h a n al sz els i x A P B E. pose proof (nth_lt _ _ _ _ E) as L. eexists.
  split; [apply (elem_ptr _ _ _ _ _ _ _ A); lia|].
  destruct (arr_cell _ _ _ _ _ _ A) as [N [C [Ga F]]]. pose proof (concat_len _ _ F) as Lc.
  unfold ptr_read. cbn [fst snd]. rewrite (bind_ok _ _ _ _ _ _ _ Ga). cbn [fst snd].
  destruct (Nat.leb_spec (Z.to_nat (sz * Z.of_nat i) + Z.to_nat sz) (length (concat els))); [|nia].
  unfold hret. rewrite (concat_at _ _ _ _ F E). reflexivity.
Qed.
Lemma put_mid : forall A (l : list A) x y t, list_put (l ++ x :: t) (length l) y = l ++ y :: t.
Proof. induction l as [|z l IH]; intros; cbn; [reflexivity|]. now rewrite IH. Qed.

Lemma fill_thm : forall n qs0 h b a qs b' fill, length fill = n -> (8 * Z.of_nat (length qs0 + n) < 2 ^ 63)%Z ->
  array_is h a 1 0 8 (map qword qs0 ++ fill) -> rt_allocate_array n b = BOk qs b' ->
  exists h', fill_qubits a (length qs0) n h b = QOk tt h' b' /\ array_is h' a 1 0 8 (map qword (qs0 ++ qs)) /\
    others_same h h' a /\ length h' = length h.
Proof.
  induction n as [|n IH]; intros qs0 h b a qs b' fill Lf B A E; cbn [rt_allocate_array fill_qubits] in *.
  - injection E as <- <-. destruct fill; [|discriminate]. rewrite app_nil_r in *. exists h. split; [reflexivity|].
    split; [exact A|]. split; [intros x _ _; reflexivity|reflexivity].
  - unfold bbind at 1 in E. destruct (rt_qubit_allocate b) as [q b1|] eqn:E1; [|discriminate].
    unfold bbind at 1 in E. destruct (rt_allocate_array n b1) as [qs1 b2|] eqn:E2; [|discriminate]. injection E as <- <-.
    destruct fill as [|w fill]; [discriminate|]. cbn in Lf. injection Lf as Lf.
    assert (Ln : length (map qword qs0 ++ w :: fill) = length qs0 + S n) by (rewrite app_length, map_length; cbn; lia).
    destruct (write_at h a 1 0 8 _ (length qs0) (qword q) A ltac:(lia)) as [p [Ep Wp]];
      [rewrite Ln; lia|rewrite Ln; lia|unfold qword; rewrite ptr_bytes_len; reflexivity|].
    specialize (Wp h _ A eq_refl).
    set (h1 := list_put h a (live 1 0 (VArr 8 (concat (list_put (map qword qs0 ++ w :: fill) (length qs0) (qword q)))))) in Wp.
    assert (A1 : array_is h1 a 1 0 8 (map qword (qs0 ++ [q]) ++ fill)).
    { rewrite map_app, <- app_assoc. cbn [map app]. rewrite <- (put_mid _ (map qword qs0) w), map_length.
      split; [apply (alive_put _ _ _ _ _ _ _ _ (proj1 A)); lia|].
      apply Forall_put; [exact (proj2 A)|unfold qword; rewrite ptr_bytes_len; reflexivity]. }
    destruct (IH (qs0 ++ [q]) h1 b1 a qs1 b2 fill Lf) as (h' & E' & A' & O' & L').
    + rewrite app_length. cbn [length]. lia.
    + exact A1.
    + exact E2.
    + exists h'. rewrite (qmem _ _ _ _ _ _ _ _ Ep), (qdev _ _ _ _ _ _ _ _ E1), (qmem _ _ _ _ _ _ _ _ Wp).
      rewrite app_length in E'. cbn in E'. rewrite Nat.add_1_r in E'. split; [exact E'|].
      rewrite <- app_assoc in A'. split; [exact A'|]. unfold h1 in O', L'. rewrite len_put in L'. split; [|exact L'].
      intros x Nx Lx. rewrite O'; [apply nth_put_neq; congruence|exact Nx|rewrite len_put; exact Lx].
Qed.
Lemma allocate_thm : forall n h b qs b', (8 * Z.of_nat n < 2 ^ 63)%Z -> rt_allocate_array n b = BOk qs b' ->
  exists a h', qubit_allocate_array n h b = QOk a h' b' /\ nth_error h a = None /\ array_is h' a 1 0 8 (map qword qs) /\
    forall x, x < length h -> nth_error h' x = nth_error h x.
Proof.
  intros n h b qs b' B E. destruct (create_thm h 8 (Z.of_nat n) ltac:(lia) ltac:(lia) B) as (a & h1 & E1 & N1 & A1 & O1).
  cbn [hcall1] in E1. unfold robj, hbind in E1. destruct (array_create_1d 8 (Z.of_nat n) h) as [a0 h0| | |] eqn:Ec; try discriminate.
  injection E1 as -> ->.
  destruct (fill_thm n [] h1 b a qs b' _ (eq_trans (repeat_length _ _) (Nat2Z.id n)) B A1 E) as (h' & E' & A' & O' & L').
  exists a, h'. unfold qubit_allocate_array. rewrite (qmem _ _ _ _ _ _ _ _ Ec). cbn [length] in E'. split; [unfold qbind; rewrite E'; reflexivity|].
  split; [exact N1|]. split; [exact A'|]. intros x Lx. rewrite <- O1 by exact Lx.
  apply nth_error_None in N1.
  assert (L1 : x < length h1). { rewrite <- nth_error_Some, O1 by exact Lx. rewrite nth_error_Some. exact Lx. }
  apply O'; [lia|exact L1].
Qed.

Lemma skip_next : forall A (l : list A) i x t, skipn i l = x :: t -> skipn (S i) l = t.
Proof. induction l as [|y l IH]; intros [|i] x t E; try discriminate; [now injection E|]. exact (IH i x t E). Qed.
Lemma release_loop : forall qs h b a n al els b' i, array_is h a n al 8 els -> (8 * Z.of_nat (length els) < 2 ^ 63)%Z ->
  skipn i els = map qword qs -> rt_release_array qs b = BOk tt b' ->
  release_qubits a i (length qs) h b = QOk tt h b'.
Proof.
  induction qs as [|q qs IH]; intros h b a n al els b' i A B Hs E.
  - cbn in E. injection E as <-. reflexivity.
  - unfold rt_release_array in E. cbn [bfor fold_right] in E. unfold bbind at 1 in E.
    destruct (rt_qubit_release q b) as [u b1|] eqn:E1; [|discriminate].
    assert (En : nth_error els i = Some (qword q)).
    { rewrite <- (firstn_skipn i els), Hs. assert (Li : i < length els).
      { destruct (Nat.lt_ge_cases i (length els)); [assumption|]. rewrite skipn_all2 in Hs by assumption. discriminate. }
      rewrite nth_error_app2; rewrite firstn_length_le by lia; [|lia]. rewrite Nat.sub_diag. reflexivity. }
    destruct (read_at _ _ _ _ _ _ _ _ A ltac:(lia) ltac:(lia) En) as [p [Ep Rp]]. change (Z.to_nat 8) with 8 in Rp.
    cbn [length release_qubits]. rewrite (qmem _ _ _ _ _ _ _ _ Ep), (qmem _ _ _ _ _ _ _ _ Rp).
    unfold qword at 1, word_qubit. rewrite ptr_of_bytes. rewrite (qdev _ _ _ _ _ _ _ _ E1).
    apply (IH h b1 a n al els b' (S i)); [exact A|exact B| |exact E].
    exact (skip_next _ _ _ _ _ Hs).
Qed.
Lemma release_thm' : forall qs h b a n al b', array_is h a n al 8 (map qword qs) -> (8 * Z.of_nat (length qs) < 2 ^ 63)%Z ->
  rt_release_array qs b = BOk tt b' ->
  exists h', qubit_release_array a h b = QOk tt h' b' /\ others_same h h' a /\ length h' = length h /\
    (al = 0 -> freed h' a /\ ~ dropped h' a) /\
    (al <> 0 -> array_is h' a n (al - 1) 8 (map qword qs)).
Proof.
  intros qs h b a n al b' A B E. pose proof (size_thm h a n al 8 _ A ltac:(lia)) as Sz.
  cbn [hcall1] in Sz. unfold hbind in Sz. destruct (array_get_size_1d a h) as [k h0| | |] eqn:Es; try discriminate.
  unfold hret in Sz. injection Sz as -> ->. rewrite map_length in Es.
  destruct (arr_cell _ _ _ _ _ _ A) as [N [C [_ F]]].
  set (c' := if Nat.eqb al 0 then mkCell n 0 false (Some (VArr 8 (concat (map qword qs)))) else live n (al - 1) (VArr 8 (concat (map qword qs)))).
  assert (U : update_counts a (-1) true h = HOk tt (list_put h a c')).
  { unfold update_counts. change (Z.abs_nat (-1)) with 1. change (0 <? -1)%Z with false. cbn [hrepeat].
    rewrite (bind_ok _ _ (count_step a false true) _ _ _ _ (alias_down _ _ _ _ _ C)). reflexivity. }
  pose proof (nth_lt _ _ _ _ C) as La.
  exists (list_put h a c'). unfold qubit_release_array. rewrite (qmem _ _ _ _ _ _ _ _ Es). rewrite Nat2Z.id.
  split. { unfold qbind. rewrite (release_loop qs h b a n al _ b' 0 A) by (rewrite ?map_length; auto). unfold mem. rewrite U. reflexivity. }
  split; [apply put_others|]. split; [apply len_put|]. unfold c'. split; intros Z.
  - subst al. cbn [Nat.eqb]. split; [eexists; split; [apply nth_put_eq, La|reflexivity]|].
    intros (c & Ec & Sc & _). rewrite nth_put_eq in Ec by exact La. injection Ec as <-. cbn in Sc. contradiction.
  - destruct (Nat.eqb_spec al 0); [contradiction|]. split; [|exact F]. apply alive_iff. split; [exact N|]. apply nth_put_eq, La.
Qed.

Lemma fold_remove : forall qs l x, In x (fold_left (fun l q => remove_id q l) qs l) <-> In x l /\ ~ In x qs.
Proof.
  induction qs as [|q qs IH]; intros l x; cbn [fold_left]; [simpl; tauto|]. rewrite IH.
  unfold remove_id. rewrite filter_In, negb_true_iff, Nat.eqb_neq. simpl. assert (x = q <-> q = x) by (split; congruence). tauto.
Qed.
(** Allocate and release: the qubits are as before, the array is not reclaimed. *)
Lemma pair_thm : order_ok -> forall n h b l, breached b l -> (8 * Z.of_nat n < 2 ^ 63)%Z ->
  exists a h1 b1 h2 b2, qubit_allocate_array n h b = QOk a h1 b1 /\ qubit_release_array a h1 b1 = QOk tt h2 b2 /\
    (exists qs, array_is h1 a 1 0 8 (map qword qs) /\ length qs = n /\ NoDup qs /\ forall q, In q (SpecBackend.held b1) <-> In q l \/ In q qs) /\
    breached b2 (SpecBackend.held b2) /\ (forall q, In q (SpecBackend.held b2) <-> In q l) /\
    (forall x, x < length h -> nth_error h2 x = nth_error h x) /\
    freed h2 a /\ ~ dropped h2 a.
Proof.
  intros Ho n h b l R B. destruct (alloc_ids Ho n b l R) as (qs & b1 & E1 & Ln & Nd & Dj & R1 & I1).
  cbn [bcall1] in E1. unfold bbind in E1. destruct (rt_allocate_array n b) as [qs' b1'|] eqn:Ea; [|discriminate].
  injection E1 as -> ->.
  destruct (allocate_thm n h b qs b1 B Ea) as (a & h1 & Eq & Na & A & O).
  assert (V : bvalid (mkBBook (bmax b1) (SpecBackend.held b1)) (QReleaseArray qs)).
  { split; [exact Nd|]. intros q Hq. apply I1. auto. }
  pose proof (bcall_k Ho b1 _ (QReleaseArray qs) (breached_K Ho _ _ R1) V) as W.
  cbn [bcall1] in W. unfold kruns, wp, vunit, bbind, is_assert in W.
  destruct (rt_release_array qs b1) as [[] b2|e o] eqn:Er; [|destruct e; contradiction].
  destruct (release_thm' qs h1 b1 a 1 0 b2 A ltac:(lia) Er) as (h2 & Eq2 & O2 & L2 & F2 & _).
  assert (Ec : bcall1 (QReleaseArray qs) b1 = BOk VUnit b2) by (cbn [bcall1]; unfold vunit, bbind; rewrite Er; reflexivity).
  pose proof (breached_step Ho b1 _ _ _ _ R1 V Ec) as R2. cbn [bbstep bb_live] in R2.
  pose proof (held_thm Ho _ _ R2) as Hh. destruct (F2 eq_refl) as [Fr Nd2].
  exists a, h1, b1, h2, b2. split; [exact Eq|]. split; [exact Eq2|]. split; [exists qs; auto|].
  split; [rewrite Hh; exact R2|]. split.
  - intros q. rewrite Hh, fold_remove, I1. specialize (Dj q). tauto.
  - split; [|auto]. intros x Lx. rewrite <- O by exact Lx. apply nth_error_None in Na. apply O2; [lia|].
    rewrite <- nth_error_Some, O by exact Lx. rewrite nth_error_Some. exact Lx.
Qed.
End Thms.
