(** * Theorems on calls whose arguments are in memory *)
From Coq Require Import String Ascii Reals NArith ZArith List Bool Arith Lia.
From Coq.Strings Require Import Byte.
From Flocq Require Import IEEE754.Binary IEEE754.Bits.
From Verif Require Import Cx Arith ArithR Sim SimExp SimRun SpecRun Text Backend Heap SpecHeap HeapLemmas HeapThms HeapCalls Strings
  SpecString Utf8 StringThms QubitArray QubitArrayThms Args SpecArgs.
Import ListNotations.

(** ** Words *)
Lemma forall2_len : forall A B (P : A -> B -> Prop) l l', Forall2 P l l' -> length l = length l'.
Proof. induction 1; cbn; congruence. Qed.
Lemma raws_map : forall bs, raws (map Raw bs) = Some bs.
Proof. induction bs as [|b bs IH]; [reflexivity|]. cbn. now rewrite IH. Qed.
Lemma word_len : forall w q, qubit_bytes w q -> length w = 8.
Proof. intros w q [-> | [_ ->]]; [apply ptr_bytes_len|]. rewrite map_length. apply bytes_len. Qed.
Lemma double_len : forall w x, double_bytes w x -> length w = 8.
Proof. intros w x (f & _ & _ & ->). rewrite map_length. apply bytes_len. Qed.
Lemma word_qubit_ok : forall w q, qubit_bytes w q -> word_qubit w = Some q.
Proof.
  intros w q [-> | [B ->]]; unfold word_qubit; [now rewrite ptr_of_bytes|].
  replace (ptr_of (map Raw (bytes_le 8 (Z.of_nat q)))) with (@None ptr) by reflexivity.
  rewrite raws_map, unsigned_bytes. change (8 * Z.of_nat 8)%Z with 64%Z. rewrite Z.mod_small by lia. now rewrite Nat2Z.id.
Qed.
Lemma bits_range : forall f : binary64, (0 <= bits_of_b64 f < 2 ^ 64)%Z.
Proof. intros f. exact (bits_of_binary_float_range 52 11 ltac:(lia) ltac:(lia) f). Qed.
Lemma word_double_ok : forall w x, double_bytes w x -> word_double w = Some x.
Proof.
  intros w x (f & F & <- & ->). unfold word_double. rewrite raws_map, unsigned_bytes.
  change (8 * Z.of_nat 8)%Z with 64%Z. rewrite Z.mod_small by apply bits_range.
  assert (E : b64_of_bits (bits_of_b64 f) = f) by exact (binary_float_of_bits_of_binary_float 52 11 eq_refl eq_refl eq_refl f).
  cbv zeta. now rewrite E, F.
Qed.
(** The sign bit. *)
Definition flip (f : binary64) : binary64 := Bopp 53 1024 (fun g => exist _ (B754_nan 53 1024 false 1 eq_refl) eq_refl) f.
Lemma bits_flip : forall f : binary64, is_finite 53 1024 f = true ->
  bits_of_b64 (flip f) = ((bits_of_b64 f + 2 ^ 63) mod 2 ^ 64)%Z.
Proof.
  intros f F. pose proof (bits_range f) as R. pose proof (bits_range (flip f)) as R'.
  assert (E : (bits_of_b64 (flip f) = bits_of_b64 f + 2 ^ 63 \/ bits_of_b64 (flip f) = bits_of_b64 f - 2 ^ 63)%Z).
  { destruct f as [s|s|s pl H|s m e H]; try discriminate F; unfold flip, bits_of_b64, bits_of_binary_float, join_bits; cbn [Bopp].
    - destruct s; [right|left]; reflexivity.
    - cbv zeta. destruct s; unfold negb; destruct (0 <=? Z.pos m - 2 ^ 52)%Z; rewrite !Z.shiftl_mul_pow2 by lia; lia. }
  destruct E as [E | E]; rewrite E in *.
  - now rewrite Z.mod_small by lia.
  - replace (bits_of_b64 f + 2 ^ 63)%Z with (bits_of_b64 f - 2 ^ 63 + 1 * 2 ^ 64)%Z by lia. rewrite Z_mod_plus_full, Z.mod_small by lia. reflexivity.
Qed.

Lemma byte_Z_byte : forall z, byte_Z (Z_byte z) = (z mod 256)%Z.
Proof. exact byte_mod. Qed.
Lemma Z_byte_eq : forall x y, (x mod 256 = y mod 256)%Z -> Z_byte x = Z_byte y.
Proof. intros x y E. unfold Z_byte. now rewrite E. Qed.
Lemma bytes_snoc : forall n z, bytes_le (S n) z = bytes_le n z ++ [Z_byte (z / 256 ^ Z.of_nat n)].
Proof.
  induction n as [|n IH]; intros z. { cbn [bytes_le Z.of_nat app]. now rewrite Z.pow_0_r, Z.div_1_r. }
  change (bytes_le (S (S n)) z) with (Z_byte z :: bytes_le (S n) (z / 256)). rewrite IH. cbn [bytes_le app].
  rewrite Z.div_div by lia. do 3 f_equal. f_equal. f_equal. rewrite Nat2Z.inj_succ, Z.pow_succ_r by lia. reflexivity.
Qed.
Lemma bytes_top : forall n z, bytes_le (S n) (z + 128 * 256 ^ Z.of_nat n) = bytes_le n z ++ [Z_byte (z / 256 ^ Z.of_nat n + 128)].
Proof.
  induction n as [|n IH]; intros z. { cbn [bytes_le Z.of_nat app]. now rewrite Z.pow_0_r, Z.div_1_r. }
  assert (E : (128 * 256 ^ Z.of_nat (S n) = (128 * 256 ^ Z.of_nat n) * 256)%Z) by (rewrite Nat2Z.inj_succ, Z.pow_succ_r by lia; lia).
  rewrite E. change (bytes_le (S (S n)) (z + 128 * 256 ^ Z.of_nat n * 256)) with
    (Z_byte (z + 128 * 256 ^ Z.of_nat n * 256) :: bytes_le (S n) ((z + 128 * 256 ^ Z.of_nat n * 256) / 256)).
  rewrite Z.div_add by lia. rewrite IH. cbn [bytes_le app]. f_equal; [apply Z_byte_eq, Z_mod_plus_full|].
  f_equal. do 2 f_equal. f_equal. rewrite Z.div_div by lia. f_equal. rewrite Nat2Z.inj_succ, Z.pow_succ_r by lia. reflexivity.
Qed.
Lemma bytes_mod : forall n z, bytes_le n (z mod 256 ^ Z.of_nat n) = bytes_le n z.
Proof.
  induction n as [|n IH]; intros z; [reflexivity|]. cbn [bytes_le].
  assert (E : (256 ^ Z.of_nat (S n) = 256 * 256 ^ Z.of_nat n)%Z) by (rewrite Nat2Z.inj_succ, Z.pow_succ_r by lia; reflexivity).
  assert (P : (0 < 256 ^ Z.of_nat n)%Z) by (apply Z.pow_pos_nonneg; lia).
  rewrite E, Z.rem_mul_r by lia. f_equal.
  - apply Z_byte_eq. rewrite (Z.mul_comm 256), Z_mod_plus_full, Z.mod_mod by lia. reflexivity.
  - rewrite (Z.mul_comm 256), Z.div_add, Z.div_small by (try apply Z.mod_pos_bound; lia). rewrite Z.add_0_l. apply IH.
Qed.
Lemma neg_bytes : forall z, neg_word (map Raw (bytes_le 8 z)) = map Raw (bytes_le 8 ((z + 2 ^ 63) mod 2 ^ 64)).
Proof.
  intros z. change (2 ^ 64)%Z with (256 ^ Z.of_nat 8)%Z. rewrite bytes_mod.
  change (2 ^ 63)%Z with (128 * 256 ^ Z.of_nat 7)%Z. rewrite bytes_top, bytes_snoc.
  unfold neg_word. rewrite !map_app.
  assert (L : length (map Raw (bytes_le 7 z)) = 7) by (rewrite map_length; apply bytes_len).
  rewrite firstn_app, skipn_app, L, Nat.sub_diag, firstn_all2, skipn_all2 by lia. cbn [firstn skipn app map neg_val].
  rewrite app_nil_r. do 3 f_equal. apply Z_byte_eq. rewrite byte_Z_byte, Zplus_mod_idemp_l. reflexivity.
Qed.
Lemma neg_word_ok : forall w x, double_bytes w x -> double_bytes (neg_word w) (- x).
Proof.
  intros w x (f & F & <- & ->). exists (flip f). unfold flip. rewrite is_finite_Bopp, B2R_Bopp. split; [exact F|]. split; [reflexivity|].
  rewrite neg_bytes, <- bits_flip by exact F. reflexivity.
Qed.

(** ** Reading arrays and tuples *)
Section Thms.
Context {T : Tol} {EN : Env} {D : Doubles} {SW : Shows} {M : Mode}.
Local Open Scope args_scope.

(** The same at memory [h]; what the backend does, with [k] added to the memory. *)
Definition at_heap {X} (h : heap) (m m' : QM X) : Prop := forall b, m h b = m' h b.
Lemma at_bind : forall X Y h (m : B X) (m1 : QM X) (f f' : X -> QM Y), at_heap h m1 (dev m) -> (forall x, at_heap h (f x) (f' x)) ->
  at_heap h (qbind m1 f) (qbind (dev m) f').
Proof. intros X Y h m m1 f f' E F b. unfold qbind. rewrite E. unfold dev. destruct (m b); [apply F|reflexivity]. Qed.
Lemma at_mem : forall X Y h (m : Hp X) (f : X -> QM Y) x g, m h = HOk x h -> at_heap h (f x) g -> at_heap h (qbind (mem m) f) g.
Proof. intros X Y h m f x g E F b. unfold qbind, mem. rewrite E. apply F. Qed.
Lemma at_refl : forall X h (m : QM X), at_heap h m m.
Proof. intros X h m b. reflexivity. Qed.
Lemma at_trans : forall X h (m1 m2 m3 : QM X), at_heap h m1 m2 -> at_heap h m2 m3 -> at_heap h m1 m3.
Proof. intros X h m1 m2 m3 E F b. rewrite E. apply F. Qed.
Lemma dev_bind : forall X Y (m : B X) (f : X -> B Y) h, at_heap h (dev (bbind m f)) (qbind (dev m) (fun x => dev (f x))).
Proof. intros X Y m f h b. unfold dev, qbind, bbind. destruct (m b); reflexivity. Qed.
Lemma dev_ret : forall X (x : X) h, at_heap h (dev (bret x)) (qret x).
Proof. intros X x h b. reflexivity. Qed.
Lemma bind_assoc : forall X Y Z (m : QM X) (f : X -> QM Y) (g : Y -> QM Z) h,
  at_heap h (qbind (qbind m f) g) (qbind m (fun x => qbind (f x) g)).
Proof. intros X Y Z m f g h b. unfold qbind. destruct (m h b); reflexivity. Qed.

Lemma read_part : forall h a n al sz els i k x, array_is h a n al sz els -> (0 < sz)%Z -> k <= length x ->
  (sz * Z.of_nat (length els) < 2 ^ 64)%Z -> nth_error els i = Some x -> forall b, element a i k h b = QOk (firstn k x) h b.
Proof.
  intros h a n al sz els i k x A P K B E b. pose proof (nth_lt _ _ _ _ E) as L. unfold element.
  assert (Ep := elem_ptr _ _ _ _ _ _ (Z.of_nat i) A ltac:(lia) ltac:(lia) B). rewrite (qmem _ _ _ _ _ _ _ _ Ep).
  destruct (arr_cell _ _ _ _ _ _ A) as [N [C [Ga F]]]. pose proof (concat_len _ _ F) as Lc.
  assert (Lx : Z.of_nat (length x) = sz) by (rewrite Forall_forall in F; apply F, (nth_error_In _ _ E)).
  unfold mem, ptr_read. cbn [fst snd]. rewrite (bind_ok _ _ _ _ _ _ _ Ga). cbn [fst snd].
  destruct (Nat.leb_spec (Z.to_nat (sz * Z.of_nat i) + k) (length (concat els))); [|nia].
  unfold hret. rewrite <- (concat_at _ _ _ _ F E) at 1. rewrite firstn_firstn, Nat.min_l by lia. reflexivity.
Qed.

Lemma size_ok : forall h a n al sz els, array_is h a n al sz els -> (0 < sz)%Z -> array_get_size_1d a h = HOk (Z.of_nat (length els)) h.
Proof.
  intros h a n al sz els A P. pose proof (size_thm h a n al sz _ A P) as Sz.
  cbn [hcall1] in Sz. unfold hbind in Sz. destruct (array_get_size_1d a h) as [k h0| | |] eqn:Es; try discriminate.
  unfold hret in Sz. injection Sz as -> ->. reflexivity.
Qed.
Lemma skip_at : forall A (l : list A) i x t, skipn i l = x :: t -> nth_error l i = Some x /\ skipn (S i) l = t.
Proof.
  intros A l i x t E. split; [|exact (skip_next _ _ _ _ _ E)].
  rewrite <- (firstn_skipn i l), E. assert (Li : i < length l).
  { destruct (Nat.lt_ge_cases i (length l)); [assumption|]. rewrite skipn_all2 in E by assumption. discriminate. }
  rewrite nth_error_app2; rewrite firstn_length_le by lia; [|lia]. now rewrite Nat.sub_diag.
Qed.
Lemma known_ok : forall X (x : X) h, at_heap h (known (Some x)) (qret x).
Proof. intros X x h b. reflexivity. Qed.

Lemma ensured_from_ok : forall h a n al els, array_is h a n al 8 els -> (8 * Z.of_nat (length els) < 2 ^ 63)%Z ->
  forall ws qs i, skipn i els = ws -> Forall2 qubit_bytes ws qs ->
  at_heap h (ensured_from a i (length qs)) (dev (bfor qs ensure) ;;; qret qs).
Proof.
  intros h a n al els A B. induction ws as [|w ws IH]; intros qs i Sk F.
  - inversion F. subst. intros b. reflexivity.
  - inversion F as [|w0 q ws0 qs' Fq Fs]. subst w0 ws0 qs. destruct (skip_at _ _ _ _ _ Sk) as [Nw Sk'].
    specialize (IH qs' (S i) Sk' Fs). intros b. cbn [length ensured_from].
    assert (R : element a i 8 h b = QOk w h b).
    { rewrite (read_part h a n al 8 els i 8 w A) by (rewrite ?(word_len _ _ Fq); auto; lia). rewrite firstn_all2 by (rewrite (word_len _ _ Fq); lia). reflexivity. }
    unfold qbind at 1. rewrite R. rewrite (word_qubit_ok _ _ Fq). unfold known, qbind at 1, qret at 1.
    unfold bfor. cbn [fold_right]. fold (bfor qs' ensure).
    unfold qbind, dev, bbind. destruct (ensure q b) as [u b1|]; [|reflexivity].
    specialize (IH b1). unfold qbind, dev in IH. rewrite IH. destruct (bfor qs' ensure b1); reflexivity.
Qed.
Lemma ensured_ok : forall h a qs, holds_qubits h a qs -> at_heap h (ensured a) (dev (bfor qs ensure) ;;; qret qs).
Proof.
  intros h a qs (n & al & els & A & F & B). unfold ensured. apply (at_mem _ _ _ _ _ _ _ (size_ok _ _ _ _ _ _ A ltac:(lia))).
  rewrite Nat2Z.id, (forall2_len _ _ _ _ _ F). exact (ensured_from_ok h a n al els A B els qs 0 eq_refl F).
Qed.
Lemma byte_pauli_ok : forall p, byte_pauli [Raw (pauli_byte p)] = Some p.
Proof. intros []; reflexivity. Qed.
Lemma paulis_from_ok : forall h a n al sz els, array_is h a n al sz els -> (0 < sz)%Z -> (sz * Z.of_nat (length els) < 2 ^ 63)%Z ->
  forall ws ps i, skipn i els = ws -> Forall2 (fun e p => exists rest, e = Raw (pauli_byte p) :: rest) ws ps ->
  at_heap h (paulis_from a i (length ps)) (qret ps).
Proof.
  intros h a n al sz els A P B. induction ws as [|w ws IH]; intros ps i Sk F.
  - inversion F. subst. intros b. reflexivity.
  - inversion F as [|w0 p ws0 ps' Fp Fs]. subst w0 ws0 ps. destruct Fp as [rest ->]. destruct (skip_at _ _ _ _ _ Sk) as [Nw Sk'].
    specialize (IH ps' (S i) Sk' Fs). intros b. cbn [length paulis_from].
    unfold qbind at 1. rewrite (read_part h a n al sz els i 1 (Raw (pauli_byte p) :: rest) A P) by (cbn [length]; auto; lia).
    cbn [firstn]. rewrite byte_pauli_ok. unfold known, qbind, qret in *. rewrite (IH b). reflexivity.
Qed.
Lemma paulis_ok : forall h a ps, holds_paulis h a ps -> at_heap h (paulis_of a) (qret ps).
Proof.
  intros h a ps (n & al & sz & els & A & P & B & F). unfold paulis_of. apply (at_mem _ _ _ _ _ _ _ (size_ok _ _ _ _ _ _ A P)).
  rewrite Nat2Z.id, (forall2_len _ _ _ _ _ F). exact (paulis_from_ok h a n al sz els A P B els ps 0 eq_refl F).
Qed.
Lemma for_cons : forall X (x : X) l f, bfor (x :: l) f = bbind (f x) (fun _ => bfor l f).
Proof. reflexivity. Qed.
Lemma combined_ok : forall h a b n al m bl sz els ws, array_is h a n al sz els -> (0 < sz)%Z -> (sz * Z.of_nat (length els) < 2 ^ 63)%Z ->
  array_is h b m bl 8 ws -> (8 * Z.of_nat (length ws) < 2 ^ 63)%Z ->
  forall ps qs i es vs, skipn i els = es -> skipn i ws = vs -> length ps = length qs ->
    Forall2 (fun e p => exists rest, e = Raw (pauli_byte p) :: rest) es ps -> Forall2 qubit_bytes vs qs ->
  at_heap h (combined_from a b i (length ps))
    (dev (bfor (filter not_id (combine ps qs)) (fun pq => ensure (snd pq))) ;;; qret (filter not_id (combine ps qs))).
Proof.
  intros h a b n al m bl sz els ws A P B A' B'. induction ps as [|p ps IH]; intros qs i es vs Sk Sk' L F F'.
  - intros s. reflexivity.
  - destruct qs as [|q qs]; [discriminate|]. inversion F as [|e p0 es' ps' [rest Fp] Fs]. subst p0 ps' es.
    inversion F' as [|w q0 vs' qs' Fq Fs']. subst q0 qs' vs. subst e.
    destruct (skip_at _ _ _ _ _ (eq_sym H)) as [Nw Sk1]. destruct (skip_at _ _ _ _ _ (eq_sym H0)) as [Nw' Sk2].
    injection L as L. specialize (IH qs (S i) _ _ Sk1 Sk2 L Fs Fs'). intros s. cbn [length combined_from].
    unfold qbind at 1. rewrite (read_part h a n al sz els i 1 (Raw (pauli_byte p) :: rest) A P) by (cbn [length]; auto; lia).
    cbn [firstn]. rewrite byte_pauli_ok. unfold known at 1, qbind at 1, qret at 1.
    assert (R : element b i 8 h s = QOk w h s).
    { rewrite (read_part h b m bl 8 ws i 8 w A') by (rewrite ?(word_len _ _ Fq); auto; lia). rewrite firstn_all2 by (rewrite (word_len _ _ Fq); lia). reflexivity. }
    unfold qbind at 1. rewrite R. cbn [combine]. set (cl := filter not_id (combine ps qs)) in *.
    destruct p; [exact (IH s)| | |];
      match goal with |- context [filter not_id ((?p, q) :: combine ps qs)] => change (filter not_id ((p, q) :: combine ps qs)) with ((p, q) :: cl) end;
      rewrite (word_qubit_ok _ _ Fq), for_cons; cbn [snd]; unfold known, qbind at 1, qret at 1; unfold qbind, dev, bbind;
      (destruct (ensure q s) as [u s1|]; [|reflexivity]); specialize (IH s1); unfold qbind, dev in IH; rewrite IH;
      destruct (bfor cl (fun pq => ensure (snd pq)) s1); reflexivity.
Qed.

Lemma map_to_z_ok : forall h a ps b qs, holds_paulis h a ps -> holds_qubits h b qs -> at_heap h (p_map_to_z a b) (dev (map_to_z_basis ps qs)).
Proof.
  intros h a ps b qs (n & al & sz & els & A & P & B & F) (m & bl & ws & A' & F' & B').
  unfold p_map_to_z, map_to_z_basis. apply (at_mem _ _ _ _ _ _ _ (size_ok _ _ _ _ _ _ A P)). apply (at_mem _ _ _ _ _ _ _ (size_ok _ _ _ _ _ _ A' ltac:(lia))).
  rewrite (forall2_len _ _ _ _ _ F), (forall2_len _ _ _ _ _ F'). destruct (Nat.eqb_spec (length ps) (length qs)) as [E|E].
  - destruct (Z.eqb_spec (Z.of_nat (length ps)) (Z.of_nat (length qs))); [|lia]. rewrite Nat2Z.id. intros s.
    unfold qbind at 1. rewrite (combined_ok h a b n al m bl sz els ws A P B A' B' ps qs 0 els ws eq_refl eq_refl E F F' s).
    cbv zeta. set (cl := filter not_id (combine ps qs)). unfold qbind, dev, bbind, qret, bret.
    destruct (bfor cl (fun pq => ensure (snd pq)) s) as [u s1|]; [|reflexivity]. destruct (bfor cl to_z s1); reflexivity.
  - destruct (Z.eqb_spec (Z.of_nat (length ps)) (Z.of_nat (length qs))); [lia|]. apply at_refl.
Qed.
Lemma tuple_ok : forall h t d, holds_tuple h t d -> tuple_read t 0 (length d) h = HOk d h.
Proof.
  intros h t d (n & al & rest & A). apply alive_iff in A. destruct A as [N C]. unfold tuple_read, get_tup.
  unfold hbind at 1 2. rewrite (get_live _ _ _ _ _ C). unfold hret. rewrite app_length. cbn [Nat.add skipn].
  destruct (Nat.leb_spec (length d) (length d + length rest)); [|lia]. rewrite firstn_app, Nat.sub_diag, firstn_all. cbn [firstn]. now rewrite app_nil_r.
Qed.

(** ** Temporary tuples *)
Definition with_tuple (h : heap) (d : list mval) : heap := h ++ [live 1 0 (VTup d)].
Lemma holds_qubits_app : forall h k a qs, holds_qubits h a qs -> holds_qubits (h ++ k) a qs.
Proof. intros h k a qs (n & al & els & [A L] & F). exists n, al, els. split; [split; [apply alive_app, A|exact L]|exact F]. Qed.
Lemma holds_paulis_app : forall h k a ps, holds_paulis h a ps -> holds_paulis (h ++ k) a ps.
Proof. intros h k a ps (n & al & sz & els & [A L] & F). exists n, al, sz, els. split; [split; [apply alive_app, A|exact L]|exact F]. Qed.
Lemma create_ok : forall h k, (k < 100)%nat -> tuple_create (Z.of_nat k) h = HOk (length h) (with_tuple h (repeat zero k)).
Proof.
  intros h k K. unfold tuple_create. rewrite (bind_ok _ _ _ _ h (Z.of_nat k + 8)%Z h).
  - destruct (Z.ltb_spec (Z.of_nat k + 8) 8); [lia|]. destruct (Z.ltb_spec (Z.of_nat k + 8) (2 ^ 63)); [|lia].
    replace (Z.to_nat (Z.of_nat k + 8 - 8)) with k by lia. reflexivity.
  - apply usize_fits. unfold usize_ok. apply andb_true_iff. split; [apply Z.leb_le|apply Z.ltb_lt]; lia.
Qed.
Lemma with_nth : forall h d, nth_error (with_tuple h d) (length h) = Some (live 1 0 (VTup d)).
Proof. intros h d. unfold with_tuple. rewrite nth_error_app2, Nat.sub_diag by lia. reflexivity. Qed.
Lemma put_end : forall (h : heap) c c', list_put (h ++ [c]) (length h) c' = h ++ [c'].
Proof. intros. exact (put_mid _ h c c' []). Qed.
Lemma write_ok : forall h d off bs, off + length bs <= length d ->
  tuple_write (length h) off bs (with_tuple h d) = HOk tt (with_tuple h (splice d off bs)).
Proof.
  intros h d off bs L. unfold tuple_write, get_tup. unfold hbind at 1 2. rewrite (get_live _ _ _ _ _ (with_nth h d)). unfold hret.
  destruct (Nat.leb_spec (off + length bs) (length d)); [|lia]. rewrite (set_live _ _ _ _ _ (with_nth h d)).
  unfold with_tuple. rewrite put_end. reflexivity.
Qed.
Lemma drop_ok : forall h d k, update_counts (length h) (-1) false (with_tuple h d ++ k) = HOk tt (h ++ gone 0 :: k).
Proof.
  intros h d k. unfold update_counts. change (Z.abs_nat (-1)) with 1. change (0 <? -1)%Z with false. cbn [hrepeat count_step].
  assert (N : nth_error (with_tuple h d ++ k) (length h) = Some (live 1 0 (VTup d))).
  { rewrite nth_error_app1; [apply with_nth|]. unfold with_tuple. rewrite app_length. cbn. lia. }
  rewrite (bind_ok _ _ _ _ _ _ _ (dec_strong_last _ _ _ _ _ N eq_refl)). unfold hret, with_tuple.
  rewrite <- app_assoc. cbn [app]. rewrite put_mid. reflexivity.
Qed.
Lemma with_holds : forall h d d', d' = d -> holds_tuple (with_tuple h d) (length h) d'.
Proof. intros h d d' ->. exists 1, 0, []. rewrite app_nil_r. apply alive_iff. split; [lia|apply with_nth]. Qed.

(** What the backend does, with [k] added to the memory. *)
Definition after {X} (k : list cell) (m : B X) : QM X := fun h b =>
  match m b with BOk x b' => QOk x (h ++ k) b' | BErr e o => QBErr e o end.
Lemma after_nil : forall X (m : B X) h, at_heap h (after [] m) (dev m).
Proof. intros X m h b. unfold after, dev. rewrite app_nil_r. reflexivity. Qed.
Lemma skip_skip : forall A a b (l : list A), skipn a (skipn b l) = skipn (b + a) l.
Proof. induction b as [|b IH]; intros [|x l]; cbn [Nat.add skipn]; auto. apply skipn_nil. Qed.
Lemma app8 : forall (w v : list mval), length w = 8 -> firstn 8 (w ++ v) = w /\ skipn 8 (w ++ v) = v.
Proof.
  intros w v L. split; [rewrite firstn_app, L, Nat.sub_diag, firstn_all2 by lia; cbn [firstn]; apply app_nil_r|].
  rewrite skipn_app, L, Nat.sub_diag, skipn_all2 by lia. reflexivity.
Qed.
Lemma ctl_ok : forall h g ctls cs q, holds_qubits h ctls cs -> at_heap h (p_ctl g ctls q) (dev (qis_ctl g cs q)).
Proof.
  intros h g ctls cs q C b. assert (E := ensured_ok h ctls cs C). unfold p_ctl, qis_ctl. unfold at_heap, qbind, dev, bbind, qret in *.
  destruct (ensure q b) as [u b1|]; [|reflexivity]. rewrite E. destruct (bfor cs ensure b1); reflexivity.
Qed.
Lemma rot_ok : forall h g ctls cs t th q wth wq, holds_qubits h ctls cs -> holds_tuple h t (wth ++ wq) -> double_bytes wth th -> qubit_bytes wq q ->
  at_heap h (p_rot_ctl g ctls t) (dev (qis_ctl (g th) cs q)).
Proof.
  intros h g ctls cs t th q wth wq C Tu Dw Qw. unfold p_rot_ctl.
  assert (L : length (wth ++ wq) = 16) by (rewrite app_length, (double_len _ _ Dw), (word_len _ _ Qw); reflexivity).
  assert (R := tuple_ok _ _ _ Tu). rewrite L in R. apply (at_mem _ _ _ _ _ _ _ R).
  destruct (app8 wth wq (double_len _ _ Dw)) as [-> ->]. rewrite (word_double_ok _ _ Dw), (word_qubit_ok _ _ Qw). exact (ctl_ok h (g th) ctls cs q C).
Qed.

Lemma r_ok : forall h ctls cs t p pad th q wth wq, holds_qubits h ctls cs ->
  holds_tuple h t (Raw (pauli_byte p) :: pad ++ wth ++ wq) -> length pad = 7 -> double_bytes wth th -> qubit_bytes wq q ->
  at_heap h (p_r_ctl ctls t) (after [gone 0] (qis_r_ctl cs p th q)).
Proof.
  intros h ctls cs t p pad th q wth wq C Tu Lp Dw Qw. unfold p_r_ctl.
  assert (L1 := double_len _ _ Dw). assert (L2 := word_len _ _ Qw).
  assert (L : length (Raw (pauli_byte p) :: pad ++ wth ++ wq) = 24) by (cbn [length]; rewrite !app_length; lia).
  assert (R := tuple_ok _ _ _ Tu). rewrite L in R. apply (at_mem _ _ _ _ _ _ _ R).
  change (firstn 1 (Raw (pauli_byte p) :: pad ++ wth ++ wq)) with [Raw (pauli_byte p)]. rewrite byte_pauli_ok.
  assert (S8 : skipn 8 (Raw (pauli_byte p) :: pad ++ wth ++ wq) = wth ++ wq).
  { change (skipn 8 (Raw (pauli_byte p) :: pad ++ wth ++ wq)) with (skipn 7 (pad ++ wth ++ wq)). rewrite skipn_app, Lp, Nat.sub_diag, skipn_all2 by lia. reflexivity. }
  assert (S16 : skipn 16 (Raw (pauli_byte p) :: pad ++ wth ++ wq) = wq).
  { change 16 with (8 + 8). rewrite <- skip_skip, S8. apply (app8 _ _ L1). }
  rewrite S8, S16. destruct (app8 wth wq L1) as [F8 _]. rewrite F8, (word_double_ok _ _ Dw), (word_qubit_ok _ _ Qw). cbn [known].
  change 16%Z with (Z.of_nat 16). set (h1 := with_tuple h (wth ++ wq)).
  assert (C1 : holds_qubits h1 ctls cs) by (apply holds_qubits_app, C).
  assert (T1 : holds_tuple h1 (length h) (wth ++ wq)) by (apply with_holds; reflexivity).
  assert (W : forall b, mem (tuple_write (length h) 0 (wth ++ wq)) (with_tuple h (repeat zero 16)) b = QOk tt h1 b).
  { intros b. unfold mem. rewrite write_ok by (rewrite repeat_length, app_length; lia). unfold h1, splice.
    rewrite skipn_all2 by (rewrite repeat_length, app_length; lia). cbn [firstn app]. rewrite app_nil_r. reflexivity. }
  intros b. unfold qbind at 1, qret at 1. unfold qbind at 1, mem at 1. rewrite create_ok by lia.
  unfold qbind at 1. rewrite W.
  assert (Main : forall m, at_heap h1 m (dev (qis_r_ctl cs p th q)) ->
    (m ;;; mem (update_counts (length h) (-1) false)) h1 b = after [gone 0] (qis_r_ctl cs p th q) h b).
  { intros m Em. unfold qbind. rewrite Em. unfold dev, after. destruct (qis_r_ctl cs p th q b) as [[] b'|]; [|reflexivity].
    unfold mem, h1. rewrite <- (app_nil_r (with_tuple h (wth ++ wq))), drop_ok. reflexivity. }
  apply Main. destruct p.
  - destruct C1 as (n & al & els & A & F & B). intros s. rewrite (qmem _ _ _ _ _ _ _ _ (size_ok _ _ _ _ _ _ A ltac:(lia))).
    rewrite (forall2_len _ _ _ _ _ F). destruct cs as [|c cs]; [reflexivity|]. cbn [length].
    destruct (Z.ltb_spec 0 (Z.of_nat (S (length cs)))); [|lia].
    assert (E := ensured_ok h1 ctls (c :: cs) (ex_intro _ n (ex_intro _ al (ex_intro _ els (conj A (conj F B)))))).
    unfold qis_r_ctl. unfold at_heap, qbind, dev, bbind, qret in *. destruct (ensure q s) as [u s1|]; [|reflexivity].
    rewrite E. destruct (bfor (c :: cs) ensure s1); reflexivity.
  - exact (rot_ok h1 GRx ctls cs _ th q wth wq C1 T1 Dw Qw).
  - exact (rot_ok h1 GRz ctls cs _ th q wth wq C1 T1 Dw Qw).
  - exact (rot_ok h1 GRy ctls cs _ th q wth wq C1 T1 Dw Qw).
Qed.

(** A function that makes a temporary tuple holding [d] and gives it back. *)
Lemma temp_after : forall h d ks (m : QM unit) (c : B unit) b, at_heap (with_tuple h d) m (after ks c) ->
  (m ;;; mem (update_counts (length h) (-1) false)) (with_tuple h d) b = after (gone 0 :: ks) c h b.
Proof.
  intros h d ks m c b Em. unfold qbind. rewrite Em. unfold after. destruct (c b) as [[] b'|]; [|reflexivity].
  unfold mem. rewrite drop_ok. reflexivity.
Qed.
Lemma neg_len : forall w, length w = 8 -> length (neg_word w) = 8.
Proof. intros w L. unfold neg_word. rewrite app_length, firstn_length, map_length, skipn_length. lia. Qed.
Lemma radj_ok : forall h ctls cs t p pad th q wth wq, holds_qubits h ctls cs ->
  holds_tuple h t (Raw (pauli_byte p) :: pad ++ wth ++ wq) -> length pad = 7 -> double_bytes wth th -> qubit_bytes wq q ->
  at_heap h (p_r_ctladj ctls t) (after [gone 0; gone 0] (qis_r_ctladj cs p th q)).
Proof.
  intros h ctls cs t p pad th q wth wq C Tu Lp Dw Qw. unfold p_r_ctladj.
  assert (L1 := double_len _ _ Dw). assert (L2 := word_len _ _ Qw).
  assert (L : length (Raw (pauli_byte p) :: pad ++ wth ++ wq) = 24) by (cbn [length]; rewrite !app_length; lia).
  assert (R := tuple_ok _ _ _ Tu). rewrite L in R. apply (at_mem _ _ _ _ _ _ _ R).
  change (firstn 1 (Raw (pauli_byte p) :: pad ++ wth ++ wq)) with [Raw (pauli_byte p)]. rewrite byte_pauli_ok.
  assert (S8 : skipn 8 (Raw (pauli_byte p) :: pad ++ wth ++ wq) = wth ++ wq).
  { change (skipn 8 (Raw (pauli_byte p) :: pad ++ wth ++ wq)) with (skipn 7 (pad ++ wth ++ wq)). rewrite skipn_app, Lp, Nat.sub_diag, skipn_all2 by lia. reflexivity. }
  assert (S16 : skipn 16 (Raw (pauli_byte p) :: pad ++ wth ++ wq) = wq).
  { change 16 with (8 + 8). rewrite <- skip_skip, S8. apply (app8 _ _ L1). }
  rewrite S8, S16. destruct (app8 wth wq L1) as [F8 _]. rewrite F8. cbn [known].
  change 24%Z with (Z.of_nat 24). set (d := Raw (pauli_byte p) :: repeat zero 7 ++ neg_word wth ++ wq).
  assert (Ln := neg_len _ L1).
  intros b. unfold qbind at 1, qret at 1. unfold qbind at 1, mem at 1. rewrite create_ok by lia.
  unfold qbind at 1, mem at 1. rewrite write_ok by (rewrite repeat_length; cbn; lia).
  unfold qbind at 1, mem at 1. rewrite write_ok by (rewrite app_length, Ln, L2; cbn; lia).
  replace (splice (splice (repeat zero 24) 0 [Raw (pauli_byte p)]) 8 (neg_word wth ++ wq)) with d.
  2:{ unfold splice. rewrite app_length, Ln, L2. cbn [repeat firstn skipn app Nat.add length]. rewrite app_nil_r. reflexivity. }
  apply temp_after. apply (r_ok _ ctls cs _ p (repeat zero 7) (- th) q (neg_word wth) wq); auto using neg_word_ok.
  - apply holds_qubits_app, C.
  - apply with_holds. reflexivity.
Qed.

Lemma exp_ok : forall h a ps th b qs, holds_paulis h a ps -> holds_qubits h b qs -> at_heap h (p_exp a th b) (dev (qis_exp ps th qs)).
Proof.
  intros h a ps th b qs P Q s. assert (E := ensured_ok h b qs Q). assert (F := paulis_ok h a ps P).
  unfold p_exp, qis_exp. unfold at_heap, qbind, dev, bbind, qret in *. rewrite F, E. destruct (bfor qs ensure s); reflexivity.
Qed.
Lemma word_object_ok : forall a, word_object (ptr_bytes (PObj a)) = Some a.
Proof. intros a. unfold word_object. now rewrite ptr_of_bytes. Qed.
Lemma expctl_ok : forall h ctls cs t a ps wth th b qs, holds_qubits h ctls cs ->
  holds_tuple h t (ptr_bytes (PObj a) ++ wth ++ ptr_bytes (PObj b)) -> double_bytes wth th ->
  holds_paulis h a ps -> holds_qubits h b qs -> at_heap h (p_exp_ctl ctls t) (dev (qis_exp_ctl cs ps th qs)).
Proof.
  intros h ctls cs t a ps wth th b qs C Tu Dw P Q. unfold p_exp_ctl. assert (L1 := double_len _ _ Dw).
  assert (L : length (ptr_bytes (PObj a) ++ wth ++ ptr_bytes (PObj b)) = 24) by (rewrite !app_length, !ptr_bytes_len; lia).
  assert (R := tuple_ok _ _ _ Tu). rewrite L in R. apply (at_mem _ _ _ _ _ _ _ R).
  destruct (app8 (ptr_bytes (PObj a)) (wth ++ ptr_bytes (PObj b)) (ptr_bytes_len _)) as [F8 S8].
  destruct (app8 wth (ptr_bytes (PObj b)) L1) as [G8 T8].
  assert (S16 : skipn 16 (ptr_bytes (PObj a) ++ wth ++ ptr_bytes (PObj b)) = ptr_bytes (PObj b)).
  { change 16 with (8 + 8). rewrite <- skip_skip, S8. exact T8. }
  rewrite F8, S8, S16, G8, !word_object_ok, (word_double_ok _ _ Dw).
  assert (E := ensured_ok h ctls cs C). assert (E' := ensured_ok h b qs Q). assert (F := paulis_ok h a ps P).
  intros s. unfold qis_exp_ctl. unfold known. unfold at_heap, qbind, dev, bbind, qret in *. rewrite E. destruct (bfor cs ensure s) as [u s1|]; [|reflexivity].
  rewrite F, E'. destruct (bfor qs ensure s1); reflexivity.
Qed.
Lemma expctladj_ok : forall h ctls cs t a ps wth th b qs, holds_qubits h ctls cs ->
  holds_tuple h t (ptr_bytes (PObj a) ++ wth ++ ptr_bytes (PObj b)) -> double_bytes wth th ->
  holds_paulis h a ps -> holds_qubits h b qs -> at_heap h (p_exp_ctladj ctls t) (after [gone 0] (qis_exp_ctladj cs ps th qs)).
Proof.
  intros h ctls cs t a ps wth th b qs C Tu Dw P Q. unfold p_exp_ctladj. assert (L1 := double_len _ _ Dw).
  assert (L : length (ptr_bytes (PObj a) ++ wth ++ ptr_bytes (PObj b)) = 24) by (rewrite !app_length, !ptr_bytes_len; lia).
  assert (R := tuple_ok _ _ _ Tu). rewrite L in R. apply (at_mem _ _ _ _ _ _ _ R).
  destruct (app8 (ptr_bytes (PObj a)) (wth ++ ptr_bytes (PObj b)) (ptr_bytes_len _)) as [F8 S8].
  destruct (app8 wth (ptr_bytes (PObj b)) L1) as [G8 T8].
  assert (S16 : skipn 16 (ptr_bytes (PObj a) ++ wth ++ ptr_bytes (PObj b)) = ptr_bytes (PObj b)).
  { change 16 with (8 + 8). rewrite <- skip_skip, S8. exact T8. }
  rewrite F8, S8, S16, G8. change 24%Z with (Z.of_nat 24). set (d := ptr_bytes (PObj a) ++ neg_word wth ++ ptr_bytes (PObj b)).
  assert (Ln := neg_len _ L1). assert (Ld : length d = 24) by (unfold d; rewrite !app_length, !ptr_bytes_len; lia).
  intros s. unfold qbind at 1, mem at 1. rewrite create_ok by lia.
  unfold qbind at 1, mem at 1. rewrite write_ok by (rewrite Ld; cbn; lia).
  replace (splice (repeat zero 24) 0 d) with d by (unfold splice; rewrite Ld; cbn [firstn app Nat.add repeat skipn]; now rewrite app_nil_r).
  apply temp_after. apply (at_trans _ _ _ (dev (qis_exp_ctl cs ps (- th) qs))); [|intros s'; symmetry; apply after_nil].
  apply (expctl_ok _ ctls cs _ a ps (neg_word wth) (- th) b qs); auto using neg_word_ok.
  - apply holds_qubits_app, C.
  - apply with_holds. reflexivity.
  - apply holds_paulis_app, P.
  - apply holds_qubits_app, Q.
Qed.
Lemma measure_ok : forall h a ps b qs, holds_paulis h a ps -> holds_qubits h b qs -> at_heap h (p_measure a b) (dev (qis_measure ps qs)).
Proof.
  intros h a ps b qs P Q s. assert (E := map_to_z_ok h a ps b qs P Q). unfold p_measure, qis_measure.
  unfold at_heap, qbind, dev, bbind, qret, bret in *. rewrite E. destruct (map_to_z_basis ps qs s) as [cl s1|]; [|reflexivity].
  destruct (simbit (CJointMeasure (map snd cl)) s1) as [r s2|]; [|reflexivity]. destruct (bfor cl from_z s2); reflexivity.
Qed.
Lemma assert_ok : forall h a ps b qs r prob s msg m tl, holds_paulis h a ps -> holds_qubits h b qs -> str_is h msg s -> is_text s m ->
  at_heap h (p_assert a b r prob msg tl) (dev (qis_assert ps qs r prob m tl)).
Proof.
  intros h a ps b qs r prob s msg m tl P Q Sm Tm w. assert (E := map_to_z_ok h a ps b qs P Q). unfold p_assert, qis_assert.
  assert (F : at_heap h (p_fail msg) (dev (Backend.rt_fail m))).
  { intros w'. unfold p_fail, qbind, mem. rewrite (get_str_live h msg s Sm). apply to_str_thm in Tm. rewrite Tm. reflexivity. }
  unfold at_heap, qbind, dev, bbind, qret, bret in *. rewrite E. destruct (map_to_z_basis ps qs w) as [cl w1|]; [|reflexivity].
  destruct (simcall (CJointProb (map snd cl)) w1) as [p w2|]; [|reflexivity].
  destruct (Rltb tl _); [rewrite F; destruct (Backend.rt_fail m w2) as [u w3|]; [|reflexivity]|];
    match goal with |- context [bfor cl from_z ?v] => destruct (bfor cl from_z v); reflexivity end.
Qed.

(** How many temporary tuples a call makes. *)
Definition temps (c : pcall) : list cell :=
  match c with PRCtl _ _ | PExpCtlAdj _ _ => [gone 0] | PRCtlAdj _ _ => [gone 0; gone 0] | _ => [] end.
Lemma dev_after : forall X h (m : QM X) (c : B X), at_heap h m (dev c) -> at_heap h m (after [] c).
Proof. intros X h m c E b. rewrite E. symmetry. apply after_nil. Qed.
Lemma unit_after : forall h ks (m : QM unit) (c : B unit), at_heap h m (after ks c) -> at_heap h (q_unit m) (after ks (vunit c)).
Proof.
  intros h ks m c E b. unfold q_unit, vunit, qbind. rewrite E. unfold after, bbind, qret, bret. destruct (c b); reflexivity.
Qed.
Lemma args_thm : forall h c c', denotes h c c' -> at_heap h (pcall1 c) (after (temps c) (bcall1 c')).
Proof.
  intros h c c' Dn. destruct Dn; cbn [pcall1 bcall1 temps]; try apply unit_after.
  - apply dev_after. eapply ctl_ok; eassumption.
  - apply dev_after. eapply rot_ok; eassumption.
  - apply dev_after. eapply rot_ok; eassumption.
  - apply dev_after. eapply rot_ok; eassumption.
  - eapply r_ok; eassumption.
  - eapply radj_ok; eassumption.
  - apply dev_after. eapply exp_ok; eassumption.
  - apply dev_after. apply exp_ok; assumption.
  - apply dev_after. eapply expctl_ok; eassumption.
  - eapply expctladj_ok; eassumption.
  - intros s. unfold qbind. rewrite (measure_ok h a ps b qs H H0 s). unfold dev, after, bbind, qret, bret.
    destruct (qis_measure ps qs s); [|reflexivity]. rewrite app_nil_r. reflexivity.
  - apply dev_after. eapply assert_ok; eassumption.
  - apply dev_after. unfold p_assert_ctl.
    match goal with H : qubit_bytes wr r |- _ => assert (Lr := word_len _ _ H); apply word_qubit_ok in H; rename H into Er end.
    assert (Lp := double_len _ _ H3). assert (Lt := double_len _ _ H4). assert (Dp := word_double_ok _ _ H3). assert (Dt := word_double_ok _ _ H4).
    set (d := ptr_bytes (PObj a) ++ ptr_bytes (PObj b) ++ wr ++ wprob ++ ptr_bytes (PObj msg) ++ wtl) in *.
    assert (L : length d = 48) by (unfold d; rewrite !app_length, !ptr_bytes_len; lia).
    assert (R := tuple_ok _ _ _ H). rewrite L in R. apply (at_mem _ _ _ _ _ _ _ R).
    destruct (app8 _ (ptr_bytes (PObj b) ++ wr ++ wprob ++ ptr_bytes (PObj msg) ++ wtl) (ptr_bytes_len (PObj a))) as [F0 S8]. fold d in F0, S8.
    destruct (app8 _ (wr ++ wprob ++ ptr_bytes (PObj msg) ++ wtl) (ptr_bytes_len (PObj b))) as [F8 S16].
    destruct (app8 wr (wprob ++ ptr_bytes (PObj msg) ++ wtl) Lr) as [F16 S24].
    destruct (app8 wprob (ptr_bytes (PObj msg) ++ wtl) Lp) as [F24 S32].
    destruct (app8 _ wtl (ptr_bytes_len (PObj msg))) as [F32 S40].
    assert (E16 : skipn 16 d = wr ++ wprob ++ ptr_bytes (PObj msg) ++ wtl) by (change 16 with (8 + 8); rewrite <- skip_skip, S8; exact S16).
    assert (E24 : skipn 24 d = wprob ++ ptr_bytes (PObj msg) ++ wtl) by (change 24 with (16 + 8); rewrite <- skip_skip, E16; exact S24).
    assert (E32 : skipn 32 d = ptr_bytes (PObj msg) ++ wtl) by (change 32 with (24 + 8); rewrite <- skip_skip, E24; exact S32).
    assert (E40 : skipn 40 d = wtl) by (change 40 with (32 + 8); rewrite <- skip_skip, E32; exact S40).
    rewrite F0, S8, F8, E16, F16, E24, F24, E32, F32, E40, !word_object_ok, Er, Dp, Dt. clearbody d.
    eapply assert_ok; eassumption.
Qed.
Lemma after_undisturbed : forall h c, undisturbed h (h ++ temps c).
Proof.
  intros h c. split.
  - intros a L. rewrite nth_error_app1 by exact L. reflexivity.
  - intros a L1 L2. rewrite app_length in L2. assert (G : Forall (fun x => x = gone 0) (temps c)) by (destruct c; repeat constructor).
    destruct (nth_error (temps c) (a - length h)) as [x|] eqn:E; [|apply nth_error_None in E; lia].
    rewrite Forall_forall in G. rewrite (G x (nth_error_In _ _ E)) in E.
    split; exists (gone 0); (split; [rewrite nth_error_app2 by exact L1; exact E|]); [split|]; reflexivity.
Qed.

Lemma allocate_len : forall n b qs b', rt_allocate_array n b = BOk qs b' -> length qs = n.
Proof.
  induction n as [|n IH]; intros b qs b' E; cbn [rt_allocate_array] in E; [now injection E as <- _|].
  unfold bbind in E. destruct (rt_qubit_allocate b) as [q b1|]; [|discriminate]. destruct (rt_allocate_array n b1) as [l b2|] eqn:E2; [|discriminate].
  injection E as <- _. cbn. f_equal. exact (IH _ _ _ E2).
Qed.
Lemma allocated_thm : forall n h b qs b', (8 * Z.of_nat n < 2 ^ 63)%Z -> bcall1 (QAllocArray n) b = BOk (VQubits qs) b' ->
  exists a h', qubit_allocate_array n h b = QOk a h' b' /\ holds_qubits h' a qs /\ nth_error h a = None /\
    forall x, x < length h -> nth_error h' x = nth_error h x.
Proof.
  intros n h b qs b' B E0. cbn [bcall1] in E0. unfold bbind in E0. destruct (rt_allocate_array n b) as [l b1|] eqn:E; [|discriminate].
  injection E0 as -> ->. assert (L := allocate_len _ _ _ _ E).
  destruct (allocate_thm n h b qs b' B E) as (a & h' & E' & N & A & O). exists a, h'. split; [exact E'|].
  split; [|split; assumption]. exists 1, 0, (map qword qs). split; [exact A|]. rewrite map_length, L. split; [|exact B].
  clear. induction qs; constructor; [now left|assumption].
Qed.
Lemma sizes_thm : forall h a ps b qs s, holds_paulis h a ps -> holds_qubits h b qs -> length ps <> length qs ->
  pcall1 (PMeasure a b) h s = QBErr (EFail (codes "Pauli array and Qubit array must be the same size."))
    (bout s ++ render (RecMessage (codes "Pauli array and Qubit array must be the same size."))).
Proof.
  intros h a ps b qs s P Q N. rewrite (args_thm h _ _ (D_measure h a ps b qs P Q) s). unfold after. cbn [bcall1].
  unfold qis_measure, map_to_z_basis, bbind. apply Nat.eqb_neq in N. rewrite N. reflexivity.
Qed.
Lemma args_main : forall h c c', denotes h c c' -> forall b,
  match bcall1 c' b with
  | BOk r b' => exists h', pcall1 c h b = QOk r h' b' /\ undisturbed h h'
  | BErr e out => pcall1 c h b = QBErr e out
  end.
Proof.
  intros h c c' Dn b. assert (E := args_thm h c c' Dn b). unfold after in E. destruct (bcall1 c' b) as [r b'|e o]; [|exact E].
  exists (h ++ temps c). split; [exact E|apply after_undisturbed].
Qed.
End Thms.

(** ** A call on pointers means at most one call on values *)
Lemma alive_fun : forall h a n al v n' al' v', alive h a n al v -> alive h a n' al' v' -> v = v'.
Proof. intros h a n al v n' al' v' (_ & c & E & _ & _ & _ & V & _) (_ & c' & E' & _ & _ & _ & V' & _). congruence. Qed.
Lemma concat_fun : forall (l l' : list (list mval)) sz, (0 < sz)%Z -> Forall (fun x => Z.of_nat (length x) = sz) l ->
  Forall (fun x => Z.of_nat (length x) = sz) l' -> concat l = concat l' -> l = l'.
Proof.
  induction l as [|x l IH]; intros [|y l'] sz P F F' E; cbn [concat] in E.
  - reflexivity.
  - apply Forall_inv in F'. apply (f_equal (@length _)) in E. rewrite app_length in E. cbn in E. lia.
  - apply Forall_inv in F. apply (f_equal (@length _)) in E. rewrite app_length in E. cbn in E. lia.
  - assert (X := Forall_inv F). assert (Y := Forall_inv F'). cbv beta in X, Y.
    assert (E1 := f_equal (firstn (length x)) E). assert (E2 := f_equal (skipn (length x)) E).
    rewrite firstn_app, Nat.sub_diag, firstn_all, app_nil_r in E1. rewrite skipn_app, Nat.sub_diag, skipn_all in E2. cbn [skipn app] in E2.
    assert (Lxy : length x = length y) by lia. rewrite Lxy in E1, E2.
    rewrite firstn_app, Nat.sub_diag, firstn_all, app_nil_r in E1. rewrite skipn_app, Nat.sub_diag, skipn_all in E2. cbn [skipn app firstn] in E1, E2.
    rewrite E1. f_equal. apply (IH l' sz P (Forall_inv_tail F) (Forall_inv_tail F')). rewrite E2. reflexivity.
Qed.
Lemma array_fun : forall h a n al sz els n' al' sz' els', array_is h a n al sz els -> array_is h a n' al' sz' els' -> (0 < sz)%Z -> els = els'.
Proof.
  intros h a n al sz els n' al' sz' els' [A F] [A' F'] P. assert (E := alive_fun _ _ _ _ _ _ _ _ A A'). injection E as <- E.
  exact (concat_fun _ _ _ P F F' E).
Qed.
Lemma forall2_fun : forall X Y (P : X -> Y -> Prop) l m m', (forall x y y', P x y -> P x y' -> y = y') -> Forall2 P l m -> Forall2 P l m' -> m = m'.
Proof.
  intros X Y P l m m' H F. revert m'. induction F as [|x y l m Pxy F IH]; intros m' F'; inversion F'; subst; [reflexivity|].
  f_equal; [eapply H; eassumption|apply IH; assumption].
Qed.
Lemma qubit_fun : forall w q q', qubit_bytes w q -> qubit_bytes w q' -> q = q'.
Proof. intros w q q' H H'. apply word_qubit_ok in H, H'. congruence. Qed.
Lemma double_fun : forall w x x', double_bytes w x -> double_bytes w x' -> x = x'.
Proof. intros w x x' H H'. apply word_double_ok in H, H'. congruence. Qed.
Lemma qubits_fun : forall h a qs qs', holds_qubits h a qs -> holds_qubits h a qs' -> qs = qs'.
Proof.
  intros h a qs qs' (n & al & els & A & F & _) (n' & al' & els' & A' & F' & _).
  assert (E := array_fun _ _ _ _ _ _ _ _ _ _ A A' ltac:(lia)). subst els'. exact (forall2_fun _ _ _ _ _ _ qubit_fun F F').
Qed.
Lemma paulis_fun : forall h a ps ps', holds_paulis h a ps -> holds_paulis h a ps' -> ps = ps'.
Proof.
  intros h a ps ps' (n & al & sz & els & A & P & _ & F) (n' & al' & sz' & els' & A' & _ & _ & F').
  assert (E := array_fun _ _ _ _ _ _ _ _ _ _ A A' P). subst els'. refine (forall2_fun _ _ _ _ _ _ _ F F').
  intros x y y' [r ->] [r' E]. injection E as E _. destruct y, y'; try reflexivity; discriminate.
Qed.
Lemma tuple_fun : forall h t d d', holds_tuple h t d -> holds_tuple h t d' -> length d = length d' -> d = d'.
Proof.
  intros h t d d' (n & al & r & A) (n' & al' & r' & A') L. assert (E := alive_fun _ _ _ _ _ _ _ _ A A'). injection E as E.
  assert (E1 := f_equal (firstn (length d)) E). rewrite L in E1 at 2. rewrite !firstn_app, !Nat.sub_diag, !firstn_all in E1.
  cbn [firstn] in E1. now rewrite !app_nil_r in E1.
Qed.
Lemma app_fun : forall (a a' b b' : list mval), length a = length a' -> a ++ b = a' ++ b' -> a = a' /\ b = b'.
Proof.
  induction a as [|x a IH]; intros [|y a'] b b' L E; try discriminate; [split; [reflexivity|exact E]|].
  cbn in L, E. injection E as -> E. destruct (IH a' b b' ltac:(lia) E) as [-> ->]. split; reflexivity.
Qed.
Lemma str_fun : forall h a s s', str_is h a s -> str_is h a s' -> s = s'.
Proof. intros h a s s' (n & al & A) (n' & al' & A'). assert (E := alive_fun _ _ _ _ _ _ _ _ A A'). now injection E. Qed.
Lemma text_fun : forall s m m', is_text s m -> is_text s m' -> m = m'.
Proof. intros s m m' H H'. apply to_str_thm in H, H'. congruence. Qed.
Lemma ptr_fun : forall a a', ptr_bytes (PObj a) = ptr_bytes (PObj a') -> a = a'.
Proof. intros a a' E. apply (f_equal word_object) in E. rewrite !word_object_ok in E. now injection E. Qed.
Lemma byte_fun : forall p p', pauli_byte p = pauli_byte p' -> p = p'.
Proof. intros p p' E. destruct p, p'; try reflexivity; discriminate. Qed.

Ltac same_bytes :=
  repeat match goal with
  | H : holds_tuple ?h ?t ?d, H' : holds_tuple ?h ?t ?d' |- _ =>
      let E := fresh "E" in assert (E := tuple_fun _ _ _ _ H H'); clear H';
      let L := fresh "L" in assert (L : length d = length d') by
        (cbn [length]; rewrite ?app_length, ?ptr_bytes_len;
         repeat match goal with K : double_bytes ?w _ |- _ => apply double_len in K; rewrite K end;
         repeat match goal with K : qubit_bytes ?w _ |- _ => apply word_len in K; rewrite K end; cbn [length]; lia);
      specialize (E L); clear L
  | E : _ :: _ = _ :: _ |- _ => injection E as ? E
  | E : ?a ++ ?b = ?a' ++ ?b' |- _ =>
      apply app_fun in E; [destruct E as [? E]|
        rewrite ?ptr_bytes_len;
        repeat match goal with K : double_bytes ?w _ |- _ => apply double_len in K; rewrite K end;
        repeat match goal with K : qubit_bytes ?w _ |- _ => apply word_len in K; rewrite K end; lia]
  end.
Ltac same_values :=
  repeat match goal with
  | E : ptr_bytes (PObj _) = ptr_bytes (PObj _) |- _ => apply ptr_fun in E
  | E : pauli_byte _ = pauli_byte _ |- _ => apply byte_fun in E
  end; subst;
  repeat match goal with
  | H : holds_qubits ?h ?a ?x, H' : holds_qubits ?h ?a ?y |- _ => assert (x = y) by exact (qubits_fun _ _ _ _ H H'); clear H'; subst
  | H : holds_paulis ?h ?a ?x, H' : holds_paulis ?h ?a ?y |- _ => assert (x = y) by exact (paulis_fun _ _ _ _ H H'); clear H'; subst
  | H : str_is ?h ?a ?x, H' : str_is ?h ?a ?y |- _ => assert (x = y) by exact (str_fun _ _ _ _ H H'); clear H'; subst
  | H : is_text ?a ?x, H' : is_text ?a ?y |- _ => assert (x = y) by exact (text_fun _ _ _ H H'); clear H'; subst
  | H : qubit_bytes ?a ?x, H' : qubit_bytes ?a ?y |- _ => assert (x = y) by exact (qubit_fun _ _ _ H H'); clear H'; subst
  | H : double_bytes ?a ?x, H' : double_bytes ?a ?y |- _ => assert (x = y) by exact (double_fun _ _ _ H H'); clear H'; subst
  end.
Lemma denotes_fun : forall (D : Doubles) h c x y, denotes h c x -> denotes h c y -> x = y.
Proof. intros D h c x y H H'. destruct H; inversion H'; subst; clear H'; same_bytes; same_values; reflexivity. Qed.
