(** * Theorems on programs that use memory *)
From Coq Require Import String Ascii Reals NArith ZArith List Bool Arith Lia.
From Coq.Strings Require Import Byte.
From Verif Require Import Cx Arith ArithR Sim SimExp SimRun SpecRun Text Backend Heap SpecHeap HeapLemmas HeapThms HeapCalls
  SpecString Utf8 StringThms QubitArray QubitArrayThms Args SpecArgs ArgsThms Runner SpecRunner RunnerThms Mixed SpecMixed.
From Verif Require Strings.
Import ListNotations.

(** ** Reading a call from memory *)
Fixpoint all_some {X} (l : list (option X)) : option (list X) :=
  match l with
  | [] => Some []
  | Some x :: l' => match all_some l' with Some xs => Some (x :: xs) | None => None end
  | None :: _ => None
  end.
Fixpoint chunks (n k : nat) (d : list mval) : list (list mval) :=
  match n with O => [] | S n' => firstn k d :: chunks n' k (skipn k d) end.
Definition val_at (h : heap) (a : nat) : option hval := match nth_error h a with Some c => val c | None => None end.
Definition elements_at (h : heap) (a : nat) : list (list mval) :=
  match val_at h a with Some (VArr sz d) => chunks (length d / Z.to_nat sz) (Z.to_nat sz) d | _ => [] end.
Definition qubits_at (h : heap) (a : nat) : option (list nat) := all_some (map word_qubit (elements_at h a)).
Definition paulis_at (h : heap) (a : nat) : option (list pauli) := all_some (map (fun e => byte_pauli (firstn 1 e)) (elements_at h a)).
Definition tuple_at (h : heap) (t : nat) : list mval := match val_at h t with Some (VTup d) => d | _ => [] end.
Definition text_at (h : heap) (a : nat) : option (list N) := match val_at h a with Some (VStr s) => Strings.to_str s | _ => None end.

Lemma all_some_ok : forall X Y (f : X -> option Y) (P : X -> Y -> Prop) l m, (forall x y, P x y -> f x = Some y) -> Forall2 P l m ->
  all_some (map f l) = Some m.
Proof. intros X Y f P l m H F. induction F as [|x y l m Pxy F IH]; [reflexivity|]. cbn. now rewrite (H _ _ Pxy), IH. Qed.
Lemma chunks_ok : forall (els : list (list mval)) k rest, Forall (fun x => length x = k) els -> chunks (length els) k (concat els ++ rest) = els.
Proof.
  induction els as [|x els IH]; intros k rest F; [reflexivity|]. cbn [length chunks concat]. assert (L := Forall_inv F). cbv beta in L.
  rewrite <- app_assoc. rewrite firstn_app, skipn_app, L, Nat.sub_diag, firstn_all2, skipn_all2 by lia. cbn [firstn skipn app].
  rewrite app_nil_r, (IH k rest (Forall_inv_tail F)). reflexivity.
Qed.
Lemma val_alive : forall h a n al v, alive h a n al v -> val_at h a = Some v.
Proof. intros h a n al v (_ & c & E & _ & _ & _ & V & _). unfold val_at. now rewrite E. Qed.
Lemma elements_ok : forall h a n al sz els, array_is h a n al sz els -> (0 < sz)%Z -> elements_at h a = els.
Proof.
  intros h a n al sz els [A F] P. unfold elements_at. rewrite (val_alive _ _ _ _ _ A).
  assert (F' : Forall (fun x => length x = Z.to_nat sz) els) by (revert F; apply Forall_impl; intros x Hx; cbv beta in Hx; lia).
  assert (L : length (concat els) = Z.to_nat sz * length els).
  { clear - F'. induction F' as [|x l E F IH]; [cbn; lia|]. cbn [concat length]. rewrite app_length. lia. }
  rewrite L, Nat.mul_comm, Nat.div_mul by lia. rewrite <- (app_nil_r (concat els)). apply chunks_ok, F'.
Qed.
Lemma qubits_at_ok : forall h a qs, holds_qubits h a qs -> qubits_at h a = Some qs.
Proof.
  intros h a qs (n & al & els & A & F & _). unfold qubits_at. rewrite (elements_ok _ _ _ _ _ _ A ltac:(lia)).
  exact (all_some_ok _ _ _ _ _ _ word_qubit_ok F).
Qed.
Lemma paulis_at_ok : forall h a ps, holds_paulis h a ps -> paulis_at h a = Some ps.
Proof.
  intros h a ps (n & al & sz & els & A & P & _ & F). unfold paulis_at. rewrite (elements_ok _ _ _ _ _ _ A P).
  refine (all_some_ok _ _ _ _ _ _ _ F). intros e p [r ->]. apply byte_pauli_ok.
Qed.
Lemma tuple_at_ok : forall h t d k, holds_tuple h t d -> length d = k -> firstn k (tuple_at h t) = d.
Proof.
  intros h t d k (n & al & r & A) <-. unfold tuple_at. rewrite (val_alive _ _ _ _ _ A), firstn_app, Nat.sub_diag, firstn_all, firstn_O.
  apply app_nil_r.
Qed.
Lemma text_at_ok : forall h a s, str_is h a s -> text_at h a = Strings.to_str s.
Proof. intros h a s (n & al & A). unfold text_at. now rewrite (val_alive _ _ _ _ _ A). Qed.

Definition get {X Y} (o : option X) (f : X -> option Y) : option Y := match o with Some x => f x | None => None end.
Section Meant.
Context {D : Doubles}.
Definition field (k : nat) (d : list mval) : list mval := firstn 8 (skipn (8 * k) d).
Definition meant (h : heap) (c : pcall) : option bcall :=
  match c with
  | PCtl g ctls q => get (qubits_at h ctls) (fun cs => Some (QCtl g cs q))
  | PRotCtl axis ctls t => let d := tuple_at h t in
      get (qubits_at h ctls) (fun cs => get (word_double (field 0 d)) (fun th => get (word_qubit (field 1 d)) (fun q =>
        match axis with PX_ => Some (QCtl (GRx th) cs q) | PY_ => Some (QCtl (GRy th) cs q) | PZ_ => Some (QCtl (GRz th) cs q) | PI_ => None end)))
  | PRCtl ctls t => let d := tuple_at h t in
      get (qubits_at h ctls) (fun cs => get (byte_pauli (firstn 1 d)) (fun p => get (word_double (field 1 d)) (fun th =>
        get (word_qubit (field 2 d)) (fun q => Some (QRCtl cs p th q)))))
  | PRCtlAdj ctls t => let d := tuple_at h t in
      get (qubits_at h ctls) (fun cs => get (byte_pauli (firstn 1 d)) (fun p => get (word_double (field 1 d)) (fun th =>
        get (word_qubit (field 2 d)) (fun q => Some (QRCtlAdj cs p th q)))))
  | PExp a th b => get (paulis_at h a) (fun ps => get (qubits_at h b) (fun qs => Some (QExp ps th qs)))
  | PExpAdj a th b => get (paulis_at h a) (fun ps => get (qubits_at h b) (fun qs => Some (QExpAdj ps th qs)))
  | PExpCtl ctls t => let d := tuple_at h t in
      get (qubits_at h ctls) (fun cs => get (word_object (field 0 d)) (fun a => get (paulis_at h a) (fun ps =>
        get (word_double (field 1 d)) (fun th => get (word_object (field 2 d)) (fun b => get (qubits_at h b) (fun qs => Some (QExpCtl cs ps th qs)))))))
  | PExpCtlAdj ctls t => let d := tuple_at h t in
      get (qubits_at h ctls) (fun cs => get (word_object (field 0 d)) (fun a => get (paulis_at h a) (fun ps =>
        get (word_double (field 1 d)) (fun th => get (word_object (field 2 d)) (fun b => get (qubits_at h b) (fun qs => Some (QExpCtlAdj cs ps th qs)))))))
  | PMeasure a b => get (paulis_at h a) (fun ps => get (qubits_at h b) (fun qs => Some (QMeasure ps qs)))
  | PAssert a b r prob msg tl => get (paulis_at h a) (fun ps => get (qubits_at h b) (fun qs => get (text_at h msg) (fun m => Some (QAssert ps qs r prob m tl))))
  | PAssertCtl _ t => let d := tuple_at h t in
      get (word_object (field 0 d)) (fun a => get (paulis_at h a) (fun ps => get (word_object (field 1 d)) (fun b => get (qubits_at h b) (fun qs =>
        get (word_qubit (field 2 d)) (fun r => get (word_double (field 3 d)) (fun prob => get (word_object (field 4 d)) (fun msg =>
          get (text_at h msg) (fun m => get (word_double (field 5 d)) (fun tl => Some (QAssert ps qs r prob m tl))))))))))
  end.
Lemma field_0 : forall w d, length w = 8 -> field 0 (w ++ d) = w.
Proof. intros w d L. unfold field. rewrite Nat.mul_0_r. change (skipn 0 (w ++ d)) with (w ++ d). rewrite firstn_app, L, Nat.sub_diag, firstn_O, app_nil_r, firstn_all2; [reflexivity|lia]. Qed.
Lemma field_S : forall k w d, length w = 8 -> field (S k) (w ++ d) = field k d.
Proof. intros k w d L. unfold field. f_equal. replace (8 * S k) with (8 + 8 * k) by lia. rewrite <- skip_skip. f_equal. apply (app8 _ _ L). Qed.
Lemma tuple_app : forall h t d, holds_tuple h t d -> exists rest, tuple_at h t = d ++ rest.
Proof. intros h t d (n & al & r & A). exists r. unfold tuple_at. now rewrite (val_alive _ _ _ _ _ A). Qed.
Ltac reads :=
  repeat match goal with
  | K : holds_qubits _ _ _ |- _ => apply qubits_at_ok in K; rewrite ?K
  | K : holds_paulis _ _ _ |- _ => apply paulis_at_ok in K; rewrite ?K
  | K : is_text _ _ |- _ => apply to_str_thm in K
  | K : str_is _ _ _ |- _ => apply text_at_ok in K; rewrite ?K
  end.
Ltac fields :=
  repeat match goal with
  | K : double_bytes ?w _ |- _ => let L := fresh "L" in assert (L := double_len _ _ K); apply word_double_ok in K
  | K : qubit_bytes ?w _ |- _ => let L := fresh "L" in assert (L := word_len _ _ K); apply word_qubit_ok in K
  end.
Lemma meant_ok : forall h c c', denotes h c c' -> meant h c = Some c'.
Proof.
  intros h c c' Dn. destruct Dn; cbn [meant];
    try match goal with K : holds_tuple _ _ _ |- _ => let r := fresh "rest" in let E := fresh "Et" in destruct (tuple_app _ _ _ K) as [r E]; rewrite E, <- ?app_assoc; cbv zeta end;
    fields; reads; cbn [get];
    try (change (firstn 1 ((Raw (pauli_byte p) :: pad ++ wth ++ wq) ++ rest)) with [Raw (pauli_byte p)]; rewrite byte_pauli_ok;
         replace ((Raw (pauli_byte p) :: pad ++ wth ++ wq) ++ rest) with ((Raw (pauli_byte p) :: pad) ++ wth ++ wq ++ rest) by (cbn; now rewrite <- !app_assoc));
    repeat (rewrite ?field_S, ?field_0, ?word_object_ok by (rewrite ?ptr_bytes_len; cbn [length]; lia); cbn [get];
      repeat match goal with K : word_double _ = Some _ |- _ => rewrite K | K : word_qubit _ = Some _ |- _ => rewrite K
        | K : paulis_at _ _ = Some _ |- _ => rewrite K | K : qubits_at _ _ = Some _ |- _ => rewrite K
        | K : text_at _ _ = _ |- _ => rewrite K | K : Strings.to_str _ = Some _ |- _ => rewrite K end; cbn [get]); reflexivity.
Qed.
End Meant.

(** ** Arrays of qubits *)
Section Arrays.
Context {T : Tol} {EN : Env} {D : Doubles} {SW : Shows} {RN : Rand} {M : Mode}.
Local Open Scope args_scope.
Definition qubit_cell (qs : list nat) : cell := live 1 0 (VArr 8 (concat (map qword qs))).
Lemma alloc_total : forall n b, exists qs b', rt_allocate_array n b = BOk qs b'.
Proof.
  induction n as [|n IH]; intros b; cbn [rt_allocate_array]; [now exists [], b|].
  unfold bbind. unfold rt_qubit_allocate, bbind, simcall. cbn [run1]. destruct (allocate (bsim b)) as [s q].
  match goal with |- context [rt_allocate_array n ?x] => destruct (IH x) as (qs & b' & E); rewrite E end. eexists _, b'. reflexivity.
Qed.
Lemma same_heap : forall (h h' : heap) c, length h' = S (length h) -> nth_error h' (length h) = Some c ->
  (forall x, x < length h -> nth_error h' x = nth_error h x) -> h' = h ++ [c].
Proof.
  intros h. induction h as [|d h IH]; intros h' c L E O.
  - destruct h' as [|e [|]]; try discriminate. cbn in E. injection E as ->. reflexivity.
  - destruct h' as [|e h']; [discriminate|]. assert (E0 := O 0 ltac:(cbn; lia)). cbn in E0. injection E0 as ->. cbn [app]. f_equal.
    apply IH; [cbn in L; lia|exact E|]. intros x Lx. exact (O (S x) ltac:(cbn; lia)).
Qed.
Lemma alloc_exact : forall n h b, (8 * Z.of_nat n < 2 ^ 63)%Z ->
  qubit_allocate_array n h b = match rt_allocate_array n b with BOk qs b' => QOk (length h) (h ++ [qubit_cell qs]) b' | BErr e o => QBErr e o end.
Proof.
  intros n h b B. destruct (alloc_total n b) as (qs & b' & E). rewrite E. unfold qubit_allocate_array.
  assert (Ec : array_create_1d 8 (Z.of_nat n) h = HOk (length h) (h ++ [live 1 0 (VArr 8 (repeat zero (Z.to_nat (8 * Z.of_nat n))))])).
  { unfold array_create_1d. rewrite (bind_ok _ _ _ _ _ _ _ (usize_fits h (8 * Z.of_nat n) ltac:(unfold usize_ok; apply andb_true_intro; split; [apply Z.leb_le|apply Z.ltb_lt]; lia))).
    destruct (Z.ltb_spec (8 * Z.of_nat n) (2 ^ 63)); [reflexivity|lia]. }
  rewrite (qmem _ _ _ _ _ _ _ _ Ec). set (h1 := h ++ _).
  assert (A1 : array_is h1 (length h) 1 0 8 (map qword [] ++ repeat (repeat zero 8) n)).
  { split.
    - apply alive_iff. split; [lia|]. unfold h1. rewrite nth_error_app2, Nat.sub_diag by lia. cbn [nth_error map app].
      rewrite concat_repeat. do 5 f_equal. lia.
    - cbn [map app]. apply Forall_forall. intros x Hx. apply repeat_spec in Hx. now subst x. }
  destruct (fill_thm n [] h1 b (length h) qs b' (repeat (repeat zero 8) n) (repeat_length _ _) B A1 E) as (h' & E' & A' & O' & L').
  cbn [length] in E'. unfold qbind. rewrite E'. unfold qret. f_equal. apply same_heap.
  - rewrite L'. unfold h1. rewrite app_length. cbn. lia.
  - destruct A' as [A' _]. apply alive_iff in A'. exact (proj2 A').
  - intros x Lx. rewrite O'; [|lia|unfold h1; rewrite app_length; lia]. unfold h1. now rewrite nth_error_app1.
Qed.
Lemma release_from_ok : forall h a n al els, array_is h a n al 8 els -> (8 * Z.of_nat (length els) < 2 ^ 63)%Z ->
  forall ws qs i, skipn i els = ws -> Forall2 qubit_bytes ws qs -> at_heap h (release_qubits a i (length qs)) (dev (rt_release_array qs)).
Proof.
  intros h a n al els A B. induction ws as [|w ws IH]; intros qs i Sk F.
  - inversion F. subst. intros b. reflexivity.
  - inversion F as [|w0 q ws0 qs' Fq Fs]. subst w0 ws0 qs. destruct (skip_at _ _ _ _ _ Sk) as [Nw Sk'].
    specialize (IH qs' (S i) Sk' Fs). intros b. cbn [length release_qubits].
    destruct (read_at _ _ _ _ _ _ _ _ A ltac:(lia) ltac:(lia) Nw) as [p [Ep Rp]]. change (Z.to_nat 8) with 8 in Rp.
    rewrite (qmem _ _ _ _ _ _ _ _ Ep), (qmem _ _ _ _ _ _ _ _ Rp), (word_qubit_ok _ _ Fq).
    unfold rt_release_array, bfor. cbn [fold_right]. unfold qbind, dev, bbind. destruct (rt_qubit_release q b) as [u b1|]; [|reflexivity].
    exact (IH b1).
Qed.
Definition counted_down (h : heap) (a : nat) : heap := match update_counts a (-1) true h with HOk _ h' => h' | _ => h end.
Lemma release_exact : forall h a qs b, holds_qubits h a qs ->
  qubit_release_array a h b = match rt_release_array qs b with BOk _ b' => QOk tt (counted_down h a) b' | BErr e o => QBErr e o end.
Proof.
  intros h a qs b (n & al & els & A & F & B). unfold qubit_release_array.
  unfold qbind at 1, mem at 1. rewrite (size_ok _ _ _ _ _ _ A ltac:(lia)). rewrite Nat2Z.id, (forall2_len _ _ _ _ _ F).
  unfold qbind. rewrite (release_from_ok h a n al els A B els qs 0 eq_refl F b). unfold dev. destruct (rt_release_array qs b) as [[] b'|]; [|reflexivity].
  destruct (arr_cell _ _ _ _ _ _ A) as [N [C _]]. unfold counted_down, mem.
  assert (U : exists h', update_counts a (-1) true h = HOk tt h').
  { unfold update_counts. change (Z.abs_nat (-1)) with 1. change (0 <? -1)%Z with false. cbn [hrepeat].
    rewrite (bind_ok _ _ (count_step a false true) _ _ _ _ (alias_down _ _ _ _ _ C)). eexists. reflexivity. }
  destruct U as [h' ->]. reflexivity.
Qed.

(** ** The program of Runner.v *)
Definition of_heap {X G L} (r : hres X) (here : L) (k : X -> heap -> L) : action G L :=
  match r with
  | HOk x h => ACall QBarrier (fun _ => k x h)
  | HFail m => ACall (QFail (map N_of_ascii m)) (fun _ => here)
  | HPanic | HUB => ATrap
  end.
Definition memory_step (p : mprog) (lh : local p) : action (gmem p * heap) (local p) :=
  let '(l, st, h) := lh in
  match gstep p l with
  | MDone _ _ g =>
    match st with
    | [] => ADone (g, h)
    | FInvoke _ _ cal args k :: st' => of_heap (invoke_cleanup cal args h) lh (fun _ h' => (k g, st', h'))
    | FCapture _ _ k :: st' => ACall QBarrier (fun _ => (k g, st', h))
    end
  | MBack _ _ c k => ACall c (fun r => (k r, st, h))
  | MArgs _ _ c k => match meant h c with Some c' => ACall c' (fun r => (k r, st, h ++ temps c)) | None => ATrap end
  | MAllocArray _ _ n k => ACall (QAllocArray n) (fun r => match r with VQubits qs => (k (length h), st, h ++ [qubit_cell qs]) | _ => lh end)
  | MReleaseArray _ _ a k => match qubits_at h a with Some qs => ACall (QReleaseArray qs) (fun _ => (k, st, counted_down h a)) | None => ATrap end
  | MHeap _ _ c k => of_heap (hcall1 c h) lh (fun r h' => (k r, st, h'))
  | MLoad _ _ t off n k => of_heap (tuple_read t off n h) lh (fun bs h' => (k bs, st, h'))
  | MStore _ _ t off bs k => of_heap (tuple_write t off bs h) lh (fun _ h' => (k, st, h'))
  | MText _ _ c k => of_heap (tcall1 c h) lh (fun r h' => (k r, st, h'))
  | MMessage _ _ a k => match text_at h a with Some m => ACall (QRecord (RecMessage m)) (fun _ => (k, st, h)) | None => ATrap end
  | MFail _ _ a => match text_at h a with Some m => ACall (QFail m) (fun _ => lh) | None => ATrap end
  | MInvoke _ _ cal args res g k => of_heap (enter cal args h) lh (fun x h' =>
      (gcode p (c_table (snd x)) (fst (fst x)) (c_capture (snd x)) (snd (fst x)) res g, FInvoke _ _ cal (snd (fst x)) k :: st, h'))
  | MCapture _ _ cal by_ is_alias g k => of_heap (get_call cal h) lh (fun c h' =>
      match match c_mem c with Some t => gcapt p t (if is_alias then 1 else 0) | None => None end with
      | Some f => (f (c_capture c) by_ g, FCapture _ _ k :: st, h')
      | None => (k g, st, h')
      end)
  | MRandom _ _ lo hi k => ARandom lo hi (fun z => (k z, st, h))
  | MTrap _ _ => ATrap
  end.
Lemma mixed_thm : forall p fuel l st h w, sound p fuel l st h w ->
  mrun p fuel l st h w = ending (run_from (with_memory p (memory_step p)) fuel (l, st, h) w).
Proof.
  intros p. induction fuel as [|fuel IH]; intros l st h w So; [reflexivity|].
  cbn [mrun run_from with_memory pstep ploc pmem]. cbn [sound] in So. unfold memory_step at 1.
  destruct (gstep p l) as [g|c k|c k|n k|a k|c k|tp off n k|tp off bs k|c k|a k|a|cal args res g k|cal n al g k|lo hi k|].
  - destruct st as [|[cal args k|k] st]; [reflexivity| |].
    + unfold mem in *. destruct (invoke_cleanup cal args h) as [r h'|m| |]; cbn [of_heap bcall1]; [|reflexivity|reflexivity|destruct So].
      unfold bret. destruct w as [b t]. apply IH, So.
    + cbn [bcall1]. unfold bret. destruct w as [b t]. apply IH, So.
  - unfold dev in *. destruct (bcall1 c (wback w)) as [r b|e o]; [|reflexivity]. apply IH, So.
  - destruct So as [[c' Dn] So]. rewrite (meant_ok _ _ _ Dn). assert (E := args_thm h c c' Dn (wback w)). rewrite E in *. unfold after in *.
    destruct (bcall1 c' (wback w)) as [r b|e o]; [|reflexivity]. apply IH, So.
  - destruct So as [B So]. rewrite (alloc_exact n h (wback w) B) in *. cbn [bcall1]. unfold bbind, bret.
    destruct (rt_allocate_array n (wback w)) as [qs b|e o]; [|reflexivity]. apply IH, So.
  - destruct So as [[qs Hq] So]. rewrite (qubits_at_ok _ _ _ Hq). rewrite (release_exact h a qs (wback w) Hq) in *. cbn [bcall1]. unfold vunit, bbind, bret.
    destruct (rt_release_array qs (wback w)) as [[] b|e o]; [|reflexivity]. apply IH, So.
  - unfold mem in *. destruct (hcall1 c h) as [r h'|m| |]; cbn [of_heap bcall1]; [|reflexivity|reflexivity|destruct So].
    unfold bret. destruct w as [b t]. apply IH, So.
  - unfold mem in *. destruct (tuple_read tp off n h) as [r h'|m| |]; cbn [of_heap bcall1]; [|reflexivity|reflexivity|destruct So].
    unfold bret. destruct w as [b t]. apply IH, So.
  - unfold mem in *. destruct (tuple_write tp off bs h) as [r h'|m| |]; cbn [of_heap bcall1]; [|reflexivity|reflexivity|destruct So].
    unfold bret. destruct w as [b t]. apply IH, So.
  - unfold mem in *. destruct (tcall1 c h) as [r h'|m| |]; cbn [of_heap bcall1]; [|reflexivity|reflexivity|destruct So].
    unfold bret. destruct w as [b t]. apply IH, So.
  - destruct So as (t & St & So). unfold Strings.rt_message in *. rewrite (get_str_live h a t St) in *. rewrite (text_at_ok _ _ _ St).
    destruct (Strings.to_str t) as [m|]; [|reflexivity]. cbn [bcall1]. unfold vunit, bbind, bret, emit. apply IH, So. reflexivity.
  - destruct So as (t & St). unfold Strings.rt_fail, Strings.rt_message in *. rewrite (get_str_live h a t St) in *. rewrite (text_at_ok _ _ _ St).
    destruct (Strings.to_str t) as [m|]; reflexivity.
  - unfold mem in *. destruct (enter cal args h) as [[[i args'] c] h'|m| |]; cbn [of_heap bcall1]; [|reflexivity|reflexivity|destruct So].
    unfold bret. destruct w as [b t]. apply IH, So.
  - unfold mem in *. destruct (get_call cal h) as [c h'|m| |]; cbn [of_heap bcall1]; [|reflexivity|reflexivity|destruct So].
    unfold bret. destruct w as [b t]. cbn [onward mnext wback wtgen] in *.
    destruct (match c_mem c with Some x => gcapt p x (if al then 1 else 0) | None => None end) as [f|]; apply IH, So.
  - destruct (draw_int lo hi w) as [[z w']|o]; [|reflexivity]. apply IH, So.
  - reflexivity.
Qed.
Lemma no_random : forall p, asks_no_random p -> draws_nothing (with_memory p (memory_step p)).
Proof.
  intros p N [[l st] h] lo hi k. cbn [with_memory pstep]. unfold memory_step. specialize (N l).
  destruct (gstep p l) as [g|c k'|c k'|n k'|a k'|c k'|tp off n k'|tp off bs k'|c k'|a k'|a|cal args res g k'|cal n al g k'|lo' hi' k'|]; try discriminate.
  - destruct st as [|[cal args k'|k'] st]; try discriminate. unfold of_heap. destruct (invoke_cleanup cal args h); discriminate.
  - destruct (meant h c); discriminate.
  - destruct (qubits_at h a); discriminate.
  - unfold of_heap. destruct (hcall1 c h); discriminate.
  - unfold of_heap. destruct (tuple_read tp off n h); discriminate.
  - unfold of_heap. destruct (tuple_write tp off bs h); discriminate.
  - unfold of_heap. destruct (tcall1 c h); discriminate.
  - destruct (text_at h a); discriminate.
  - destruct (text_at h a); discriminate.
  - unfold of_heap. destruct (enter cal args h); discriminate.
  - unfold of_heap. destruct (get_call cal h); discriminate.
  - exfalso. exact (N lo' hi' k' eq_refl).
Qed.
Lemma mixed_shots : forall p name attrs void fuel n m h g t recs m' h' g' t', mshots p fuel n m h g t recs m' h' g' t' ->
  shots_of (entry_of name attrs void (with_memory p (memory_step p))) fuel n (m, h) g t recs (m', h') g' t'.
Proof.
  intros p name attrs void fuel n m h g t recs m' h' g' t' H. induction H as [m h g t|n m h g t m1 h1 w recs m' h' g' t' So E _ IH].
  - apply shots_none.
  - apply (shots_more (entry_of name attrs void (with_memory p (memory_step p))) fuel n (m, h) g t (m1, h1) w); [|exact IH].
    unfold fresh_run. cbn [entry_of fprog with_memory pstart fst snd]. rewrite (mixed_thm p fuel _ [] h _ So) in E.
    match goal with |- ?x = _ => assert (E' : ending x = MEnd m1 h1 w) by exact E; destruct x as [[g1 h2] w1|e o|o] end; try discriminate.
    cbn in E'. injection E' as -> -> ->. reflexivity.
Qed.
Lemma sound_defined : forall p fuel l st h w, sound p fuel l st h w -> mrun p fuel l st h w <> MUndef.
Proof. intros p fuel l st h w So. rewrite (mixed_thm p fuel l st h w So). unfold ending. destruct (run_from _ _ _ _); discriminate. Qed.
Lemma mixed_module : forall {LL : Llvm} (p : mprog), exists step : local p -> action (gmem p * heap) (local p),
  forall fs fs' name entry attrs void fuel n q recs m' h' g' t', let f := entry_of entry attrs void (with_memory p step) in
  prepare fs = inl fs' -> bind_functions fs' = Linked -> only_one (wanted name) fs' f -> pbuffer q = [] ->
  mshots p fuel n (ginit p) [] (pgen q) (ptgen q) recs m' h' g' t' ->
  exists evs q', run_module fs name fuel n q = (evs, ROk, q') /\ arrives (pstd q) attrs recs evs /\ length recs = n.
Proof.
  intros LL p. exists (memory_step p). intros fs fs' name entry attrs void fuel n q recs m' h' g' t' f P L O B Sh.
  assert (S1 : shots_of f fuel n (pinit (fprog f)) (pgen q) (ptgen q) recs (m', h') g' t') by exact (mixed_shots p entry attrs void fuel n _ _ _ _ _ _ _ _ _ Sh).
  assert (C := module_cases fs name fuel n q). rewrite P in C. destruct C as (_ & _ & _ & C). rewrite (C f L O). clear C.
  destruct (shots_run f fuel n _ q recs (m', h') g' t' B eq_refl S1) as (evs & q' & E). exists evs, q'. split; [exact E|].
  assert (X := run_shots_thm f fuel n (pinit (fprog f)) q B eq_refl). rewrite E in X. destruct X as (recs2 & m2 & g2 & t2 & S2 & A & _).
  assert (F := shots_fun f fuel n _ _ _ _ _ _ _ _ _ _ _ S1 S2). destruct F as [-> _]. split; [exact A|]. exact (shots_length f fuel n _ _ _ _ _ _ _ S2).
Qed.
End Arrays.
