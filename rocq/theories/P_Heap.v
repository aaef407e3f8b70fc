(** * Properties of arrays, tuples, callables, strings and big integers (C30 - C37, C50) *)
From Coq Require Import String Ascii Reals NArith ZArith List Bool Arith Lia.
From Coq.Strings Require Import Byte.
From Verif Require Import Arith ArithR Sim SimRun SpecRun Text Backend SpecBackend BackThms World BackEx
  Heap SpecHeap HeapLemmas HeapThms HeapCalls HeapTuples QubitArray QubitArrayThms.
Import ListNotations.
Local Open Scope list_scope.

Definition debug : Mode := {| overflow_checks := true |}.
Definition release_mode : Mode := {| overflow_checks := false |}.

(** ** C30: reference counts *)

(** Whatever the program does, as long as it names objects it holds, takes back no more than it was given and stays
    inside its arrays: the memory agrees with the account of references, so that an object with references is alive with
    exactly these counts, and one without has been dropped, and freed once it has no aliases either. *)
Theorem C30_counts : forall (M : Mode) cs, hproper [] [] cs ->
  match hexec cs [] with
  | HOk rs h => length h = length (ledger_of [] cs rs) /\
      forall a e, nth_error (ledger_of [] cs rs) a = Some e -> agrees h a e
  | HUB => False
  | _ => True
  end.
Proof. exact @counts_thm. Qed.
Print Assumptions C30_counts.
(** Programs that give back all they took leak nothing. *)
Theorem C30_no_leak : forall (M : Mode) cs rs h, hproper [] [] cs -> hexec cs [] = HOk rs h ->
  (forall a e, nth_error (ledger_of [] cs rs) a = Some e -> e_refs e = 0 /\ e_aliases e = 0) ->
  forall a, a < length h -> dropped h a /\ freed h a.
Proof. exact @no_leak_thm. Qed.
Print Assumptions C30_no_leak.
Ltac proper_step := split; [|intros ? ? E; vm_compute in E; injection E as <- <-].
(** An array shared, aliased, copied on write, and everything given back. *)
Definition life : list hcall :=
  [HArrayCreate 2 3; HRef 0 3; HArrayCopy 0 false; HAlias 0 1; HArrayCopy 0 false; HStore 1 2 [Raw x07; Raw x09]; HConcat 0 1;
   HStrCreate (lit "ab"); HAlias 0 (-1); HRef 0 (-5); HRef 1 (-1); HRef 2 (-1); HRef 3 (-1)].
Ltac is_there := eexists; split; [reflexivity|split; [reflexivity|discriminate]].
Ltac give_back := eexists; split; [reflexivity|split; [discriminate|vm_compute; congruence]].
Example C30_ex : @hproper debug [] [] life /\ exists rs h, @hexec debug life [] = HOk rs h /\ length h = 4 /\
  forall a e, nth_error (ledger_of [] life rs) a = Some e -> e_refs e = 0 /\ e_aliases e = 0.
Proof.
  split.
  - unfold life. cbn [hproper].
    proper_step; [split; split; lia|]. proper_step; [give_back|]. proper_step; [is_there|].
    proper_step. { eexists. split; [reflexivity|]. split; [discriminate|]. split; [vm_compute; congruence|]. left. reflexivity. }
    proper_step; [is_there|].
    proper_step. { split; [is_there|]. eexists. eexists. eexists. split; [reflexivity|]. split; [reflexivity|]. cbn. lia. }
    proper_step; [split; is_there|]. proper_step; [exact I|].
    proper_step. { eexists. split; [reflexivity|]. split; [discriminate|]. split; [vm_compute; congruence|]. left. reflexivity. }
    proper_step; [give_back|]. proper_step; [give_back|]. proper_step; [give_back|]. proper_step; [give_back|]. exact I.
  - eexists. eexists. split; [vm_compute; reflexivity|]. split; [reflexivity|].
    intros [|[|[|[|[|a]]]]] e E; vm_compute in E; try discriminate; injection E as <-; split; reflexivity.
Qed.

(** ** C31: copies and alias counts *)
Theorem C31_copy : forall (M : Mode) h a n al v force c, alive h a n al v ->
  In c [HArrayCopy a force; HTupleCopy a force; HCallCopy a force] ->
  exists b h', hcall1 c h = HOk (RObj b) h' /\
    if (force || Nat.ltb 0 al)%bool
    then b <> a /\ nth_error h b = None /\ alive h' b 1 0 v /\ (forall x, x < length h -> nth_error h' x = nth_error h x)
    else b = a /\ alive h' a (S n) al v /\ others_same h h' a /\ length h' = length h.
Proof. exact @copy_thm. Qed.
Print Assumptions C31_copy.
Example C31_ex : alive [live 2 1 (VArr 1 [Raw x05])] 0 2 1 (VArr 1 [Raw x05]) /\ alive [live 2 0 (VTup [])] 0 2 0 (VTup []).
Proof. split; apply alive_iff; split; [lia|reflexivity|lia|reflexivity]. Qed.
(** An alias count of zero can be decreased: nothing fails, the memory is given back under the references that are
    left, and the next use of any of them is undefined behaviour. *)
Theorem C31_alias_refuted : forall (M : Mode) h a n v, alive h a n 0 v ->
  exists h', hcall1 (HAlias a (-1)) h = HOk RUnit h' /\ freed h' a /\ ~ dropped h' a /\
    (forall c, In c [HRef a (-1); HRef a 1; HAlias a 1; HArrayCopy a true; HArrayCopy a false; HSize a] -> hcall1 c h' = HUB).
Proof. exact @alias_below_thm. Qed.
Print Assumptions C31_alias_refuted.

(** ** C32: arrays of qubits *)

(** Releasing an array releases its qubits, whatever its counts, and touches no other object. *)
Theorem C32_release_partial : forall (T : Tol) (EN : Env) (M : Mode) qs h b a n al b',
  array_is h a n al 8 (map (fun q => ptr_bytes (PQubit q)) qs) -> (8 * Z.of_nat (length qs) < 2 ^ 63)%Z ->
  rt_release_array qs b = BOk tt b' ->
  exists h', qubit_release_array a h b = QOk tt h' b' /\ others_same h h' a /\ length h' = length h /\
    (al = 0 -> freed h' a /\ ~ dropped h' a) /\
    (al <> 0 -> array_is h' a n (al - 1) 8 (map (fun q => ptr_bytes (PQubit q)) qs)).
Proof. exact @release_thm'. Qed.
Print Assumptions C32_release_partial.
(** Allocating an array and releasing it: the qubits are those there were before, but the memory of the array is given
    back with its contents still in it (they are never dropped), and its reference is left. *)
Theorem C32_pair_refuted : forall (T : Tol) (EN : Env) (D : Doubles) (SW : Shows) (M : Mode), order_ok ->
  forall n h b l, breached b l -> (8 * Z.of_nat n < 2 ^ 63)%Z ->
  exists a h1 b1 h2 b2, qubit_allocate_array n h b = QOk a h1 b1 /\ qubit_release_array a h1 b1 = QOk tt h2 b2 /\
    (exists qs, array_is h1 a 1 0 8 (map (fun q => ptr_bytes (PQubit q)) qs) /\ length qs = n /\ NoDup qs /\
       forall q, In q (SpecBackend.held b1) <-> In q l \/ In q qs) /\
    breached b2 (SpecBackend.held b2) /\ (forall q, In q (SpecBackend.held b2) <-> In q l) /\
    (forall x, x < length h -> nth_error h2 x = nth_error h x) /\
    freed h2 a /\ ~ dropped h2 a.
Proof. exact @pair_thm. Qed.
Print Assumptions C32_pair_refuted.
(** Three qubits on a Bell pair. *)
Example C32_ex : @order_ok T0 E0 /\ exists b, @breached T0 E0 D0 SW0 b [0; 1] /\ (8 * Z.of_nat 3 < 2 ^ 63)%Z.
Proof. split; [exact (proj1 (proj2 exact0))|]. destruct bell_back as (rs & b & E & R & S & M). exists b. split; [exact R|lia]. Qed.

(** ** C33: concatenation and slices *)
Theorem C33_concat : forall (M : Mode) h a b n al m bl sz ea eb, array_is h a n al sz ea -> array_is h b m bl sz eb ->
  exists c h', hcall1 (HConcat a b) h = HOk (RObj c) h' /\ nth_error h c = None /\ array_is h' c 1 0 sz (ea ++ eb) /\
    forall x, x < length h -> nth_error h' x = nth_error h x.
Proof. exact @concat_thm. Qed.
Print Assumptions C33_concat.
Theorem C33_concat_fails : forall (M : Mode) h a b n al m bl s1 s2 ea eb,
  array_is h a n al s1 ea -> array_is h b m bl s2 eb -> s1 <> s2 -> exists msg, hcall1 (HConcat a b) h = HFail msg.
Proof. exact @concat_fail_thm. Qed.
Print Assumptions C33_concat_fails.
(** As long as the byte offsets fit in 64 bits. *)
Theorem C33_slice : forall (M : Mode) h a n al sz els r l,
  array_is h a n al sz els -> (0 < sz)%Z -> range_fits sz r -> r_step r <> 0%Z -> range_list r l ->
  (Forall (fun i => 0 <= i < Z.of_nat (length els))%Z l ->
     exists b h', hcall1 (HSlice a r) h = HOk (RObj b) h' /\ nth_error h b = None /\
       array_is h' b 1 0 sz (map (fun i => nth (Z.to_nat i) els []) l) /\
       forall x, x < length h -> nth_error h' x = nth_error h x) /\
  (~ Forall (fun i => 0 <= i < Z.of_nat (length els))%Z l -> hcall1 (HSlice a r) h = HPanic).
Proof. exact @slice_thm. Qed.
Print Assumptions C33_slice.
Theorem C33_slice_zero_step : forall (M : Mode) h a n al sz els r,
  array_is h a n al sz els -> range_fits sz r -> r_step r = 0%Z -> hcall1 (HSlice a r) h = HPanic.
Proof. exact @slice_zero_thm. Qed.
Print Assumptions C33_slice_zero_step.
Definition abc : list (list mval) := [[Raw x61; Raw x01]; [Raw x62; Raw x02]; [Raw x63; Raw x03]].
Lemma abc_array : array_is [live 1 0 (VArr 2 (concat abc))] 0 1 0 2 abc.
Proof. split; [apply alive_iff; split; [lia|reflexivity]|repeat constructor]. Qed.
(** Backwards in steps of two: 2, 0. *)
Example C33_ex : let r := mkRange 2 (-2) 0 in
  range_fits 2 r /\ r_step r <> 0%Z /\ range_list r [2; 0]%Z /\ Forall (fun i => 0 <= i < Z.of_nat (length abc))%Z [2; 0]%Z.
Proof.
  cbv zeta. split; [repeat constructor; vm_compute; congruence|]. split; [discriminate|]. split.
  - change [2; 0]%Z with (range_idx (mkRange 2 (-2) 0)). apply range_idx_ok. discriminate.
  - repeat constructor; cbn; lia.
Qed.
(** Without overflow checks a slice far out of bounds succeeds and returns an element inside. *)
Theorem C33_wrap_refuted : exists (M : Mode) h a els r l b h',
  array_is h a 1 0 8 els /\ r_step r <> 0%Z /\ range_list r l /\ l <> [] /\
  Forall (fun i => ~ (0 <= i < Z.of_nat (length els))%Z) l /\ hcall1 (HSlice a r) h = HOk (RObj b) h' /\ array_is h' b 1 0 8 els.
Proof.
  set (w := [Raw x01; Raw x02; Raw x03; Raw x04; Raw x05; Raw x06; Raw x07; Raw x08]).
  exists release_mode, [live 1 0 (VArr 8 w)], 0, [w], (mkRange (2 ^ 61) 1 (2 ^ 61)), [(2 ^ 61)%Z], 1, [live 1 0 (VArr 8 w); live 1 0 (VArr 8 w)].
  split; [split; [apply alive_iff; split; [lia|reflexivity]|repeat constructor]|]. split; [discriminate|]. split.
  { change [(2 ^ 61)%Z] with (range_idx (mkRange (2 ^ 61) 1 (2 ^ 61))). apply range_idx_ok. discriminate. }
  split; [discriminate|]. split; [repeat constructor; cbn; lia|]. split; [vm_compute; reflexivity|].
  split; [apply alive_iff; split; [lia|reflexivity]|repeat constructor].
Qed.
Print Assumptions C33_wrap_refuted.
(** With or without overflow checks, an empty range whose start is far out panics. *)
Theorem C33_empty_refuted : forall (M : Mode) h a n al els, array_is h a n al 8 els ->
  range_list (mkRange (2 ^ 60) 1 0) [] /\ hcall1 (HSlice a (mkRange (2 ^ 60) 1 0)) h = HPanic.
Proof. exact slice_empty_thm. Qed.
Print Assumptions C33_empty_refuted.
Example C33_empty_ex : array_is [live 1 0 (VArr 8 (concat [ptr_bytes (PQubit 2)]))] 0 1 0 8 [ptr_bytes (PQubit 2)].
Proof. split; [apply alive_iff; split; [lia|reflexivity]|repeat constructor]. Qed.

(** ** C34: elements *)
Theorem C34_create : forall (M : Mode) h sz k, (0 <= sz < 2 ^ 32)%Z -> (0 <= k)%Z -> (sz * k < 2 ^ 63)%Z ->
  exists a h', hcall1 (HArrayCreate sz k) h = HOk (RObj a) h' /\ nth_error h a = None /\
    array_is h' a 1 0 sz (repeat (repeat (Raw x00) (Z.to_nat sz)) (Z.to_nat k)) /\
    forall x, x < length h -> nth_error h' x = nth_error h x.
Proof. exact @create_thm. Qed.
Print Assumptions C34_create.
Theorem C34_size : forall (M : Mode) h a n al sz els, array_is h a n al sz els -> (0 < sz)%Z ->
  hcall1 (HSize a) h = HOk (RInt (Z.of_nat (length els))) h.
Proof. exact @size_thm. Qed.
Print Assumptions C34_size.
Theorem C34_load : forall (M : Mode) h a n al sz els i x, array_is h a n al sz els -> (0 <= sz)%Z ->
  (sz * Z.of_nat (length els) < 2 ^ 64)%Z -> nth_error els i = Some x ->
  hcall1 (HLoad a (Z.of_nat i) (Z.to_nat sz)) h = HOk (RMem x) h.
Proof. exact @load_thm. Qed.
Print Assumptions C34_load.
Theorem C34_store : forall (M : Mode) h a n al sz els i bs, array_is h a n al sz els ->
  (sz * Z.of_nat (length els) < 2 ^ 64)%Z -> i < length els -> Z.of_nat (length bs) = sz ->
  exists h' els', hcall1 (HStore a (Z.of_nat i) bs) h = HOk RUnit h' /\ array_is h' a n al sz els' /\
    length els' = length els /\ nth_error els' i = Some bs /\ (forall j, j <> i -> nth_error els' j = nth_error els j) /\
    others_same h h' a /\ length h' = length h.
Proof. exact @store_thm. Qed.
Print Assumptions C34_store.
Example C34_ex : array_is [live 1 0 (VArr 2 (concat abc))] 0 1 0 2 abc /\ (2 * Z.of_nat (length abc) < 2 ^ 64)%Z /\
  nth_error abc 1 = Some [Raw x62; Raw x02].
Proof. split; [exact abc_array|]. split; [cbn; lia|reflexivity]. Qed.
(** Without overflow checks an array whose size does not fit in 64 bits is created with no elements at all; with elements
    of size zero the number of elements cannot be asked for. *)
Theorem C34_size_refuted :
  (exists (M : Mode) rs h, hexec [HArrayCreate (2 ^ 31) (2 ^ 33); HSize 0] [] = HOk rs h /\ rs = [RObj 0; RInt 0]) /\
  (forall (M : Mode) n, (0 <= n < 2 ^ 64)%Z -> exists h, hcall1 (HArrayCreate 0 n) [] = HOk (RObj 0) h /\ hcall1 (HSize 0) h = HPanic).
Proof.
  split.
  - exists release_mode. eexists. eexists. split; vm_compute; reflexivity.
  - intros M n R. exists [live 1 0 (VArr 0 [])]. split; [|reflexivity].
    cbn [hcall1]. unfold robj, array_create_1d. rewrite Z.mul_0_l. unfold hbind at 1.
    rewrite (bind_ok _ _ (usize 0) _ [] 0%Z [] (usize_fits [] 0 eq_refl)). reflexivity.
Qed.
Print Assumptions C34_size_refuted.

(** ** C35: which function is called, with which arguments *)

(** Functors only count: adjoints modulo two, controls all of them. *)
Theorem C35_functors : forall (M : Mode) fs h a n al c, alive h a n al (VCall c) ->
  exists rs h', hexec (map (fun f : bool => if f then HAdjoint a else HControlled a) fs) h = HOk rs h' /\
    others_same h h' a /\ length h' = length h /\
    alive h' a n al (VCall (mkCallable (c_table c) (c_mem c) (c_capture c)
       (xorb (c_adj c) (Nat.odd (count_occ bool_dec fs true))) (c_ctls c + count_occ bool_dec fs false))).
Proof. exact @functors_thm. Qed.
Print Assumptions C35_functors.
(** A new callable has no functors; so after any functors it has exactly those. *)
Theorem C35_create : forall (M : Mode) h t m cap,
  makes_object (hcall1 (HCallCreate t m cap)) h (VCall (mkCallable t m cap false 0)) /\
  forall fs, exists b h1 rs h', hcall1 (HCallCreate t m cap) h = HOk (RObj b) h1 /\
    hexec (map (fun f : bool => if f then HAdjoint b else HControlled b) fs) h1 = HOk rs h' /\
    alive h' b 1 0 (VCall (mkCallable t m cap (Nat.odd (count_occ bool_dec fs true)) (count_occ bool_dec fs false))).
Proof.
  intros M h t m cap. assert (H : makes_object (hcall1 (HCallCreate t m cap)) h (VCall (mkCallable t m cap false 0))) by (apply makes_new; reflexivity).
  split; [exact H|]. intros fs. destruct H as (b & h1 & E & _ & Al & _). destruct (C35_functors M fs h1 b 1 0 _ Al) as (rs & h' & E' & _ & _ & Al').
  exists b, h1, rs, h'. split; [exact E|]. split; [exact E'|]. cbn [c_table c_mem c_capture c_adj c_ctls] in Al'. rewrite xorb_false_l in Al'. exact Al'.
Qed.
Print Assumptions C35_create.
Example C35_create_ex : exists h', hexec [HCallCreate 9 None None; HAdjoint 0; HControlled 0; HAdjoint 0] (M := debug) [] =
  HOk [RObj 0; RUnit; RUnit; RUnit] h' /\ alive h' 0 1 0 (VCall (mkCallable 9 None None false 1)).
Proof. eexists. split; [reflexivity|]. apply alive_iff. split; [lia|reflexivity]. Qed.
(** With controls, whatever the function: it is the controlled one, adjoint or not, and it is given a tuple of the
    array of all controls, from the outermost to the innermost, and the innermost arguments. *)
Theorem C35_controlled : forall h cal cn cl c a sz ds rest,
  alive h cal cn cl (VCall c) -> c_ctls c = length ds -> controls_at h sz a ds rest ->
  exists h1 args ct n al k,
    alive h1 args 1 0 (VTup (ptr_bytes (PObj ct) ++ rest)) /\ alive h1 ct n al (VArr sz (concat ds)) /\
    forall callee, callable_invoke callee cal (Some a) h =
      hbind (callee (c_table c) ((if c_adj c then 1 else 0) + 2) (c_capture c) (Some args)) (fun _ => k) h1.
Proof. exact @selects_controlled. Qed.
Print Assumptions C35_controlled.
(** Without: a copy of the arguments. *)
Theorem C35_plain : forall h cal cn cl c a n al d,
  alive h cal cn cl (VCall c) -> c_ctls c = 0 -> alive h a n al (VTup d) ->
  exists h1 args k, args <> a /\ alive h1 args 1 0 (VTup d) /\
    forall callee, callable_invoke callee cal (Some a) h =
      hbind (callee (c_table c) (if c_adj c then 1 else 0) (c_capture c) (Some args)) (fun _ => k) h1.
Proof. exact @selects_plain. Qed.
Print Assumptions C35_plain.
Theorem C35_no_arguments : forall h cal cn cl c, alive h cal cn cl (VCall c) -> c_ctls c = 0 ->
  exists k, forall callee, callable_invoke callee cal None h =
      hbind (callee (c_table c) (if c_adj c then 1 else 0) (c_capture c) None) (fun _ => k) h.
Proof. exact @selects_null. Qed.
Print Assumptions C35_no_arguments.
(** Two levels of controls, the callable also adjoint. *)
Definition two_levels : heap :=
  [live 1 0 (VArr 8 (ptr_bytes (PQubit 3) ++ ptr_bytes (PQubit 1)));
   live 2 0 (VArr 8 (ptr_bytes (PQubit 5)));
   live 1 0 (VTup (ptr_bytes (PObj 1) ++ ptr_bytes (PQubit 7)));
   live 1 0 (VTup (ptr_bytes (PObj 0) ++ ptr_bytes (PObj 2)));
   live 1 0 (VCall (mkCallable 9 None None true 2))].
Example C35_ex : alive two_levels 4 1 0 (VCall (mkCallable 9 None None true 2)) /\
  controls_at two_levels 8 3 [ptr_bytes (PQubit 3) ++ ptr_bytes (PQubit 1); ptr_bytes (PQubit 5)] (ptr_bytes (PQubit 7)).
Proof.
  split; [apply alive_iff; split; [lia|reflexivity]|].
  exists 1, 0, 0, 1, 0, 2, []. split; [apply alive_iff; split; [lia|reflexivity]|]. split; [apply alive_iff; split; [lia|reflexivity]|].
  exists 1, 0, 1, 2, 0. split; apply alive_iff; (split; [lia|reflexivity]).
Qed.

(** ** C36: counts after an invocation *)
(** If the function called gives back what it takes, so does the invocation; it goes wrong only if the function does. *)
Theorem C36_controlled : forall callee h cal cn cl c a sz ds rest,
  alive h cal cn cl (VCall c) -> c_ctls c = length ds -> controls_at h sz a ds rest ->
  gives_back callee cal ->
  (exists h', callable_invoke callee cal (Some a) h = HOk tt h' /\ length h <= length h' /\
    (forall x, x < length h -> same_counts h h' x) /\
    (forall x, length h <= x < length h' -> dropped h' x /\ freed h' x)) \/
  (exists i args h1, callable_invoke callee cal (Some a) h = callee (c_table c) i (c_capture c) args h1 /\
    forall h2, callee (c_table c) i (c_capture c) args h1 <> HOk tt h2).
Proof. exact @invoke_controlled. Qed.
Print Assumptions C36_controlled.
Theorem C36_plain : forall callee h cal cn cl c a n al d,
  alive h cal cn cl (VCall c) -> c_ctls c = 0 -> alive h a n al (VTup d) ->
  gives_back callee cal ->
  (exists h', callable_invoke callee cal (Some a) h = HOk tt h' /\ length h <= length h' /\
    (forall x, x < length h -> same_counts h h' x) /\
    (forall x, length h <= x < length h' -> dropped h' x /\ freed h' x)) \/
  (exists i args h1, callable_invoke callee cal (Some a) h = callee (c_table c) i (c_capture c) args h1 /\
    forall h2, callee (c_table c) i (c_capture c) args h1 <> HOk tt h2).
Proof. exact @invoke_plain. Qed.
Print Assumptions C36_plain.
(** A function that makes a big integer and gives it back. *)
Definition busy : nat -> nat -> option ptr -> option nat -> Hp unit :=
  fun _ _ _ _ => hbind (rc_new (VBig 5)) (fun a => update_counts a (-1) false).
Example C36_ex : forall cal, gives_back busy cal.
Proof.
  intros cal t i cap args h1 h2 Lc La E.
  assert (Eb : busy t i cap args h1 = HOk tt (h1 ++ [gone 0])).
  { unfold busy. unfold hbind, rc_new. change (mkCell 1 1 true (Some (VBig 5))) with (live 1 0 (VBig 5)).
    rewrite (release (h1 ++ [live 1 0 (VBig 5)]) (length h1) 1 0 (VBig 5) (Nat.neq_succ_0 0)) by (rewrite nth_error_app2, Nat.sub_diag by lia; reflexivity).
    f_equal. cbn [Nat.eqb]. clear. induction h1 as [|c h1 IH]; cbn; [reflexivity|]. f_equal. exact IH. }
  rewrite Eb in E. injection E as <-.
  assert (Sm : forall x, x < length h1 -> nth_error (h1 ++ [gone 0]) x = nth_error h1 x) by (intros; apply nth_error_app1; assumption).
  unfold balanced. rewrite app_length. cbn [length]. split; [lia|]. split; [|split; [|split; [apply Sm, Lc|]]].
  - intros x Lx. destruct (nth_error h1 x) as [c|] eqn:Ex; [|apply nth_error_None in Ex; lia].
    exists c, c. rewrite Sm by exact Lx. tauto.
  - intros x R. replace x with (length h1) by lia. apply gone_dropped. rewrite nth_error_app2, Nat.sub_diag by lia. reflexivity.
  - destruct args as [x|]; [|exact I]. apply Sm, La. reflexivity.
Qed.

(** ** C37: big integers *)
Theorem C37_bytes : forall (M : Mode) h a z, big_is h a z ->
  exists l, hcall1 (HBigData a) h = HOk (RBytes l) h /\ makes_object (hcall1 (HBigBytes l)) h (VBig z) /\
    ((Z.of_nat (length l) < 2 ^ 32)%Z -> hcall1 (HBigLength a) h = HOk (RInt (Z.of_nat (length l))) h) /\
    forall l', l' <> [] -> makes_object (hcall1 (HBigBytes l')) h (VBig z) -> length l <= length l'.
Proof. exact @big_bytes_thm. Qed.
Print Assumptions C37_bytes.
Theorem C37_arithmetic : forall (M : Mode) h a b x y k, big_is h a x -> big_is h b y ->
  makes_object (hcall1 (HBig2 BAdd a b)) h (VBig (x + y)) /\ makes_object (hcall1 (HBig2 BSub a b)) h (VBig (x - y)) /\
  makes_object (hcall1 (HBig2 BMul a b)) h (VBig (x * y)) /\ makes_object (hcall1 (HBig1 BNeg a)) h (VBig (- x)) /\
  makes_object (hcall1 (HBigPow a (Z.of_nat k))) h (VBig (fold_right Z.mul 1%Z (repeat x k))).
Proof. exact @big_arith_thm. Qed.
Print Assumptions C37_arithmetic.
Theorem C37_compare : forall (M : Mode) h a b x y, big_is h a x -> big_is h b y ->
  exists e g ge, hcall1 (HBigCmp BEq a b) h = HOk (RTruth e) h /\ hcall1 (HBigCmp BGt a b) h = HOk (RTruth g) h /\ hcall1 (HBigCmp BGe a b) h = HOk (RTruth ge) h /\ (e = true <-> x = y) /\ (g = true <-> (y < x)%Z) /\ (ge = true <-> (y <= x)%Z).
Proof. exact @big_compare_thm. Qed.
Print Assumptions C37_compare.
Theorem C37_divide : forall (M : Mode) h a b x y, big_is h a x -> big_is h b y ->
  (y <> 0%Z -> exists q r, makes_object (hcall1 (HBig2 BDiv a b)) h (VBig q) /\ makes_object (hcall1 (HBig2 BMod a b)) h (VBig r) /\
     x = (q * y + r)%Z /\ (Z.abs r < Z.abs y)%Z /\ (r = 0%Z \/ Z.sgn r = Z.sgn x)) /\
  (y = 0%Z -> hcall1 (HBig2 BDiv a b) h = HPanic /\ hcall1 (HBig2 BMod a b) h = HPanic).
Proof. exact @big_divide_thm. Qed.
Print Assumptions C37_divide.
Theorem C37_shift : forall (M : Mode) h a x k, big_is h a x -> (0 <= k)%Z ->
  makes_object (hcall1 (HBigShift a k true)) h (VBig (x * 2 ^ k)) /\
  exists q, makes_object (hcall1 (HBigShift a k false)) h (VBig q) /\ (q * 2 ^ k <= x < (q + 1) * 2 ^ k)%Z.
Proof. exact @big_shift_thm. Qed.
Print Assumptions C37_shift.
Theorem C37_bits : forall (M : Mode) h a b x y, big_is h a x -> big_is h b y ->
  exists zand zor zxor znot,
    makes_object (hcall1 (HBig2 BAnd a b)) h (VBig zand) /\ makes_object (hcall1 (HBig2 BOr a b)) h (VBig zor) /\
    makes_object (hcall1 (HBig2 BXor a b)) h (VBig zxor) /\ makes_object (hcall1 (HBig1 BNot a)) h (VBig znot) /\
    forall i, (0 <= i)%Z ->
      bit_of zand i = (bit_of x i && bit_of y i)%bool /\ bit_of zor i = (bit_of x i || bit_of y i)%bool /\
      bit_of zxor i = xorb (bit_of x i) (bit_of y i) /\ bit_of znot i = negb (bit_of x i).
Proof. exact @big_bits_thm. Qed.
Print Assumptions C37_bits.
Example C37_ex : big_is [live 1 0 (VBig (-129))] 0 (-129) /\ to_signed_le (-129) = [x7f; xff] /\ to_signed_le (-128) = [x80] /\ to_signed_le 128 = [x80; x00].
Proof. split; [exists 1, 0; apply alive_iff; split; [lia|reflexivity]|]. vm_compute. auto. Qed.

(** ** C50: strings *)
Theorem C50_create : forall (M : Mode) h s t, ~ In Ascii.zero s -> makes_object (hcall1 (HStrCreate (s ++ Ascii.zero :: t))) h (VStr s).
Proof. exact @str_create_thm. Qed.
Print Assumptions C50_create.
Theorem C50_concat : forall (M : Mode) h a b s t, str_is h a s -> str_is h b t ->
  makes_object (hcall1 (HStrConcat a b)) h (VStr (s ++ t)).
Proof. exact @str_concat_thm. Qed.
Print Assumptions C50_concat.
Theorem C50_equal : forall (M : Mode) h a b s t, str_is h a s -> str_is h b t ->
  exists v, hcall1 (HStrEqual a b) h = HOk (RTruth v) h /\ (v = true <-> s = t).
Proof. exact @str_equal_thm. Qed.
Print Assumptions C50_equal.
Theorem C50_length : forall (M : Mode) h a s, str_is h a s -> (Z.of_nat (length s) < 2 ^ 32)%Z ->
  hcall1 (HStrLength a) h = HOk (RInt (Z.of_nat (length s))) h.
Proof. exact @str_length_thm. Qed.
Print Assumptions C50_length.
Example C50_ex : str_is [live 1 0 (VStr (lit "ab")); live 1 0 (VStr (lit "c"))] 0 (lit "ab") /\ ~ In Ascii.zero (lit "ab").
Proof. split; [exists 1, 0; apply alive_iff; split; [lia|reflexivity]|]. cbn. intuition discriminate. Qed.
