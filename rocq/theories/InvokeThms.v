(** * Proofs about invoking callables *)
From Coq Require Import Reals NArith ZArith List Bool Arith Lia Lra FunctionalExtensionality.
From Verif Require Import Cx Arith ArithR Sim SimExp Spec SpecExp SpecRun SimRun Text Backend SpecBackend BackThms Heap SpecHeap HeapLemmas HeapThms HeapCalls QubitArray Args SpecArgs ArgsThms Invoke SpecInvoke.
Import ListNotations.

Lemma undisturbed_len : forall h h', undisturbed h h' -> length h <= length h'.
Proof.
  intros h h' [U _]. destruct (Nat.le_gt_cases (length h) (length h')) as [L|L]; [exact L|].
  assert (X := U _ L). assert (nth_error h' (length h') = None) as E by (apply nth_error_None; lia). rewrite E in X.
  symmetry in X. apply nth_error_None in X. lia.
Qed.

Section Invocation.
Context {T : Tol} {EN : Env} {D : Doubles} {SW : Shows} {M : Mode} {A : Type}.
Variables (callee : code) (plain ctld : layout A) (op : operation A).

Lemma nested_controls : forall css cs h a x, nested ctld h a cs css x ->
  exists ds els rest, length ds = S (length css) /\ controls_at h 8 a ds rest /\ ctld h rest x /\ concat ds = concat els /\
    Forall (fun e => Z.of_nat (length e) = 8%Z) els /\ Forall2 qubit_bytes els (cs ++ concat css).
Proof.
  induction css as [|cs' css IH]; intros cs h a x (n & al & c & tail & Aa & (m & ml & els & [Ac Le] & Q & Sz) & R).
  - exists [concat els], els, tail. split; [reflexivity|]. split; [exists n, al, c, m, ml; auto|]. split; [exact R|].
    cbn [concat]. rewrite !app_nil_r. auto.
  - destruct R as (inner & more & -> & R). destruct (IH _ _ _ _ R) as (ds & els' & rest & L & C & K & E & Le' & Q').
    exists (concat els :: ds), (els ++ els'), rest. split; [cbn [length]; congruence|]. split.
    { destruct ds as [|d ds]; [discriminate|]. exists n, al, c, m, ml, inner, more. auto. }
    split; [exact K|]. split; [cbn [concat]; rewrite E, concat_app; reflexivity|].
    split; [apply Forall_app; auto|]. cbn [concat]. apply Forall2_app; assumption.
Qed.

Lemma pending_keeps : forall h h1 sz args ct d rest, pending h h1 sz args ct d rest -> keeps_values h h1.
Proof.
  intros h h1 sz args ct d rest P a n al v Al. apply alive_iff in Al. destruct Al as [N C].
  destruct (old_value _ _ _ _ _ _ _ _ _ _ _ P C N) as (n' & N' & C'). exists n'. apply alive_iff. auto.
Qed.
Lemma app_keeps : forall h k, keeps_values h (h ++ k).
Proof. intros h k a n al v Al. exists n. apply alive_app, Al. Qed.

Lemma cleanup_controlled : forall h h1 h2 sz args ct d rest cal cn cl c, pending h h1 sz args ct d rest ->
  alive h cal cn cl (VCall c) -> c_ctls c <> 0 -> undisturbed h1 h2 ->
  exists h', invoke_cleanup cal (Some args) h2 = HOk tt h' /\ undisturbed h h'.
Proof.
  intros h h1 h2 sz args ct d rest cal cn cl c P Ac Nz U.
  pose proof (call_kept _ _ _ _ _ _ _ _ _ _ _ P Ac) as C1.
  pose proof (undisturbed_len _ _ U) as L2. destruct U as [U1 U2].
  destruct P as (L & La & A1 & Hct & O & Gn).
  assert (K2 : nth_error h2 cal = Some (live cn cl (VCall c))) by (rewrite U1 by exact (nth_lt _ _ _ _ C1); exact C1).
  assert (A2 : nth_error h2 args = Some (live 1 0 (VTup (ptr_bytes (PObj ct) ++ rest)))) by (rewrite U1 by exact (nth_lt _ _ _ _ A1); exact A1).
  assert (Cv : exists m ml, m <> 0 /\ nth_error h1 ct = Some (live m ml (VArr sz d)) /\
      ((m = 1 /\ ml = 0 /\ length h <= ct) \/ (exists n, n <> 0 /\ m = S n /\ nth_error h ct = Some (live n ml (VArr sz d))))).
  { destruct Hct as [(m & ml & Nm & C & C2)|(Lc & _ & C2)]; [exists (S m), ml|exists 1, 0]; (split; [lia|]; split; [exact C2|]); [right; exists m; auto|left; auto]. }
  destruct Cv as (m & ml & Nm & Ct1 & Hm).
  assert (Nca : ct <> args). { intros X. rewrite X, A1 in Ct1. unfold live in Ct1. congruence. }
  assert (Ct2 : nth_error h2 ct = Some (live m ml (VArr sz d))) by (rewrite U1 by exact (nth_lt _ _ _ _ Ct1); exact Ct1).
  set (h3 := list_put h2 ct (if Nat.eqb m 1 then gone ml else live (m - 1) ml (VArr sz d))).
  set (h4 := list_put h3 args (gone 0)).
  assert (A3 : nth_error h3 args = Some (live 1 0 (VTup (ptr_bytes (PObj ct) ++ rest)))) by (unfold h3; rewrite nth_put_neq by exact Nca; exact A2).
  exists h4. split.
  { unfold invoke_cleanup. rewrite (bind_ok _ _ _ _ _ _ _ (get_call_live _ _ _ _ _ K2)).
    assert (Ln : Nat.ltb 0 (c_ctls c) = true) by (apply Nat.ltb_lt; lia). rewrite Ln.
    assert (X : hbind (tuple_ptr args 0) (fun ctls => update_counts ctls (-1) false) h2 = HOk tt h3).
    { rewrite (bind_ok _ _ _ _ _ _ _ (tuple_first _ _ _ _ _ _ A2)). apply release; [exact Nm|exact Ct2]. }
    rewrite (bind_ok _ _ _ _ _ _ _ X). rewrite (release _ _ _ _ _ (Nat.neq_succ_0 0) A3). reflexivity. }
  assert (L4 : length h4 = length h2) by (unfold h4, h3; rewrite !len_put; reflexivity).
  pose proof (nth_lt _ _ _ _ Ct2) as Lc2. pose proof (nth_lt _ _ _ _ A3) as La2.
  assert (Other : forall x, x <> ct -> x <> args -> nth_error h4 x = nth_error h2 x).
  { intros x D1 D2. unfold h4, h3. rewrite !nth_put_neq by congruence. reflexivity. }
  split.
  - intros x Lx. destruct (Nat.eq_dec x ct) as [->|Dx].
    + destruct Hm as [(_ & _ & X)|(n & Nn & -> & C)]; [lia|]. rewrite C.
      unfold h4. rewrite nth_put_neq by lia. unfold h3. rewrite nth_put_eq by exact Lc2.
      destruct (Nat.eqb_spec (S n) 1); [lia|]. replace (S n - 1) with n by lia. reflexivity.
    + rewrite Other by lia. rewrite U1 by lia. apply O; assumption.
  - intros x Lx Ux. rewrite L4 in Ux. destruct (Nat.eq_dec x args) as [->|Da].
    + apply gone_dropped. apply nth_put_eq, La2.
    + destruct (Nat.eq_dec x ct) as [->|Dc].
      * destruct Hm as [(-> & -> & _)|(n & Nn & -> & C)]; [|pose proof (nth_lt _ _ _ _ C); lia].
        apply gone_dropped. unfold h4. rewrite nth_put_neq by congruence. apply nth_put_eq, Lc2.
      * unfold dropped, freed. rewrite (Other x Dc Da). destruct (Nat.lt_ge_cases x (length h1)) as [Lt|Ge].
        -- rewrite (U1 x Lt). exact (gone_dropped _ _ (Gn x (conj Lx Lt) Da Dc)).
        -- exact (U2 x Ge Ux).
Qed.
Lemma cleanup_plain : forall h d h2 cal cn cl c, alive h cal cn cl (VCall c) -> c_ctls c = 0 ->
  undisturbed (h ++ [live 1 0 (VTup d)]) h2 ->
  exists h', invoke_cleanup cal (Some (length h)) h2 = HOk tt h' /\ undisturbed h h'.
Proof.
  intros h d h2 cal cn cl c Ac Z U. set (h1 := h ++ [live 1 0 (VTup d)]) in *.
  pose proof (undisturbed_len _ _ U) as L2. destruct U as [U1 U2].
  assert (L1 : length h1 = S (length h)) by (unfold h1; rewrite app_length; cbn; lia).
  pose proof (alive_app _ [live 1 0 (VTup d)] _ _ _ _ Ac) as C1. apply alive_iff in C1. destruct C1 as [_ C1]. fold h1 in C1.
  assert (A1 : nth_error h1 (length h) = Some (live 1 0 (VTup d))) by (unfold h1; rewrite nth_error_app2, Nat.sub_diag by lia; reflexivity).
  rewrite <- U1 in C1 by exact (nth_lt _ _ _ _ C1). rewrite <- U1 in A1 by lia.
  exists (list_put h2 (length h) (gone 0)). split.
  { unfold invoke_cleanup. rewrite (bind_ok _ _ _ _ _ _ _ (get_call_live _ _ _ _ _ C1)). rewrite Z. cbn [Nat.ltb Nat.leb].
    rewrite (bind_ok _ _ (hret tt) _ h2 tt h2 eq_refl). rewrite (release _ _ _ _ _ (Nat.neq_succ_0 0) A1). reflexivity. }
  split.
  - intros x Lx. rewrite nth_put_neq by lia. rewrite U1 by lia. unfold h1. apply nth_new, Lx.
  - intros x Lx Ux. rewrite len_put in Ux. destruct (Nat.eq_dec x (length h)) as [->|Dx].
    + apply gone_dropped, nth_put_eq, Ux.
    + unfold dropped, freed. rewrite nth_put_neq by congruence. apply (U2 x); lia.
Qed.

Lemma runs_clean : forall (r : qres unit) h h1 m (k : Hp unit), runs r h1 m ->
  (forall h2, undisturbed h1 h2 -> exists h', k h2 = HOk tt h' /\ undisturbed h h') ->
  runs (match r with QOk _ h' b' => mem k h' b' | QHFail t => QHFail t | QHPanic => QHPanic | QHUB => QHUB | QBErr e o => QBErr e o end) h m.
Proof.
  intros r h h1 m k R K. destruct m as [[] b'|e o]; cbn [runs] in *.
  - destruct R as (h2 & -> & U). destruct (K _ U) as (h' & E & U'). exists h'. split; [unfold mem; rewrite E; reflexivity|exact U'].
  - rewrite R. reflexivity.
Qed.

Lemma invoke_thm : lasting plain -> lasting ctld -> forall h cal cn cl c a css x b,
  alive h cal cn cl (VCall c) -> implements callee (c_table c) (c_capture c) plain ctld op ->
  c_ctls c = length css -> given plain ctld h a css x -> fits css ->
  runs (invoke callee cal (Some a) h b) h (op (c_adj c) (all_controls css) x b).
Proof.
  intros Lp Lc h cal cn cl c a css x b Ac [I0 I1] El G F. unfold invoke, qbind at 1. unfold mem at 1.
  destruct css as [|cs css].
  - destruct G as (n & al & d & Aa & P). rewrite (prepare_plain _ _ _ _ _ _ _ _ _ Ac El Aa).
    pose proof (alive_app _ [live 1 0 (VTup d)] _ _ _ _ Ac) as C1. apply alive_iff in C1.
    unfold qbind at 1. unfold mem at 1. rewrite (get_call_live _ _ _ _ _ (proj2 C1)). cbn [fst snd all_controls]. unfold qbind.
    apply runs_clean with (h1 := h ++ [live 1 0 (VTup d)]).
    + apply (I0 (c_adj c) (length h) 1 0 d); [apply alive_new|]. exact (Lp _ _ _ _ (app_keeps _ _) P).
    + intros h2. apply cleanup_plain with (cn := cn) (cl := cl) (c := c); assumption.
  - destruct (nested_controls _ _ _ _ _ G) as (ds & els & rest & Ld & C & K & E & Le & Q).
    assert (El' : c_ctls c = length ds) by (rewrite El, Ld; reflexivity).
    destruct (prepare_controlled _ _ _ _ _ _ _ _ _ Ac El' C) as (h1 & args & ct & P & Ep). rewrite Ep.
    pose proof (call_kept _ _ _ _ _ _ _ _ _ _ _ P Ac) as C1.
    unfold qbind at 1. unfold mem at 1. rewrite (get_call_live _ _ _ _ _ C1). cbn [fst snd all_controls]. unfold qbind.
    apply runs_clean with (h1 := h1).
    + replace ((if c_adj c then 1 else 0) + 2) with (if c_adj c then 3 else 2) by (destruct (c_adj c); reflexivity).
      assert (Cv : exists m ml, m <> 0 /\ nth_error h1 ct = Some (live m ml (VArr 8 (concat els)))).
      { destruct P as (_ & _ & _ & [(m & ml & Nm & _ & C2)|(_ & _ & C2)] & _); rewrite E in C2; [exists (S m), ml|exists 1, 0]; auto. }
      destruct Cv as (m & ml & Nm & C2).
      apply (I1 (c_adj c) args 1 0 ct rest (concat (cs :: css))).
      * apply alive_iff. split; [lia|exact (proj1 (proj2 (proj2 P)))].
      * exists m, ml, els. split; [split; [apply alive_iff; auto|exact Le]|]. split; [exact Q|].
        rewrite (forall2_len _ _ _ _ _ Q). exact F.
      * exact (Lc _ _ _ _ (pending_keeps _ _ _ _ _ _ _ P) K).
    + intros h2. apply cleanup_controlled with (sz := 8%Z) (ct := ct) (d := concat ds) (rest := rest) (cn := cn) (cl := cl) (c := c); [exact P|exact Ac|rewrite El'; lia].
Qed.

Lemma functors_invoke : lasting plain -> lasting ctld -> forall t m cap, implements callee t cap plain ctld op ->
  forall fs h cal cn cl, alive h cal cn cl (VCall (mkCallable t m cap false 0)) ->
  exists rs h', hexec (functors cal fs) h = HOk rs h' /\ others_same h h' cal /\
    forall a css x b, length css = count_occ bool_dec fs false -> given plain ctld h' a css x -> fits css ->
      runs (invoke callee cal (Some a) h' b) h' (op (Nat.odd (count_occ bool_dec fs true)) (all_controls css) x b).
Proof.
  intros Lp Lc t m cap I fs h cal cn cl Ac. destruct (functors_thm fs _ _ _ _ _ Ac) as (rs & h' & E & O & _ & A').
  exists rs, h'. split; [exact E|]. split; [exact O|]. cbn [c_adj c_ctls c_table c_mem c_capture] in A'. rewrite xorb_false_l in A'. cbn [Nat.add] in A'.
  intros a css x b El G F. exact (invoke_thm Lp Lc h' cal cn cl _ a css x b A' I (eq_sym El) G F).
Qed.
End Invocation.

Lemma dagger_ok : forall g g', adjoint_of g = Some g' -> gmat g' = dagger (gmat g).
Proof.
  intros g g' E. apply functional_extensionality; intro r. apply functional_extensionality; intro c.
  unfold dagger. destruct g; try discriminate; injection E as <-; destruct r, c; cbn; unfold C0, C1, Ci, Copp, rsqrt2, RtoC, Cis; cbn;
    rewrite ?cos_neg, ?sin_neg; f_equal; lra.
Qed.
Lemma one_qubit_lasting : lasting one_qubit.
Proof. intros h h1 d x _ P. exact P. Qed.

Section Gates.
Context {T : Tol} {EN : Env} {D : Doubles} {SW : Shows} {M : Mode}.
Lemma gates_thm : exact_world -> forall callee t m cap g g', adjoint_of g = Some g' -> implements callee t cap one_qubit one_qubit (gate_op g g') ->
  forall fs h cal cn cl, alive h cal cn cl (VCall (mkCallable t m cap false 0)) ->
  exists rs h', hexec (functors cal fs) h = HOk rs h' /\ others_same h h' cal /\
    forall a css q b l psi, let l' := opened (bmax b) l (q :: concat css) in
    length css = count_occ bool_dec fs false -> given one_qubit one_qubit h' a css q -> fits css ->
    breached b l -> bshows b l psi -> NoDup (q :: concat css) -> incl (q :: concat css) l' ->
    exists h2 b', invoke callee cal (Some a) h' b = QOk tt h2 b' /\ undisturbed h' h2 /\ breached b' l' /\
      bshows b' l' (cgate (concat css) (if Nat.odd (count_occ bool_dec fs true) then dagger (gmat g) else gmat g) q psi) /\ same_rest b b'.
Proof.
  intros EW callee t m cap g g' Eg I fs h cal cn cl Ac.
  destruct (functors_invoke callee one_qubit one_qubit (gate_op g g') one_qubit_lasting one_qubit_lasting t m cap I fs h cal cn cl Ac) as (rs & h' & E & O & K).
  exists rs, h'. split; [exact E|]. split; [exact O|]. intros a css q b l psi l' El G F R Sh Nd Inc.
  set (adj := Nat.odd (count_occ bool_dec fs true)) in *. set (g1 := if adj then g' else g).
  assert (Em : gmat g1 = if adj then dagger (gmat g) else gmat g) by (unfold g1; destruct adj; [apply dagger_ok, Eg|reflexivity]).
  specialize (K a css q b El G F). unfold gate_op in K. fold g1 in K. rewrite <- Em.
  set (c := gate_call g1 (all_controls css) q) in *.
  assert (Bn : bnames c = q :: concat css) by (unfold c; destruct css; reflexivity).
  assert (Bo : bop c = Some (cgate (concat css) (gmat g1) q)) by (unfold c; destruct css; reflexivity).
  assert (V : bvalid (mkBBook (bmax b) l) c) by (unfold c in *; destruct css; cbn [bvalid gate_call all_controls bb_max bb_live]; rewrite ?Bn; split; assumption).
  assert (Y : y_free b c).
  { intros x y. unfold c. destruct css; cbn [gate_call all_controls turns_y]; [|discriminate]. unfold g1.
    destruct adj, g; try discriminate; injection Eg as <-; discriminate. }
  destruct (op_thm EW b l psi c _ R Sh V Bo Y) as (b' & E1 & R' & S' & Re). rewrite E1 in K. destruct K as (h2 & E2 & U).
  rewrite Bn in R', S'. exists h2, b'. auto.
Qed.
End Gates.
