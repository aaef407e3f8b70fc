(** * Invocation of callables *)
From Coq Require Import ZArith List Bool Arith Lia.
From Verif Require Import Text Heap SpecHeap HeapLemmas HeapThms.
Import ListNotations.

Lemma ptr_bytes_len : forall p, length (ptr_bytes p) = 8.
Proof. intros. unfold ptr_bytes. rewrite map_length, seq_length. reflexivity. Qed.
Lemma ptr_of_bytes : forall p, ptr_of (ptr_bytes p) = Some p.
Proof. intros [a|a]; cbn; rewrite Nat.eqb_refl; reflexivity. Qed.
Lemma ptr_first : forall p t, ptr_of (firstn 8 (skipn (8 * 0) (ptr_bytes p ++ t))) = Some p.
Proof. intros p t. change (ptr_of (ptr_bytes p) = Some p). apply ptr_of_bytes. Qed.
Lemma ptr_second : forall p q t, ptr_of (firstn 8 (skipn (8 * 1) (ptr_bytes p ++ ptr_bytes q ++ t))) = Some q.
Proof. intros p q t. change (ptr_of (ptr_bytes q) = Some q). apply ptr_of_bytes. Qed.
Lemma splice_first : forall p q t, splice (ptr_bytes p ++ t) (8 * 0) (ptr_bytes q) = ptr_bytes q ++ t.
Proof. intros. reflexivity. Qed.

Section Calls.
Context {M : Mode}.
(** What invocation owes to the heap [h] it started from: [c] holds the controls gathered so far, [args] is the tuple. *)
Definition pending (h h1 : heap) (sz : Z) (args c : nat) (d tail : list mval) : Prop :=
  length h <= length h1 /\ length h <= args /\
  nth_error h1 args = Some (live 1 0 (VTup (ptr_bytes (PObj c) ++ tail))) /\
  ((exists n al, n <> 0 /\ nth_error h c = Some (live n al (VArr sz d)) /\ nth_error h1 c = Some (live (S n) al (VArr sz d))) \/
   (length h <= c /\ c <> args /\ nth_error h1 c = Some (live 1 0 (VArr sz d)))) /\
  (forall x, x < length h -> x <> c -> nth_error h1 x = nth_error h x) /\
  (forall x, length h <= x < length h1 -> x <> args -> x <> c -> nth_error h1 x = Some (gone 0)).

Lemma old_value : forall h h1 sz args c d tail x n al v, pending h h1 sz args c d tail ->
  nth_error h x = Some (live n al v) -> n <> 0 -> exists n', n' <> 0 /\ nth_error h1 x = Some (live n' al v).
Proof.
  intros h h1 sz args c d tail x n al v (_ & _ & _ & [(m & bl & _ & C & C1)|(Lc & _ & _)] & O & _) E N.
  - destruct (Nat.eq_dec x c) as [->|D].
    + rewrite C in E. unfold live in E. injection E as -> -> <-. exists (S n). split; [lia|exact C1].
    + exists n. split; [exact N|]. rewrite O; [exact E|exact (nth_lt _ _ _ _ E)|exact D].
  - exists n. split; [exact N|]. pose proof (nth_lt _ _ _ _ E). rewrite O; [exact E|assumption|lia].
Qed.
Lemma get_tup_live : forall h a n al d, nth_error h a = Some (live n al (VTup d)) -> get_tup a h = HOk d h.
Proof. intros h a n al d C. unfold get_tup. rewrite (bind_ok _ _ _ _ _ _ _ (get_live _ _ _ _ _ C)). reflexivity. Qed.
Lemma get_arr_live : forall h a n al sz d, nth_error h a = Some (live n al (VArr sz d)) -> get_arr a h = HOk (sz, d) h.
Proof. intros h a n al sz d C. unfold get_arr. rewrite (bind_ok _ _ _ _ _ _ _ (get_live _ _ _ _ _ C)). reflexivity. Qed.
Lemma get_call_live : forall h a n al c, nth_error h a = Some (live n al (VCall c)) -> get_call a h = HOk c h.
Proof. intros h a n al c C. unfold get_call. rewrite (bind_ok _ _ _ _ _ _ _ (get_live _ _ _ _ _ C)). reflexivity. Qed.
Lemma tuple_first : forall h a n al p t, nth_error h a = Some (live n al (VTup (ptr_bytes (PObj p) ++ t))) -> tuple_ptr a 0 h = HOk p h.
Proof.
  intros h a n al p t C. unfold tuple_ptr. rewrite (bind_ok _ _ _ _ _ _ _ (get_tup_live _ _ _ _ _ C)), ptr_first. reflexivity.
Qed.
Lemma tuple_second : forall h a n al p q t, nth_error h a = Some (live n al (VTup (ptr_bytes (PObj p) ++ ptr_bytes (PObj q) ++ t))) ->
  tuple_ptr a 1 h = HOk q h.
Proof.
  intros h a n al p q t C. unfold tuple_ptr. rewrite (bind_ok _ _ _ _ _ _ _ (get_tup_live _ _ _ _ _ C)), ptr_second. reflexivity.
Qed.
Lemma forced_copy : forall h a n al v, nth_error h a = Some (live n al v) -> rc_copy a true h = HOk (length h) (h ++ [live 1 0 v]).
Proof.
  intros h a n al v C. unfold rc_copy. rewrite (bind_ok _ _ _ _ _ _ _ (box_live _ _ _ _ _ C)). cbn [orb].
  rewrite (bind_ok _ _ _ _ _ _ _ (get_live _ _ _ _ _ C)). reflexivity.
Qed.
Lemma release : forall h a n al v, n <> 0 -> nth_error h a = Some (live n al v) ->
  update_counts a (-1) false h = HOk tt (list_put h a (if Nat.eqb n 1 then gone al else live (n - 1) al v)).
Proof.
  intros h a n al v N C. rewrite (ref_update h a n al v (-1) N C ltac:(lia)).
  destruct (Z.eqb_spec (Z.of_nat n + -1) 0); destruct (Nat.eqb_spec n 1); try lia; [reflexivity|].
  replace (Z.to_nat (Z.of_nat n + -1)) with (n - 1) by lia. reflexivity.
Qed.

Lemma merge_step : forall h h1 sz args c d inner tail n al ci cn cal d' tl k,
  pending h h1 sz args c d (ptr_bytes (PObj inner) ++ tail) ->
  alive h inner n al (VTup (ptr_bytes (PObj ci) ++ tl)) -> alive h ci cn cal (VArr sz d') ->
  exists h2 args' c', pending h h2 sz args' c' (d ++ d') tl /\ merge_controls (S k) args h1 = merge_controls k args' h2.
Proof.
  intros h h1 sz args c d inner tail n al ci cn cal d' tl k P Ai Ac.
  apply alive_iff in Ai. destruct Ai as [Ni Ci]. apply alive_iff in Ac. destruct Ac as [Nc Cc].
  destruct (old_value _ _ _ _ _ _ _ _ _ _ _ P Ci Ni) as [ni [Ni1 Ci1]].
  destruct (old_value _ _ _ _ _ _ _ _ _ _ _ P Cc Nc) as [nc [Nc1 Cc1]].
  destruct P as (L & La & A1 & Hc & O & Gn).
  assert (Cv : exists m ml, m <> 0 /\ nth_error h1 c = Some (live m ml (VArr sz d))).
  { destruct Hc as [(m & ml & Nm & _ & C1)|(_ & _ & C1)]; [exists (S m), ml|exists 1, 0]; auto. }
  destruct Cv as (m & ml & Nm & C1).
  pose proof (nth_lt _ _ _ _ A1) as La1. pose proof (nth_lt _ _ _ _ C1) as Lc1. pose proof (nth_lt _ _ _ _ Ci1) as Li1.
  assert (Nca : c <> args). { intros E. rewrite E, A1 in C1. unfold live in C1. congruence. }
  set (h2 := h1 ++ [live 1 0 (VArr sz (d ++ d'))]).
  set (h3 := h2 ++ [live 1 0 (VTup (ptr_bytes (PObj ci) ++ tl))]).
  set (na := length h1). set (nt := S na).
  assert (L2 : length h2 = nt) by (unfold h2, nt, na; rewrite app_length; cbn; lia).
  assert (L3 : length h3 = S nt) by (unfold h3; rewrite app_length, L2; cbn; lia).
  assert (O3 : forall x, x < na -> nth_error h3 x = nth_error h1 x).
  { intros x Lx. unfold h3, h2. rewrite !nth_new; [reflexivity|exact Lx|fold h2; rewrite L2; unfold nt; lia]. }
  assert (N3a : nth_error h3 na = Some (live 1 0 (VArr sz (d ++ d')))).
  { unfold h3. rewrite nth_new by (rewrite L2; unfold nt; lia). unfold h2, na. rewrite nth_error_app2, Nat.sub_diag by lia. reflexivity. }
  assert (N3t : nth_error h3 nt = Some (live 1 0 (VTup (ptr_bytes (PObj ci) ++ tl)))).
  { unfold h3. rewrite <- L2. rewrite nth_error_app2, Nat.sub_diag by lia. reflexivity. }
  set (h4 := list_put h3 nt (live 1 0 (VTup (ptr_bytes (PObj na) ++ tl)))).
  assert (O4 : forall x, x < na -> nth_error h4 x = nth_error h1 x).
  { intros x Lx. unfold h4. rewrite nth_put_neq by (unfold nt; lia). apply O3, Lx. }
  set (h5 := list_put h4 c (if Nat.eqb m 1 then gone ml else live (m - 1) ml (VArr sz d))).
  set (h6 := list_put h5 args (gone 0)).
  exists h6, nt, na. split.
  - unfold pending. assert (L6 : length h6 = S nt) by (unfold h6, h5, h4; rewrite !len_put; exact L3).
    assert (Lh : length h <= na) by (unfold na; exact L).
    assert (Lna : c < na /\ args < na) by (unfold na; lia).
    split; [rewrite L6; unfold nt; lia|]. split; [unfold nt; lia|].
    split; [unfold h6, h5, h4; rewrite nth_put_neq by (unfold nt; lia); rewrite nth_put_neq by (unfold nt; lia); apply nth_put_eq; lia|].
    split.
    { right. split; [lia|]. split; [unfold nt; lia|].
      unfold h6, h5, h4. rewrite nth_put_neq by lia. rewrite nth_put_neq by lia. rewrite nth_put_neq by (unfold nt; lia). exact N3a. }
    split.
    + intros x Lx Nx. unfold h6. rewrite nth_put_neq by lia. unfold h5. destruct (Nat.eq_dec c x) as [<-|Dx].
      * rewrite nth_put_eq by (unfold h4; rewrite len_put; lia).
        destruct Hc as [(m' & ml' & Nm' & C & C1')|(Lc & _ & _)]; [|lia].
        rewrite C1 in C1'. unfold live in C1'. injection C1' as -> ->. rewrite C.
        destruct (Nat.eqb_spec (S m') 1); [lia|]. replace (S m' - 1) with m' by lia. reflexivity.
      * rewrite nth_put_neq by exact Dx. rewrite O4 by lia. apply O; [exact Lx|congruence].
    + intros x [Lx Ux] D1 D2. assert (Lx' : x < na) by (rewrite L6 in Ux; unfold nt in D1, Ux; lia).
      unfold h6. destruct (Nat.eq_dec args x) as [<-|Dx].
      * apply nth_put_eq. unfold h5, h4. rewrite !len_put. lia.
      * rewrite nth_put_neq by exact Dx. unfold h5. destruct (Nat.eq_dec c x) as [<-|Dc].
        -- rewrite nth_put_eq by (unfold h4; rewrite len_put; lia).
           destruct Hc as [(m' & ml' & Nm' & C & C1')|(Lc & _ & C1')]; [pose proof (nth_lt _ _ _ _ C); lia|].
           rewrite C1 in C1'. unfold live in C1'. injection C1' as -> ->. reflexivity.
        -- rewrite nth_put_neq by exact Dc. rewrite O4 by exact Lx'. apply Gn; [split; [exact Lx|exact Lx']|congruence|congruence].
  - cbn [merge_controls].
    rewrite (bind_ok _ _ _ _ _ _ _ (tuple_first _ _ _ _ _ _ A1)).
    rewrite (bind_ok _ _ _ _ _ _ _ (tuple_second _ _ _ _ _ _ _ A1)).
    rewrite (bind_ok _ _ _ _ _ _ _ (tuple_first _ _ _ _ _ _ Ci1)).
    assert (Ec : array_concatenate c ci h1 = HOk na h2).
    { unfold array_concatenate. rewrite (bind_ok _ _ _ _ _ _ _ (get_arr_live _ _ _ _ _ _ C1)), (bind_ok _ _ _ _ _ _ _ (get_arr_live _ _ _ _ _ _ Cc1)).
      rewrite Z.eqb_refl. reflexivity. }
    rewrite (bind_ok _ _ _ _ _ _ _ Ec).
    assert (Ci2 : nth_error h2 inner = Some (live ni al (VTup (ptr_bytes (PObj ci) ++ tl)))) by (unfold h2; rewrite nth_new by exact Li1; exact Ci1).
    assert (Et : rc_copy inner true h2 = HOk nt h3) by (rewrite (forced_copy _ _ _ _ _ Ci2), L2; reflexivity).
    rewrite (bind_ok _ _ _ _ _ _ _ Et).
    assert (Es : set_tuple_ptr nt 0 na h3 = HOk tt h4).
    { unfold set_tuple_ptr. rewrite (bind_ok _ _ _ _ _ _ _ (get_tup_live _ _ _ _ _ N3t)).
      rewrite app_length, ptr_bytes_len. cbn [Nat.mul Nat.add Nat.leb]. rewrite (set_live _ _ _ _ _ N3t). reflexivity. }
    rewrite (bind_ok _ _ _ _ _ _ _ Es).
    assert (A4 : nth_error h4 args = Some (live 1 0 (VTup (ptr_bytes (PObj c) ++ ptr_bytes (PObj inner) ++ tail)))) by (rewrite O4 by exact La1; exact A1).
    rewrite (bind_ok _ _ _ _ _ _ _ (tuple_first _ _ _ _ _ _ A4)).
    assert (C4 : nth_error h4 c = Some (live m ml (VArr sz d))) by (rewrite O4 by exact Lc1; exact C1).
    rewrite (bind_ok _ _ _ _ _ _ _ (release _ _ _ _ _ Nm C4)). fold h5.
    assert (A5 : nth_error h5 args = Some (live 1 0 (VTup (ptr_bytes (PObj c) ++ ptr_bytes (PObj inner) ++ tail)))) by (unfold h5; rewrite nth_put_neq by congruence; exact A4).
    rewrite (bind_ok _ _ _ _ _ _ _ (release _ _ _ _ _ (Nat.neq_succ_0 0) A5)). reflexivity.
Qed.

Lemma merge_all : forall ds h h1 sz args c d inner tail rest,
  pending h h1 sz args c d (ptr_bytes (PObj inner) ++ tail) -> controls_at h sz inner ds rest ->
  exists h2 args' c', pending h h2 sz args' c' (d ++ concat ds) rest /\ merge_controls (length ds) args h1 = HOk args' h2.
Proof.
  induction ds as [|d1 ds IH]; intros h h1 sz args c d inner tail rest P Hc; [destruct Hc|].
  destruct ds as [|d2 ds].
  - destruct Hc as (n & al & ci & cn & cal & Ai & Ac).
    destruct (merge_step _ _ _ _ _ _ _ _ _ _ _ _ _ _ _ 0 P Ai Ac) as (h2 & a2 & c2 & P2 & E).
    exists h2, a2, c2. cbn [concat]. rewrite app_nil_r. split; [exact P2|]. exact E.
  - destruct Hc as (n & al & ci & cn & cal & inner2 & tail2 & Ai & Ac & Hr).
    destruct (merge_step _ _ _ _ _ _ _ _ _ _ _ _ _ _ _ (length (d2 :: ds)) P Ai Ac) as (h2 & a2 & c2 & P2 & E).
    destruct (IH _ _ _ _ _ _ _ _ _ P2 Hr) as (h3 & a3 & c3 & P3 & E3).
    exists h3, a3, c3. cbn [concat]. rewrite app_assoc. split; [exact P3|]. cbn [length] in *. rewrite E. exact E3.
Qed.

Lemma prepare_controlled : forall h cal cn cl c a sz ds rest, alive h cal cn cl (VCall c) -> c_ctls c = length ds ->
  controls_at h sz a ds rest ->
  exists h1 args ct, pending h h1 sz args ct (concat ds) rest /\
    invoke_prepare cal (Some a) h = HOk ((if c_adj c then 1 else 0) + 2, Some args) h1.
Proof.
  intros h cal cn cl c a sz ds rest Ac El Hc. apply alive_iff in Ac. destruct Ac as [Nc Cc].
  assert (Hd : exists d ds' n al ct m ml tail, ds = d :: ds' /\ alive h a n al (VTup (ptr_bytes (PObj ct) ++ tail)) /\
             alive h ct m ml (VArr sz d) /\
             ((ds' = [] /\ tail = rest) \/ exists inner t, tail = ptr_bytes (PObj inner) ++ t /\ controls_at h sz inner ds' rest)).
  { destruct ds as [|d [|d' ds]]; [destruct Hc| |].
    - destruct Hc as (n & al & ct & m & ml & A & B). exists d, [], n, al, ct, m, ml, rest. split; [reflexivity|]. split; [exact A|]. split; [exact B|]. left. auto.
    - destruct Hc as (n & al & ct & m & ml & inner & t & A & B & R).
      exists d, (d' :: ds), n, al, ct, m, ml, (ptr_bytes (PObj inner) ++ t). split; [reflexivity|]. split; [exact A|]. split; [exact B|].
      right. exists inner, t. auto. }
  destruct Hd as (d & ds' & n & al & ct & m & ml & tail & -> & Aa & At & Hr).
  apply alive_iff in Aa. destruct Aa as [Na Ca]. apply alive_iff in At. destruct At as [Nt Ct].
  pose proof (nth_lt _ _ _ _ Ct) as Lt.
  set (h1 := h ++ [live 1 0 (VTup (ptr_bytes (PObj ct) ++ tail))]).
  set (h2 := list_put h1 ct (live (S m) ml (VArr sz d))).
  assert (L1 : length h1 = S (length h)) by (unfold h1; rewrite app_length; cbn; lia).
  assert (A1 : nth_error h1 (length h) = Some (live 1 0 (VTup (ptr_bytes (PObj ct) ++ tail)))) by (unfold h1; rewrite nth_error_app2, Nat.sub_diag by lia; reflexivity).
  assert (C1 : nth_error h1 ct = Some (live m ml (VArr sz d))) by (unfold h1; rewrite nth_new by exact Lt; exact Ct).
  assert (P : pending h h2 sz (length h) ct d tail).
  { unfold pending. unfold h2. rewrite len_put, L1. split; [lia|]. split; [lia|].
    split; [rewrite nth_put_neq by lia; exact A1|].
    split; [left; exists m, ml; split; [exact Nt|split; [exact Ct|apply nth_put_eq; lia]]|].
    split; [intros x Lx Nx; rewrite nth_put_neq by congruence; unfold h1; apply nth_new, Lx|]. intros x Lx Nx _. lia. }
  assert (E : invoke_prepare cal (Some a) h =
    hbind (merge_controls (length ds') (length h)) (fun copy' => hret ((if c_adj c then 1 else 0) + 2, Some copy')) h2).
  { unfold invoke_prepare. rewrite (bind_ok _ _ _ _ _ _ _ (get_call_live _ _ _ _ _ Cc)). rewrite El. cbn [length Nat.ltb Nat.leb].
    rewrite (bind_ok _ _ _ _ _ _ _ (forced_copy _ _ _ _ _ Ca)). fold h1.
    rewrite (bind_ok _ _ _ _ _ _ _ (tuple_first _ _ _ _ _ _ A1)).
    assert (U : update_counts ct 1 false h1 = HOk tt h2).
    { rewrite (ref_update h1 ct m ml _ 1 Nt C1 ltac:(lia)). destruct (Z.eqb_spec (Z.of_nat m + 1) 0); [lia|].
      replace (Z.to_nat (Z.of_nat m + 1)) with (S m) by lia. reflexivity. }
    rewrite (bind_ok _ _ _ _ _ _ _ U). reflexivity. }
  destruct Hr as [[-> ->]|(inner & t & -> & Hr)].
  - exists h2, (length h), ct. cbn [concat]. rewrite app_nil_r. split; [exact P|]. rewrite E. reflexivity.
  - destruct (merge_all _ _ _ _ _ _ _ _ _ _ P Hr) as (h3 & a3 & c3 & P3 & E3).
    exists h3, a3, c3. cbn [concat]. split; [exact P3|]. rewrite E, (bind_ok _ _ _ _ _ _ _ E3). reflexivity.
Qed.

(** The callable survives preparation. *)
Lemma call_kept : forall h h1 sz args ct d rest cal cn cl c, pending h h1 sz args ct d rest -> alive h cal cn cl (VCall c) ->
  nth_error h1 cal = Some (live cn cl (VCall c)).
Proof.
  intros h h1 sz args ct d rest cal cn cl c (L & La & A1 & Hc & O & G) Ac. apply alive_iff in Ac. destruct Ac as [N C].
  rewrite O; [exact C|exact (nth_lt _ _ _ _ C)|]. intros ->. destruct Hc as [(m & ml & _ & C' & _)|(Lc & _)].
  - rewrite C in C'. unfold live in C'. congruence.
  - pose proof (nth_lt _ _ _ _ C). lia.
Qed.

Lemma selects_controlled : forall h cal cn cl c a sz ds rest, alive h cal cn cl (VCall c) -> c_ctls c = length ds ->
  controls_at h sz a ds rest ->
  exists h1 args ct n al k, alive h1 args 1 0 (VTup (ptr_bytes (PObj ct) ++ rest)) /\ alive h1 ct n al (VArr sz (concat ds)) /\
    forall callee, callable_invoke callee cal (Some a) h =
      hbind (callee (c_table c) ((if c_adj c then 1 else 0) + 2) (c_capture c) (Some args)) (fun _ => k) h1.
Proof.
  intros h cal cn cl c a sz ds rest Ac El Hc.
  destruct (prepare_controlled _ _ _ _ _ _ _ _ _ Ac El Hc) as (h1 & args & ct & P & E).
  pose proof (call_kept _ _ _ _ _ _ _ _ _ _ _ P Ac) as C1.
  assert (Cv : exists m ml, m <> 0 /\ nth_error h1 ct = Some (live m ml (VArr sz (concat ds)))).
  { destruct P as (_ & _ & _ & [(m & ml & Nm & _ & C2)|(_ & _ & C2)] & _); [exists (S m), ml|exists 1, 0]; auto. }
  destruct Cv as (m & ml & Nm & C2).
  exists h1, args, ct, m, ml, (invoke_cleanup cal (Some args)).
  split; [apply alive_iff; split; [lia|exact (proj1 (proj2 (proj2 P)))]|]. split; [apply alive_iff; auto|].
  intros callee. unfold callable_invoke. rewrite (bind_ok _ _ _ _ _ _ _ E), (bind_ok _ _ _ _ _ _ _ (get_call_live _ _ _ _ _ C1)). reflexivity.
Qed.
Lemma prepare_plain : forall h cal cn cl c a n al d, alive h cal cn cl (VCall c) -> c_ctls c = 0 -> alive h a n al (VTup d) ->
  invoke_prepare cal (Some a) h = HOk ((if c_adj c then 1 else 0), Some (length h)) (h ++ [live 1 0 (VTup d)]).
Proof.
  intros h cal cn cl c a n al d Ac Z Aa. apply alive_iff in Ac. destruct Ac as [Nc Cc]. apply alive_iff in Aa. destruct Aa as [Na Ca].
  unfold invoke_prepare. rewrite (bind_ok _ _ _ _ _ _ _ (get_call_live _ _ _ _ _ Cc)). rewrite Z. cbn [Nat.ltb Nat.leb]. rewrite Nat.add_0_r.
  rewrite (bind_ok _ _ _ _ _ _ _ (forced_copy _ _ _ _ _ Ca)). reflexivity.
Qed.
Lemma selects_plain : forall h cal cn cl c a n al d, alive h cal cn cl (VCall c) -> c_ctls c = 0 -> alive h a n al (VTup d) ->
  exists h1 args k, args <> a /\ alive h1 args 1 0 (VTup d) /\
    forall callee, callable_invoke callee cal (Some a) h =
      hbind (callee (c_table c) (if c_adj c then 1 else 0) (c_capture c) (Some args)) (fun _ => k) h1.
Proof.
  intros h cal cn cl c a n al d Ac Z Aa.
  exists (h ++ [live 1 0 (VTup d)]), (length h), (invoke_cleanup cal (Some (length h))).
  split; [pose proof (alive_lt _ _ _ _ _ Aa); lia|]. split; [apply alive_new|].
  intros callee. unfold callable_invoke. rewrite (bind_ok _ _ _ _ _ _ _ (prepare_plain _ _ _ _ _ _ _ _ _ Ac Z Aa)).
  pose proof (alive_app _ [live 1 0 (VTup d)] _ _ _ _ Ac) as Ac'. apply alive_iff in Ac'.
  rewrite (bind_ok _ _ _ _ _ _ _ (get_call_live _ _ _ _ _ (proj2 Ac'))). reflexivity.
Qed.
Lemma selects_null : forall h cal cn cl c, alive h cal cn cl (VCall c) -> c_ctls c = 0 ->
  exists k, forall callee, callable_invoke callee cal None h =
      hbind (callee (c_table c) (if c_adj c then 1 else 0) (c_capture c) None) (fun _ => k) h.
Proof.
  intros h cal cn cl c Ac Z. apply alive_iff in Ac. destruct Ac as [Nc Cc].
  exists (invoke_cleanup cal None). intros callee. unfold callable_invoke.
  assert (E : invoke_prepare cal None h = HOk (if c_adj c then 1 else 0, None) h).
  { unfold invoke_prepare. rewrite (bind_ok _ _ _ _ _ _ _ (get_call_live _ _ _ _ _ Cc)). rewrite Z. cbn [Nat.ltb Nat.leb]. rewrite Nat.add_0_r. reflexivity. }
  rewrite (bind_ok _ _ _ _ _ _ _ E), (bind_ok _ _ _ _ _ _ _ (get_call_live _ _ _ _ _ Cc)). reflexivity.
Qed.

(** ** Functors *)
Lemma functors_thm : forall fs h a n al c, alive h a n al (VCall c) ->
  exists rs h', hexec (map (fun f : bool => if f then HAdjoint a else HControlled a) fs) h = HOk rs h' /\
    others_same h h' a /\ length h' = length h /\
    alive h' a n al (VCall (mkCallable (c_table c) (c_mem c) (c_capture c)
       (xorb (c_adj c) (Nat.odd (count_occ bool_dec fs true))) (c_ctls c + count_occ bool_dec fs false))).
Proof.
  induction fs as [|f fs IH]; intros h a n al c A.
  - exists [], h. split; [reflexivity|]. split; [intros b _ _; reflexivity|]. split; [reflexivity|].
    cbn. rewrite xorb_false_r, Nat.add_0_r. destruct c. exact A.
  - pose proof A as A'. apply alive_iff in A'. destruct A' as [N C]. cbn [map hexec].
    set (c1 := if f then mkCallable (c_table c) (c_mem c) (c_capture c) (negb (c_adj c)) (c_ctls c)
               else mkCallable (c_table c) (c_mem c) (c_capture c) (c_adj c) (S (c_ctls c))).
    assert (E : hcall1 (if f then HAdjoint a else HControlled a) h = HOk RUnit (list_put h a (live n al (VCall c1)))).
    { destruct f; cbn [hcall1]; unfold runit, callable_make_adjoint, callable_make_controlled; unfold hbind at 1;
        rewrite (bind_ok _ _ _ _ _ _ _ (get_call_live _ _ _ _ _ C)), (set_live _ _ _ _ _ C); reflexivity. }
    rewrite (bind_ok _ _ _ _ _ _ _ E).
    destruct (IH _ _ _ _ c1 (alive_put _ _ _ _ _ _ al (VCall c1) A N)) as (rs & h' & E' & O & L & A1).
    exists (RUnit :: rs), h'. split; [rewrite (bind_ok _ _ _ _ _ _ _ E'); reflexivity|].
    split. { intros b D Lb. rewrite O; [apply nth_put_neq; congruence|exact D|rewrite len_put; exact Lb]. }
    split; [rewrite L; apply len_put|].
    unfold c1 in A1. destruct f; cbn [c_table c_mem c_capture c_adj c_ctls count_occ] in *.
    + destruct (bool_dec true true); [|congruence]. destruct (bool_dec true false); [congruence|].
      rewrite Nat.odd_succ, <- Nat.negb_odd. rewrite negb_xorb_l in A1 || idtac.
      replace (xorb (c_adj c) (negb (Nat.odd (count_occ bool_dec fs true)))) with (xorb (negb (c_adj c)) (Nat.odd (count_occ bool_dec fs true)))
        by (destruct (c_adj c), (Nat.odd (count_occ bool_dec fs true)); reflexivity). exact A1.
    + destruct (bool_dec false true); [congruence|]. destruct (bool_dec false false); [|congruence].
      rewrite Nat.add_succ_r. exact A1.
Qed.

(** ** Counts after invocation *)
Lemma counts_none : forall h h' cal args x, balanced h h' cal args -> x < length h ->
  forall c, nth_error h x = Some c -> exists c', nth_error h' x = Some c' /\ strong c' = strong c /\ weak c' = weak c /\ held c' = held c /\ (val c' = None <-> val c = None).
Proof.
  intros h h' cal args x (_ & S & _) L c E. destruct (S x L) as (c0 & c' & E0 & E' & R). rewrite E in E0. injection E0 as <-. exists c'. auto.
Qed.
Lemma live_form : forall c n al, strong c = n -> weak c = S al -> held c = true -> val c <> None -> exists v, c = live n al v.
Proof. intros [s w hd [v|]] n al; cbn; intros; [|congruence]. exists v. subst. unfold live. reflexivity. Qed.
Lemma same_refl : forall h a c, nth_error h a = Some c -> same_counts h h a.
Proof. intros h a c E. exists c, c. tauto. Qed.
Lemma gone_dropped : forall h a, nth_error h a = Some (gone 0) -> dropped h a /\ freed h a.
Proof. intros h a E. split; exists (gone 0); auto. Qed.

Lemma invoke_controlled : forall callee h cal cn cl c a sz ds rest, alive h cal cn cl (VCall c) -> c_ctls c = length ds ->
  controls_at h sz a ds rest ->
  gives_back callee cal ->
  (exists h', callable_invoke callee cal (Some a) h = HOk tt h' /\ length h <= length h' /\
    (forall x, x < length h -> same_counts h h' x) /\
    (forall x, length h <= x < length h' -> dropped h' x /\ freed h' x)) \/
  (exists i args h1, callable_invoke callee cal (Some a) h = callee (c_table c) i (c_capture c) args h1 /\
    forall h2, callee (c_table c) i (c_capture c) args h1 <> HOk tt h2).
Proof.
  intros callee h cal cn cl c a sz ds rest Ac El Hc Bal.
  destruct (prepare_controlled _ _ _ _ _ _ _ _ _ Ac El Hc) as (h1 & args & ct & P & E).
  pose proof (call_kept _ _ _ _ _ _ _ _ _ _ _ P Ac) as C1.
  destruct (callee (c_table c) ((if c_adj c then 1 else 0) + 2) (c_capture c) (Some args) h1) as [[] h2| | |] eqn:E2;
    try (right; exists ((if c_adj c then 1 else 0) + 2), (Some args), h1; split; [|rewrite E2; discriminate];
         unfold callable_invoke; rewrite (bind_ok _ _ _ _ _ _ _ E), (bind_ok _ _ _ _ _ _ _ (get_call_live _ _ _ _ _ C1));
         unfold hbind; cbn [fst snd]; rewrite E2; reflexivity).
  left. assert (Xa : forall x, Some args = Some x -> x < length h1) by (intros x X; injection X as <-; exact (nth_lt _ _ _ _ (proj1 (proj2 (proj2 P))))).
  pose proof (Bal _ _ _ _ _ _ (nth_lt _ _ _ _ C1) Xa E2) as B.
  pose proof B as B'. destruct B' as (L2 & S2 & G2 & K2 & A2).
  destruct P as (L & La & A1 & Hct & O & Gn).
  rewrite C1 in K2. rewrite A1 in A2.
  assert (Cv : exists m ml, m <> 0 /\ nth_error h1 ct = Some (live m ml (VArr sz (concat ds))) /\
      ((m = 1 /\ ml = 0 /\ length h <= ct) \/ (exists n, n <> 0 /\ m = S n /\ nth_error h ct = Some (live n ml (VArr sz (concat ds)))))).
  { destruct Hct as [(m & ml & Nm & C & C2)|(Lc & _ & C2)]; [exists (S m), ml|exists 1, 0]; (split; [lia|]; split; [exact C2|]); [right; exists m; auto|left; auto]. }
  destruct Cv as (m & ml & Nm & Ct1 & Hm).
  assert (Nca : ct <> args). { intros X. rewrite X, A1 in Ct1. unfold live in Ct1. congruence. }
  destruct (counts_none _ _ _ _ ct B (nth_lt _ _ _ _ Ct1) _ Ct1) as (c2 & Ec2 & R1 & R2 & R3 & R4).
  destruct (live_form c2 m ml) as [v2 ->]; [exact R1|exact R2|exact R3|intros X; apply R4 in X; discriminate|].
  set (h3 := list_put h2 ct (if Nat.eqb m 1 then gone ml else live (m - 1) ml v2)).
  set (h4 := list_put h3 args (gone 0)).
  assert (A3 : nth_error h3 args = Some (live 1 0 (VTup (ptr_bytes (PObj ct) ++ rest)))) by (unfold h3; rewrite nth_put_neq by exact Nca; exact A2).
  exists h4. split.
  { unfold callable_invoke. rewrite (bind_ok _ _ _ _ _ _ _ E), (bind_ok _ _ _ _ _ _ _ (get_call_live _ _ _ _ _ C1)).
    cbn [fst snd]. rewrite (bind_ok _ _ _ _ _ _ _ E2). unfold invoke_cleanup.
    rewrite (bind_ok _ _ _ _ _ _ _ (get_call_live _ _ _ _ _ K2)). rewrite El.
    assert (Ln : Nat.ltb 0 (length ds) = true) by (apply Nat.ltb_lt; destruct ds; [destruct Hc|cbn; lia]). rewrite Ln.
    assert (U : hbind (tuple_ptr args 0) (fun ctls => update_counts ctls (-1) false) h2 = HOk tt h3).
    { rewrite (bind_ok _ _ _ _ _ _ _ (tuple_first _ _ _ _ _ _ A2)). apply release; [exact Nm|exact Ec2]. }
    rewrite (bind_ok _ _ _ _ _ _ _ U). rewrite (release _ _ _ _ _ (Nat.neq_succ_0 0) A3). reflexivity. }
  assert (L4 : length h4 = length h2) by (unfold h4, h3; rewrite !len_put; reflexivity).
  assert (Lc2 : ct < length h2) by (exact (nth_lt _ _ _ _ Ec2)).
  assert (La2 : args < length h3) by (exact (nth_lt _ _ _ _ A3)).
  assert (Other : forall x, x <> ct -> x <> args -> nth_error h4 x = nth_error h2 x).
  { intros x D1 D2. unfold h4, h3. rewrite !nth_put_neq by congruence. reflexivity. }
  split; [lia|]. split.
  - intros x Lx. destruct (Nat.eq_dec x ct) as [->|Dx].
    + destruct Hm as [(_ & _ & X)|(n & Nn & -> & C)]; [lia|].
      exists (live n ml (VArr sz (concat ds))), (live n ml v2). split; [exact C|].
      split; [|cbn; repeat split; congruence].
      unfold h4. rewrite nth_put_neq by lia. unfold h3. rewrite nth_put_eq by exact Lc2.
      destruct (Nat.eqb_spec (S n) 1); [lia|]. replace (S n - 1) with n by lia. reflexivity.
    + assert (X : exists y, nth_error h x = Some y) by (destruct (nth_error h x) as [y|] eqn:Ey; [eauto|apply nth_error_None in Ey; lia]).
      destruct X as [y Ey]. assert (Ey1 : nth_error h1 x = Some y) by (rewrite O; auto).
      destruct (counts_none _ _ _ _ x B (nth_lt _ _ _ _ Ey1) _ Ey1) as (y2 & Ey2 & R).
      exists y, y2. split; [exact Ey|]. split; [rewrite Other by lia; exact Ey2|exact R].
  - intros x [Lx Ux]. rewrite L4 in Ux. destruct (Nat.eq_dec x args) as [->|Da].
    + apply gone_dropped. apply nth_put_eq, La2.
    + destruct (Nat.eq_dec x ct) as [->|Dc].
      * destruct Hm as [(-> & -> & _)|(n & Nn & -> & C)]; [|pose proof (nth_lt _ _ _ _ C); lia].
        apply gone_dropped. unfold h4. rewrite nth_put_neq by congruence. apply nth_put_eq, Lc2.
      * unfold dropped, freed. rewrite (Other x Dc Da). destruct (Nat.lt_ge_cases x (length h1)) as [Lt|Ge].
        -- assert (Eg : nth_error h1 x = Some (gone 0)) by (apply Gn; auto).
           destruct (counts_none _ _ _ _ x B Lt _ Eg) as (y2 & Ey2 & Q1 & Q2 & Q3 & Q4). cbn in Q1, Q2, Q3, Q4.
           split; exists y2; tauto.
        -- exact (G2 x (conj Ge Ux)).
Qed.
Lemma invoke_plain : forall callee h cal cn cl c a n al d, alive h cal cn cl (VCall c) -> c_ctls c = 0 -> alive h a n al (VTup d) ->
  gives_back callee cal ->
  (exists h', callable_invoke callee cal (Some a) h = HOk tt h' /\ length h <= length h' /\
    (forall x, x < length h -> same_counts h h' x) /\
    (forall x, length h <= x < length h' -> dropped h' x /\ freed h' x)) \/
  (exists i args h1, callable_invoke callee cal (Some a) h = callee (c_table c) i (c_capture c) args h1 /\
    forall h2, callee (c_table c) i (c_capture c) args h1 <> HOk tt h2).
Proof.
  intros callee h cal cn cl c a n al d Ac Z Aa Bal.
  set (h1 := h ++ [live 1 0 (VTup d)]).
  pose proof (prepare_plain _ _ _ _ _ _ _ _ _ Ac Z Aa) as E. fold h1 in E.
  pose proof (alive_app _ [live 1 0 (VTup d)] _ _ _ _ Ac) as C1. apply alive_iff in C1. destruct C1 as [_ C1]. fold h1 in C1.
  destruct (callee (c_table c) (if c_adj c then 1 else 0) (c_capture c) (Some (length h)) h1) as [[] h2| | |] eqn:E2;
    try (right; exists (if c_adj c then 1 else 0), (Some (length h)), h1; split; [|rewrite E2; discriminate];
         unfold callable_invoke; rewrite (bind_ok _ _ _ _ _ _ _ E), (bind_ok _ _ _ _ _ _ _ (get_call_live _ _ _ _ _ C1));
         unfold hbind; cbn [fst snd]; rewrite E2; reflexivity).
  left. assert (Xa : forall x, Some (length h) = Some x -> x < length h1) by (intros x X; injection X as <-; unfold h1; rewrite app_length; cbn; lia).
  pose proof (Bal _ _ _ _ _ _ (nth_lt _ _ _ _ C1) Xa E2) as B.
  pose proof B as B'. destruct B' as (L2 & S2 & G2 & K2 & A2).
  assert (L1 : length h1 = S (length h)) by (unfold h1; rewrite app_length; cbn; lia).
  assert (A1 : nth_error h1 (length h) = Some (live 1 0 (VTup d))) by (unfold h1; rewrite nth_error_app2, Nat.sub_diag by lia; reflexivity).
  rewrite A1 in A2. rewrite C1 in K2.
  set (h3 := list_put h2 (length h) (gone 0)). exists h3. split.
  { unfold callable_invoke. rewrite (bind_ok _ _ _ _ _ _ _ E), (bind_ok _ _ _ _ _ _ _ (get_call_live _ _ _ _ _ C1)).
    cbn [fst snd]. rewrite (bind_ok _ _ _ _ _ _ _ E2). unfold invoke_cleanup.
    rewrite (bind_ok _ _ _ _ _ _ _ (get_call_live _ _ _ _ _ K2)). rewrite Z. cbn [Nat.ltb Nat.leb].
    rewrite (bind_ok _ _ (hret tt) _ h2 tt h2 eq_refl). rewrite (release _ _ _ _ _ (Nat.neq_succ_0 0) A2). reflexivity. }
  assert (L3 : length h3 = length h2) by (apply len_put).
  split; [lia|]. split.
  - intros x Lx. assert (X : exists y, nth_error h x = Some y) by (destruct (nth_error h x) as [y|] eqn:Ey; [eauto|apply nth_error_None in Ey; lia]).
    destruct X as [y Ey]. assert (Ey1 : nth_error h1 x = Some y) by (unfold h1; rewrite nth_new by exact Lx; exact Ey).
    destruct (counts_none _ _ _ _ x B (nth_lt _ _ _ _ Ey1) _ Ey1) as (y2 & Ey2 & R).
    exists y, y2. split; [exact Ey|]. split; [unfold h3; rewrite nth_put_neq by lia; exact Ey2|exact R].
  - intros x [Lx Ux]. rewrite L3 in Ux. destruct (Nat.eq_dec x (length h)) as [->|Da].
    + apply gone_dropped. apply nth_put_eq. exact (nth_lt _ _ _ _ A2).
    + unfold dropped, freed, h3. rewrite nth_put_neq by congruence. apply (G2 x). lia.
Qed.
End Calls.
