(** * Lemmas on reference-counted objects *)
From Coq Require Import ZArith List Bool Arith Lia.
From Verif Require Import Text Heap SpecHeap.
Import ListNotations.

Lemma nth_put : forall A (l : list A) i x j,
  nth_error (list_put l i x) j = if Nat.eqb i j then (match nth_error l i with Some _ => Some x | None => None end) else nth_error l j.
Proof.
  induction l as [|y l IH]; intros [|i] x [|j]; cbn; try reflexivity; try (destruct (Nat.eqb i j); reflexivity).
  apply IH.
Qed.
Lemma len_put : forall A (l : list A) i x, length (list_put l i x) = length l.
Proof. induction l as [|y l IH]; intros [|i] x; cbn; auto. Qed.
Lemma nth_put_eq : forall A (l : list A) i x, i < length l -> nth_error (list_put l i x) i = Some x.
Proof.
  intros A l i x L. rewrite nth_put, Nat.eqb_refl. destruct (nth_error l i) eqn:E; [reflexivity|].
  apply nth_error_None in E. lia.
Qed.
Lemma nth_put_neq : forall A (l : list A) i x j, i <> j -> nth_error (list_put l i x) j = nth_error l j.
Proof. intros A l i x j N. rewrite nth_put. destruct (Nat.eqb_spec i j); [contradiction|reflexivity]. Qed.
Lemma put_put : forall A (l : list A) i x y, list_put (list_put l i x) i y = list_put l i y.
Proof. induction l as [|z l IH]; intros [|i] x y; cbn; try reflexivity. now rewrite IH. Qed.
Lemma put_same : forall A (l : list A) i x, nth_error l i = Some x -> list_put l i x = l.
Proof. induction l as [|z l IH]; intros [|i] x E; cbn in *; try congruence. rewrite IH; auto. Qed.
Lemma nth_lt : forall A (l : list A) i x, nth_error l i = Some x -> i < length l.
Proof. intros A l i x E. apply nth_error_Some. congruence. Qed.
Lemma nth_change : forall l a f b,
  nth_error (change l a f) b = if Nat.eqb a b then option_map f (nth_error l b) else nth_error l b.
Proof.
  induction l as [|e l IH]; intros [|a] f [|b]; cbn; try reflexivity; try (destruct (Nat.eqb a b); reflexivity).
  apply IH.
Qed.
Lemma len_change : forall l a f, length (change l a f) = length l.
Proof. induction l as [|e l IH]; intros [|a] f; cbn; auto. Qed.

(** ** Cells *)
Definition live (n al : nat) (v : hval) : cell := mkCell n (S al) true (Some v).
Definition gone (al : nat) : cell := mkCell 0 al (negb (Nat.eqb al 0)) None.
Lemma alive_iff : forall h a n al v, alive h a n al v <-> n <> 0 /\ nth_error h a = Some (live n al v).
Proof.
  intros h a n al v. split.
  - intros [N [[s w hd vl] [E [H1 [H2 [H3 [H4 H5]]]]]]]. unfold weak_count in H3. cbn in *. subst. split; [exact N|].
    rewrite E. unfold live. repeat f_equal. lia.
  - intros [N E]. split; [exact N|]. exists (live n al v). cbn. unfold weak_count. cbn. repeat split; auto. lia.
Qed.

(** Safe: never undefined behaviour, and the result satisfies [Q]. *)
Definition safe {X} (m : Hp X) (h : heap) (Q : X -> heap -> Prop) : Prop :=
  match m h with HOk x h' => Q x h' | HUB => False | _ => True end.
Lemma safe_bind : forall X Y (m : Hp X) (f : X -> Hp Y) h Q,
  safe m h (fun x h' => safe (f x) h' Q) -> safe (hbind m f) h Q.
Proof. intros X Y m f h Q. unfold safe, hbind. destruct (m h); auto. Qed.
Lemma safe_ok : forall X (m : Hp X) h (Q : X -> heap -> Prop) x h', m h = HOk x h' -> Q x h' -> safe m h Q.
Proof. intros X m h Q x h' E Hq. unfold safe. now rewrite E. Qed.
Lemma safe_ret : forall X (x : X) h (Q : X -> heap -> Prop), Q x h -> safe (hret x) h Q.
Proof. intros. exact H. Qed.
Lemma bind_ok : forall X Y (m : Hp X) (f : X -> Hp Y) h x h', m h = HOk x h' -> hbind m f h = f x h'.
Proof. intros X Y m f h x h' E. unfold hbind. now rewrite E. Qed.

Section Cells.
Variables (h : heap) (a n al : nat) (v : hval).
Hypothesis C : nth_error h a = Some (live n al v).

Lemma box_live : box a h = HOk (live n al v) h.
Proof. unfold box. now rewrite C. Qed.
Lemma get_live : get_val a h = HOk v h.
Proof. unfold get_val. now rewrite C. Qed.
Lemma set_live : forall w, set_val a w h = HOk tt (list_put h a (live n al w)).
Proof. intros w. unfold set_val. rewrite (bind_ok _ _ _ _ _ _ _ box_live). reflexivity. Qed.
Lemma inc_strong_live : n <> 0 -> inc_strong a h = HOk tt (list_put h a (live (S n) al v)).
Proof. intros N. unfold inc_strong. rewrite (bind_ok _ _ _ _ _ _ _ box_live). cbn. case_eq n; [congruence|reflexivity]. Qed.
Lemma dec_strong_live : n <> 0 -> n <> 1 -> dec_strong a h = HOk tt (list_put h a (live (n - 1) al v)).
Proof.
  intros N N1. unfold dec_strong. rewrite (bind_ok _ _ _ _ _ _ _ box_live). cbn. case_eq n; [congruence|]. intros m E. case_eq m; [congruence|]. intros k E'.
  cbn. reflexivity.
Qed.
Lemma dec_strong_last : n = 1 -> dec_strong a h = HOk tt (list_put h a (gone al)).
Proof. intros E. unfold dec_strong. rewrite (bind_ok _ _ _ _ _ _ _ box_live), E. reflexivity. Qed.
Lemma inc_weak_live : inc_weak a h = HOk tt (list_put h a (live n (S al) v)).
Proof. unfold inc_weak. rewrite (bind_ok _ _ _ _ _ _ _ box_live). reflexivity. Qed.
Lemma drop_weak_live : al <> 0 -> drop_weak a h = HOk tt (list_put h a (live n (al - 1) v)).
Proof.
  intros N. unfold drop_weak. rewrite (bind_ok _ _ _ _ _ _ _ box_live). cbn. case_eq al; [congruence|]. intros w E.
  cbn. unfold live. rewrite Nat.sub_0_r. reflexivity.
Qed.
Lemma drop_weak_last : al = 0 -> drop_weak a h = HOk tt (list_put h a (mkCell n 0 false (Some v))).
Proof. intros E. unfold drop_weak. rewrite (bind_ok _ _ _ _ _ _ _ box_live), E. reflexivity. Qed.
Lemma a_lt : a < length h.
Proof. exact (nth_lt _ _ _ _ C). Qed.
End Cells.

Lemma alias_down : forall h a n al v, nth_error h a = Some (live n al v) ->
  count_step a false true h = HOk tt (list_put h a (if Nat.eqb al 0 then mkCell n 0 false (Some v) else live n (al - 1) v)).
Proof.
  intros h a n al v C. cbn.
  rewrite (bind_ok _ _ _ _ _ _ _ (inc_weak_live _ _ _ _ _ C)).
  assert (C1 : nth_error (list_put h a (live n (S al) v)) a = Some (live n (S al) v)) by (apply nth_put_eq; exact (nth_lt _ _ _ _ C)).
  rewrite (bind_ok _ _ _ _ _ _ _ (drop_weak_live _ _ _ _ _ C1 ltac:(lia))).
  rewrite put_put. replace (S al - 1) with al by lia.
  assert (C2 : nth_error (list_put h a (live n al v)) a = Some (live n al v)) by (apply nth_put_eq; exact (nth_lt _ _ _ _ C)).
  destruct (Nat.eqb_spec al 0) as [Z|N].
  - rewrite (drop_weak_last _ _ _ _ _ C2 Z), put_put. reflexivity.
  - rewrite (drop_weak_live _ _ _ _ _ C2 N), put_put. reflexivity.
Qed.

(** ** [update_counts] *)
Lemma refs_up : forall k h a n al v, n <> 0 -> nth_error h a = Some (live n al v) ->
  hrepeat k (count_step a true false) h = HOk tt (list_put h a (live (n + k) al v)).
Proof.
  induction k as [|k IH]; intros h a n al v N C.
  - cbn. rewrite Nat.add_0_r, put_same by exact C. reflexivity.
  - cbn [hrepeat]. rewrite (bind_ok _ _ _ _ _ _ _ (inc_strong_live _ _ _ _ _ C N)).
    rewrite (IH _ _ (S n) al v) by (try lia; apply nth_put_eq; exact (nth_lt _ _ _ _ C)).
    rewrite put_put. do 3 f_equal. lia.
Qed.
Lemma refs_down : forall k h a n al v, k <= n -> n <> 0 -> nth_error h a = Some (live n al v) ->
  hrepeat k (count_step a false false) h = HOk tt (list_put h a (if Nat.eqb k n then gone al else live (n - k) al v)).
Proof.
  induction k as [|k IH]; intros h a n al v L N C.
  - cbn. destruct n; [congruence|]. cbn. rewrite put_same by exact C. reflexivity.
  - cbn [hrepeat]. destruct (Nat.eq_dec n 1) as [->|N1].
    + rewrite (bind_ok _ _ (count_step a false false) _ _ _ _ (dec_strong_last _ _ _ _ _ C eq_refl)).
      destruct k; [|lia]. reflexivity.
    + rewrite (bind_ok _ _ (count_step a false false) _ _ _ _ (dec_strong_live _ _ _ _ _ C N N1)).
      rewrite (IH _ _ (n - 1) al v) by (try lia; apply nth_put_eq; exact (nth_lt _ _ _ _ C)).
      rewrite put_put. destruct (Nat.eqb_spec k (n - 1)); destruct (Nat.eqb_spec (S k) n); try lia; [reflexivity|].
      do 3 f_equal. lia.
Qed.
Lemma aliases_up : forall k h a n al v, nth_error h a = Some (live n al v) ->
  hrepeat k (count_step a true true) h = HOk tt (list_put h a (live n (al + k) v)).
Proof.
  induction k as [|k IH]; intros h a n al v C.
  - cbn. rewrite Nat.add_0_r, put_same by exact C. reflexivity.
  - cbn [hrepeat]. rewrite (bind_ok _ _ _ _ _ _ _ (inc_weak_live _ _ _ _ _ C)).
    rewrite (IH _ _ n (S al) v) by (apply nth_put_eq; exact (nth_lt _ _ _ _ C)).
    rewrite put_put. do 3 f_equal. lia.
Qed.
Lemma aliases_down : forall k h a n al v, k <= al -> nth_error h a = Some (live n al v) ->
  hrepeat k (count_step a false true) h = HOk tt (list_put h a (live n (al - k) v)).
Proof.
  induction k as [|k IH]; intros h a n al v L C.
  - cbn. rewrite Nat.sub_0_r, put_same by exact C. reflexivity.
  - cbn [hrepeat]. rewrite (bind_ok _ _ _ _ _ _ _ (alias_down _ _ _ _ _ C)).
    destruct (Nat.eqb_spec al 0); [lia|].
    rewrite (IH _ _ n (al - 1) v) by (try lia; apply nth_put_eq; exact (nth_lt _ _ _ _ C)).
    rewrite put_put. do 3 f_equal. lia.
Qed.
Lemma ref_update : forall h a n al v u, n <> 0 -> nth_error h a = Some (live n al v) -> (0 <= Z.of_nat n + u)%Z ->
  update_counts a u false h =
    HOk tt (list_put h a (if Z.eqb (Z.of_nat n + u) 0 then gone al else live (Z.to_nat (Z.of_nat n + u)) al v)).
Proof.
  intros h a n al v u N C P. unfold update_counts. destruct (Z.ltb_spec 0 u) as [U|U].
  - rewrite (refs_up _ _ _ _ _ _ N C). destruct (Z.eqb_spec (Z.of_nat n + u) 0); [lia|].
    replace (Z.to_nat (Z.of_nat n + u)) with (n + Z.abs_nat u) by lia. reflexivity.
  - rewrite (refs_down (Z.abs_nat u) h a n al v ltac:(lia) N C).
    destruct (Z.eqb_spec (Z.of_nat n + u) 0); destruct (Nat.eqb_spec (Z.abs_nat u) n); try lia; [reflexivity|].
    replace (Z.to_nat (Z.of_nat n + u)) with (n - Z.abs_nat u) by lia. reflexivity.
Qed.
Lemma alias_update : forall h a n al v u, nth_error h a = Some (live n al v) -> (0 <= Z.of_nat al + u)%Z ->
  update_counts a u true h = HOk tt (list_put h a (live n (Z.to_nat (Z.of_nat al + u)) v)).
Proof.
  intros h a n al v u C P. unfold update_counts. destruct (Z.ltb_spec 0 u) as [U|U].
  - rewrite (aliases_up _ _ _ _ _ _ C).
    replace (Z.to_nat (Z.of_nat al + u)) with (al + Z.abs_nat u) by lia. reflexivity.
  - rewrite (aliases_down (Z.abs_nat u) h a n al v ltac:(lia) C).
    replace (Z.to_nat (Z.of_nat al + u)) with (al - Z.abs_nat u) by lia. reflexivity.
Qed.

(** ** Agreement with the ledger *)
Definition cell_ok (c : cell) (e : entry) : Prop :=
  if Nat.eqb (e_refs e) 0 then c = gone (e_aliases e)
  else exists v, c = live (e_refs e) (e_aliases e) v /\ kind_of v = e_kind e.
Definition inv (h : heap) (l : ledger) : Prop :=
  length h = length l /\ forall a c e, nth_error h a = Some c -> nth_error l a = Some e -> cell_ok c e.

Lemma inv_at : forall h l a e, inv h l -> nth_error l a = Some e -> exists c, nth_error h a = Some c /\ cell_ok c e.
Proof.
  intros h l a e [L I] E. destruct (nth_error h a) as [c|] eqn:Hc.
  - exists c. split; [reflexivity|]. exact (I _ _ _ Hc E).
  - apply nth_error_None in Hc. apply nth_lt in E. lia.
Qed.
Lemma inv_live : forall h l a e, inv h l -> nth_error l a = Some e -> e_refs e <> 0 ->
  exists v, nth_error h a = Some (live (e_refs e) (e_aliases e) v) /\ kind_of v = e_kind e.
Proof.
  intros h l a e I E N. destruct (inv_at _ _ _ _ I E) as [c [Hc O]]. unfold cell_ok in O.
  destruct (Nat.eqb_spec (e_refs e) 0); [contradiction|]. destruct O as [v [-> K]]. exists v. auto.
Qed.
Lemma inv_usable : forall h l a k, inv h l -> usable l a k ->
  exists n al v, n <> 0 /\ nth_error h a = Some (live n al v) /\ kind_of v = k.
Proof.
  intros h l a k I [e [E [K N]]]. destruct (inv_live _ _ _ _ I E N) as [v [C Kv]].
  exists (e_refs e), (e_aliases e), v. rewrite <- K. auto.
Qed.
Lemma inv_put : forall h l a c f, inv h l ->
  (forall e, nth_error l a = Some e -> cell_ok c (f e)) -> inv (list_put h a c) (change l a f).
Proof.
  intros h l a c f [L I] P. split; [rewrite len_put, len_change; exact L|].
  intros b c' e' Hc He. rewrite nth_put in Hc. rewrite nth_change in He. destruct (Nat.eqb_spec a b) as [<-|Nb].
  - destruct (nth_error h a); [|discriminate]. injection Hc as <-.
    destruct (nth_error l a) as [e|] eqn:E; [|discriminate]. injection He as <-. auto.
  - eauto.
Qed.
Lemma change_id : forall l a f, (forall e, nth_error l a = Some e -> f e = e) -> change l a f = l.
Proof. induction l as [|e l IH]; intros [|a] f P; cbn; auto. - now rewrite (P e eq_refl). - rewrite IH; auto. Qed.
Lemma inv_keep : forall h l a n al v w, inv h l -> nth_error h a = Some (live n al v) -> n <> 0 ->
  kind_of w = kind_of v -> inv (list_put h a (live n al w)) l.
Proof.
  intros h l a n al v w I C N K. rewrite <- (change_id l a (fun e => e)) by auto.
  apply inv_put; [exact I|]. intros e E. destruct I as [_ I]. specialize (I _ _ _ C E). unfold cell_ok in *.
  destruct (Nat.eqb_spec (e_refs e) 0) as [Z|Z].
  - unfold gone, live in I. injection I. intros. congruence.
  - destruct I as [v' [Ev Kv]]. unfold live in Ev. injection Ev as -> -> ->. exists w. split; [reflexivity|congruence].
Qed.
Lemma inv_new : forall h l v k, inv h l -> kind_of v = k -> inv (h ++ [live 1 0 v]) (l ++ [mkEntry k 1 0]).
Proof.
  intros h l v k [L I] K. split; [rewrite !app_length; cbn; lia|].
  intros a c e Hc He. destruct (Nat.lt_ge_cases a (length h)) as [Lt|Ge].
  - rewrite nth_error_app1 in Hc by exact Lt. rewrite nth_error_app1 in He by lia. eauto.
  - rewrite nth_error_app2 in Hc by exact Ge. rewrite nth_error_app2 in He by lia. rewrite <- L in He.
    destruct (a - length h) as [|m]; cbn in Hc, He; [|destruct m; discriminate].
    injection Hc as <-. injection He as <-. cbn. exists v. auto.
Qed.

Section Get.
Context {M : Mode}.
Variables (h : heap) (l : ledger).
Hypothesis I : inv h l.
Lemma use_arr : forall a, usable l a KArr -> exists n al sz d, n <> 0 /\ nth_error h a = Some (live n al (VArr sz d)) /\ get_arr a h = HOk (sz, d) h.
Proof.
  intros a U. destruct (inv_usable _ _ _ _ I U) as [n [al [v [N [C K]]]]]. destruct v; try discriminate.
  exists n, al, elem_size, data. split; [exact N|]. split; [exact C|].
  unfold get_arr. rewrite (bind_ok _ _ _ _ _ _ _ (get_live _ _ _ _ _ C)). reflexivity.
Qed.
Lemma use_tup : forall a, usable l a KTup -> exists n al d, n <> 0 /\ nth_error h a = Some (live n al (VTup d)) /\ get_tup a h = HOk d h.
Proof.
  intros a U. destruct (inv_usable _ _ _ _ I U) as [n [al [v [N [C K]]]]]. destruct v; try discriminate.
  exists n, al, data. split; [exact N|]. split; [exact C|].
  unfold get_tup. rewrite (bind_ok _ _ _ _ _ _ _ (get_live _ _ _ _ _ C)). reflexivity.
Qed.
Lemma use_call : forall a, usable l a KCall -> exists n al c, n <> 0 /\ nth_error h a = Some (live n al (VCall c)) /\ get_call a h = HOk c h.
Proof.
  intros a U. destruct (inv_usable _ _ _ _ I U) as [n [al [v [N [C K]]]]]. destruct v; try discriminate.
  exists n, al, c. split; [exact N|]. split; [exact C|].
  unfold get_call. rewrite (bind_ok _ _ _ _ _ _ _ (get_live _ _ _ _ _ C)). reflexivity.
Qed.
Lemma use_str : forall a, usable l a KStr -> exists t, get_str a h = HOk t h.
Proof.
  intros a U. destruct (inv_usable _ _ _ _ I U) as [n [al [v [N [C K]]]]]. destruct v; try discriminate.
  exists s. unfold get_str. rewrite (bind_ok _ _ _ _ _ _ _ (get_live _ _ _ _ _ C)). reflexivity.
Qed.
Lemma use_big : forall a, usable l a KBig -> exists z, get_big a h = HOk z h.
Proof.
  intros a U. destruct (inv_usable _ _ _ _ I U) as [n [al [v [N [C K]]]]]. destruct v; try discriminate.
  exists z. unfold get_big. rewrite (bind_ok _ _ _ _ _ _ _ (get_live _ _ _ _ _ C)). reflexivity.
Qed.
Lemma new_safe : forall v c, kind_of v = makes c ->
  (forall r, lstep l c (RObj r) =
     if Nat.eqb r (length l) then l ++ [mkEntry (makes c) 1 0] else change l r (fun e => add_refs e 1)) ->
  safe (rc_new v) h (fun a h' => inv h' (lstep l c (RObj a))).
Proof.
  intros v c K St. unfold safe, rc_new. rewrite St. destruct I as [L I']. rewrite L, Nat.eqb_refl.
  apply inv_new; [split; auto|exact K].
Qed.
Lemma copy_safe : forall a f c, usable l a (makes c) ->
  (forall r, lstep l c (RObj r) =
     if Nat.eqb r (length l) then l ++ [mkEntry (makes c) 1 0] else change l r (fun e => add_refs e 1)) ->
  safe (rc_copy a f) h (fun b h' => inv h' (lstep l c (RObj b))).
Proof.
  intros a f c U St. destruct (inv_usable _ _ _ _ I U) as [n [al [v [N [C K]]]]].
  unfold rc_copy. apply safe_bind. eapply safe_ok; [exact (box_live _ _ _ _ _ C)|].
  destruct (f || Nat.ltb 0 (weak_count (live n al v)))%bool.
  - apply safe_bind. eapply safe_ok; [exact (get_live _ _ _ _ _ C)|]. apply new_safe; auto.
  - apply safe_bind. eapply safe_ok; [exact (inc_strong_live _ _ _ _ _ C N)|].
    apply safe_ret. rewrite St. destruct I as [L I']. pose proof (nth_lt _ _ _ _ C) as La.
    destruct (Nat.eqb_spec a (length l)); [lia|].
    apply inv_put; [exact I|]. intros e E. specialize (I' _ _ _ C E).
    unfold cell_ok in *. destruct (Nat.eqb_spec (e_refs e) 0) as [Z|Z]; [unfold live, gone in I'; congruence|].
    destruct I' as [v' [Ev Kv]]. unfold live in Ev. injection Ev as En Ea <-. cbn [e_refs add_refs].
    destruct (Nat.eqb_spec (Z.to_nat (Z.of_nat (e_refs e) + 1)) 0); [lia|].
    exists v. cbn. split; [|exact Kv]. unfold live. f_equal; lia.
Qed.
Lemma i64_safe : forall z (Q : Z -> heap -> Prop), (forall w, Q w h) -> safe (i64 z) h Q.
Proof. intros z Q P. unfold i64, safe. destruct (i64_ok z); cbn; auto. destruct overflow_checks; cbn; auto. Qed.
Lemma usize_safe : forall z (Q : Z -> heap -> Prop), (forall w, Q w h) -> safe (usize z) h Q.
Proof. intros z Q P. unfold usize, safe. destruct (usize_ok z); cbn; auto. destruct overflow_checks; cbn; auto. Qed.
Lemma slice_loop_safe : forall sz d is (Q : list mval -> heap -> Prop), (forall x, Q x h) -> safe (slice_loop sz d is) h Q.
Proof.
  intros sz d is. induction is as [|i is IH]; intros Q P; [apply P|].
  cbn. apply safe_bind. unfold slice_at.
  destruct (Z.ltb i 0); [exact Logic.I|]. destruct (Z.leb (i + sz) (Z.of_nat (length d))); [|exact Logic.I].
  apply safe_ret. apply safe_bind. apply IH. intros x. apply safe_ret. apply P.
Qed.
End Get.

Ltac newobj I := apply (new_safe _ _ I); [reflexivity|intros; reflexivity].
Lemma robj_safe : forall m h (Q : hreply -> heap -> Prop), safe m h (fun a h' => Q (RObj a) h') -> safe (robj m) h Q.
Proof. intros m h Q S. unfold robj. apply safe_bind. exact S. Qed.
Lemma runit_safe : forall m h (Q : hreply -> heap -> Prop), safe m h (fun _ h' => Q RUnit h') -> safe (runit m) h Q.
Proof. intros m h Q S. unfold runit. apply safe_bind. exact S. Qed.
Lemma usize_fits : forall {M : Mode} h z, usize_ok z = true -> usize z h = HOk z h.
Proof. intros M h z E. unfold usize. now rewrite E. Qed.

Ltac stepto G := apply safe_bind; eapply safe_ok; [exact G|]; cbv beta iota.
Lemma call_safe : forall {M : Mode} h l c, inv h l -> hvalid h l c ->
  safe (hcall1 c) h (fun r h' => inv h' (lstep l c r)).
Proof.
  intros M h l c I V. destruct c; cbn [hcall1 hvalid] in *.
  - apply robj_safe. unfold array_create_1d. apply safe_bind. apply usize_safe. intros w.
    destruct (Z.ltb w (2 ^ 63)); [newobj I|exact Logic.I].
  - apply robj_safe. apply (copy_safe _ _ I); [exact V|reflexivity].
  - destruct V as [Va Vb]. destruct (use_arr _ _ I _ Va) as [n [al [sz [d [_ [_ Ga]]]]]].
    destruct (use_arr _ _ I _ Vb) as [n' [al' [sz' [d' [_ [_ Gb]]]]]].
    apply robj_safe. unfold array_concatenate. stepto Ga.
    stepto Gb. destruct (Z.eqb sz sz'); [newobj I|exact Logic.I].
  - destruct (use_arr _ _ I _ V) as [n [al [sz [d [_ [_ Ga]]]]]].
    apply robj_safe. unfold array_slice_1d. stepto Ga.
    apply safe_bind, i64_safe; intros. apply safe_bind, i64_safe; intros. apply safe_bind, i64_safe; intros.
    apply safe_bind, i64_safe; intros. destruct (Z.leb w2 0); [exact Logic.I|].
    apply safe_bind. apply slice_loop_safe. intros x. newobj I.
  - destruct (use_arr _ _ I _ V) as [n [al [sz [d [_ [_ Ga]]]]]].
    apply safe_bind. unfold array_get_size_1d. stepto Ga.
    destruct (Z.eqb sz 0); [exact Logic.I|]. exact I.
  - destruct V as [Va [c [sz [d [Hc [Hv [R1 R2]]]]]]]. destruct (use_arr _ _ I _ Va) as [n' [al [sz' [d' [N [C Ga]]]]]].
    rewrite C in Hc. injection Hc as <-. cbn in Hv. injection Hv as -> ->.
    apply safe_bind. unfold array_get_element_ptr_1d. stepto Ga.
    apply safe_bind. eapply safe_ok.
    { apply usize_fits. unfold usize_ok. apply andb_true_intro. split; [apply Z.leb_le|apply Z.ltb_lt]; lia. }
    cbn beta. destruct (Z.leb_spec (sz * i) (Z.of_nat (length d))); [|lia].
    apply safe_ret. apply safe_bind. unfold ptr_read. stepto Ga. cbn [fst snd].
    destruct (Nat.leb_spec (Z.to_nat (sz * i) + n) (length d)); [exact I|lia].
  - destruct V as [Va [c [sz [d [Hc [Hv [R1 R2]]]]]]]. destruct (use_arr _ _ I _ Va) as [n' [al [sz' [d' [N [C Ga]]]]]].
    rewrite C in Hc. injection Hc as <-. cbn in Hv. injection Hv as -> ->.
    apply safe_bind. unfold array_get_element_ptr_1d. stepto Ga.
    apply safe_bind. eapply safe_ok.
    { apply usize_fits. unfold usize_ok. apply andb_true_intro. split; [apply Z.leb_le|apply Z.ltb_lt]; lia. }
    cbn beta. destruct (Z.leb_spec (sz * i) (Z.of_nat (length d))); [|lia].
    apply safe_ret. apply runit_safe. unfold ptr_write. stepto Ga. cbn [fst snd].
    destruct (Nat.leb_spec (Z.to_nat (sz * i) + length bs) (length d)); [|lia].
    eapply safe_ok; [exact (set_live _ _ _ _ _ C _)|]; cbv beta iota. apply (inv_keep _ _ _ _ _ _ _ I C N). reflexivity.
  - apply robj_safe. unfold tuple_create. apply safe_bind. eapply safe_ok.
    { apply usize_fits. unfold usize_ok. apply andb_true_intro. split; [apply Z.leb_le|apply Z.ltb_lt]; lia. }
    destruct (Z.ltb_spec (size + 8) 8); [lia|]. destruct (Z.ltb (size + 8) (2 ^ 63)); [newobj I|exact Logic.I].
  - apply robj_safe. apply (copy_safe _ _ I); [exact V|reflexivity].
  - destruct V as [Va [c [d [Hc [Hv R]]]]]. destruct (use_tup _ _ I _ Va) as [n' [al [d' [N [C Ga]]]]].
    rewrite C in Hc. injection Hc as <-. cbn in Hv. injection Hv as ->.
    apply runit_safe. unfold set_tuple_ptr. stepto Ga.
    destruct (Nat.leb_spec (8 * i + 8) (length d)); [|lia].
    eapply safe_ok; [exact (set_live _ _ _ _ _ C _)|]; cbv beta iota. apply (inv_keep _ _ _ _ _ _ _ I C N). reflexivity.
  - apply robj_safe. newobj I.
  - apply robj_safe. apply (copy_safe _ _ I); [exact V|reflexivity].
  - destruct (use_call _ _ I _ V) as [n [al [c [N [C G]]]]]. apply runit_safe. unfold callable_make_adjoint.
    stepto G.
    eapply safe_ok; [exact (set_live _ _ _ _ _ C _)|]; cbv beta iota. apply (inv_keep _ _ _ _ _ _ _ I C N). reflexivity.
  - destruct (use_call _ _ I _ V) as [n [al [c [N [C G]]]]]. apply runit_safe. unfold callable_make_controlled.
    stepto G.
    eapply safe_ok; [exact (set_live _ _ _ _ _ C _)|]; cbv beta iota. apply (inv_keep _ _ _ _ _ _ _ I C N). reflexivity.
  - apply robj_safe. newobj I.
  - destruct V as [Va Vb]. destruct (use_str _ _ I _ Va) as [s Ga]. destruct (use_str _ _ I _ Vb) as [t Gb].
    apply robj_safe. unfold string_concatenate. stepto Ga.
    stepto Gb. newobj I.
  - destruct V as [Va Vb]. destruct (use_str _ _ I _ Va) as [s Ga]. destruct (use_str _ _ I _ Vb) as [t Gb].
    apply safe_bind. unfold string_equal. stepto Ga.
    stepto Gb. exact I.
  - destruct (use_str _ _ I _ V) as [s Ga].
    apply safe_bind. unfold string_get_length. stepto Ga.
    destruct (Z.ltb (Z.of_nat (length s)) (2 ^ 32)); [exact I|exact Logic.I].
  - apply robj_safe. newobj I.
  - apply robj_safe. newobj I.
  - destruct V as [Va Vb]. destruct (use_big _ _ I _ Va) as [s Ga]. destruct (use_big _ _ I _ Vb) as [t Gb].
    apply robj_safe. unfold bigint_binary. stepto Ga.
    stepto Gb. destruct (bigint_op op s t); [newobj I|exact Logic.I].
  - destruct (use_big _ _ I _ V) as [s Ga]. apply robj_safe. unfold bigint_unary. stepto Ga. newobj I.
  - destruct (use_big _ _ I _ V) as [s Ga]. apply robj_safe. unfold bigint_power. stepto Ga. newobj I.
  - destruct (use_big _ _ I _ V) as [s Ga]. apply robj_safe. unfold bigint_shift. stepto Ga. newobj I.
  - destruct V as [Va Vb]. destruct (use_big _ _ I _ Va) as [s Ga]. destruct (use_big _ _ I _ Vb) as [t Gb].
    apply safe_bind. unfold bigint_compare. stepto Ga.
    stepto Gb. exact I.
  - destruct (use_big _ _ I _ V) as [s Ga]. apply safe_bind. unfold bigint_get_data. stepto Ga. exact I.
  - destruct (use_big _ _ I _ V) as [s Ga]. apply safe_bind. unfold bigint_get_length. stepto Ga.
    destruct (Z.ltb (Z.of_nat (length (to_signed_le s))) (2 ^ 32)); [exact I|exact Logic.I].
  - destruct V as [e [E [N P]]]. destruct (inv_live _ _ _ _ I E N) as [v [C K]].
    apply runit_safe. eapply safe_ok; [exact (ref_update _ _ _ _ _ _ N C P)|]; cbv beta iota. cbn [lstep].
    apply inv_put; [exact I|]. intros e' E'. rewrite E in E'. injection E' as <-.
    unfold cell_ok. cbn. destruct (Z.eqb_spec (Z.of_nat (e_refs e) + update) 0) as [Z|Z];
      destruct (Nat.eqb_spec (Z.to_nat (Z.of_nat (e_refs e) + update)) 0); try lia; eauto.
  - destruct V as [e [E [N [P _]]]]. destruct (inv_live _ _ _ _ I E N) as [v [C K]].
    apply runit_safe. eapply safe_ok; [exact (alias_update _ _ _ _ _ _ C P)|]; cbv beta iota. cbn [lstep].
    apply inv_put; [exact I|]. intros e' E'. rewrite E in E'. injection E' as <-.
    unfold cell_ok. cbn. destruct (Nat.eqb_spec (e_refs e) 0); [contradiction|]. eauto.
Qed.

Lemma exec_safe : forall {M : Mode} cs h l, inv h l -> hproper h l cs ->
  safe (hexec cs) h (fun rs h' => inv h' (ledger_of l cs rs)).
Proof.
  intros M. induction cs as [|c cs IH]; intros h l I P; [exact I|].
  destruct P as [V P]. cbn [hexec]. apply safe_bind. pose proof (call_safe h l c I V) as S. unfold safe at 1. unfold safe in S.
  destruct (hcall1 c h) as [r h'| | |] eqn:E; auto. apply safe_bind. specialize (IH h' _ S (P _ _ eq_refl)).
  unfold safe in *. destruct (hexec cs h'); auto.
Qed.
Lemma inv_agrees : forall h l a e, inv h l -> nth_error l a = Some e -> agrees h a e.
Proof.
  intros h l a e I E. split.
  - intros N. destruct (inv_live _ _ _ _ I E N) as [v [C K]]. exists v. split; [|exact K]. apply alive_iff. auto.
  - intros Z. destruct (inv_at _ _ _ _ I E) as [c [Hc O]]. unfold cell_ok in O. rewrite Z in O. cbn in O. subst c.
    split; [exists (gone (e_aliases e)); auto|]. split.
    + intros [c [Hc' Hd]]. rewrite Hc in Hc'. injection Hc' as <-. cbn in Hd. destruct (Nat.eqb_spec (e_aliases e) 0); [auto|discriminate].
    + intros Za. exists (gone (e_aliases e)). rewrite Za in *. auto.
Qed.
