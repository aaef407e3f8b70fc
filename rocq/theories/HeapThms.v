(** * Theorems on arrays, tuples, strings and big integers *)
From Coq Require Import String Ascii ZArith List Bool Arith Lia.
From Coq.Strings Require Import Byte.
From Verif Require Import Text Heap SpecHeap HeapLemmas.
Import ListNotations.
Local Open Scope list_scope.

Lemma alive_app : forall h t a n al v, alive h a n al v -> alive (h ++ t) a n al v.
Proof.
  intros h t a n al v A. apply alive_iff in A. destruct A as [N C]. apply alive_iff. split; [exact N|].
  rewrite nth_error_app1; [exact C|exact (nth_lt _ _ _ _ C)].
Qed.
Lemma alive_new : forall h v, alive (h ++ [live 1 0 v]) (length h) 1 0 v.
Proof. intros h v. apply alive_iff. split; [lia|]. rewrite nth_error_app2, Nat.sub_diag by lia. reflexivity. Qed.
Lemma nth_new : forall (h : heap) v x, x < length h -> nth_error (h ++ [v]) x = nth_error h x.
Proof. intros. apply nth_error_app1. assumption. Qed.
Lemma no_cell : forall h : heap, nth_error h (length h) = None.
Proof. intros. apply nth_error_None. lia. Qed.
Lemma alive_lt : forall h a n al v, alive h a n al v -> a < length h.
Proof. intros h a n al v A. apply alive_iff in A. exact (nth_lt _ _ _ _ (proj2 A)). Qed.
Lemma alive_put : forall h a n al v n' al' v', alive h a n al v -> n' <> 0 -> alive (list_put h a (live n' al' v')) a n' al' v'.
Proof.
  intros h a n al v n' al' v' A N'. apply alive_iff. split; [exact N'|]. apply nth_put_eq. exact (alive_lt _ _ _ _ _ A).
Qed.
Lemma put_others : forall h a c, others_same h (list_put h a c) a.
Proof. intros h a c b N _. apply nth_put_neq. congruence. Qed.

Lemma makes_new : forall m h v, m h = HOk (RObj (length h)) (h ++ [live 1 0 v]) -> makes_object m h v.
Proof.
  intros m h v E. exists (length h), (h ++ [live 1 0 v]). split; [exact E|]. split; [apply no_cell|].
  split; [apply alive_new|]. intros x L. apply nth_new, L.
Qed.

Section Thms.
Context {M : Mode}.

Lemma counts_thm : forall cs, hproper [] [] cs ->
  match hexec cs [] with
  | HOk rs h => length h = length (ledger_of [] cs rs) /\ forall a e, nth_error (ledger_of [] cs rs) a = Some e -> agrees h a e
  | HUB => False
  | _ => True
  end.
Proof.
  intros cs P. assert (I : inv [] []). { split; [reflexivity|]. intros a c e E. destruct a; discriminate. }
  pose proof (exec_safe cs [] [] I P) as S. unfold safe in S. destruct (hexec cs []) as [rs h| | |]; auto.
  split; [exact (proj1 S)|]. intros a e E. exact (inv_agrees _ _ _ _ S E).
Qed.
Lemma no_leak_thm : forall cs rs h, hproper [] [] cs -> hexec cs [] = HOk rs h ->
  (forall a e, nth_error (ledger_of [] cs rs) a = Some e -> e_refs e = 0 /\ e_aliases e = 0) ->
  forall a, a < length h -> dropped h a /\ freed h a.
Proof.
  intros cs rs h P E Z a L. pose proof (counts_thm cs P) as T. rewrite E in T. destruct T as [Ll T].
  destruct (nth_error (ledger_of [] cs rs) a) as [e|] eqn:Ea.
  - destruct (Z _ _ Ea) as [Zr Za]. destruct (T _ _ Ea) as [_ T']. destruct (T' Zr) as [D F]. split; [exact D|]. apply F, Za.
  - apply nth_error_None in Ea. lia.
Qed.

Lemma copy_thm : forall h a n al v force c, alive h a n al v ->
  In c [HArrayCopy a force; HTupleCopy a force; HCallCopy a force] ->
  exists b h', hcall1 c h = HOk (RObj b) h' /\
    if (force || Nat.ltb 0 al)%bool
    then b <> a /\ nth_error h b = None /\ alive h' b 1 0 v /\ (forall x, x < length h -> nth_error h' x = nth_error h x)
    else b = a /\ alive h' a (S n) al v /\ others_same h h' a /\ length h' = length h.
Proof.
  intros h a n al v force c A Hc. pose proof A as A'. apply alive_iff in A'. destruct A' as [N C].
  assert (E : hcall1 c h = robj (rc_copy a force) h) by (destruct Hc as [<-|[<-|[<-|[]]]]; reflexivity).
  rewrite E. unfold robj, rc_copy. unfold hbind at 1. rewrite (bind_ok _ _ _ _ _ _ _ (box_live _ _ _ _ _ C)).
  replace (weak_count (live n al v)) with al by (unfold weak_count, live; cbn; lia).
  destruct (force || Nat.ltb 0 al)%bool.
  - rewrite (bind_ok _ _ _ _ _ _ _ (get_live _ _ _ _ _ C)). exists (length h), (h ++ [live 1 0 v]).
    split; [reflexivity|]. split; [pose proof (alive_lt _ _ _ _ _ A); lia|]. split; [apply no_cell|].
    split; [apply alive_new|]. intros x L. apply nth_new, L.
  - rewrite (bind_ok _ _ _ _ _ _ _ (inc_strong_live _ _ _ _ _ C N)).
    exists a, (list_put h a (live (S n) al v)). split; [reflexivity|]. split; [reflexivity|].
    split; [apply (alive_put _ _ _ _ _ _ _ _ A); lia|]. split; [apply put_others|apply len_put].
Qed.

Lemma alias_below_thm : forall h a n v, alive h a n 0 v ->
  exists h', hcall1 (HAlias a (-1)) h = HOk RUnit h' /\ freed h' a /\ ~ dropped h' a /\
    (forall c, In c [HRef a (-1); HRef a 1; HAlias a 1; HArrayCopy a true; HArrayCopy a false; HSize a] -> hcall1 c h' = HUB).
Proof.
  intros h a n v A. apply alive_iff in A. destruct A as [N C].
  set (c' := mkCell n 0 false (Some v)). set (h' := list_put h a c').
  assert (E : nth_error h' a = Some c') by (apply nth_put_eq; exact (nth_lt _ _ _ _ C)).
  exists h'. split.
  - cbn [hcall1]. unfold runit, update_counts. change (Z.abs_nat (-1)) with 1. change (0 <? -1)%Z with false. cbn [hrepeat].
    unfold hbind at 1. rewrite (bind_ok _ _ (count_step a false true) _ _ _ _ (alias_down _ _ _ _ _ C)).
    reflexivity.
  - split; [exists c'; auto|]. split.
    + intros [c [Hc [Sc _]]]. rewrite E in Hc. injection Hc as <-. cbn in Sc. congruence.
    + assert (B : box a h' = HUB) by (unfold box; rewrite E; reflexivity).
      assert (G : get_val a h' = HUB) by (unfold get_val; rewrite E; reflexivity).
      intros c Hc. cbn [In] in Hc.
      destruct Hc as [<-|[<-|[<-|[<-|[<-|[<-|[]]]]]]]; cbn [hcall1];
        unfold runit, robj, update_counts, rc_copy, array_get_size_1d, get_arr;
        repeat (change (Z.abs_nat (-1)) with 1); repeat (change (Z.abs_nat 1) with 1); cbn [hrepeat];
        unfold count_step, dec_strong, inc_strong, inc_weak; cbn [Z.ltb Z.compare]; unfold hbind; rewrite ?B, ?G; reflexivity.
Qed.

(** ** Arrays *)
Lemma arr_cell : forall h a n al sz els, array_is h a n al sz els ->
  n <> 0 /\ nth_error h a = Some (live n al (VArr sz (concat els))) /\ get_arr a h = HOk (sz, concat els) h /\
  Forall (fun x => Z.of_nat (length x) = sz) els.
Proof.
  intros h a n al sz els [A F]. apply alive_iff in A. destruct A as [N C]. split; [exact N|]. split; [exact C|]. split; [|exact F].
  unfold get_arr. rewrite (bind_ok _ _ _ _ _ _ _ (get_live _ _ _ _ _ C)). reflexivity.
Qed.
Lemma concat_len : forall (els : list (list mval)) sz, Forall (fun x => Z.of_nat (length x) = sz) els ->
  Z.of_nat (length (concat els)) = (sz * Z.of_nat (length els))%Z.
Proof. induction 1; cbn; [lia|]. rewrite app_length. lia. Qed.
Lemma concat_at : forall (els : list (list mval)) sz i x, Forall (fun x => Z.of_nat (length x) = sz) els ->
  nth_error els i = Some x -> firstn (Z.to_nat sz) (skipn (Z.to_nat (sz * Z.of_nat i)) (concat els)) = x.
Proof.
  intros els sz i x F. revert i. induction F as [|y els Hy F IH]; intros i E; [destruct i; discriminate|].
  destruct i as [|i]; cbn in E.
  - injection E as ->. replace (sz * Z.of_nat 0)%Z with 0%Z by lia. cbn. rewrite firstn_app.
    replace (Z.to_nat sz - length x) with 0 by lia. rewrite firstn_O, app_nil_r. apply firstn_all2. lia.
  - cbn [concat]. rewrite skipn_app. replace (Z.to_nat (sz * Z.of_nat (S i)) - length y) with (Z.to_nat (sz * Z.of_nat i)) by lia.
    rewrite (skipn_all2 y) by lia. cbn. apply IH, E.
Qed.
Lemma concat_thm : forall h a b n al m bl sz ea eb, array_is h a n al sz ea -> array_is h b m bl sz eb ->
  exists c h', hcall1 (HConcat a b) h = HOk (RObj c) h' /\ nth_error h c = None /\ array_is h' c 1 0 sz (ea ++ eb) /\
    forall x, x < length h -> nth_error h' x = nth_error h x.
Proof.
  intros h a b n al m bl sz ea eb A B. destruct (arr_cell _ _ _ _ _ _ A) as [_ [_ [Ga Fa]]].
  destruct (arr_cell _ _ _ _ _ _ B) as [_ [_ [Gb Fb]]].
  destruct (makes_new (hcall1 (HConcat a b)) h (VArr sz (concat ea ++ concat eb))) as [c [h' [E [Nn [Al O]]]]].
  - cbn. unfold robj, array_concatenate. unfold hbind at 1. rewrite (bind_ok _ _ _ _ _ _ _ Ga), (bind_ok _ _ _ _ _ _ _ Gb).
    rewrite Z.eqb_refl. reflexivity.
  - exists c, h'. split; [exact E|]. split; [exact Nn|]. split; [|exact O].
    split; [rewrite concat_app; exact Al|]. apply Forall_app. auto.
Qed.
Lemma concat_fail_thm : forall h a b n al m bl s1 s2 ea eb, array_is h a n al s1 ea -> array_is h b m bl s2 eb -> s1 <> s2 ->
  exists msg, hcall1 (HConcat a b) h = HFail msg.
Proof.
  intros h a b n al m bl s1 s2 ea eb A B D. destruct (arr_cell _ _ _ _ _ _ A) as [_ [_ [Ga Fa]]].
  destruct (arr_cell _ _ _ _ _ _ B) as [_ [_ [Gb Fb]]].
  cbn. unfold robj, array_concatenate. unfold hbind at 1. rewrite (bind_ok _ _ _ _ _ _ _ Ga), (bind_ok _ _ _ _ _ _ _ Gb).
  destruct (Z.eqb_spec s1 s2); [contradiction|]. eexists. reflexivity.
Qed.
Lemma size_thm : forall h a n al sz els, array_is h a n al sz els -> (0 < sz)%Z ->
  hcall1 (HSize a) h = HOk (RInt (Z.of_nat (length els))) h.
Proof.
  intros h a n al sz els A P. destruct (arr_cell _ _ _ _ _ _ A) as [_ [_ [Ga F]]].
  cbn. unfold array_get_size_1d. unfold hbind at 1. rewrite (bind_ok _ _ _ _ _ _ _ Ga).
  destruct (Z.eqb_spec sz 0); [lia|]. cbn. rewrite (concat_len _ _ F), Z.mul_comm, Z.div_mul by lia. reflexivity.
Qed.
Lemma elem_ptr : forall h a n al sz els i, array_is h a n al sz els -> (0 <= sz)%Z -> (0 <= i < Z.of_nat (length els))%Z ->
  (sz * Z.of_nat (length els) < 2 ^ 64)%Z ->
  array_get_element_ptr_1d a i h = HOk (a, Z.to_nat (sz * i)) h.
Proof.
  intros h a n al sz els i A P R B. destruct (arr_cell _ _ _ _ _ _ A) as [_ [_ [Ga F]]].
  unfold array_get_element_ptr_1d. rewrite (bind_ok _ _ _ _ _ _ _ Ga).
  assert (R' : (0 <= sz * i < 2 ^ 64)%Z) by nia.
  rewrite (bind_ok _ _ _ _ _ _ _ (usize_fits h (sz * i) ltac:(unfold usize_ok; apply andb_true_intro; split; [apply Z.leb_le|apply Z.ltb_lt]; lia))).
  rewrite (concat_len _ _ F). destruct (Z.leb_spec (sz * i) (sz * Z.of_nat (length els))); [reflexivity|nia].
Qed.
Lemma load_thm : forall h a n al sz els i x, array_is h a n al sz els -> (0 <= sz)%Z ->
  (sz * Z.of_nat (length els) < 2 ^ 64)%Z -> nth_error els i = Some x ->
  hcall1 (HLoad a (Z.of_nat i) (Z.to_nat sz)) h = HOk (RMem x) h.
Proof.
  intros h a n al sz els i x A P B E. pose proof (nth_lt _ _ _ _ E) as L.
  destruct (arr_cell _ _ _ _ _ _ A) as [_ [_ [Ga F]]].
  cbn [hcall1]. rewrite (bind_ok _ _ _ _ _ _ _ (elem_ptr _ _ _ _ _ _ (Z.of_nat i) A P ltac:(lia) B)).
  unfold ptr_read. unfold hbind at 1. rewrite (bind_ok _ _ (get_arr a) _ _ _ _ Ga). cbn [fst snd].
  pose proof (concat_len _ _ F) as Lc.
  destruct (Nat.leb_spec (Z.to_nat (sz * Z.of_nat i) + Z.to_nat sz) (length (concat els))); [|nia].
  cbn. rewrite (concat_at _ _ _ _ F E). reflexivity.
Qed.
Lemma splice_concat : forall (els : list (list mval)) sz i bs, Forall (fun x => Z.of_nat (length x) = sz) els ->
  i < length els -> Z.of_nat (length bs) = sz ->
  splice (concat els) (Z.to_nat (sz * Z.of_nat i)) bs = concat (list_put els i bs).
Proof.
  intros els sz i bs F. revert i. induction F as [|y els Hy F IH]; intros i L Lb; [cbn in L; lia|].
  unfold splice. destruct i as [|i].
  - replace (sz * Z.of_nat 0)%Z with 0%Z by lia. cbn [Z.to_nat firstn list_put concat plus app].
    rewrite skipn_app. rewrite (skipn_all2 y) by lia. replace (length bs - length y) with 0 by lia. reflexivity.
  - cbn [list_put concat]. rewrite <- IH by (cbn in L; lia). unfold splice.
    rewrite firstn_app, skipn_app. rewrite (firstn_all2 y) by lia. rewrite (skipn_all2 y) by lia.
    replace (Z.to_nat (sz * Z.of_nat (S i)) - length y) with (Z.to_nat (sz * Z.of_nat i)) by lia.
    replace (Z.to_nat (sz * Z.of_nat (S i)) + length bs - length y) with (Z.to_nat (sz * Z.of_nat i) + length bs) by lia.
    cbn [app]. rewrite <- ?app_assoc. reflexivity.
Qed.
Lemma Forall_put : forall A (P : A -> Prop) l i x, Forall P l -> P x -> Forall P (list_put l i x).
Proof. intros A P l i x F Px. revert i. induction F; intros [|i]; cbn; auto. Qed.
Lemma store_thm : forall h a n al sz els i bs, array_is h a n al sz els ->
  (sz * Z.of_nat (length els) < 2 ^ 64)%Z -> i < length els -> Z.of_nat (length bs) = sz ->
  exists h' els', hcall1 (HStore a (Z.of_nat i) bs) h = HOk RUnit h' /\ array_is h' a n al sz els' /\
    length els' = length els /\ nth_error els' i = Some bs /\ (forall j, j <> i -> nth_error els' j = nth_error els j) /\
    others_same h h' a /\ length h' = length h.
Proof.
  intros h a n al sz els i bs A B L Lb. destruct (arr_cell _ _ _ _ _ _ A) as [N [C [Ga F]]].
  exists (list_put h a (live n al (VArr sz (concat (list_put els i bs))))), (list_put els i bs). split.
  - cbn [hcall1]. rewrite (bind_ok _ _ _ _ _ _ _ (elem_ptr _ _ _ _ _ _ (Z.of_nat i) A ltac:(lia) ltac:(lia) B)).
    unfold runit, ptr_write. unfold hbind at 1. rewrite (bind_ok _ _ (get_arr a) _ _ _ _ Ga). cbn [fst snd].
    pose proof (concat_len _ _ F) as Lc.
    destruct (Nat.leb_spec (Z.to_nat (sz * Z.of_nat i) + length bs) (length (concat els))); [|nia].
    rewrite (set_live _ _ _ _ _ C), (splice_concat _ _ _ _ F L Lb). reflexivity.
  - split; [|split; [apply len_put|split; [apply nth_put_eq, L|split; [|split; [apply put_others|apply len_put]]]]].
    + split; [apply (alive_put _ _ _ _ _ _ _ _ (proj1 A) N)|apply Forall_put; auto].
    + intros j D. apply nth_put_neq. congruence.
Qed.
Lemma concat_repeat : forall A (x : A) k m, concat (repeat (repeat x k) m) = repeat x (k * m).
Proof.
  intros A x k m. induction m as [|m IH]; cbn; [now rewrite Nat.mul_0_r|].
  rewrite IH, Nat.mul_succ_r, Nat.add_comm, repeat_app. reflexivity.
Qed.
Lemma create_thm : forall h sz k, (0 <= sz < 2 ^ 32)%Z -> (0 <= k)%Z -> (sz * k < 2 ^ 63)%Z ->
  exists a h', hcall1 (HArrayCreate sz k) h = HOk (RObj a) h' /\ nth_error h a = None /\
    array_is h' a 1 0 sz (repeat (repeat zero (Z.to_nat sz)) (Z.to_nat k)) /\
    forall x, x < length h -> nth_error h' x = nth_error h x.
Proof.
  intros h sz k P1 P2 P3.
  destruct (makes_new (hcall1 (HArrayCreate sz k)) h (VArr sz (repeat zero (Z.to_nat (sz * k))))) as [c [h' [E [Nn [Al O]]]]].
  - cbn. unfold robj, array_create_1d. unfold hbind at 1.
    rewrite (bind_ok _ _ _ _ _ _ _ (usize_fits h (sz * k) ltac:(unfold usize_ok; apply andb_true_intro; split; [apply Z.leb_le|apply Z.ltb_lt]; lia))).
    destruct (Z.ltb_spec (sz * k) (2 ^ 63)); [reflexivity|lia].
  - exists c, h'. split; [exact E|]. split; [exact Nn|]. split; [|exact O]. split.
    + rewrite concat_repeat. rewrite <- Z2Nat.inj_mul by lia. exact Al.
    + apply Forall_forall. intros x Hx. apply repeat_spec in Hx. subst x. rewrite repeat_length. lia.
Qed.

(** ** Slices *)
Lemma seq_nth' : forall n k i, nth_error (seq 0 n) k = Some i <-> k < n /\ i = k.
Proof.
  intros n k i. split.
  - intros E. pose proof (nth_lt _ _ _ _ E) as L. rewrite seq_length in L. split; [exact L|].
    rewrite (nth_error_nth' _ 0) in E by (rewrite seq_length; exact L). rewrite seq_nth in E by exact L. injection E. lia.
  - intros [L ->]. rewrite (nth_error_nth' _ 0) by (rewrite seq_length; exact L). rewrite seq_nth by exact L. reflexivity.
Qed.
Definition range_idx (r : range) : list Z :=
  if Z.ltb 0 (r_step r) then steps_up (r_start r) (r_end r) (Z.abs (r_step r))
  else steps_down (r_start r) (r_end r) (Z.abs (r_step r)).
Lemma div_count : forall d st k, (0 <= d)%Z -> (0 < st)%Z -> k < S (Z.to_nat (d / st)) <-> (Z.of_nat k * st <= d)%Z.
Proof.
  intros d st k D S. pose proof (Z.div_pos d st D S). pose proof (Z.mul_div_le d st S).
  pose proof (Z.mul_succ_div_gt d st S). split; intros; nia.
Qed.
Lemma range_idx_ok : forall r, r_step r <> 0%Z -> range_list r (range_idx r).
Proof.
  intros r N k i. unfold range_idx. destruct (Z.ltb_spec 0 (r_step r)) as [P|P].
  - rewrite Z.abs_eq by lia. unfold steps_up. destruct (Z.leb_spec (r_start r) (r_end r)) as [L|L].
    + rewrite nth_error_map. destruct (nth_error (seq 0 (S (Z.to_nat ((r_end r - r_start r) / r_step r)))) k) as [j|] eqn:E; cbn [option_map].
      * apply seq_nth' in E. destruct E as [Lk ->]. apply div_count in Lk; [|lia|lia]. split.
        -- intros E. injection E as <-. lia.
        -- intros [-> _]. reflexivity.
      * split; [discriminate|]. intros [-> Le]. exfalso. apply nth_error_None in E. rewrite seq_length in E.
        assert (k < S (Z.to_nat ((r_end r - r_start r) / r_step r))) by (apply div_count; lia). lia.
    + split; [destruct k; discriminate|]. intros [-> Le]. nia.
  - rewrite Z.abs_neq by lia. unfold steps_down. destruct (Z.leb_spec (r_end r) (r_start r)) as [L|L].
    + rewrite nth_error_map. destruct (nth_error (seq 0 (S (Z.to_nat ((r_start r - r_end r) / - r_step r)))) k) as [j|] eqn:E; cbn [option_map].
      * apply seq_nth' in E. destruct E as [Lk ->]. apply div_count in Lk; [|lia|lia]. split.
        -- intros E. injection E as <-. lia.
        -- intros [-> _]. f_equal. lia.
      * split; [discriminate|]. intros [-> Le]. exfalso. apply nth_error_None in E. rewrite seq_length in E.
        assert (k < S (Z.to_nat ((r_start r - r_end r) / - r_step r))) by (apply div_count; lia). lia.
    + split; [destruct k; discriminate|]. intros [-> Le]. nia.
Qed.
Lemma list_ext : forall A (l l' : list A), (forall k, nth_error l k = nth_error l' k) -> l = l'.
Proof.
  induction l as [|x l IH]; intros [|y l'] E; auto.
  - specialize (E 0). discriminate.
  - specialize (E 0). discriminate.
  - pose proof (E 0) as E0. cbn in E0. injection E0 as ->. f_equal. apply IH. intros k. exact (E (S k)).
Qed.
Lemma range_unique : forall r l l', range_list r l -> range_list r l' -> l = l'.
Proof.
  intros r l l' R R'. apply list_ext. intros k. destruct (nth_error l k) as [i|] eqn:E.
  - symmetry. apply R'. apply R, E.
  - destruct (nth_error l' k) as [i|] eqn:E'; [|reflexivity]. apply R' in E'. apply R in E'. congruence.
Qed.
Lemma scaled_div : forall d st sz, (0 < st)%Z -> (0 < sz)%Z -> (d * sz / (st * sz))%Z = (d / st)%Z.
Proof. intros. apply Z.div_mul_cancel_r; lia. Qed.
Lemma byte_steps : forall r sz, (0 < sz)%Z -> r_step r <> 0%Z ->
  (if Z.ltb 0 (r_step r) then steps_up (r_start r * sz) (r_end r * sz) (Z.abs (r_step r) * sz)
   else steps_down (r_start r * sz) (r_end r * sz) (Z.abs (r_step r) * sz)) = map (fun i => sz * i)%Z (range_idx r).
Proof.
  intros r sz P N. unfold range_idx. destruct (Z.ltb_spec 0 (r_step r)) as [Q|Q].
  - unfold steps_up. destruct (Z.leb_spec (r_start r) (r_end r)); destruct (Z.leb_spec (r_start r * sz) (r_end r * sz)); try nia; [|reflexivity].
    rewrite <- Z.mul_sub_distr_r, scaled_div by lia. rewrite map_map. apply map_ext. intros k. lia.
  - unfold steps_down. destruct (Z.leb_spec (r_end r) (r_start r)); destruct (Z.leb_spec (r_end r * sz) (r_start r * sz)); try nia; [|reflexivity].
    rewrite <- Z.mul_sub_distr_r, scaled_div by lia. rewrite map_map. apply map_ext. intros k. lia.
Qed.
Lemma i64_fits : forall h z, (- 2 ^ 63 <= z < 2 ^ 63)%Z -> i64 z h = HOk z h.
Proof.
  intros h z R. unfold i64, i64_ok. destruct (Z.leb_spec (- 2 ^ 63) z); [|lia]. destruct (Z.ltb_spec z (2 ^ 63)); [|lia]. reflexivity.
Qed.
Lemma slice_loop_ok : forall h (els : list (list mval)) sz l, (0 < sz)%Z -> Forall (fun x => Z.of_nat (length x) = sz) els ->
  Forall (fun i => 0 <= i < Z.of_nat (length els))%Z l ->
  slice_loop sz (concat els) (map (fun i => sz * i)%Z l) h = HOk (concat (map (fun i => nth (Z.to_nat i) els []) l)) h.
Proof.
  intros h els sz l P F. induction l as [|i l IH]; intros R; [reflexivity|].
  inversion R as [|? ? Ri Rl]; subst. cbn [map slice_loop concat]. unfold hbind at 1. unfold slice_at.
  pose proof (concat_len _ _ F) as Lc.
  destruct (Z.ltb_spec (sz * i) 0); [nia|]. destruct (Z.leb_spec (sz * i + sz) (Z.of_nat (length (concat els)))); [|nia].
  cbn [hret]. rewrite (bind_ok _ _ _ _ _ _ _ (IH Rl)). unfold hret.
  replace (sz * i)%Z with (sz * Z.of_nat (Z.to_nat i))%Z by lia.
  rewrite (concat_at els sz (Z.to_nat i) (nth (Z.to_nat i) els []) F); [reflexivity|]. apply nth_error_nth'. lia.
Qed.
Lemma slice_loop_bad : forall h (els : list (list mval)) sz l, (0 < sz)%Z -> Forall (fun x => Z.of_nat (length x) = sz) els ->
  ~ Forall (fun i => 0 <= i < Z.of_nat (length els))%Z l ->
  slice_loop sz (concat els) (map (fun i => sz * i)%Z l) h = HPanic.
Proof.
  intros h els sz l P F. induction l as [|i l IH]; intros R; [exfalso; apply R; constructor|].
  cbn [map slice_loop]. unfold hbind at 1. unfold slice_at. pose proof (concat_len _ _ F) as Lc.
  destruct (Z.ltb_spec (sz * i) 0) as [|Ge]; [reflexivity|].
  destruct (Z.leb_spec (sz * i + sz) (Z.of_nat (length (concat els)))) as [Le|]; [|reflexivity].
  cbn [hret]. unfold hbind. rewrite IH; [reflexivity|]. intros Rl. apply R. constructor; [nia|exact Rl].
Qed.
Lemma slice_thm : forall h a n al sz els r l, array_is h a n al sz els -> (0 < sz)%Z -> range_fits sz r -> r_step r <> 0%Z ->
  range_list r l ->
  (Forall (fun i => 0 <= i < Z.of_nat (length els))%Z l ->
     exists b h', hcall1 (HSlice a r) h = HOk (RObj b) h' /\ nth_error h b = None /\
       array_is h' b 1 0 sz (map (fun i => nth (Z.to_nat i) els []) l) /\
       forall x, x < length h -> nth_error h' x = nth_error h x) /\
  (~ Forall (fun i => 0 <= i < Z.of_nat (length els))%Z l -> hcall1 (HSlice a r) h = HPanic).
Proof.
  intros h a n al sz els r l A P Fit N R. destruct (arr_cell _ _ _ _ _ _ A) as [Nn [C [Ga F]]].
  assert (El : l = range_idx r) by (apply (range_unique r); [exact R|apply range_idx_ok, N]).
  inversion Fit as [|? ? F1 Fit1]; subst. inversion Fit1 as [|? ? F2 Fit2]; subst. inversion Fit2 as [|? ? F3 Fit3]; subst.
  inversion Fit3 as [|? ? F4 _]; subst.
  assert (E : array_slice_1d a r h =
              hbind (slice_loop sz (concat els) (map (fun i => sz * i)%Z (range_idx r))) (fun data => rc_new (VArr sz data)) h).
  { unfold array_slice_1d. rewrite (bind_ok _ _ _ _ _ _ _ Ga).
    rewrite (bind_ok _ _ _ _ _ _ _ (i64_fits h _ F1)), (bind_ok _ _ _ _ _ _ _ (i64_fits h _ F2)),
      (bind_ok _ _ _ _ _ _ _ (i64_fits h _ F3)), (bind_ok _ _ _ _ _ _ _ (i64_fits h _ F4)).
    destruct (Z.leb_spec (Z.abs (r_step r) * sz) 0); [nia|]. rewrite (byte_steps r sz P N). reflexivity. }
  cbn [hcall1]. unfold robj. split.
  - intros B. destruct (makes_new (robj (array_slice_1d a r)) h (VArr sz (concat (map (fun i => nth (Z.to_nat i) els []) (range_idx r)))))
      as [c [h' [E' [Nc [Al O]]]]].
    + unfold robj. unfold hbind at 1. rewrite E. rewrite (bind_ok _ _ _ _ _ _ _ (slice_loop_ok h els sz _ P F B)). reflexivity.
    + exists c, h'. split; [exact E'|]. split; [exact Nc|]. split; [|exact O]. split; [exact Al|].
      apply Forall_forall. intros x Hx. apply in_map_iff in Hx. destruct Hx as [i [<- Hi]].
      rewrite Forall_forall in B. specialize (B _ Hi). rewrite Forall_forall in F. apply F. apply nth_In. lia.
  - intros B. unfold hbind at 1. rewrite E. unfold hbind. rewrite (slice_loop_bad h els sz _ P F B). reflexivity.
Qed.
Lemma slice_zero_thm : forall h a n al sz els r, array_is h a n al sz els -> range_fits sz r -> r_step r = 0%Z ->
  hcall1 (HSlice a r) h = HPanic.
Proof.
  intros h a n al sz els r A Fit Z0. destruct (arr_cell _ _ _ _ _ _ A) as [Nn [C [Ga F]]].
  inversion Fit as [|? ? F1 Fit1]; subst. inversion Fit1 as [|? ? F2 Fit2]; subst. inversion Fit2 as [|? ? F3 Fit3]; subst.
  inversion Fit3 as [|? ? F4 _]; subst.
  cbn [hcall1]. unfold robj, array_slice_1d. unfold hbind at 1. rewrite (bind_ok _ _ _ _ _ _ _ Ga).
  rewrite (bind_ok _ _ _ _ _ _ _ (i64_fits h _ F1)), (bind_ok _ _ _ _ _ _ _ (i64_fits h _ F2)),
      (bind_ok _ _ _ _ _ _ _ (i64_fits h _ F3)), (bind_ok _ _ _ _ _ _ _ (i64_fits h _ F4)).
  rewrite Z0. cbn. reflexivity.
Qed.

(** ** Strings *)
Lemma str_get : forall h a t, str_is h a t -> get_str a h = HOk t h.
Proof.
  intros h a t [n [al A]]. apply alive_iff in A. destruct A as [N C].
  unfold get_str. rewrite (bind_ok _ _ _ _ _ _ _ (get_live _ _ _ _ _ C)). reflexivity.
Qed.
Lemma to_nul_app : forall s t, ~ In Ascii.zero s -> to_nul (s ++ Ascii.zero :: t) = s.
Proof.
  induction s as [|c s IH]; intros t N; [reflexivity|]. cbn [app to_nul].
  destruct (Ascii.eqb_spec c "000"%char) as [E|E]; [exfalso; apply N; left; exact E|].
  rewrite IH; [reflexivity|]. intros H. apply N. right. exact H.
Qed.
Lemma str_create_thm : forall h s t, ~ In Ascii.zero s -> makes_object (hcall1 (HStrCreate (s ++ Ascii.zero :: t))) h (VStr s).
Proof. intros h s t N. apply makes_new. cbn. unfold string_create. rewrite (to_nul_app s t N). reflexivity. Qed.
Lemma str_concat_thm : forall h a b s t, str_is h a s -> str_is h b t -> makes_object (hcall1 (HStrConcat a b)) h (VStr (s ++ t)).
Proof.
  intros h a b s t A B. apply makes_new. cbn. unfold robj, string_concatenate. unfold hbind at 1.
  rewrite (bind_ok _ _ _ _ _ _ _ (str_get _ _ _ A)), (bind_ok _ _ _ _ _ _ _ (str_get _ _ _ B)). reflexivity.
Qed.
Lemma str_equal_thm : forall h a b s t, str_is h a s -> str_is h b t ->
  exists v, hcall1 (HStrEqual a b) h = HOk (RTruth v) h /\ (v = true <-> s = t).
Proof.
  intros h a b s t A B. cbn. unfold string_equal. unfold hbind at 1.
  rewrite (bind_ok _ _ _ _ _ _ _ (str_get _ _ _ A)), (bind_ok _ _ _ _ _ _ _ (str_get _ _ _ B)).
  exists (text_eqb s t). split; [reflexivity|]. unfold text_eqb. destruct (list_eq_dec Ascii.ascii_dec s t); split; congruence.
Qed.
Lemma str_length_thm : forall h a s, str_is h a s -> (Z.of_nat (length s) < 2 ^ 32)%Z ->
  hcall1 (HStrLength a) h = HOk (RInt (Z.of_nat (length s))) h.
Proof.
  intros h a s A L. cbn. unfold string_get_length. unfold hbind at 1. rewrite (bind_ok _ _ _ _ _ _ _ (str_get _ _ _ A)).
  destruct (Z.ltb_spec (Z.of_nat (length s)) (2 ^ 32)); [reflexivity|lia].
Qed.

(** ** Big integers *)
Lemma big_get : forall h a z, big_is h a z -> get_big a h = HOk z h.
Proof.
  intros h a z [n [al A]]. apply alive_iff in A. destruct A as [N C].
  unfold get_big. rewrite (bind_ok _ _ _ _ _ _ _ (get_live _ _ _ _ _ C)). reflexivity.
Qed.
Lemma byte_mod : forall z, byte_Z (Z_byte z) = (z mod 256)%Z.
Proof.
  intros z. unfold byte_Z, Z_byte. pose proof (Z.mod_pos_bound z 256 ltac:(lia)) as R.
  destruct (Byte.of_N (Z.to_N (z mod 256))) as [b|] eqn:E.
  - apply Byte.to_of_N in E. rewrite E. lia.
  - apply Byte.of_N_None_iff in E. lia.
Qed.
Lemma unsigned_bytes : forall n z, unsigned_le (bytes_le n z) = (z mod 2 ^ (8 * Z.of_nat n))%Z.
Proof.
  induction n as [|n IH]; intros z.
  - cbn [bytes_le unsigned_le]. change (2 ^ (8 * Z.of_nat 0))%Z with 1%Z. rewrite Z.mod_1_r. reflexivity.
  - cbn [bytes_le unsigned_le]. rewrite IH, byte_mod. replace (8 * Z.of_nat (S n))%Z with (8 + 8 * Z.of_nat n)%Z by lia.
    rewrite Z.pow_add_r by lia. change (2 ^ 8)%Z with 256%Z. rewrite (Z.rem_mul_r z 256 (2 ^ (8 * Z.of_nat n))) by (try lia; apply Z.pow_pos_nonneg; lia).
    lia.
Qed.
Lemma bytes_len : forall n z, length (bytes_le n z) = n.
Proof. induction n as [|n IH]; intros z; cbn; auto. Qed.
Lemma count_bound : forall z, let n := (8 * Z.of_nat (byte_count z))%Z in (- 2 ^ (n - 1) <= z < 2 ^ (n - 1))%Z.
Proof.
  intros z. cbv zeta. unfold byte_count.
  set (m := if Z.ltb z 0 then (- z - 1)%Z else z).
  set (k := (Z.log2 m + (if (Z.eqb z 0 || Z.eqb z (-1))%bool then 0 else 1))%Z).
  assert (M0 : (0 <= m)%Z) by (unfold m; destruct (Z.ltb_spec z 0); lia).
  assert (K : (0 <= k)%Z) by (unfold k; pose proof (Z.log2_nonneg m); destruct (Z.eqb z 0 || Z.eqb z (-1))%bool; lia).
  assert (B : (m < 2 ^ k)%Z).
  { unfold k, m. destruct (Z.eqb_spec z 0) as [->|N0]; [cbn; lia|]. destruct (Z.eqb_spec z (-1)) as [->|N1]; [cbn; lia|].
    cbn [orb]. change (if Z.ltb z 0 then (- z - 1)%Z else z) with m.
    assert (Mp : (0 < m)%Z) by (unfold m; destruct (Z.ltb_spec z 0); lia). exact (proj2 (Z.log2_spec m Mp)). }
  assert (Le : (k <= 8 * Z.of_nat (S (Z.to_nat (k / 8))) - 1)%Z).
  { pose proof (Z.mul_succ_div_gt k 8 ltac:(lia)). pose proof (Z.div_pos k 8 K ltac:(lia)). lia. }
  pose proof (Z.pow_le_mono_r 2 _ _ ltac:(lia) Le) as Pw.
  unfold m in B. destruct (Z.ltb_spec z 0); lia.
Qed.
Lemma signed_roundtrip : forall z, signed_le (to_signed_le z) = z.
Proof.
  intros z. unfold signed_le, to_signed_le. rewrite bytes_len, unsigned_bytes.
  pose proof (count_bound z) as B. cbv zeta in B. unfold byte_count in *.
  set (q := Z.to_nat _) in *. set (n := (8 * Z.of_nat (S q))%Z) in *. assert (Np : (8 <= n)%Z) by (unfold n; lia).
  destruct (Z.eqb_spec n 0); [lia|].
  assert (E2 : (2 ^ n = 2 * 2 ^ (n - 1))%Z) by (rewrite <- Z.pow_succ_r by lia; f_equal; lia).
  assert (P : (0 < 2 ^ (n - 1))%Z) by (apply Z.pow_pos_nonneg; lia).
  destruct (Z.lt_ge_cases z 0) as [Neg|Pos].
  - assert (E : (z mod 2 ^ n = z + 2 ^ n)%Z) by (symmetry; apply (Z.mod_unique_pos z (2 ^ n) (-1)); lia).
    rewrite E. destruct (Z.leb_spec (2 ^ (n - 1)) (z + 2 ^ n)); lia.
  - rewrite Z.mod_small by lia. destruct (Z.leb_spec (2 ^ (n - 1)) z); lia.
Qed.
Lemma unsigned_range : forall l, (0 <= unsigned_le l < 2 ^ (8 * Z.of_nat (length l)))%Z.
Proof.
  induction l as [|b l IH]; [cbn; lia|]. cbn [unsigned_le length].
  replace (8 * Z.of_nat (S (length l)))%Z with (8 + 8 * Z.of_nat (length l))%Z by lia. rewrite Z.pow_add_r by lia.
  change (2 ^ 8)%Z with 256%Z. assert (0 <= byte_Z b < 256)%Z by (unfold byte_Z; pose proof (Byte.to_N_bounded b); lia). lia.
Qed.
Lemma signed_shortest : forall l, l <> [] -> length (to_signed_le (signed_le l)) <= length l.
Proof.
  intros l Nl. unfold to_signed_le. rewrite bytes_len. set (z := signed_le l).
  assert (Lp : (0 < Z.of_nat (length l))%Z) by (destruct l; [congruence|cbn; lia]).
  assert (B : (- 2 ^ (8 * Z.of_nat (length l) - 1) <= z < 2 ^ (8 * Z.of_nat (length l) - 1))%Z).
  { unfold z, signed_le. pose proof (unsigned_range l) as U. set (n := (8 * Z.of_nat (length l))%Z) in *.
    assert (E2 : (2 ^ n = 2 * 2 ^ (n - 1))%Z) by (rewrite <- Z.pow_succ_r by lia; f_equal; lia).
    destruct (Z.eqb_spec n 0); [lia|]. destruct (Z.leb_spec (2 ^ (n - 1)) (unsigned_le l)); lia. }
  unfold byte_count. set (m := if Z.ltb z 0 then (- z - 1)%Z else z).
  assert (M0 : (0 <= m < 2 ^ (8 * Z.of_nat (length l) - 1))%Z) by (unfold m; destruct (Z.ltb_spec z 0); lia).
  set (k := (Z.log2 m + (if (Z.eqb z 0 || Z.eqb z (-1))%bool then 0 else 1))%Z).
  assert (K : (0 <= k <= 8 * Z.of_nat (length l) - 1)%Z).
  { unfold k. pose proof (Z.log2_nonneg m). split; [destruct (Z.eqb z 0 || Z.eqb z (-1))%bool; lia|].
    destruct (Z.eq_dec m 0) as [Em|Em].
    - assert (Hz : (Z.eqb z 0 || Z.eqb z (-1))%bool = true).
      { unfold m in Em. destruct (Z.ltb_spec z 0); [assert (z = -1)%Z by lia|assert (z = 0)%Z by lia]; subst z;
          rewrite H1; reflexivity. }
      rewrite Hz, Em. cbn [Z.log2]. lia.
    - assert (Z.log2 m < 8 * Z.of_nat (length l) - 1)%Z by (apply Z.log2_lt_pow2; lia).
      destruct (Z.eqb z 0 || Z.eqb z (-1))%bool; lia. }
  assert (k / 8 < Z.of_nat (length l))%Z by (apply Z.div_lt_upper_bound; lia).
  pose proof (Z.div_pos k 8 (proj1 K) ltac:(lia)). lia.
Qed.
Lemma big_bytes_thm : forall h a z, big_is h a z ->
  exists l, hcall1 (HBigData a) h = HOk (RBytes l) h /\ makes_object (hcall1 (HBigBytes l)) h (VBig z) /\
    ((Z.of_nat (length l) < 2 ^ 32)%Z -> hcall1 (HBigLength a) h = HOk (RInt (Z.of_nat (length l))) h) /\
    forall l', l' <> [] -> makes_object (hcall1 (HBigBytes l')) h (VBig z) -> length l <= length l'.
Proof.
  intros h a z B. exists (to_signed_le z). split; [|split; [|split]].
  - cbn [hcall1]. unfold bigint_get_data. unfold hbind at 1. rewrite (bind_ok _ _ _ _ _ _ _ (big_get _ _ _ B)). reflexivity.
  - apply makes_new. cbn [hcall1]. unfold bigint_create_array. rewrite signed_roundtrip. reflexivity.
  - intros L. cbn [hcall1]. unfold bigint_get_length. unfold hbind at 1. rewrite (bind_ok _ _ _ _ _ _ _ (big_get _ _ _ B)).
    destruct (Z.ltb_spec (Z.of_nat (length (to_signed_le z))) (2 ^ 32)); [reflexivity|lia].
  - intros l' Nl [b [h' [E [_ [A _]]]]]. cbn [hcall1] in E. unfold robj, bigint_create_array, hbind, rc_new, hret in E. injection E as <- <-.
    apply alive_iff in A. destruct A as [_ A]. rewrite nth_error_app2, Nat.sub_diag in A by lia. cbn in A. unfold live in A.
    injection A as <-. apply signed_shortest, Nl.
Qed.
Lemma big2 : forall h a b x y op z, big_is h a x -> big_is h b y -> bigint_op op x y = Some z ->
  makes_object (hcall1 (HBig2 op a b)) h (VBig z).
Proof.
  intros h a b x y op z A B E. apply makes_new. cbn [hcall1]. unfold robj, bigint_binary. unfold hbind at 1.
  rewrite (bind_ok _ _ _ _ _ _ _ (big_get _ _ _ A)), (bind_ok _ _ _ _ _ _ _ (big_get _ _ _ B)), E. reflexivity.
Qed.
Lemma big_arith_thm : forall h a b x y k, big_is h a x -> big_is h b y ->
  makes_object (hcall1 (HBig2 BAdd a b)) h (VBig (x + y)) /\ makes_object (hcall1 (HBig2 BSub a b)) h (VBig (x - y)) /\
  makes_object (hcall1 (HBig2 BMul a b)) h (VBig (x * y)) /\ makes_object (hcall1 (HBig1 BNeg a)) h (VBig (- x)) /\
  makes_object (hcall1 (HBigPow a (Z.of_nat k))) h (VBig (fold_right Z.mul 1%Z (repeat x k))).
Proof.
  intros h a b x y k A B. split; [|split; [|split; [|split]]]; try (eapply big2; eauto; reflexivity).
  - apply makes_new. cbn [hcall1]. unfold robj, bigint_unary. unfold hbind at 1. rewrite (bind_ok _ _ _ _ _ _ _ (big_get _ _ _ A)).
    replace (x * -1)%Z with (- x)%Z by lia. reflexivity.
  - apply makes_new. cbn [hcall1]. unfold robj, bigint_power. unfold hbind at 1. rewrite (bind_ok _ _ _ _ _ _ _ (big_get _ _ _ A)).
    replace (fold_right Z.mul 1%Z (repeat x k)) with (x ^ Z.of_nat k)%Z; [reflexivity|].
    induction k as [|k IH]; [reflexivity|]. rewrite Nat2Z.inj_succ, Z.pow_succ_r by lia. cbn [repeat fold_right]. now rewrite IH.
Qed.
Lemma big_compare_thm : forall h a b x y, big_is h a x -> big_is h b y ->
  exists e g ge, hcall1 (HBigCmp BEq a b) h = HOk (RTruth e) h /\ hcall1 (HBigCmp BGt a b) h = HOk (RTruth g) h /\ hcall1 (HBigCmp BGe a b) h = HOk (RTruth ge) h /\ (e = true <-> x = y) /\ (g = true <-> (y < x)%Z) /\ (ge = true <-> (y <= x)%Z).
Proof.
  intros h a b x y A B. exists (Z.eqb x y), (Z.gtb x y), (Z.geb x y).
  assert (G : forall op, hcall1 (HBigCmp op a b) h = HOk (RTruth (match op with BEq => Z.eqb x y | BGt => Z.gtb x y | BGe => Z.geb x y end)) h).
  { intros op. cbn [hcall1]. unfold bigint_compare. unfold hbind at 1. rewrite (bind_ok _ _ _ _ _ _ _ (big_get _ _ _ A)), (bind_ok _ _ _ _ _ _ _ (big_get _ _ _ B)). reflexivity. }
  split; [apply (G BEq)|]. split; [apply (G BGt)|]. split; [apply (G BGe)|]. split; [apply Z.eqb_eq|]. rewrite Z.gtb_ltb, Z.geb_leb.
  split; [apply Z.ltb_lt|apply Z.leb_le].
Qed.
Lemma big_divide_thm : forall h a b x y, big_is h a x -> big_is h b y ->
  (y <> 0%Z -> exists q r, makes_object (hcall1 (HBig2 BDiv a b)) h (VBig q) /\ makes_object (hcall1 (HBig2 BMod a b)) h (VBig r) /\
     x = (q * y + r)%Z /\ (Z.abs r < Z.abs y)%Z /\ (r = 0%Z \/ Z.sgn r = Z.sgn x)) /\
  (y = 0%Z -> hcall1 (HBig2 BDiv a b) h = HPanic /\ hcall1 (HBig2 BMod a b) h = HPanic).
Proof.
  intros h a b x y A B. split; intros Hy.
  - exists (Z.quot x y), (Z.rem x y).
    split; [eapply big2; eauto; cbn; now apply Z.eqb_neq in Hy; rewrite Hy|].
    split; [eapply big2; eauto; cbn; now apply Z.eqb_neq in Hy; rewrite Hy|].
    split; [rewrite (Z.quot_rem' x y) at 1; lia|].
    split; [apply Z.rem_bound_abs, Hy|].
    destruct (Z.eq_dec (Z.rem x y) 0); [left; assumption|right]. apply Z.rem_sign_nz; assumption.
  - subst y. split; cbn [hcall1]; unfold robj, bigint_binary; unfold hbind at 1;
      rewrite (bind_ok _ _ _ _ _ _ _ (big_get _ _ _ A)), (bind_ok _ _ _ _ _ _ _ (big_get _ _ _ B)); reflexivity.
Qed.
Lemma big_shift_thm : forall h a x k, big_is h a x -> (0 <= k)%Z ->
  makes_object (hcall1 (HBigShift a k true)) h (VBig (x * 2 ^ k)) /\
  exists q, makes_object (hcall1 (HBigShift a k false)) h (VBig q) /\ (q * 2 ^ k <= x < (q + 1) * 2 ^ k)%Z.
Proof.
  intros h a x k A K. split.
  - apply makes_new. cbn [hcall1]. unfold robj, bigint_shift. unfold hbind at 1. rewrite (bind_ok _ _ _ _ _ _ _ (big_get _ _ _ A)).
    rewrite Z.shiftl_mul_pow2 by exact K. reflexivity.
  - exists (Z.shiftr x k). split.
    + apply makes_new. cbn [hcall1]. unfold robj, bigint_shift. unfold hbind at 1. rewrite (bind_ok _ _ _ _ _ _ _ (big_get _ _ _ A)). reflexivity.
    + rewrite Z.shiftr_div_pow2 by exact K. assert (P : (0 < 2 ^ k)%Z) by (apply Z.pow_pos_nonneg; lia).
      pose proof (Z.mul_div_le x (2 ^ k) P). pose proof (Z.mul_succ_div_gt x (2 ^ k) P). lia.
Qed.
Lemma bit_of_ok : forall x i, (0 <= i)%Z -> bit_of x i = Z.testbit x i.
Proof. intros x i P. unfold bit_of. rewrite <- Z.shiftr_div_pow2 by exact P. rewrite <- Z.bit0_odd, Z.shiftr_spec by lia. f_equal. Qed.
Lemma big_bits_thm : forall h a b x y, big_is h a x -> big_is h b y ->
  exists zand zor zxor znot,
    makes_object (hcall1 (HBig2 BAnd a b)) h (VBig zand) /\ makes_object (hcall1 (HBig2 BOr a b)) h (VBig zor) /\
    makes_object (hcall1 (HBig2 BXor a b)) h (VBig zxor) /\ makes_object (hcall1 (HBig1 BNot a)) h (VBig znot) /\
    forall i, (0 <= i)%Z ->
      bit_of zand i = (bit_of x i && bit_of y i)%bool /\ bit_of zor i = (bit_of x i || bit_of y i)%bool /\
      bit_of zxor i = xorb (bit_of x i) (bit_of y i) /\ bit_of znot i = negb (bit_of x i).
Proof.
  intros h a b x y A B. exists (Z.land x y), (Z.lor x y), (Z.lxor x y), (Z.lnot x).
  split; [eapply big2; eauto|]. split; [eapply big2; eauto|]. split; [eapply big2; eauto|]. split.
  - apply makes_new. cbn [hcall1]. unfold robj, bigint_unary. unfold hbind at 1. rewrite (bind_ok _ _ _ _ _ _ _ (big_get _ _ _ A)). reflexivity.
  - intros i P. rewrite !bit_of_ok by exact P. rewrite Z.land_spec, Z.lor_spec, Z.lxor_spec, Z.lnot_spec by exact P. auto.
Qed.
End Thms.
