(** * Proofs about strings *)
From Coq Require Import String Ascii List NArith ZArith Bool Lia.
From Coq.Strings Require Import Byte.
From Verif Require Import SimExp Text SpecText SpecOutput TextLemmas OutputThms Heap SpecHeap HeapLemmas HeapThms SpecString Strings Utf8.
From Verif Require Front.
Import ListNotations.
Local Open Scope list_scope.

(** ** Texts that need no escapes *)
Lemma plain_small : forall c, plain c -> (N_of_ascii c < 128)%N.
Proof. intros c P. unfold plain in P. lia. Qed.
Lemma plain_utf8 : forall t, Forall plain t -> Front.utf8 t = true /\ chars t = map N_of_ascii t.
Proof.
  induction t as [|c t IH]; intros F; [split; reflexivity|]. destruct (IH (Forall_inv_tail F)) as [U C].
  assert (P := plain_small c (Forall_inv F)). cbn [Front.utf8 chars map].
  replace (Front.byte 0 127 c) with true by (symmetry; apply byte_iff; lia).
  replace (N_of_ascii c <? 128)%N with true by (symmetry; apply N.ltb_lt; lia). now rewrite C.
Qed.
Lemma plain_escape : forall c, plain c -> escape_char (N_of_ascii c) = [c].
Proof.
  intros c P. unfold plain in P. unfold escape_char.
  repeat match goal with |- context [N.eqb ?a ?b] => replace (N.eqb a b) with false by (symmetry; apply N.eqb_neq; lia) end.
  replace (32 <=? N_of_ascii c)%N with true by (symmetry; apply N.leb_le; lia).
  replace (N_of_ascii c <=? 126)%N with true by (symmetry; apply N.leb_le; lia). cbn [orb andb]. now rewrite ascii_N_embedding.
Qed.
Lemma plain_default : forall t, Forall plain t -> escape_default (map N_of_ascii t) = t.
Proof.
  unfold escape_default. induction t as [|c t IH]; intros F; [reflexivity|]. cbn [map flat_map]. rewrite (plain_escape c (Forall_inv F)), (IH (Forall_inv_tail F)). reflexivity.
Qed.
Lemma plain_no_nul : forall t, Forall plain t -> ~ In NUL t.
Proof. intros t F H. rewrite Forall_forall in F. specialize (F _ H). unfold plain in F. cbn in F. lia. Qed.
Lemma plain_all : forall (f : ascii -> bool) t, forallb f t = true -> (forall c, f c = true -> plain c) -> Forall plain t.
Proof. intros f t H P. apply Forall_forall. intros c Hc. apply P. rewrite forallb_forall in H. auto. Qed.
Definition plainb (c : ascii) : bool :=
  let n := N_of_ascii c in ((32 <=? n) && (n <=? 126) && negb (N.eqb n 34) && negb (N.eqb n 39) && negb (N.eqb n 92))%N%bool.
Lemma plainb_ok : forall c, plainb c = true -> plain c.
Proof.
  intros c H. unfold plainb in H. unfold plain. rewrite !andb_true_iff, !negb_true_iff, !N.leb_le, !N.eqb_neq in H. tauto.
Qed.
Lemma plainb_all : forall t, forallb plainb t = true -> Forall plain t.
Proof. intros t H. exact (plain_all plainb t H plainb_ok). Qed.
Lemma each_ascii : forall (f g : ascii -> bool),
  forallb (fun n => implb (f (ascii_of_nat n)) (g (ascii_of_nat n))) (seq 0 256) = true -> forall c, f c = true -> g c = true.
Proof.
  intros f g H c Fc. rewrite forallb_forall in H. specialize (H (nat_of_ascii c)).
  rewrite ascii_nat_embedding, Fc in H. apply H. apply in_seq. pose proof (nat_ascii_bounded c). lia.
Qed.
Lemma num_plain : forall t, forallb numchar t = true -> Forall plain t.
Proof. intros t H. apply (plain_all numchar t H). intros c Hc. apply plainb_ok. revert c Hc. apply each_ascii. vm_compute. reflexivity. Qed.
Lemma dbl_plain : forall t, forallb double_char t = true -> Forall plain t.
Proof. intros t H. apply (plain_all double_char t H). intros c Hc. apply plainb_ok. revert c Hc. apply each_ascii. vm_compute. reflexivity. Qed.
Lemma int_plain : forall z, Forall plain (show_Z z).
Proof. intros z. apply num_plain, show_Z_chars. Qed.

(** ** Strings made from values *)
Lemma gives_new : forall h t, gives (rc_new (VStr t)) h t.
Proof.
  intros h t. exists (length h), (h ++ [live 1 0 (VStr t)]). split; [reflexivity|]. split; [apply nth_error_None; lia|]. split.
  - apply alive_iff. split; [lia|]. rewrite nth_error_app2 by lia. now rewrite Nat.sub_diag.
  - intros x L. apply nth_error_app1. exact L.
Qed.
Lemma to_nul_app : forall t u, ~ In NUL t -> to_nul (t ++ NUL :: u) = t.
Proof.
  induction t as [|c t IH]; intros u H; [reflexivity|]. cbn [app to_nul]. destruct (Ascii.eqb c "000"%char) eqn:E.
  - apply Ascii.eqb_eq in E. subst. elim H. now left.
  - f_equal. apply IH. intros X. apply H. now right.
Qed.
Lemma convert_thm : forall h t, ~ In NUL t -> gives (convert t) h t.
Proof.
  intros h t H. unfold convert. destruct (existsb (Ascii.eqb NUL) t) eqn:E.
  - apply existsb_exists in E. destruct E as (c & Hc & Ec). apply Ascii.eqb_eq in Ec. subst. contradiction.
  - unfold string_create. rewrite to_nul_app by exact H. apply gives_new.
Qed.
Lemma convert_plain : forall h t, Forall plain t -> gives (convert t) h t.
Proof. intros h t F. apply convert_thm, plain_no_nul, F. Qed.
Lemma range_plain : forall r, Forall plain (range_to_string r).
Proof.
  intros r. unfold range_to_string. assert (Dots : Forall plain (lit "..")) by (apply plainb_all; reflexivity).
  rewrite !Forall_app. split; [apply int_plain|]. split; [exact Dots|]. split; [|apply int_plain].
  destruct (Z.eqb (r_step r) 1); [constructor|]. rewrite Forall_app. split; [apply int_plain|exact Dots].
Qed.
Lemma get_str_live : forall h a t, str_is h a t -> get_str a h = HOk t h.
Proof.
  intros h a t (n & al & A). apply alive_iff in A. destruct A as [_ E]. unfold get_str.
  rewrite (bind_ok _ _ (get_val a) _ h _ _ (get_live _ _ _ _ _ E)). reflexivity.
Qed.
Lemma get_big_live : forall h a z, big_is h a z -> get_big a h = HOk z h.
Proof.
  intros h a z (n & al & A). apply alive_iff in A. destruct A as [_ E]. unfold get_big.
  rewrite (bind_ok _ _ (get_val a) _ h _ _ (get_live _ _ _ _ _ E)). reflexivity.
Qed.
Lemma big_text : forall h a z, big_is h a z -> gives (rt_bigint_to_string a) h (show_Z z).
Proof.
  intros h a z B. unfold gives, rt_bigint_to_string. rewrite (bind_ok _ _ (get_big a) _ h _ _ (get_big_live h a z B)).
  apply convert_plain, int_plain.
Qed.

(** ** Messages *)
Section Messages.
Context {D : Doubles}.
Lemma message_thm : forall h a t out, str_is h a t ->
  (forall m, is_text t m -> rt_message a h out = MOk (out ++ lit "INFO" ++ TAB :: escape_default m ++ [NL]) /\
    rt_fail a h out = MFail m (out ++ lit "INFO" ++ TAB :: escape_default m ++ [NL])) /\
  ((~ exists m, is_text t m) -> rt_message a h out = MPanic out /\ rt_fail a h out = MPanic out).
Proof.
  intros h a t out S. unfold rt_fail, rt_message. rewrite (get_str_live h a t S). split.
  - intros m Hm. apply to_str_thm in Hm. rewrite Hm. cbn [render]. unfold record_output_str. rewrite <- app_assoc. split; reflexivity.
  - intros Hm. apply to_str_none in Hm. rewrite Hm. split; reflexivity.
Qed.
Lemma message_plain : forall h a t out, str_is h a t -> Forall plain t ->
  rt_message a h out = MOk (out ++ lit "INFO" ++ TAB :: t ++ [NL]).
Proof.
  intros h a t out S F. destruct (plain_utf8 t F) as [U C].
  destruct (message_thm h a t out S) as [H _]. assert (T : is_text t (map N_of_ascii t)) by (apply to_str_thm; unfold to_str; now rewrite U, C).
  rewrite (proj1 (H _ T)), plain_default by exact F. reflexivity.
Qed.
Lemma is_text_inj : forall s t m, is_text s m -> is_text t m -> s = t.
Proof. intros s t m [_ ->] [_ ->]. reflexivity. Qed.
Lemma escape_inj : forall m m', escape_default m = escape_default m' -> m = m'.
Proof. intros m m' E. assert (X := read_escape m). rewrite E, read_escape in X. now inversion X. Qed.
Lemma message_inj : forall h a b s t out o, str_is h a s -> str_is h b t -> rt_message a h out = MOk o -> rt_message b h out = MOk o -> s = t.
Proof.
  intros h a b s t out o S T A B. unfold rt_message in *. rewrite (get_str_live h a s S) in A. rewrite (get_str_live h b t T) in B.
  destruct (to_str s) as [m|] eqn:Es; [|discriminate]. destruct (to_str t) as [m'|] eqn:Et; [|discriminate].
  inversion A as [A1]. inversion B as [B1]. rewrite <- B1 in A1. apply app_inv_head in A1. cbn [render] in A1. unfold record_output_str in A1.
  apply app_inv_tail in A1. injection A1 as A1. apply escape_inj in A1. subst m'. apply to_str_thm in Es. apply to_str_thm in Et. exact (is_text_inj s t m Es Et).
Qed.
Lemma is_text_app : forall s t m m', is_text s m -> is_text t m' -> is_text (s ++ t) (m ++ m').
Proof. intros s t m m' [F ->] [G ->]. split; [apply Forall_app; auto|]. unfold encode. symmetry. apply flat_map_app. Qed.
End Messages.

(** ** Strings have no NUL inside *)
Definition clean_val (v : hval) : Prop := match v with VStr t => ~ In NUL t | _ => True end.
Definition clean (h : heap) : Prop := forall x c v, nth_error h x = Some c -> val c = Some v -> clean_val v.
Definition ends {X} (m : Hp X) (Q : X -> Prop) : Prop := forall h r h', clean h -> m h = HOk r h' -> clean h' /\ Q r.
Lemma ends_bind : forall X Y (m : Hp X) (f : X -> Hp Y) P Q, ends m P -> (forall x, P x -> ends (f x) Q) -> ends (hbind m f) Q.
Proof.
  intros X Y m f P Q A B h r h' C E. unfold hbind in E. destruct (m h) as [x h1| | |] eqn:Em; try discriminate.
  destruct (A h x h1 C Em) as [C1 Px]. exact (B x Px h1 r h' C1 E).
Qed.
Lemma ends_ret : forall X (x : X) (Q : X -> Prop), Q x -> ends (hret x) Q.
Proof. intros X x Q H h r h' C E. inversion E; subst. auto. Qed.
Lemma ends_stop : forall X (m : Hp X) Q, (forall h r h', m h <> HOk r h') -> ends m Q.
Proof. intros X m Q H h r h' C E. elim (H _ _ _ E). Qed.
Lemma ends_panic : forall X Q, ends (@hpanic X) Q. Proof. intros; now apply ends_stop. Qed.
Lemma ends_ub : forall X Q, ends (@hub X) Q. Proof. intros; now apply ends_stop. Qed.
Lemma ends_fail : forall X m Q, ends (@hfail X m) Q. Proof. intros; now apply ends_stop. Qed.
Lemma ends_new : forall v, clean_val v -> ends (rc_new v) (fun _ => True).
Proof.
  intros v Hv h r h' C E. inversion E; subst. split; [|exact I]. intros x c w. destruct (Nat.lt_ge_cases x (length h)).
  - rewrite nth_error_app1 by assumption. apply C.
  - rewrite nth_error_app2 by assumption. destruct (x - length h) as [|[|]]; cbn; [|discriminate|discriminate]. intros X Y. inversion X; subst. inversion Y; subst. exact Hv.
Qed.
Lemma clean_put : forall h a c, clean h -> (forall v, val c = Some v -> clean_val v) -> clean (list_put h a c).
Proof.
  intros h a c C Hc x d w E Ev. destruct (Nat.eq_dec a x) as [->|N].
  - assert (L : x < length h) by (rewrite <- (len_put _ h x c); apply nth_lt in E; exact E). rewrite nth_put_eq in E by exact L. inversion E; subst. auto.
  - rewrite nth_put_neq in E by exact N. exact (C x d w E Ev).
Qed.
Lemma ends_cell : forall a (f : cell -> Hp unit) , (forall c h r h', f c h = HOk r h' -> exists d, h' = list_put h a d /\ (val d = val c \/ val d = None)) ->
  ends (hbind (box a) f) (fun _ => True).
Proof.
  intros a f H h r h' C E. split; [|exact I]. unfold hbind, box in E. destruct (nth_error h a) as [c|] eqn:En; [|discriminate].
  destruct (held c); [|discriminate]. destruct (H c h r h' E) as (d & -> & V). apply clean_put; [exact C|]. intros v Ev. destruct V as [V|V]; [|congruence].
  apply (C a c v En). congruence.
Qed.
Lemma ends_inc_strong : forall a, ends (inc_strong a) (fun _ => True).
Proof. intros. apply ends_cell. intros c h r h'. destruct (strong c); [discriminate|]. intros E. inversion E; subst. eexists. split; [reflexivity|]. now left. Qed.
Lemma ends_dec_strong : forall a, ends (dec_strong a) (fun _ => True).
Proof.
  intros. apply ends_cell. intros c h r h'. destruct (strong c) as [|[|n]]; [discriminate| |]; (destruct (weak c) as [|w]; [discriminate|]);
    intros E; inversion E; subst; eexists; (split; [reflexivity|]); cbn; auto.
Qed.
Lemma ends_inc_weak : forall a, ends (inc_weak a) (fun _ => True).
Proof. intros. apply ends_cell. intros c h r h'. destruct (weak c); [discriminate|]. intros E. inversion E; subst. eexists. split; [reflexivity|]. now left. Qed.
Lemma ends_drop_weak : forall a, ends (drop_weak a) (fun _ => True).
Proof. intros. apply ends_cell. intros c h r h'. destruct (weak c); [discriminate|]. intros E. inversion E; subst. eexists. split; [reflexivity|]. now left. Qed.
Lemma ends_repeat : forall n m, ends m (fun _ => True) -> ends (hrepeat n m) (fun _ => True).
Proof. induction n; intros m H; cbn [hrepeat]; [now apply ends_ret|]. apply ends_bind with (fun _ => True); auto. Qed.
Lemma ends_update : forall a k b, ends (update_counts a k b) (fun _ => True).
Proof.
  intros a k b. unfold update_counts. apply ends_repeat. unfold count_step. destruct (0 <? k)%Z, b; auto using ends_inc_weak, ends_inc_strong, ends_dec_strong.
  apply ends_bind with (fun _ => True); [apply ends_inc_weak|]. intros _ _. apply ends_bind with (fun _ => True); [apply ends_drop_weak|]. intros _ _. apply ends_drop_weak.
Qed.
Lemma ends_get : forall a, ends (get_val a) clean_val.
Proof.
  intros a h r h' C E. unfold get_val in E. destruct (nth_error h a) as [c|] eqn:En; [|discriminate].
  destruct (held c); [|discriminate]. destruct (val c) as [v|] eqn:Ev; [|discriminate]. inversion E; subst. split; [exact C|exact (C a c r En Ev)].
Qed.
Lemma ends_box : forall a, ends (box a) (fun _ => True).
Proof. intros a h r h' C E. unfold box in E. destruct (nth_error h a) as [c|]; [|discriminate]. destruct (held c); inversion E; subst. auto. Qed.
Lemma ends_set : forall a v, clean_val v -> ends (set_val a v) (fun _ => True).
Proof.
  intros a v Hv h r h' C E. split; [|exact I]. unfold set_val, hbind, box, set_box in E. destruct (nth_error h a) as [c|]; [|discriminate].
  destruct (held c); [|discriminate]. inversion E; subst. apply clean_put; [exact C|]. cbn. intros w X. inversion X; subst. exact Hv.
Qed.
Ltac getting := intros a; eapply ends_bind; [apply ends_get|]; intros [| | | |] V; solve [apply ends_ub | apply ends_ret; auto].
Lemma ends_arr : forall a, ends (get_arr a) (fun _ => True). Proof. unfold get_arr. getting. Qed.
Lemma ends_tup : forall a, ends (get_tup a) (fun _ => True). Proof. unfold get_tup. getting. Qed.
Lemma ends_callable : forall a, ends (get_call a) (fun _ => True). Proof. unfold get_call. getting. Qed.
Lemma ends_big : forall a, ends (get_big a) (fun _ => True). Proof. unfold get_big. getting. Qed.
Lemma ends_str : forall a, ends (get_str a) (fun t => ~ In NUL t).
Proof. intros a. eapply ends_bind; [apply ends_get|]. intros [| | | |] V; solve [apply ends_ub | apply ends_ret; exact V]. Qed.
Lemma ends_rc_copy : forall a f, ends (rc_copy a f) (fun _ => True).
Proof.
  intros a f. unfold rc_copy. eapply ends_bind; [apply ends_box|]. intros c _. destruct (f || Nat.ltb 0 (weak_count c))%bool.
  - eapply ends_bind; [apply ends_get|]. intros v V. now apply ends_new.
  - eapply ends_bind; [apply ends_inc_strong|]. intros _ _. now apply ends_ret.
Qed.
Lemma to_nul_clean : forall t, ~ In NUL (to_nul t).
Proof.
  induction t as [|c t IH]; [intros []|]. cbn [to_nul]. destruct (Ascii.eqb c "000"%char) eqn:E; [intros []|].
  intros [->|H]; [discriminate E|exact (IH H)].
Qed.
Section Calls.
Context {M : Mode}.
Lemma ends_i64 : forall z, ends (i64 z) (fun _ => True).
Proof. intros z. unfold i64. destruct (i64_ok z); [now apply ends_ret|]. destruct overflow_checks; [apply ends_panic|now apply ends_ret]. Qed.
Lemma ends_usize : forall z, ends (usize z) (fun _ => True).
Proof. intros z. unfold usize. destruct (usize_ok z); [now apply ends_ret|]. destruct overflow_checks; [apply ends_panic|now apply ends_ret]. Qed.
Lemma ends_slice : forall sz d l, ends (slice_loop sz d l) (fun _ => True).
Proof.
  induction l as [|i l IH]; cbn [slice_loop]; [now apply ends_ret|]. apply ends_bind with (fun _ => True).
  - unfold slice_at. destruct (i <? 0)%Z; [apply ends_panic|]. destruct (_ <=? _)%Z; [now apply ends_ret|apply ends_panic].
  - intros x _. apply ends_bind with (fun _ => True); [exact IH|]. intros; now apply ends_ret.
Qed.
Create HintDb heap_ends.
Hint Resolve ends_i64 ends_usize ends_slice ends_arr ends_tup ends_callable ends_big ends_str ends_rc_copy ends_update ends_panic ends_ub ends_fail : heap_ends.
Ltac ending := repeat first
  [ progress (auto with heap_ends; try exact I)
  | apply ends_ret | apply ends_new | apply ends_set
  | eapply ends_bind; [solve [eauto with heap_ends]|intros ? ?]
  | match goal with |- ends (let (_, _) := ?x in _) _ => destruct x end
  | match goal with |- ends (if ?b then _ else _) _ => destruct b end
  | match goal with |- ends (match ?b with Some _ => _ | None => _ end) _ => destruct b end ].
Lemma ends_call1 : forall c, ends (hcall1 c) (fun _ => True).
Proof.
  intros c. destruct c; cbn [hcall1]; unfold robj, runit; cbn [hcall1].
  all: try (apply ends_bind with (P := fun _ => True); [|intros ? ?; apply ends_ret; exact I]).
  all: unfold array_create_1d, array_concatenate, array_slice_1d, array_get_size_1d, array_get_element_ptr_1d, tuple_create, set_tuple_ptr, callable_create,
    callable_make_adjoint, callable_make_controlled, string_create, string_concatenate, string_equal, string_get_length, bigint_create_i64,
    bigint_create_array, bigint_binary, bigint_unary, bigint_power, bigint_shift, bigint_compare, bigint_get_data, bigint_get_length, ptr_read, ptr_write.
  all: try solve [ending].
  - apply ends_bind with (P := fun _ => True); [ending|]. intros p _. apply ends_bind with (P := fun _ => True); [ending|]. intros x _. now apply ends_ret.
  - apply ends_bind with (P := fun _ => True); [ending|]. intros p _. apply ends_bind with (P := fun _ => True); [ending|]. intros x _. now apply ends_ret.
  - apply ends_new, to_nul_clean.
  - eapply ends_bind; [apply ends_str|]. intros s Hs. eapply ends_bind; [apply ends_str|]. intros t Ht. apply ends_new. cbn.
    intros H. apply in_app_or in H. destruct H as [H|H]; [exact (Hs H)|exact (Ht H)].
Qed.
Lemma ends_exec : forall cs, ends (hexec cs) (fun _ => True).
Proof.
  induction cs as [|c cs IH]; cbn [hexec]; [now apply ends_ret|]. apply ends_bind with (P := fun _ => True); [apply ends_call1|].
  intros r _. apply ends_bind with (P := fun _ => True); [exact IH|]. intros rs _. now apply ends_ret.
Qed.
Lemma no_nul : forall cs rs h a t, hexec cs [] = HOk rs h -> str_is h a t -> ~ In NUL t.
Proof.
  intros cs rs h a t E (n & al & A). apply alive_iff in A. destruct A as [_ A].
  assert (C0 : clean []) by (intros x c v X; destruct x; discriminate). destruct (ends_exec cs [] rs h C0 E) as [C _].
  exact (C a _ _ A eq_refl).
Qed.
Lemma data_thm : forall h a t, str_is h a t -> ~ In NUL t -> string_get_data a h = HOk (t ++ [NUL]) h /\ gives (string_create (t ++ [NUL])) h t.
Proof.
  intros h a t S N. split.
  - unfold string_get_data. rewrite (bind_ok _ _ (get_str a) _ h _ _ (get_str_live h a t S)). reflexivity.
  - unfold string_create. rewrite to_nul_app by exact N. apply gives_new.
Qed.
End Calls.
