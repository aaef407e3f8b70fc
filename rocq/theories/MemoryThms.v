(** * Every object and every block is its own: proofs *)
From Coq Require Import ZArith List Bool Arith Lia.
From Verif Require Import Text Heap SpecHeap HeapLemmas HeapTuples Memory SpecMemory.
Import ListNotations.

Lemma bind_inv : forall X Y (m : Hp X) (f : X -> Hp Y) h y h', hbind m f h = HOk y h' ->
  exists x h1, m h = HOk x h1 /\ f x h1 = HOk y h'.
Proof. intros X Y m f h y h' H. unfold hbind in H. destruct (m h) as [x h1| | |]; try discriminate. eauto. Qed.

(** ** Reading changes nothing *)
Definition pure {X} (m : Hp X) : Prop := forall h x h', m h = HOk x h' -> h' = h.
Lemma pure_ret : forall X (x : X), pure (hret x).
Proof. intros X x h y h' H. unfold hret in H. congruence. Qed.
Lemma pure_panic : forall X, pure (@hpanic X).
Proof. intros X h x h' H. discriminate. Qed.
Lemma pure_ub : forall X, pure (@hub X).
Proof. intros X h x h' H. discriminate. Qed.
Lemma pure_fail : forall X t, pure (@hfail X t).
Proof. intros X t h x h' H. discriminate. Qed.
Lemma pure_bind : forall X Y (m : Hp X) (f : X -> Hp Y), pure m -> (forall x, pure (f x)) -> pure (hbind m f).
Proof. intros X Y m f Hm Hf h y h' H. apply bind_inv in H as [x [h1 [H1 H2]]]. apply Hm in H1. subst. now apply Hf in H2. Qed.
Lemma pure_box : forall a, pure (box a).
Proof. intros a h x h' H. unfold box in H. destruct (nth_error h a) as [c|]; [|discriminate]. destruct (held c); congruence. Qed.
Lemma pure_get : forall a, pure (get_val a).
Proof.
  intros a h x h' H. unfold get_val in H. destruct (nth_error h a) as [c|]; [|discriminate].
  destruct (held c); [|discriminate]. destruct (val c); congruence.
Qed.
Create HintDb pu.
#[local] Hint Resolve pure_ret pure_panic pure_ub pure_fail pure_box pure_get : pu.
Ltac pu := repeat (first [solve [auto with pu] | apply pure_bind; [|intros ?]]).
Lemma pure_arr : forall a, pure (get_arr a).
Proof. intros a. unfold get_arr. pu. destruct x; pu. Qed.
Lemma pure_tup : forall a, pure (get_tup a).
Proof. intros a. unfold get_tup. pu. destruct x; pu. Qed.
Lemma pure_call : forall a, pure (get_call a).
Proof. intros a. unfold get_call. pu. destruct x; pu. Qed.
Lemma pure_str : forall a, pure (get_str a).
Proof. intros a. unfold get_str. pu. destruct x; pu. Qed.
Lemma pure_big : forall a, pure (get_big a).
Proof. intros a. unfold get_big. pu. destruct x; pu. Qed.
#[local] Hint Resolve pure_arr pure_tup pure_call pure_str pure_big : pu.
Section Frame.
Context {M : Mode}.
Lemma pure_i64 : forall z, pure (i64 z).
Proof. intros z. unfold i64. destruct (i64_ok z); [|destruct overflow_checks]; pu. Qed.
Lemma pure_usize : forall z, pure (usize z).
Proof. intros z. unfold usize. destruct (usize_ok z); [|destruct overflow_checks]; pu. Qed.
#[local] Hint Resolve pure_i64 pure_usize : pu.
Lemma pure_slice : forall sz d l, pure (slice_loop sz d l).
Proof.
  induction l as [|i l IH]; cbn [slice_loop]; pu.
  unfold slice_at. destruct (Z.ltb i 0); pu. destruct (Z.leb _ _); pu.
Qed.
#[local] Hint Resolve pure_slice : pu.
Lemma pure_elem : forall a i, pure (array_get_element_ptr_1d a i).
Proof. intros. unfold array_get_element_ptr_1d. pu. destruct x as [sz d]. pu. destruct (Z.leb _ _); pu. Qed.
Lemma pure_read : forall p n, pure (ptr_read p n).
Proof. intros. unfold ptr_read. pu. destruct (Nat.leb _ _); pu. Qed.
#[local] Hint Resolve pure_elem pure_read : pu.

(** ** Creating adds at the end *)
Definition adds {X} (m : Hp X) : Prop := forall h x h', m h = HOk x h' -> exists t, h' = h ++ t.
Lemma adds_pure : forall X (m : Hp X), pure m -> adds m.
Proof. intros X m P h x h' H. apply P in H. exists []. now rewrite app_nil_r. Qed.
Lemma adds_bind : forall X Y (m : Hp X) (f : X -> Hp Y), adds m -> (forall x, adds (f x)) -> adds (hbind m f).
Proof.
  intros X Y m f Hm Hf h y h' H. apply bind_inv in H as [x [h1 [H1 H2]]]. apply Hm in H1 as [t ->]. apply Hf in H2 as [u ->].
  exists (t ++ u). now rewrite app_assoc.
Qed.
Lemma adds_new : forall v, adds (rc_new v).
Proof. intros v h x h' H. injection H as <- <-. eauto. Qed.
#[local] Hint Resolve adds_new : pu.
Ltac ad := repeat (first [solve [auto with pu] | apply adds_pure; solve [pu] | apply adds_bind; [|intros ?]]).
Lemma adds_robj : forall m, adds m -> adds (robj m).
Proof. intros m H. unfold robj. ad. Qed.

(** ** What a call does to the cell of one object *)

(** The value a call leaves in object [x], if it leaves one. *)
Definition effect (c : hcall) (x : nat) (v : hval) : hval :=
  match c, v with
  | HStore a i bs, VArr sz d => if Nat.eqb x a then VArr sz (splice d (Z.to_nat ((sz * i) mod 2 ^ 64)) bs) else v
  | HTupleSet a i p, VTup d => if Nat.eqb x a then VTup (splice d (8 * i) (ptr_bytes (PObj p))) else v
  | HAdjoint a, VCall k => if Nat.eqb x a then VCall (mkCallable (c_table k) (c_mem k) (c_capture k) (negb (c_adj k)) (c_ctls k)) else v
  | HControlled a, VCall k => if Nat.eqb x a then VCall (mkCallable (c_table k) (c_mem k) (c_capture k) (c_adj k) (S (c_ctls k))) else v
  | _, _ => v
  end.
(** Its writes lie inside the object. *)
Definition fits (c : hcall) (x : nat) (v : hval) : Prop :=
  match c, v with
  | HStore a i bs, VArr sz d => x = a -> Z.to_nat ((sz * i) mod 2 ^ 64) + length bs <= length d
  | HTupleSet a i p, VTup d => x = a -> 8 * i + 8 <= length d
  | _, _ => True
  end.
(** Only object [a] changes, and of it only the counts, unless its value goes. *)
Definition counted (a : nat) (h h' : heap) : Prop :=
  length h' = length h /\ forall x cl, nth_error h x = Some cl -> exists cl', nth_error h' x = Some cl' /\
    (x <> a -> cl' = cl) /\ (val cl' = val cl \/ val cl' = None).
Lemma counted_refl : forall a h, counted a h h.
Proof. intros a h. split; [reflexivity|]. intros x cl H. exists cl. auto. Qed.
Lemma counted_trans : forall a h h1 h2, counted a h h1 -> counted a h1 h2 -> counted a h h2.
Proof.
  intros a h h1 h2 [L1 H1] [L2 H2]. split; [congruence|]. intros x cl Hx.
  destruct (H1 x cl Hx) as [c1 [N1 [E1 V1]]]. destruct (H2 x c1 N1) as [c2 [N2 [E2 V2]]]. exists c2. split; [exact N2|]. split.
  - intros ne. rewrite (E2 ne). now apply E1.
  - destruct V2 as [V2|V2]; [rewrite V2; exact V1|now right].
Qed.
Lemma counted_put : forall a h c c', nth_error h a = Some c -> val c' = val c \/ val c' = None -> counted a h (list_put h a c').
Proof.
  intros a h c c' Hc V. split; [apply len_put|]. intros x cl Hx. destruct (Nat.eq_dec x a) as [->|ne].
  - exists c'. rewrite nth_put_eq by (eapply nth_lt; eauto). split; [reflexivity|]. split; [congruence|]. congruence.
  - exists cl. rewrite nth_put_neq by congruence. auto.
Qed.
Definition counts_only (a : nat) (m : Hp unit) : Prop := forall h x h', m h = HOk x h' -> counted a h h'.
Lemma box_inv : forall a h c h1, box a h = HOk c h1 -> h1 = h /\ nth_error h a = Some c.
Proof. intros a h c h1 H. unfold box in H. destruct (nth_error h a) as [c0|]; [|discriminate]. destruct (held c0); [|discriminate]. split; congruence. Qed.
Ltac one_count :=
  intros a h x h' H; apply bind_inv in H as [c [h1 [B H]]]; apply box_inv in B as [-> B].
Lemma inc_strong_counts : forall a, counts_only a (inc_strong a).
Proof. one_count. destruct (strong c); [discriminate|]. injection H as <- <-. eapply counted_put; [eassumption|]. now left. Qed.
Lemma dec_strong_counts : forall a, counts_only a (dec_strong a).
Proof.
  one_count. destruct (strong c) as [|[|s]], (weak c) as [|w]; try discriminate; injection H as <- <-; (eapply counted_put; [eassumption|]).
  - now right. - now left.
Qed.
Lemma inc_weak_counts : forall a, counts_only a (inc_weak a).
Proof. one_count. destruct (weak c); [discriminate|]. injection H as <- <-. eapply counted_put; [eassumption|]. now left. Qed.
Lemma drop_weak_counts : forall a, counts_only a (drop_weak a).
Proof. one_count. destruct (weak c); [discriminate|]. injection H as <- <-. eapply counted_put; [eassumption|]. now left. Qed.
Lemma seq_counts : forall a m (f : unit -> Hp unit), counts_only a m -> (forall x, counts_only a (f x)) -> counts_only a (hbind m f).
Proof.
  intros a m f Hm Hf h y h' H. apply bind_inv in H as [x [h1 [H1 H2]]]. eapply counted_trans; [eapply Hm; eauto|eapply Hf; eauto].
Qed.
Lemma step_counts : forall a up al, counts_only a (count_step a up al).
Proof.
  intros a [|] [|]; cbn [count_step].
  - apply inc_weak_counts. - apply inc_strong_counts.
  - apply seq_counts; [apply inc_weak_counts|]. intros _. apply seq_counts; [apply drop_weak_counts|]. intros _. apply drop_weak_counts.
  - apply dec_strong_counts.
Qed.
Lemma update_counts_only : forall a k al, counts_only a (update_counts a k al).
Proof.
  intros a k al. unfold update_counts. generalize (Z.abs_nat k). intros n. induction n as [|n IH]; cbn [hrepeat].
  - intros h x h' H. injection H as <- <-. apply counted_refl.
  - apply seq_counts; [apply step_counts|]. intros _. exact IH.
Qed.

(** The whole step. *)
Definition moves (c : hcall) (h h' : heap) : Prop :=
  length h <= length h' /\ forall x cl, nth_error h x = Some cl -> exists cl', nth_error h' x = Some cl' /\
    (~ In x (touches (WObj c)) -> cl' = cl) /\
    (forall v', val cl' = Some v' -> exists v, val cl = Some v /\ v' = effect c x v /\ fits c x v).
Lemma adds_moves : forall c h r h', adds (hcall1 c) -> (forall x v, effect c x v = v /\ fits c x v) -> hcall1 c h = HOk r h' -> moves c h h'.
Proof.
  intros c h r h' A E H. apply A in H as [t ->]. split; [rewrite app_length; lia|].
  intros x cl Hx. exists cl. rewrite nth_error_app1 by (eapply nth_lt; eauto). split; [exact Hx|]. split; [auto|].
  intros v' V. exists v'. destruct (E x v') as [-> F]. auto.
Qed.
Lemma counted_moves : forall a c h h', In a (touches (WObj c)) -> (forall x v, effect c x v = v /\ fits c x v) -> counted a h h' -> moves c h h'.
Proof.
  intros a c h h' I E [L H]. split; [lia|]. intros x cl Hx. destruct (H x cl Hx) as [cl' [N1 [E1 V1]]]. exists cl'. split; [exact N1|]. split.
  - intros ni. apply E1. congruence.
  - intros v' V. destruct V1 as [V1|V1]; [|congruence]. exists v'. destruct (E x v') as [-> F]. split; [congruence|auto].
Qed.
Lemma copy_moves : forall a f c h r h', In a (touches (WObj c)) -> (forall x v, effect c x v = v /\ fits c x v) -> robj (rc_copy a f) h = HOk r h' -> moves c h h'.
Proof.
  intros a f c h r h' I E H. apply bind_inv in H as [b [h1 [H R]]]. injection R as <- <-.
  unfold rc_copy in H. apply bind_inv in H as [cl [h0 [B H]]]. apply box_inv in B as [-> B].
  destruct (f || Nat.ltb 0 (weak_count cl))%bool.
  - apply bind_inv in H as [v [h2 [G H]]]. apply pure_get in G. subst h2. injection H as <- <-.
    split; [rewrite app_length; lia|]. intros x cx Hx. exists cx. rewrite nth_error_app1 by (eapply nth_lt; eauto).
    split; [exact Hx|]. split; [auto|]. intros v' V. exists v'. destruct (E x v') as [-> F]. auto.
  - apply bind_inv in H as [u [h2 [G H]]]. injection H as <- <-. eapply counted_moves; eauto. eapply inc_strong_counts; eauto.
Qed.
Lemma get_inv : forall a h v h1, get_val a h = HOk v h1 -> h1 = h /\ exists c, nth_error h a = Some c /\ held c = true /\ val c = Some v.
Proof.
  intros a h v h1 H. unfold get_val in H. destruct (nth_error h a) as [c|]; [|discriminate].
  destruct (held c) eqn:Ed; [|discriminate]. destruct (val c) eqn:Ev; [|discriminate]. injection H as <- <-. split; [reflexivity|]. exists c. auto.
Qed.
Lemma set_inv : forall a v h u h1, set_val a v h = HOk u h1 -> exists c, nth_error h a = Some c /\
  h1 = list_put h a (mkCell (strong c) (weak c) (held c) (Some v)).
Proof. intros a v h u h1 H. apply bind_inv in H as [c [h0 [B H]]]. apply box_inv in B as [-> B]. injection H as <- <-. eauto. Qed.
Lemma set_moves : forall a c h cl v v' h', nth_error h a = Some cl -> val cl = Some v -> v' = effect c a v -> fits c a v ->
  In a (touches (WObj c)) -> (forall x w, x <> a -> effect c x w = w /\ fits c x w) ->
  h' = list_put h a (mkCell (strong cl) (weak cl) (held cl) (Some v')) -> moves c h h'.
Proof.
  intros a c h cl v v' h' N1 V1 E1 F1 I E ->. split; [rewrite len_put; lia|]. intros x cx Hx. destruct (Nat.eq_dec x a) as [->|ne].
  - rewrite nth_put_eq by (eapply nth_lt; eauto). eexists. split; [reflexivity|]. split; [tauto|]. cbn [val]. intros w W. injection W as <-.
    exists v. split; [congruence|]. split; [exact E1|exact F1].
  - rewrite nth_put_neq by congruence. exists cx. split; [exact Hx|]. split; [auto|]. intros w W. exists w. destruct (E x w ne) as [-> F]. auto.
Qed.
Lemma usize_inv : forall z h o h1, usize z h = HOk o h1 -> h1 = h /\ o = (z mod 2 ^ 64)%Z.
Proof.
  intros z h o h1 H. split; [eapply pure_usize; eauto|]. unfold usize in H. destruct (usize_ok z) eqn:U.
  - injection H as <- <-. apply andb_prop in U as [U1 U2]. apply Z.leb_le in U1. apply Z.ltb_lt in U2. symmetry. now apply Z.mod_small.
  - destruct overflow_checks; [discriminate|]. injection H as <- <-. reflexivity.
Qed.
Lemma call_moves : forall c h r h', hcall1 c h = HOk r h' -> moves c h h'.
Proof.
  intros c h r h' H. destruct c; cbn [hcall1] in H;
  try (eapply copy_moves; [left; reflexivity|intros x [| | | |]; split; exact I || reflexivity|exact H]);
  try (unfold runit in H; apply bind_inv in H as [u [h1 [H R]]]; injection R as <- <-;
       eapply counted_moves; [left; reflexivity|intros x [| | | |]; split; exact I || reflexivity|eapply update_counts_only; exact H]);
  try (eapply adds_moves; [|intros x [| | | |]; split; exact I || reflexivity|exact H]; clear H; cbn [hcall1]; try apply adds_robj).
  all: try solve [ad].
  - unfold array_create_1d. ad. destruct (Z.ltb _ _); ad.
  - unfold array_concatenate. ad. destruct x as [s1 d1], x0 as [s2 d2]. destruct (Z.eqb s1 s2); ad.
  - unfold array_slice_1d. ad. destruct x as [sz d]. ad. destruct (Z.leb _ _); ad.
  - unfold array_get_size_1d. ad. destruct x as [sz d]. destruct (Z.eqb sz 0); ad.
  - apply bind_inv in H as [p [h1 [H1 H]]]. unfold array_get_element_ptr_1d in H1. apply bind_inv in H1 as [[sz d] [h2 [G1 H1]]].
    unfold get_arr in G1. apply bind_inv in G1 as [v [h3 [G1 G2]]]. apply get_inv in G1 as [-> [cl [N1 [D1 V1]]]].
    destruct v; try discriminate. injection G2 as -> -> <-. apply bind_inv in H1 as [o [h4 [U H1]]]. apply usize_inv in U as [-> ->].
    destruct (Z.leb _ _); [|discriminate]. injection H1 as <- <-.
    unfold runit in H. apply bind_inv in H as [u [h1 [H R]]]. injection R as <- <-.
    unfold ptr_write in H. apply bind_inv in H as [[sz' d'] [h5 [G1 H]]]. cbn [fst snd] in H.
    unfold get_arr in G1. apply bind_inv in G1 as [v [h3 [G1 G2]]]. apply get_inv in G1 as [-> [cl2 [N2 [D2 V2]]]].
    cbn [fst] in N2. rewrite N1 in N2. injection N2 as <-. rewrite V1 in V2. injection V2 as <-. injection G2 as <- <- <-.
    destruct (Nat.leb _ _) eqn:Le; [|discriminate]. apply Nat.leb_le in Le. apply set_inv in H as [cl3 [N3 E3]]. rewrite N1 in N3. injection N3 as <-.
    eapply (set_moves a); [exact N1|exact V1| | |left; reflexivity| |exact E3].
    + cbn [effect]. now rewrite Nat.eqb_refl.
    + first [exact I|intros _; exact Le].
    + intros x [| | | |] ne; cbn [effect fits]; rewrite ?(proj2 (Nat.eqb_neq x a) ne); split; auto; intros; contradiction.
  - unfold tuple_create. ad. destruct (Z.ltb _ _); ad. destruct (Z.ltb _ _); ad.
  - unfold runit in H. apply bind_inv in H as [u [h1 [H R]]]. injection R as <- <-.
    unfold set_tuple_ptr, get_tup in H. apply bind_inv in H as [d [h5 [G1 H]]]. apply bind_inv in G1 as [v [h3 [G1 G2]]].
    apply get_inv in G1 as [-> [cl [N1 [D1 V1]]]]. destruct v; try discriminate. injection G2 as -> <-.
    destruct (Nat.leb _ _) eqn:Le; [|discriminate]. apply Nat.leb_le in Le. apply set_inv in H as [cl3 [N3 E3]]. rewrite N1 in N3. injection N3 as <-.
    eapply (set_moves a); [exact N1|exact V1| | |left; reflexivity| |exact E3].
    + cbn [effect]. now rewrite Nat.eqb_refl.
    + first [exact I|intros _; exact Le].
    + intros x [| | | |] ne; cbn [effect fits]; rewrite ?(proj2 (Nat.eqb_neq x a) ne); split; auto; intros; contradiction.
  - unfold callable_create. ad.
  - unfold runit in H. apply bind_inv in H as [u [h1 [H R]]]. injection R as <- <-.
    unfold callable_make_adjoint, get_call in H. apply bind_inv in H as [d [h5 [G1 H]]]. apply bind_inv in G1 as [v [h3 [G1 G2]]].
    apply get_inv in G1 as [-> [cl [N1 [D1 V1]]]]. destruct v; try discriminate. injection G2 as -> <-.
    apply set_inv in H as [cl3 [N3 E3]]. rewrite N1 in N3. injection N3 as <-.
    eapply (set_moves a); [exact N1|exact V1| | |left; reflexivity| |exact E3].
    + cbn [effect]. now rewrite Nat.eqb_refl.
    + first [exact I|intros _; exact Le].
    + intros x [| | | |] ne; cbn [effect fits]; rewrite ?(proj2 (Nat.eqb_neq x a) ne); split; auto; intros; contradiction.
  - unfold runit in H. apply bind_inv in H as [u [h1 [H R]]]. injection R as <- <-.
    unfold callable_make_controlled, get_call in H. apply bind_inv in H as [d [h5 [G1 H]]]. apply bind_inv in G1 as [v [h3 [G1 G2]]].
    apply get_inv in G1 as [-> [cl [N1 [D1 V1]]]]. destruct v; try discriminate. injection G2 as -> <-.
    apply set_inv in H as [cl3 [N3 E3]]. rewrite N1 in N3. injection N3 as <-.
    eapply (set_moves a); [exact N1|exact V1| | |left; reflexivity| |exact E3].
    + cbn [effect]. now rewrite Nat.eqb_refl.
    + first [exact I|intros _; exact Le].
    + intros x [| | | |] ne; cbn [effect fits]; rewrite ?(proj2 (Nat.eqb_neq x a) ne); split; auto; intros; contradiction.
  - unfold string_create. ad.
  - unfold string_get_length. ad. destruct (Z.ltb _ _); ad.
  - unfold bigint_create_i64. ad.
  - unfold bigint_create_array. ad.
  - unfold bigint_binary. ad. destruct (bigint_op op x x0); ad.
  - unfold bigint_get_length. ad. destruct (Z.ltb _ _); ad.
Qed.
End Frame.

(** ** Histories *)
Lemma written_refl : forall d, written d [] d.
Proof. intros d. split; [reflexivity|]. intros k x x' H1 H2. rewrite H1 in H2. injection H2 as <-. constructor. constructor. Qed.
Lemma written_cons : forall d w ws d', fst w + length (snd w) <= length d -> written (splice d (fst w) (snd w)) ws d' -> written d (w :: ws) d'.
Proof.
  intros d [off bs] ws d' L [L1 H1]. cbn [fst snd] in *. rewrite splice_length in L1 by exact L. split; [exact L1|].
  intros k x x' Hk Hk'. destruct (nth_error (splice d off bs) k) as [y|] eqn:Ey.
  2:{ apply nth_error_None in Ey. rewrite splice_length in Ey by exact L. apply nth_error_None in Ey. congruence. }
  specialize (H1 k y x' Ey Hk'). rewrite nth_splice in Ey by exact L.
  destruct (Nat.leb_spec off k) as [A|A]; cbn [andb] in Ey; [destruct (Nat.ltb_spec k (off + length bs)) as [B|B]|].
  - inversion H1 as [ws0 F|ws0 w ws1 x0 Rw F Nx]; subst.
    + apply (last_one k x [] (off, bs) ws x'); [split; cbn; lia|exact F|exact Ey].
    + apply (last_one k x ((off, bs) :: ws0) w ws1 x'); assumption.
  - rewrite Hk in Ey. injection Ey as ->. inversion H1 as [ws0 F|ws0 w ws1 x0 Rw F Nx]; subst.
    + apply never. constructor; [unfold reaches; cbn; lia|exact F].
    + apply (last_one k y ((off, bs) :: ws0) w ws1 x'); assumption.
  - rewrite Hk in Ey. injection Ey as ->. inversion H1 as [ws0 F|ws0 w ws1 x0 Rw F Nx]; subst.
    + apply never. constructor; [unfold reaches; cbn; lia|exact F].
    + apply (last_one k y ((off, bs) :: ws0) w ws1 x'); assumption.
Qed.

Section Histories.
Context {M : Mode}.
(** The value of object [x] as the calls leave it. *)
Fixpoint evolves (cs : list wcall) (x : nat) (v v' : hval) : Prop :=
  match cs with
  | [] => v' = v
  | WObj c :: cs' => fits c x v /\ evolves cs' x (effect c x v) v'
  | _ :: cs' => evolves cs' x v v'
  end.
Lemma wexec_cons : forall c cs w rs w', wexec (c :: cs) w = WOk rs w' ->
  exists r rs' w1, wcall1 c w = WOk r w1 /\ wexec cs w1 = WOk rs' w' /\ rs = r :: rs'.
Proof.
  intros c cs w rs w' H. cbn [wexec] in H. destruct (wcall1 c w) as [r w1| | |]; try discriminate.
  destruct (wexec cs w1) as [rs' w2| | |] eqn:E; try discriminate. injection H as <- <-. exists r, rs', w1. auto.
Qed.
Lemma read_inv : forall b off n w l w', block_read b off n w = WOk l w' -> w' = w.
Proof. intros b off n [h m] l w' H. cbn in H. destruct (nth_error m b); [|discriminate]. destruct (Nat.leb _ _); congruence. Qed.
Lemma write_inv : forall b off bs h m u w', block_write b off bs (h, m) = WOk u w' ->
  exists d, nth_error m b = Some d /\ off + length bs <= length d /\ w' = (h, list_put m b (splice d off bs)).
Proof.
  intros b off bs h m u w' H. cbn in H. destruct (nth_error m b) as [d|]; [|discriminate].
  destruct (Nat.leb_spec (off + length bs) (length d)); [|discriminate]. injection H as <- <-. eauto.
Qed.
(** One step, seen from an object. *)
Lemma obj_step : forall c h m r h1 m1, wcall1 c (h, m) = WOk r (h1, m1) ->
  length h <= length h1 /\ forall x cl, nth_error h x = Some cl -> exists cl', nth_error h1 x = Some cl' /\
    (~ In x (touches c) -> cl' = cl) /\
    (forall v', val cl' = Some v' -> exists v, val cl = Some v /\ evolves [c] x v v').
Proof.
  intros c h m r h1 m1 H. destruct c as [c|size|b off n|b off bs]; cbn [wcall1 fst snd] in H.
  - destruct (hcall1 c h) as [r0 h0| | |] eqn:E; try discriminate. injection H as <- <- <-. destruct (call_moves _ _ _ _ E) as [L V].
    split; [exact L|]. intros x cl Hx. destruct (V x cl Hx) as [cl' [N1 [K E1]]]. exists cl'. split; [exact N1|]. split; [exact K|].
    intros v' Hv. destruct (E1 v' Hv) as [v [V1 [V2 V3]]]. exists v. cbn. auto.
  - unfold memory_allocate in H. destruct (_ && _)%bool; [|discriminate]. injection H as <- <- <-. split; [lia|].
    intros x cl Hx. exists cl. split; [exact Hx|]. split; [auto|]. intros v' Hv. exists v'. split; [exact Hv|reflexivity].
  - destruct (block_read _ _ _ _) eqn:E; try discriminate. apply read_inv in E. subst. injection H as <- <- <-. split; [lia|].
    intros y cl Hx. exists cl. split; [exact Hx|]. split; [auto|]. intros v' Hv. exists v'. split; [exact Hv|reflexivity].
  - destruct (block_write _ _ _ _) eqn:E; try discriminate. apply write_inv in E as [d [N1 [L ->]]]. injection H as <- <- <-.
    split; [lia|].
    intros y cl Hx. exists cl. split; [exact Hx|]. split; [auto|]. intros v' Hv. exists v'. split; [exact Hv|reflexivity].
Qed.
Lemma evolves_cons : forall c cs x v v1 v', evolves [c] x v v1 -> evolves cs x v1 v' -> evolves (c :: cs) x v v'.
Proof. intros [c|s|b off n|b off bs] cs x v v1 v' H1 H2; cbn in *; subst; auto. destruct H1 as [F ->]. auto. Qed.
Lemma objects : forall cs h m rs h' m', wexec cs (h, m) = WOk rs (h', m') ->
  length h <= length h' /\ forall x cl, nth_error h x = Some cl -> exists cl', nth_error h' x = Some cl' /\
    ((forall c, In c cs -> ~ In x (touches c)) -> cl' = cl) /\
    (forall v', val cl' = Some v' -> exists v, val cl = Some v /\ evolves cs x v v').
Proof.
  induction cs as [|c cs IH]; intros h m rs h' m' H.
  - injection H as <- <- <-. split; [lia|]. intros x cl Hx. exists cl. split; [exact Hx|]. split; [auto|]. intros v' Hv. exists v'. split; [exact Hv|reflexivity].
  - apply wexec_cons in H as [r [rs' [[h1 m1] [H1 [H2 ->]]]]]. apply obj_step in H1 as [L1 S1]. apply IH in H2 as [L2 S2].
    split; [lia|]. intros x cl Hx. destruct (S1 x cl Hx) as [c1 [N1 [K1 E1]]]. destruct (S2 x c1 N1) as [c2 [N2 [K2 E2]]].
    exists c2. split; [exact N2|]. split.
    + intros Hn. rewrite K2 by (intros c0 Hc; apply Hn; now right). apply K1. apply Hn. now left.
    + intros v' Hv. destruct (E2 v' Hv) as [v1 [V1 V2]]. destruct (E1 v1 V1) as [v [V3 V4]]. exists v. split; [exact V3|].
      eapply evolves_cons; eauto.
Qed.
Lemma block_step : forall c h m r h1 m1, wcall1 c (h, m) = WOk r (h1, m1) ->
  length m <= length m1 /\ forall b d, nth_error m b = Some d -> exists d', nth_error m1 b = Some d' /\
    (~ In b (touches_block c) -> d' = d) /\
    (forall ws d2, written d' ws d2 -> written d (match to_block b c with Some w => w :: ws | None => ws end) d2).
Proof.
  intros c h m r h1 m1 H. destruct c as [c|size|b off n|b off bs]; cbn [wcall1 fst snd] in H.
  - destruct (hcall1 c h) as [r0 h0| | |] eqn:E; try discriminate. injection H as <- <- <-. split; [lia|].
    intros b d Hb. exists d. split; [exact Hb|]. split; [auto|]. auto.
  - unfold memory_allocate in H. destruct (_ && _)%bool; [|discriminate]. injection H as <- <- <-. split; [rewrite app_length; lia|].
    intros b d Hb. exists d. rewrite nth_error_app1 by (eapply nth_lt; eauto). auto.
  - destruct (block_read _ _ _ _) eqn:E; try discriminate. apply read_inv in E. subst. injection H as <- <- <-. split; [lia|].
    intros y d Hb. exists d. auto.
  - destruct (block_write _ _ _ _) eqn:E; try discriminate. apply write_inv in E as [d [N1 [L ->]]]. injection H as <- <- <-.
    split; [rewrite len_put; lia|].
    intros y dy Hy. cbn [touches_block to_block]. destruct (Nat.eqb_spec y b) as [->|ne].
    + rewrite nth_put_eq by (eapply nth_lt; eauto). eexists. split; [reflexivity|]. split; [intros Hn; exfalso; apply Hn; now left|].
      intros ws d2 W. assert (dy = d) by congruence. subst dy. apply written_cons; assumption.
    + rewrite nth_put_neq by congruence. exists dy. auto.
Qed.
Lemma blocks_kept : forall cs h m rs h' m', wexec cs (h, m) = WOk rs (h', m') ->
  length m <= length m' /\ forall b d, nth_error m b = Some d -> exists d', nth_error m' b = Some d' /\
    ((forall c, In c cs -> ~ In b (touches_block c)) -> d' = d) /\ written d (writes (to_block b) cs) d'.
Proof.
  induction cs as [|c cs IH]; intros h m rs h' m' H.
  - injection H as <- <- <-. split; [lia|]. intros b d Hb. exists d. split; [exact Hb|]. split; [auto|]. apply written_refl.
  - apply wexec_cons in H as [r [rs' [[h1 m1] [H1 [H2 ->]]]]]. apply block_step in H1 as [L1 S1]. apply IH in H2 as [L2 S2].
    split; [lia|]. intros b d Hb. destruct (S1 b d Hb) as [d1 [N1 [K1 E1]]]. destruct (S2 b d1 N1) as [d2 [N2 [K2 E2]]].
    exists d2. split; [exact N2|]. split.
    + intros Hn. rewrite K2 by (intros c0 Hc; apply Hn; now right). apply K1. apply Hn. now left.
    + cbn [writes]. apply E1, E2.
Qed.

Lemma frame_thm : forall cs h m rs h' m', wexec cs (h, m) = WOk rs (h', m') ->
  length h <= length h' /\ length m <= length m' /\
  (forall x, x < length h -> (forall c, In c cs -> ~ In x (touches c)) -> nth_error h' x = nth_error h x) /\
  (forall b, b < length m -> (forall c, In c cs -> ~ In b (touches_block c)) -> nth_error m' b = nth_error m b).
Proof.
  intros cs h m rs h' m' H. destruct (objects _ _ _ _ _ _ H) as [L1 S1]. destruct (blocks_kept _ _ _ _ _ _ H) as [L2 S2].
  split; [exact L1|]. split; [exact L2|]. split.
  - intros x Hx Hn. destruct (nth_error h x) as [cl|] eqn:E; [|apply nth_error_None in E; lia].
    destruct (S1 x cl E) as [cl' [N1 [K1 _]]]. rewrite N1. f_equal. now apply K1.
  - intros b Hb Hn. destruct (nth_error m b) as [d|] eqn:E; [|apply nth_error_None in E; lia].
    destruct (S2 b d E) as [d' [N1 [K1 _]]]. rewrite N1. f_equal. now apply K1.
Qed.
Lemma alive_evolves : forall cs h m rs h' m' a n al v n' al' v', wexec cs (h, m) = WOk rs (h', m') ->
  alive h a n al v -> alive h' a n' al' v' -> evolves cs a v v'.
Proof.
  intros cs h m rs h' m' a n al v n' al' v' H A1 A2. apply alive_iff in A1 as [_ N1]. apply alive_iff in A2 as [_ N2].
  destruct (objects _ _ _ _ _ _ H) as [_ S1]. destruct (S1 a _ N1) as [cl [N3 [_ E]]]. rewrite N2 in N3. injection N3 as <-.
  destruct (E v' eq_refl) as [w [W1 W2]]. cbn in W1. injection W1 as <-. exact W2.
Qed.
Lemma arr_evolves : forall cs a sz d v', evolves cs a (VArr sz d) v' -> exists d', v' = VArr sz d' /\ written d (writes (to_array a sz) cs) d'.
Proof.
  induction cs as [|c cs IH]; intros a sz d v' H.
  - cbn in H. exists d. split; [exact H|apply written_refl].
  - destruct c as [c|s|b off n|b off bs]; [|now apply IH in H..].
    destruct H as [F H]. destruct c; try (now apply IH in H). cbn [effect fits] in *. cbn [writes to_array].
    destruct (Nat.eqb_spec a a0) as [->|ne]; [|now apply IH in H].
    apply IH in H as [d' [-> W]]. exists d'. split; [reflexivity|]. apply written_cons; [now apply F|exact W].
Qed.
Lemma tup_evolves : forall cs a d v', evolves cs a (VTup d) v' -> exists d', v' = VTup d' /\ written d (writes (to_tuple a) cs) d'.
Proof.
  induction cs as [|c cs IH]; intros a d v' H.
  - cbn in H. exists d. split; [exact H|apply written_refl].
  - destruct c as [c|s|b off n|b off bs]; [|now apply IH in H..].
    destruct H as [F H]. destruct c; try (now apply IH in H). cbn [effect fits] in *. cbn [writes to_tuple].
    destruct (Nat.eqb_spec a a0) as [->|ne]; [|now apply IH in H].
    apply IH in H as [d' [-> W]]. exists d'. split; [reflexivity|]. apply written_cons; [|exact W].
    cbn [fst snd]. unfold ptr_bytes. rewrite map_length, seq_length. now apply F.
Qed.
Lemma call_evolves : forall cs a k v', evolves cs a (VCall k) v' ->
  v' = VCall (mkCallable (c_table k) (c_mem k) (c_capture k) (xorb (c_adj k) (Nat.odd (adjoints a cs))) (c_ctls k + controls a cs)).
Proof.
  unfold adjoints, controls. induction cs as [|c cs IH]; intros a k v' H.
  - cbn in *. subst v'. rewrite xorb_false_r, Nat.add_0_r. now destruct k.
  - destruct c as [c|s|b off n|b off bs]; [|now apply IH in H..].
    destruct H as [F H]. destruct c; try (now apply IH in H); cbn [effect] in H; cbn [filter];
    (destruct (Nat.eqb_spec a a0) as [->|ne]; [|now apply IH in H]); apply IH in H; rewrite H; cbn [c_table c_mem c_capture c_adj c_ctls length].
    + do 2 f_equal. rewrite Nat.odd_succ, <- Nat.negb_odd. now destruct (c_adj k), (Nat.odd _).
    + do 2 f_equal. lia.
Qed.
Lemma fixed_evolves : forall cs a v v', evolves cs a v v' -> (exists t, v = VStr t) \/ (exists z, v = VBig z) -> v' = v.
Proof.
  induction cs as [|c cs IH]; intros a v v' H K; [exact H|].
  destruct c as [c|s|b off n|b off bs]; [|now apply IH in H..]. destruct H as [F H].
  assert (E : effect c a v = v) by (destruct K as [[t ->]|[z ->]]; destruct c; reflexivity). rewrite E in H. now apply IH in H.
Qed.
Lemma values_thm : forall cs h m rs h' m' a n al v n' al' v', wexec cs (h, m) = WOk rs (h', m') ->
  alive h a n al v -> alive h' a n' al' v' ->
  match v with
  | VArr sz d => exists d', v' = VArr sz d' /\ written d (writes (to_array a sz) cs) d'
  | VTup d => exists d', v' = VTup d' /\ written d (writes (to_tuple a) cs) d'
  | VCall k => v' = VCall (mkCallable (c_table k) (c_mem k) (c_capture k) (xorb (c_adj k) (Nat.odd (adjoints a cs))) (c_ctls k + controls a cs))
  | VStr _ | VBig _ => v' = v
  end.
Proof.
  intros cs h m rs h' m' a n al v n' al' v' H A1 A2. pose proof (alive_evolves _ _ _ _ _ _ _ _ _ _ _ _ _ H A1 A2) as E. destruct v.
  - now apply arr_evolves. - now apply tup_evolves. - now apply call_evolves.
  - eapply fixed_evolves; eauto. - eapply fixed_evolves; eauto.
Qed.
Lemma allocate_thm : forall h m size,
  ((0 <= size < 2 ^ 63)%Z -> exists b m', wcall1 (WAlloc size) (h, m) = WOk (WBlock b) (h, m') /\ nth_error m b = None /\
     nth_error m' b = Some (repeat zero (Z.to_nat size)) /\ forall x, x < length m -> nth_error m' x = nth_error m x) /\
  ((2 ^ 63 <= size < 2 ^ 64)%Z -> wcall1 (WAlloc size) (h, m) = WPanic).
Proof.
  intros h m size. cbn [wcall1]. unfold memory_allocate. split; intros B.
  - rewrite (proj2 (Z.leb_le 0 size)), (proj2 (Z.ltb_lt size (2 ^ 63))) by lia. exists (length m). eexists. split; [reflexivity|].
    split; [apply nth_error_None; lia|]. rewrite nth_error_app2, Nat.sub_diag by lia. split; [reflexivity|].
    intros x L. now rewrite nth_error_app1.
  - rewrite (proj2 (Z.ltb_ge size (2 ^ 63))) by lia. now rewrite andb_false_r.
Qed.
Lemma first_skip : forall A (d : list A) off n, off + n <= length d ->
  length (firstn n (skipn off d)) = n /\ forall k, k < n -> nth_error (firstn n (skipn off d)) k = nth_error d (off + k).
Proof.
  intros A d off n L. split; [rewrite firstn_length_le; [reflexivity|rewrite skipn_length; lia]|].
  intros k Lk. revert d L. induction off as [|off IH]; intros d L.
  - cbn [skipn]. change (0 + k) with k. rewrite <- (firstn_skipn n d) at 2. rewrite nth_error_app1; [reflexivity|]. rewrite firstn_length_le; lia.
  - destruct d as [|x d]; [cbn in L; lia|]. cbn [skipn]. apply IH. cbn in L. lia.
Qed.
Lemma block_thm : forall h m size b w1 cs rs h' m', wcall1 (WAlloc size) (h, m) = WOk (WBlock b) w1 -> wexec cs w1 = WOk rs (h', m') ->
  forall off n, 
  ((Z.of_nat (off + n) <= size)%Z -> exists l, wcall1 (WLoad b off n) (h', m') = WOk (WBytes l) (h', m') /\ length l = n /\
     forall k x, nth_error l k = Some x -> leaves (off + k) (Raw Byte.x00) (writes (to_block b) cs) x) /\
  ((size < Z.of_nat (off + n))%Z -> wcall1 (WLoad b off n) (h', m') = WUB).
Proof.
  intros h m size b w1 cs rs h' m' H1 H2 off n. cbn [wcall1] in H1. unfold memory_allocate in H1.
  destruct (Z.leb_spec 0 size) as [B|B]; [|discriminate]. destruct (Z.ltb_spec size (2 ^ 63)) as [B2|B2]; [|discriminate].
  cbn [andb] in H1. injection H1 as <- <-. destruct (blocks_kept _ _ _ _ _ _ H2) as [_ S].
  destruct (S (length m) (repeat zero (Z.to_nat size))) as [d [N1 [_ [L W]]]].
  { rewrite nth_error_app2, Nat.sub_diag by lia. reflexivity. }
  rewrite repeat_length in L. cbn [wcall1]. unfold block_read. rewrite N1. split; intros C.
  - rewrite (proj2 (Nat.leb_le _ _)) by lia. eexists. split; [reflexivity|].
    destruct (first_skip _ d off n) as [Ln Kn]; [lia|]. split; [exact Ln|]. intros k x Hk.
    assert (k < n) by (rewrite <- Ln; apply nth_error_Some; congruence). rewrite Kn in Hk by assumption.
    apply (W (off + k)); [|exact Hk]. rewrite nth_error_repeat; [reflexivity|lia].
  - rewrite (proj2 (Nat.leb_gt _ _)) by lia. reflexivity.
Qed.
End Histories.
