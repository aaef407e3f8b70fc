(** * Proofs about UTF-8 *)
From Coq Require Import String Ascii List NArith ZArith Bool Lia.
From Coq.Strings Require Import Byte.
From Verif Require Import SimExp Text SpecText SpecOutput TextLemmas OutputThms Heap SpecHeap HeapLemmas HeapThms SpecString Strings.
From Verif Require Front.
Import ListNotations.
Local Open Scope list_scope.

Ltac Zify.zify_post_hook ::= Z.to_euclidean_division_equations.

(** ** UTF-8 *)
Lemma byte_iff : forall lo hi c, Front.byte lo hi c = true <-> (lo <= N_of_ascii c <= hi)%N.
Proof. intros. unfold Front.byte. rewrite andb_true_iff, !N.leb_le. tauto. Qed.
Lemma byte_not : forall lo hi c, Front.byte lo hi c = false <-> (N_of_ascii c < lo \/ hi < N_of_ascii c)%N.
Proof. intros. unfold Front.byte. rewrite andb_false_iff, !N.leb_gt. tauto. Qed.
Lemma of_byte : forall n c, n = N_of_ascii c -> ascii_of_N n = c.
Proof. intros n c ->. apply ascii_N_embedding. Qed.

Ltac bytes := repeat match goal with
  | H : (_ && _)%bool = true |- _ => apply andb_prop in H; destruct H
  | H : (_ || _)%bool = true |- _ => apply orb_prop in H; destruct H
  | H : (_ || _)%bool = false |- _ => apply orb_false_elim in H; destruct H
  | H : Front.cont _ = true |- _ => unfold Front.cont in H
  | H : Front.byte _ _ _ = true |- _ => apply byte_iff in H
  | H : Front.byte _ _ _ = false |- _ => apply byte_not in H
  end.

Lemma decode_n : forall n t, length t <= n -> Front.utf8 t = true -> Forall scalar (chars t) /\ t = encode (chars t).
Proof.
  unfold scalar, encode. induction n as [|n IH]; intros t L U.
  { destruct t; [|simpl in L; lia]. split; [constructor|reflexivity]. }
  destruct t as [|a t1]; [split; [constructor|reflexivity]|]. cbn [Front.utf8] in U.
  assert (Ba := N_ascii_bounded a).
  assert (E1 : forall x y u, y = encode1 x -> u = flat_map encode1 (chars u) -> y ++ u = flat_map encode1 (x :: chars u)) by (intros x y u -> E; simpl; now rewrite <- E).
  assert (Sh : forall x r, (length r <= n)%nat -> Front.utf8 r = true -> (x < 55296 \/ 57344 <= x < 1114112)%N -> Forall (fun n => n < 55296 \/ 57344 <= n < 1114112)%N (x :: chars r)) by (intros; constructor; [assumption|now apply IH]).
  simpl in L. destruct (Front.byte 0 127 a) eqn:E0; bytes.
  { cbn [chars]. replace (N_of_ascii a <? 128)%N with true by (symmetry; apply N.ltb_lt; lia).
    split; [apply Sh; auto; lia|]. apply (E1 _ [a]); [|apply IH; auto; lia]. unfold encode1.
    replace (N_of_ascii a <? 128)%N with true by (symmetry; apply N.ltb_lt; lia). cbn [map]. now rewrite of_byte with (c := a). }
  destruct t1 as [|b t2]; [discriminate|]. assert (Bb := N_ascii_bounded b). simpl in L.
  destruct (Front.byte 194 223 a) eqn:E2; bytes.
  { cbn [chars]. replace (N_of_ascii a <? 128)%N with false by (symmetry; apply N.ltb_ge; lia). replace (N_of_ascii a <? 224)%N with true by (symmetry; apply N.ltb_lt; lia).
    split; [apply Sh; auto; lia|]. apply (E1 _ [a; b]); [|apply IH; auto; lia]. unfold encode1.
    destruct (N.ltb_spec (64 * (N_of_ascii a mod 32) + N_of_ascii b mod 64) 128); [exfalso; lia|].
    destruct (N.ltb_spec (64 * (N_of_ascii a mod 32) + N_of_ascii b mod 64) 2048); [|exfalso; lia].
    cbn [map]. rewrite of_byte with (c := a), of_byte with (c := b) by lia. reflexivity. }
  destruct t2 as [|c t3]; [discriminate|]. assert (Bc := N_ascii_bounded c). simpl in L.
  assert (T3 : (224 <= N_of_ascii a < 240)%N -> (128 <= N_of_ascii b < 192)%N -> (128 <= N_of_ascii c < 192)%N ->
    (N_of_ascii a = 224 -> 160 <= N_of_ascii b)%N -> (N_of_ascii a = 237 -> N_of_ascii b < 160)%N -> Front.utf8 t3 = true ->
    Forall (fun n => n < 55296 \/ 57344 <= n < 1114112)%N (chars (a :: b :: c :: t3)) /\ a :: b :: c :: t3 = flat_map encode1 (chars (a :: b :: c :: t3))).
  { intros A1 B1 C1 A2 A3 U3. cbn [chars]. replace (N_of_ascii a <? 128)%N with false by (symmetry; apply N.ltb_ge; lia).
    replace (N_of_ascii a <? 224)%N with false by (symmetry; apply N.ltb_ge; lia).
    replace (N_of_ascii a <? 240)%N with true by (symmetry; apply N.ltb_lt; lia). set (x := (4096 * _ + _)%N).
    assert (X : (x = 4096 * (N_of_ascii a - 224) + 64 * (N_of_ascii b - 128) + (N_of_ascii c - 128))%N) by (unfold x; lia). clearbody x.
    split; [apply Sh; auto; lia|]. apply (E1 _ [a; b; c]); [|apply IH; auto; lia]. unfold encode1.
    destruct (N.ltb_spec x 128); [exfalso; lia|]. destruct (N.ltb_spec x 2048); [exfalso; lia|].
    destruct (N.ltb_spec x 65536); [|exfalso; lia]. cbn [map].
    rewrite of_byte with (c := a), of_byte with (c := b), of_byte with (c := c) by lia. reflexivity. }
  destruct (Front.byte 224 224 a) eqn:E3; bytes; [apply T3; auto; lia|].
  destruct (Front.byte 225 236 a || Front.byte 238 239 a)%bool eqn:E4; bytes; [apply T3; auto; lia|apply T3; auto; lia|].
  destruct (Front.byte 237 237 a) eqn:E5; bytes; [apply T3; auto; lia|]. clear T3.
  destruct t3 as [|d t4]; [discriminate|]. assert (Bd := N_ascii_bounded d). simpl in L.
  assert (T4 : (240 <= N_of_ascii a < 245)%N -> (128 <= N_of_ascii b < 192)%N -> (128 <= N_of_ascii c < 192)%N -> (128 <= N_of_ascii d < 192)%N ->
    (N_of_ascii a = 240 -> 144 <= N_of_ascii b)%N -> (N_of_ascii a = 244 -> N_of_ascii b < 144)%N -> Front.utf8 t4 = true ->
    Forall (fun n => n < 55296 \/ 57344 <= n < 1114112)%N (chars (a :: b :: c :: d :: t4)) /\ a :: b :: c :: d :: t4 = flat_map encode1 (chars (a :: b :: c :: d :: t4))).
  { intros A1 B1 C1 D1 A2 A3 U4. cbn [chars]. replace (N_of_ascii a <? 128)%N with false by (symmetry; apply N.ltb_ge; lia).
    replace (N_of_ascii a <? 224)%N with false by (symmetry; apply N.ltb_ge; lia).
    replace (N_of_ascii a <? 240)%N with false by (symmetry; apply N.ltb_ge; lia). set (x := (262144 * _ + _ + _)%N).
    assert (X : (x = 262144 * (N_of_ascii a - 240) + 4096 * (N_of_ascii b - 128) + 64 * (N_of_ascii c - 128) + (N_of_ascii d - 128))%N) by (unfold x; lia). clearbody x.
    split; [apply Sh; auto; lia|]. apply (E1 _ [a; b; c; d]); [|apply IH; auto; lia]. unfold encode1.
    destruct (N.ltb_spec x 128); [exfalso; lia|]. destruct (N.ltb_spec x 2048); [exfalso; lia|].
    destruct (N.ltb_spec x 65536); [exfalso; lia|]. cbn [map].
    rewrite of_byte with (c := a), of_byte with (c := b), of_byte with (c := c), of_byte with (c := d) by lia. reflexivity. }
  destruct (Front.byte 240 240 a) eqn:E6; bytes; [apply T4; auto; lia|].
  destruct (Front.byte 241 243 a) eqn:E7; bytes; [apply T4; auto; lia|].
  destruct (Front.byte 244 244 a) eqn:E8; bytes; [apply T4; auto; lia|discriminate].
Qed.

(** The digits of a number in base 64. *)
Lemma digits64 : forall n, exists a b c d, (n = 262144 * a + 4096 * b + 64 * c + d /\ b < 64 /\ c < 64 /\ d < 64 /\
  n / 262144 = a /\ n / 4096 = 64 * a + b /\ (n / 4096) mod 64 = b /\ n / 64 = 4096 * a + 64 * b + c /\ (n / 64) mod 64 = c /\ n mod 64 = d)%N.
Proof.
  intros n. exists (n / 64 / 64 / 64)%N, ((n / 64 / 64) mod 64)%N, ((n / 64) mod 64)%N, (n mod 64)%N.
  replace (n / 262144)%N with (n / 64 / 64 / 64)%N by (rewrite !N.div_div by discriminate; reflexivity).
  replace (n / 4096)%N with (n / 64 / 64)%N by (rewrite !N.div_div by discriminate; reflexivity).
  assert (E0 := N.div_mod n 64 ltac:(discriminate)). assert (E1 := N.div_mod (n / 64) 64 ltac:(discriminate)).
  assert (E2 := N.div_mod (n / 64 / 64) 64 ltac:(discriminate)).
  assert (B0 := N.mod_lt n 64 ltac:(discriminate)). assert (B1 := N.mod_lt (n / 64) 64 ltac:(discriminate)).
  assert (B2 := N.mod_lt (n / 64 / 64) 64 ltac:(discriminate)).
  set (d := (n mod 64)%N) in *. set (n1 := (n / 64)%N) in *. set (c := (n1 mod 64)%N) in *. set (n2 := (n1 / 64)%N) in *.
  set (b := (n2 mod 64)%N) in *. set (a := (n2 / 64)%N) in *. clearbody a b c d n1 n2. repeat split; lia.
Qed.
Lemma byte_val : forall n, (n < 256)%N -> N_of_ascii (ascii_of_N n) = n.
Proof. exact N_ascii_embedding. Qed.
Lemma encode_decode : forall m, Forall scalar m -> Front.utf8 (encode m) = true /\ chars (encode m) = m.
Proof.
  unfold scalar, encode. induction m as [|n m IH]; intros F; [split; reflexivity|]. assert (Hn := Forall_inv F). cbv beta in Hn. destruct (IH (Forall_inv_tail F)) as [U C].
  cbn [flat_map]. set (u := flat_map encode1 m) in *. clearbody u. unfold encode1.
  assert (Bt : forall lo hi k, (k < 256)%N -> (lo <= k <= hi)%N -> Front.byte lo hi (ascii_of_N k) = true) by (intros; apply byte_iff; rewrite byte_val; auto).
  assert (Bf : forall lo hi k, (k < 256)%N -> (k < lo \/ hi < k)%N -> Front.byte lo hi (ascii_of_N k) = false) by (intros; apply byte_not; rewrite byte_val; auto).
  destruct (N.ltb_spec n 128).
  { cbn [map app Front.utf8 chars]. rewrite Bt by lia. rewrite byte_val by lia. replace (n <? 128)%N with true by (symmetry; apply N.ltb_lt; lia).
    now rewrite C. }
  destruct (N.ltb_spec n 2048).
  { cbn [map app Front.utf8 chars]. rewrite (Bf 0 127)%N by lia. rewrite (Bt 194 223)%N by lia. unfold Front.cont. rewrite Bt by lia.
    rewrite !byte_val by lia. destruct (N.ltb_spec (192 + n / 64) 128); [exfalso; lia|]. destruct (N.ltb_spec (192 + n / 64) 224); [|exfalso; lia].
    rewrite C. split; [exact U|]. f_equal. lia. }
  destruct (N.ltb_spec n 65536).
  { destruct (digits64 n) as (a & b & c & d & En & Lb & Lc & Ld & _ & -> & _ & _ & -> & ->).
    set (x := (224 + (64 * a + b))%N). set (y := (128 + c)%N). set (z := (128 + d)%N).
    assert (X : (224 <= x < 240)%N) by (unfold x; lia). assert (Y : (128 <= y < 192)%N) by (unfold y; lia). assert (Zz : (128 <= z < 192)%N) by (unfold z; lia).
    assert (X0 : (x = 224 -> 160 <= y)%N) by (unfold x, y; lia). assert (X1 : (x = 237 -> y < 160)%N) by (unfold x, y; lia).
    assert (E : (4096 * (x mod 32) + (64 * (y mod 64) + z mod 64) = n)%N) by (unfold x, y, z; lia). clearbody x y z.
    cbn [map app Front.utf8 chars]. rewrite !byte_val by lia. rewrite (Bf 0 127)%N by lia. rewrite (Bf 194 223)%N by lia.
    destruct (N.ltb_spec x 128); [exfalso; lia|]. destruct (N.ltb_spec x 224); [exfalso; lia|]. destruct (N.ltb_spec x 240); [|exfalso; lia].
    rewrite C, E. split; [|reflexivity]. unfold Front.cont. rewrite (Bt 128 191 z)%N by lia. rewrite (Bt 128 191 y)%N by lia. rewrite U.
    destruct (N.eq_dec x 224) as [->|N1]; [rewrite (Bt 224 224)%N by lia; rewrite (Bt 160 191)%N by lia; reflexivity|].
    rewrite (Bf 224 224)%N by lia. destruct (N.eq_dec x 237) as [->|N2].
    - rewrite (Bf 225 236)%N by lia. rewrite (Bf 238 239)%N by lia. rewrite (Bt 237 237)%N by lia. rewrite (Bt 128 159)%N by lia. reflexivity.
    - destruct (N.lt_ge_cases x 237).
      + rewrite (Bt 225 236)%N by lia. reflexivity.
      + rewrite (Bt 238 239)%N by lia. rewrite orb_true_r. reflexivity. }
  destruct (digits64 n) as (a & b & c & d & En & Lb & Lc & Ld & -> & _ & -> & _ & -> & ->). set (x := (240 + a)%N). set (y := (128 + b)%N). set (z := (128 + c)%N). set (w := (128 + d)%N).
  assert (X : (240 <= x < 245)%N) by (unfold x; lia). assert (Y : (128 <= y < 192)%N) by (unfold y; lia).
  assert (Zz : (128 <= z < 192)%N) by (unfold z; lia). assert (W : (128 <= w < 192)%N) by (unfold w; lia).
  assert (X0 : (x = 240 -> 144 <= y)%N) by (unfold x, y; lia). assert (X1 : (x = 244 -> y < 144)%N) by (unfold x, y; lia).
  assert (E : (262144 * (x mod 8) + 64 * (64 * (y mod 64) + z mod 64) + w mod 64 = n)%N) by (unfold x, y, z, w; lia). clearbody x y z w.
  cbn [map app Front.utf8 chars]. rewrite !byte_val by lia. rewrite (Bf 0 127 x)%N by lia. rewrite (Bf 194 223 x)%N by lia.
  rewrite (Bf 224 224 x)%N by lia. rewrite (Bf 225 236 x)%N by lia. rewrite (Bf 238 239 x)%N by lia. rewrite (Bf 237 237 x)%N by lia.
  destruct (N.ltb_spec x 128); [exfalso; lia|]. destruct (N.ltb_spec x 224); [exfalso; lia|]. destruct (N.ltb_spec x 240); [exfalso; lia|].
  rewrite C, E. split; [|reflexivity]. unfold Front.cont. rewrite (Bt 128 191 z)%N by lia. rewrite (Bt 128 191 y)%N by lia. rewrite (Bt 128 191 w)%N by lia. rewrite U.
  cbn [orb]. destruct (N.eq_dec x 240) as [->|N1]; [rewrite (Bt 240 240 240)%N by lia; rewrite (Bt 144 191 y)%N by lia; reflexivity|].
  rewrite (Bf 240 240 x)%N by lia. destruct (N.eq_dec x 244) as [->|N2].
  - rewrite (Bf 241 243 244)%N by lia. rewrite (Bt 244 244 244)%N by lia. rewrite (Bt 128 143 y)%N by lia. reflexivity.
  - rewrite (Bt 241 243 x)%N by lia. reflexivity.
Qed.
Lemma to_str_thm : forall t m, to_str t = Some m <-> is_text t m.
Proof.
  intros t m. unfold to_str, is_text. split.
  - destruct (Front.utf8 t) eqn:U; [|discriminate]. intros E. inversion E; subst. exact (decode_n (length t) t (le_n _) U).
  - intros [F ->]. destruct (encode_decode m F) as [U C]. now rewrite U, C.
Qed.
Lemma to_str_none : forall t, to_str t = None <-> ~ exists m, is_text t m.
Proof.
  intros t. split.
  - intros E [m M]. apply to_str_thm in M. congruence.
  - intros H. destruct (to_str t) as [m|] eqn:E; [|reflexivity]. elim H. exists m. now apply to_str_thm.
Qed.
