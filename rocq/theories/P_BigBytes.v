(** * C37: big integers from 64-bit numbers and from bytes *)
From Coq Require Import ZArith List Lia.
From Coq.Strings Require Import Byte.
From Verif Require Import Text Heap SpecHeap HeapLemmas HeapThms SpecBig BigBytes.
Import ListNotations.

(** A big integer made from a 64-bit number is that number, sign included, and its bytes are at most eight. *)
Theorem C37_create : forall (M : Mode) h z, is_i64 z -> makes_object (hcall1 (HBigCreate z)) h (VBig z) /\
  forall b h', hcall1 (HBigCreate z) h = HOk (RObj b) h' ->
    exists l, hcall1 (HBigData b) h' = HOk (RBytes l) h' /\ spells l z /\ length l <= 8.
Proof. exact @big_create_thm. Qed.
Print Assumptions C37_create.
(** The bytes of get_data are the two's complement, least significant byte first. *)
Theorem C37_data : forall (M : Mode) h a z, big_is h a z ->
  exists l, hcall1 (HBigData a) h = HOk (RBytes l) h /\ l <> [] /\ spells l z.
Proof. exact @big_data_thm. Qed.
Print Assumptions C37_data.
(** Any bytes are read as two's complement, least significant byte first, also those with more bytes than needed; no bytes are zero. *)
Theorem C37_parse : forall (M : Mode) h l, exists z, makes_object (hcall1 (HBigBytes l)) h (VBig z) /\ (l = [] -> z = 0%Z) /\ (l <> [] -> spells l z).
Proof. exact @big_parse_thm. Qed.
Print Assumptions C37_parse.
(** The least 64-bit number; and bytes of -2 with one more than needed. *)
Example C37_create_ex : is_i64 (- 2 ^ 63) /\ big_is [live 1 0 (VBig (-129))] 0 (-129) /\ spells [x7f; xff] (-129) /\ spells [xfe; xff] (-2) /\ ~ spells [xff; xfe] (-2).
Proof.
  split; [split; cbn; lia|]. split; [exists 1, 0; apply alive_iff; split; [lia|reflexivity]|].
  split; [exact (data_spells (-129))|]. split; [exact (parsed_spells [xfe; xff] ltac:(discriminate))|].
  intros [H _]. specialize (H 0 xff eq_refl). discriminate H.
Qed.
