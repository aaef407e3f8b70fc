(** * Properties of strings and messages (C64)

    UTF-8 ([is_text]: the bytes are the encoding of a sequence of Unicode scalar values), characters printed as they are ([plain])
    and calls that return a new string ([gives]) are in SpecString; how numbers and messages are read is in SpecText. *)
From Coq Require Import String Ascii List NArith ZArith Bool Lia.
From Flocq Require Import IEEE754.BinarySingleNaN.
From Verif Require Import SimExp Text SpecText SpecOutput TextLemmas OutputThms Heap SpecHeap HeapLemmas HeapThms SpecString Strings Utf8 StringThms
  Math DoubleText SpecDouble DoubleThms.
Import ListNotations.
Local Open Scope list_scope.

(** ** C64 *)

(** A string is printed exactly if its bytes are UTF-8: the line is INFO and printable characters from which the text can be
    read back.  Otherwise the program stops and nothing is printed. *)
Theorem C64_message : forall (D : Doubles) h a t out, str_is h a t ->
  (forall m, is_text t m -> exists v, rt_message a h out = MOk (out ++ lit "INFO" ++ TAB :: v ++ [NL]) /\
     rt_fail a h out = MFail m (out ++ lit "INFO" ++ TAB :: v ++ [NL]) /\
     Forall (fun c => 32 <= N_of_ascii c <= 126)%N v /\ read_message v = Some m) /\
  ((~ exists m, is_text t m) -> rt_message a h out = MPanic out /\ rt_fail a h out = MPanic out).
Proof.
  intros D h a t out S. destruct (message_thm h a t out S) as [H1 H2]. split; [|exact H2].
  intros m Hm. destruct (H1 m Hm) as [E F]. exists (escape_default m). split; [exact E|]. split; [exact F|]. split; [|apply read_escape].
  apply Forall_forall. intros c Hc. assert (P := escape_printable m). rewrite forallb_forall in P. specialize (P c Hc).
  unfold printable in P. apply andb_prop in P. rewrite !N.leb_le in P. exact P.
Qed.
Print Assumptions C64_message.
(** Different strings are printed differently. *)
Theorem C64_distinct : forall (D : Doubles) h a b s t out o, str_is h a s -> str_is h b t ->
  rt_message a h out = MOk o -> rt_message b h out = MOk o -> s = t.
Proof. exact @message_inj. Qed.
Print Assumptions C64_distinct.
(** Joining two strings joins their texts. *)
Theorem C64_join : forall (M : Mode) (D : Doubles) h a b s t m m' out, str_is h a s -> str_is h b t -> is_text s m -> is_text t m' ->
  exists c h' v w, hcall1 (HStrConcat a b) h = HOk (RObj c) h' /\
    rt_message a h out = MOk (out ++ lit "INFO" ++ TAB :: v ++ [NL]) /\ rt_message b h out = MOk (out ++ lit "INFO" ++ TAB :: w ++ [NL]) /\
    rt_message c h' out = MOk (out ++ lit "INFO" ++ TAB :: (v ++ w) ++ [NL]) /\ read_message (v ++ w) = Some (m ++ m').
Proof.
  intros M D h a b s t m m' out S T Hm Hm'.
  exists (length h), (h ++ [live 1 0 (VStr (s ++ t))]), (escape_default m), (escape_default m').
  assert (E : escape_default (m ++ m') = escape_default m ++ escape_default m') by (unfold escape_default; apply flat_map_app).
  split. { cbn [hcall1]. unfold robj, string_concatenate. rewrite (bind_ok _ _ _ _ h (length h) (h ++ [live 1 0 (VStr (s ++ t))])); [reflexivity|].
    rewrite (bind_ok _ _ (get_str a) _ h _ _ (get_str_live h a s S)). rewrite (bind_ok _ _ (get_str b) _ h _ _ (get_str_live h b t T)). reflexivity. }
  split; [exact (proj1 (proj1 (message_thm h a s out S) m Hm))|]. split; [exact (proj1 (proj1 (message_thm h b t out T) m' Hm'))|].
  rewrite <- E. split; [|apply read_escape]. apply message_thm with (t := s ++ t); [|exact (is_text_app s t m m' Hm Hm')].
  exists 1, 0. apply alive_iff. split; [lia|]. rewrite nth_error_app2 by lia. now rewrite Nat.sub_diag.
Qed.
Print Assumptions C64_join.
(** Plain text is printed as it is. *)
Theorem C64_plain : forall (D : Doubles) h a t out, str_is h a t -> Forall plain t ->
  rt_message a h out = MOk (out ++ lit "INFO" ++ TAB :: t ++ [NL]).
Proof. exact @message_plain. Qed.
Print Assumptions C64_plain.

(** Values are converted to plain texts from which they can be read back. *)
Theorem C64_values : forall h,
  (forall z, exists t, gives (rt_int_to_string z) h t /\ Forall plain t /\ read_Z t = Some z) /\
  (forall a z, big_is h a z -> exists t, gives (rt_bigint_to_string a) h t /\ Forall plain t /\ read_Z t = Some z) /\
  (forall q, exists t, gives (rt_qubit_to_string q) h t /\ Forall plain t /\ read_Z t = Some (Z.of_N q)) /\
  (forall r, exists t, gives (rt_range_to_string r) h t /\ Forall plain t /\ read_range t = Some (r_start r, r_step r, r_end r)) /\
  (forall x : f64, exists t, gives (@rt_double_to_string D64 x) h t /\ Forall plain t /\ reads t x) /\
  gives (rt_bool_to_string true) h (lit "true") /\ gives (rt_bool_to_string false) h (lit "false") /\
  gives (rt_result_to_string 1) h (lit "One") /\ gives (rt_result_to_string 0) h (lit "Zero") /\
  gives (rt_pauli_to_string PI_) h (lit "PauliI") /\ gives (rt_pauli_to_string PX_) h (lit "PauliX") /\
  gives (rt_pauli_to_string PY_) h (lit "PauliY") /\ gives (rt_pauli_to_string PZ_) h (lit "PauliZ").
Proof.
  intros h. split; [|split; [|split; [|split; [|split]]]].
  - intros z. exists (show_Z z). split; [apply convert_plain, int_plain|]. split; [apply int_plain|apply read_show_Z].
  - intros a z B. exists (show_Z z). split; [exact (big_text h a z B)|]. split; [apply int_plain|apply read_show_Z].
  - intros q. exists (show_Z (Z.of_N q)). split; [apply convert_plain, int_plain|]. split; [apply int_plain|apply read_show_Z].
  - intros r. exists (range_to_string r). split; [apply convert_plain, range_plain|]. split; [apply range_plain|apply read_range_show].
  - intros x. exists (@double_to_string D64 x). assert (P : Forall plain (@double_to_string D64 x)) by (apply dbl_plain, doubles_ok_D64).
    split; [apply convert_plain, P|]. split; [exact P|apply read_back].
  - repeat match goal with |- _ /\ _ => split end; apply convert_plain, plainb_all; reflexivity.
Qed.
Print Assumptions C64_values.

(** After any calls, no string contains a NUL; so a reader of the memory of a string, up to the NUL, sees all of it, and a string
    created from that memory is equal to it. *)
Theorem C64_data : forall (M : Mode) cs rs h a t, hexec cs [] = HOk rs h -> str_is h a t ->
  ~ In Ascii.zero t /\ string_get_data a h = HOk (t ++ [Ascii.zero]) h /\ makes_object (hcall1 (HStrCreate (t ++ [Ascii.zero]))) h (VStr t).
Proof.
  intros M cs rs h a t E S. assert (N := no_nul cs rs h a t E S). split; [exact N|]. destruct (data_thm h a t S N) as [G (b & h' & C1 & C2)].
  split; [exact G|]. exists b, h'. split; [|exact C2]. cbn [hcall1]. unfold robj. rewrite (bind_ok _ _ _ _ h b h' C1). reflexivity.
Qed.
Print Assumptions C64_data.

(** A greeting with a line break, a euro sign and a clef outside of the first plane, and the bytes of a string that is cut in the
    middle of a character. *)
Definition greeting : list N := [72; 105; 10; 8364; 119070]%N.
Definition bytes_of (l : list N) : text := map ascii_of_N l.
Definition greeting_bytes : text := bytes_of [72; 105; 10; 226; 130; 172; 240; 157; 132; 158]%N.
Definition cut_bytes : text := bytes_of [72; 105; 226; 130]%N.
Example C64_ex : let h := [live 1 0 (VStr greeting_bytes); live 1 0 (VStr cut_bytes); live 1 0 (VBig (-5))] in
  str_is h 0 greeting_bytes /\ is_text greeting_bytes greeting /\ str_is h 1 cut_bytes /\ (~ exists m, is_text cut_bytes m) /\
  big_is h 2 (-5) /\
  @rt_message D64 0 h [] = MOk (lit "INFO" ++ TAB :: lit "Hi\n\u{20ac}\u{1d11e}" ++ [NL]) /\ @rt_message D64 1 h [] = MPanic [].
Proof.
  intros h. split; [exists 1, 0; apply alive_iff; split; [lia|reflexivity]|].
  split; [split; [repeat constructor; unfold scalar; lia|vm_compute; reflexivity]|].
  split; [exists 1, 0; apply alive_iff; split; [lia|reflexivity]|].
  split; [apply to_str_none; vm_compute; reflexivity|].
  split; [exists 1, 0; apply alive_iff; split; [lia|reflexivity]|].
  split; vm_compute; reflexivity.
Qed.
Example C64_data_ex : exists rs h, @hexec (Build_Mode true) [HStrCreate (lit "ab" ++ [Ascii.zero] ++ lit "c"); HStrConcat 0 0] [] = HOk rs h /\ str_is h 1 (lit "abab").
Proof. do 2 eexists. split; [vm_compute; reflexivity|]. exists 1, 0. apply alive_iff. split; [lia|reflexivity]. Qed.
Example C64_plain_ex : Forall plain (lit "-12.5e3, One..") /\ ~ plain TAB.
Proof. split; [apply plainb_all; reflexivity|unfold plain; cbn; lia]. Qed.
