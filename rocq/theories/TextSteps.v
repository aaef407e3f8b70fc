(** * Strings made and printed by programs *)
From Coq Require Import String Ascii Reals NArith ZArith List Bool Arith Lia.
From Verif Require Import Cx Arith ArithR Sim SimExp SimRun Text SpecText TextLemmas SpecOutput OutputThms Backend Heap SpecHeap HeapLemmas
  SpecString Utf8 Strings StringThms DoubleText SpecDouble DoubleThms QubitArray Args Runner Mixed SpecMixed.
Import ListNotations.

Lemma plain_text : forall t, Forall plain t -> is_text t (map N_of_ascii t).
Proof. intros t F. destruct (plain_utf8 t F) as [U C]. apply to_str_thm. unfold to_str. now rewrite U, C. Qed.
Lemma text_made : forall h (c : @tcall D64), (forall a, c = TBig a -> exists z, big_is h a z) ->
  exists t, gives (tcall1 c) h t /\ stands_for h c t /\ Forall plain t.
Proof.
  intros h c B. destruct c as [z|x|b|p|a|r|r|q]; cbn [tcall1 stands_for].
  - exists (show_Z z). split; [apply convert_plain, int_plain|]. split; [apply read_show_Z|apply int_plain].
  - exists (@double_to_string D64 x). assert (P : Forall plain (@double_to_string D64 x)) by (apply dbl_plain, doubles_ok_D64).
    split; [apply convert_plain, P|]. split; [apply read_back|exact P].
  - eexists. split; [|split; [reflexivity|]]; destruct b; try apply convert_plain; apply plainb_all; reflexivity.
  - eexists. split; [|split; [reflexivity|]]; destruct p; try apply convert_plain; apply plainb_all; reflexivity.
  - destruct (B a eq_refl) as [z Z]. exists (show_Z z). split; [exact (big_text h a z Z)|]. split; [exists z; split; [exact Z|apply read_show_Z]|apply int_plain].
  - exists (range_to_string r). split; [apply convert_plain, range_plain|]. split; [apply read_range_show|apply range_plain].
  - eexists. split; [|split; [reflexivity|destruct (N.eqb r 1); apply plainb_all; reflexivity]].
    unfold rt_result_to_string, result_to_string. destruct (N.eqb r 1) eqn:E; apply convert_plain, plainb_all; reflexivity.
  - exists (show_Z (Z.of_N q)). split; [apply convert_plain, int_plain|]. split; [apply read_show_Z|apply int_plain].
Qed.

Lemma text_step : forall (T : Tol) (EN : Env) (SW : Shows) (RN : Rand) (M : Mode) (p : @mprog D64) l st h w c k,
  gstep p l = MText _ _ c k -> (forall a, c = TBig a -> exists z, big_is h a z) ->
  exists a h' t, (forall fuel, mrun p (S fuel) l st h w = mrun p fuel (k a) st h' w) /\
    stands_for h c t /\ Forall plain t /\
    nth_error h a = None /\ str_is h' a t /\ forall x, x < length h -> nth_error h' x = nth_error h x.
Proof.
  intros T EN SW RN M p l st h w c k E B. destruct (text_made h c B) as (t & (a & h' & G & N0 & A & F) & R & P).
  exists a, h', t. split; [|split; [exact R|split; [exact P|split; [exact N0|split; [exists 1, 0; exact A|exact F]]]]].
  intros fuel. cbn [mrun]. rewrite E. unfold mem. rewrite G. cbn [mnext]. destruct w as [b t0]. reflexivity.
Qed.
Lemma message_step : forall (T : Tol) (EN : Env) (D : Doubles) (SW : Shows) (RN : Rand) (M : Mode) (p : mprog) l st h w a t k,
  gstep p l = MMessage _ _ a k -> str_is h a t ->
  (forall m, is_text t m -> exists v, read_message v = Some m /\ (Forall plain t -> v = t) /\
     forall fuel, mrun p (S fuel) l st h w = mrun p fuel k st h (with_wout w (bout (wback w) ++ lit "INFO" ++ TAB :: v ++ [NL]))) /\
  ((~ exists m, is_text t m) -> forall fuel, mrun p (S fuel) l st h w = MStopped StopTrap (bout (wback w))).
Proof.
  intros T EN D SW RN M p l st h w a t k E S0. destruct (message_thm h a t (bout (wback w)) S0) as [H1 H2]. split.
  - intros m Hm. exists (escape_default m). split; [apply read_escape|]. split.
    + intros P. assert (X := message_plain h a t [] S0 P). destruct (message_thm h a t [] S0) as [H _].
      rewrite (proj1 (H m Hm)) in X. injection X as X. now apply app_inv_tail in X.
    + intros fuel. cbn [mrun]. rewrite E, (proj1 (H1 m Hm)). reflexivity.
  - intros N0 fuel. cbn [mrun]. rewrite E, (proj1 (H2 N0)). reflexivity.
Qed.
