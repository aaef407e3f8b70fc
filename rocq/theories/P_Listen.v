(** * Callbacks that raise: C75 *)
From Coq Require Import String Ascii List NArith ZArith Reals Bool Lia.
From Verif Require Import Cx Bits Arith ArithR IndexMap Sim SimExp SimApply Spec SpecRun SimRun Text SpecText Backend World BackEx Runner SpecRunner
  RunnerThms RunnerLink RunnerEx Front SpecFront CliThms FrontThms FrontEx Listen SpecListen ListenThms.
Import ListNotations.
Local Open Scope list_scope.

(** C75: two processes, each after any calls, also ones stopped by their callback; the same task asked for on the console in one and
    with any callback in the other.  The texts that the callback gets are what the console shows, from its beginning.  It gets nothing after
    a text for which it raises.  The call returns as on the console, with all of the text told and the generators alike, or it stops
    because the callback raised, or because the text of the run is not UTF-8. *)
Theorem C75_callback : forall (T : Tol) (EN : Env) (D : Doubles) (SW : Shows) (RN : Rand) (LL : Llvm) fuel p0 q0 h h' a c p q s r p1,
  started p0 -> outlives fuel h p0 = Some p -> started q0 -> outlives fuel h' q0 = Some q ->
  asks a (wants c) -> has_callback a = false -> (t_seed (wants c) = None -> pgen p = pgen q) -> ptgen p = ptgen q ->
  do_call fuel a p = DRan s r p1 ->
  match listen fuel c q with
  | HRan told r' q1 => r' = r /\ took (ear c) told /\ exists lost, shown s = concat told ++ lost /\
      (returns r -> lost = [] /\ pgen q1 = pgen p1 /\ ptgen q1 = ptgen p1)
  | HPanic told q1 => (exists rest, shown s = concat told ++ rest) /\ (raised (ear c) told \/ took (ear c) told /\ utf8 (shown s) = false)
  | HPastEnd => False
  end.
Proof.
  intros T EN D SW RN LL fuel p0 q0 h h' a c p q s r p1 (g0 & t0 & d0 & ->) Hp (g1 & t1 & d1 & ->) Hq A Cb G R Ra.
  apply outlives_buffer in Hp; [|reflexivity]. apply outlives_buffer in Hq; [|reflexivity].
  pose proof (callback_thm fuel a c p q s r p1 A Cb Hp Hq G R Ra) as X. destruct (listen fuel c q); [|apply X|exact X].
  destruct X as (E & K & lost & L & X). split; auto. split; auto. exists lost. split; auto. intros Rt. destruct (X Rt) as (X1 & X2 & X3 & _). auto.
Qed.
Print Assumptions C75_callback.

(** A callback that never raises gets the whole text of every run that returns and whose text is UTF-8. *)
Theorem C75_accepting : forall (T : Tol) (EN : Env) (D : Doubles) (SW : Shows) (RN : Rand) (LL : Llvm) fuel p0 q0 h h' a c p q s r p1,
  started p0 -> outlives fuel h p0 = Some p -> started q0 -> outlives fuel h' q0 = Some q ->
  asks a (wants c) -> has_callback a = false -> (t_seed (wants c) = None -> pgen p = pgen q) -> ptgen p = ptgen q ->
  do_call fuel a p = DRan s r p1 -> returns r -> utf8 (shown s) = true -> (forall told t, ear c told t = true) ->
  exists told q1, listen fuel c q = HRan told r q1 /\ concat told = shown s /\ pgen q1 = pgen p1 /\ ptgen q1 = ptgen p1.
Proof.
  intros T EN D SW RN LL fuel p0 q0 h h' a c p q s r p1 Sp Hp Sq Hq A Cb G R Ra Rt U Ac.
  pose proof (C75_callback T EN D SW RN LL fuel p0 q0 h h' a c p q s r p1 Sp Hp Sq Hq A Cb G R Ra) as X.
  destruct (listen fuel c q) as [told r' q1|told q1|]; [| |contradiction].
  - destruct X as (-> & _ & lost & L & X). destruct (X Rt) as (-> & X2 & X3). exists told, q1. rewrite L, app_nil_r. auto.
  - destruct X as (_ & [(b & t & _ & _ & X)|[_ X]]); [rewrite Ac in X; discriminate|congruence].
Qed.
Print Assumptions C75_accepting.

(** All front ends still show the same text after calls that were stopped by their callbacks (as C58, which has calls that returned). *)
Theorem C75_later : forall (T : Tol) (EN : Env) (D : Doubles) (SW : Shows) (RN : Rand) (LL : Llvm) fuel p0 q0 h h' a b t p q s r p1,
  started p0 -> outlives fuel h p0 = Some p -> started q0 -> outlives fuel h' q0 = Some q ->
  asks a t -> asks b t -> (t_seed t = None -> pgen p = pgen q) -> ptgen p = ptgen q ->
  do_call fuel a p = DRan s r p1 -> returns r -> (has_callback b = true -> utf8 (shown s) = true) ->
  exists s' q1, do_call fuel b q = DRan s' r q1 /\ shown s' = shown s /\ in_place a s /\ in_place b s' /\ pgen q1 = pgen p1 /\ ptgen q1 = ptgen p1.
Proof.
  intros T EN D SW RN LL fuel p0 q0 h h' a b t p q s r p1 (g0 & t0 & d0 & ->) Hp (g1 & t1 & d1 & ->) Hq Aa Ab G R Ra Rt U.
  apply outlives_buffer in Hp; [|reflexivity]. apply outlives_buffer in Hq; [|reflexivity].
  destruct (front_thm fuel a b t p q s r p1 Aa Ab Hp Hq G R Ra Rt U) as (s' & q1 & A & B & C & E & F & K & _). exists s', q1. auto 10.
Qed.
Print Assumptions C75_later.

(** A callback that raises for the records of the first of two shots: it gets the header and the records.  The same call with a callback
    that returns, afterwards in the same process, gets the text that the console shows in a new process. *)
Definition picky : listener := fun told _ => Nat.ltb (length told) 3.
Definition loud (f : listener) : lcall := LFile "a.ll" (Some "main"%string) (Some 2%N) (Some 7%N) f.
Definition typed : call := CMain ["qir-runner"; "-s2"; "--entrypoint"; "main"; "--file=a.ll"; "-r7"]%string false [].
Example C75_ex : let LL := LL0 [note_main] in let p0 := proc0 true false in
  (exists told p1, @listen T0 E0 D0 SW0 RN0 LL 10 (loud picky) p0 = HPanic told p1 /\ length told = 4 /\ took picky (firstn 3 told) /\ raised picky told) /\
  (exists p, @outlives T0 E0 D0 SW0 RN0 LL 10 [inr (loud picky)] p0 = Some p /\
     exists told p1, @listen T0 E0 D0 SW0 RN0 LL 10 (loud (fun _ _ => true)) p = HRan told ROk p1 /\ length told = 12) /\
  started p0 /\ @outlives T0 E0 D0 SW0 RN0 LL 10 [] p0 = Some p0 /\ asks typed (wants (loud (fun _ _ => true))) /\
  exists s p1, @do_call T0 E0 D0 SW0 RN0 LL 10 typed p0 = DRan s ROk p1 /\ utf8 (shown s) = true.
Proof.
  cbv zeta. split; [|split; [|split; [|split; [reflexivity|split]]]].
  - eexists. eexists. split; [cbv; reflexivity|]. split; [reflexivity|]. split.
    + intros a t b E. apply Nat.ltb_lt. apply (f_equal (@length _)) in E. rewrite app_length in E. cbn in E. lia.
    + eexists [_; _; _], _. split; [reflexivity|]. split; [|reflexivity].
      intros a t b E. apply Nat.ltb_lt. apply (f_equal (@length _)) in E. rewrite app_length in E. cbn in E. lia.
  - eexists. split; [cbv; reflexivity|]. eexists. eexists. split; [cbv; reflexivity|reflexivity].
  - eexists. eexists. eexists. reflexivity.
  - refine (a_file "qir-runner" ["-s2"; "--entrypoint"; "main"; "--file=a.ll"; "-r7"]%string false [] "a.ll"
      (mkSettings (Some "a.ll"%string) (Some "main"%string) (Some 2%N) (Some 7%N)) _ eq_refl _).
    + apply read_options_thm. reflexivity.
    + discriminate.
  - eexists. eexists. split; [cbv; reflexivity|reflexivity].
Qed.
