(** * Callbacks that call the runner: C76 *)
From Coq Require Import String Ascii List NArith ZArith Reals Bool Lia.
From Verif Require Import Cx Bits Arith ArithR IndexMap Sim SimExp SimApply Spec SpecRun SimRun Text SpecText Backend World BackEx Runner SpecRunner
  RunnerThms RunnerLink RunnerEx Front SpecFront CliThms FrontThms FrontEx Listen SpecListen ListenThms Nested SpecNested NestedThms.
Import ListNotations.
Local Open Scope list_scope.

(** C76: in a process after any calls, a call with a callback that calls the runner itself, always with callbacks, to any depth.  Nothing
    gets to standard output, and no records are left behind.  If the call returns, the callback has got the blocks of the shots asked for, each of
    them a shot of the program in a fresh simulator, in order, and nothing else.  If it panics, the callback has got the beginning of such
    text, and it raised for the last text or the text is not UTF-8.  If it fails, it fails as it does without a callback. *)
Theorem C76_nested : forall (T : Tol) (EN : Env) (D : Doubles) (SW : Shows) (RN : Rand) (LL : Llvm) fuel d c (f : hearer) p0 h p o told r s',
  started p0 -> outlives fuel h p0 = Some p -> (forall told t, polite (f told t)) ->
  nrun fuel d c (Some f) (mkScene p o) = NRan told r s' ->
  sout s' = o /\ pbuffer (sproc s') = [] /\
  let n := N.to_nat (or_one (q_shots c)) in
  match r with
  | BackOk => exists e recs m, entry_of c e /\ shots_anyhow e fuel (pinit (fprog e)) recs m /\ length recs = n /\
      concat told = concat (map (block (fattrs e)) recs) /\ heeded f told
  | BackPanic => exists e text rest, entry_of c e /\ up_to e fuel n text /\ text = concat told ++ rest /\
      (refused f told \/ heeded f told /\ utf8 text = false)
  | BackErr x => exists y p1, do_call fuel (plainly c) p = DRan y (RErr x) p1 /\ shown y = concat told
  end.
Proof.
  intros T EN D SW RN LL fuel d c f p0 h p o told r s' (g0 & t0 & d0 & ->) Hp Cv H. apply outlives_buffer in Hp; [|reflexivity].
  apply nested_thm in H; auto. destruct H as [(B & _ & O) X]. split; [exact O|]. split; [exact B|]. cbv zeta. destruct r as [|x|].
  - destruct X as (e & En & He & recs & m & Sh & L & E). exists e, recs, m. auto.
  - exact X.
  - destruct X as (e & En & text & rest & X). exists e, text, rest. auto.
Qed.
Print Assumptions C76_nested.

(** If the text of the program does not depend on the generators, the callback gets the text that the console shows. *)
Theorem C76_same_text : forall (T : Tol) (EN : Env) (D : Doubles) (SW : Shows) (RN : Rand) (LL : Llvm) fuel d c (f : hearer) p0 h p o told s' y p1,
  started p0 -> outlives fuel h p0 = Some p -> (forall told t, polite (f told t)) -> (forall e, entry_of c e -> settled_text e fuel) ->
  do_call fuel (plainly c) p = DRan y ROk p1 -> nrun fuel d c (Some f) (mkScene p o) = NRan told BackOk s' -> concat told = shown y.
Proof.
  intros T EN D SW RN LL fuel d c f p0 h p o told s' y p1 (g0 & t0 & d0 & ->) Hp Cv St Hy H. apply outlives_buffer in Hp; [|reflexivity].
  eapply same_text_thm; eauto.
Qed.
Print Assumptions C76_same_text.

(** Calls that the callback makes while it is given records panic at once and change nothing: a callback that makes calls only for texts that begin
    like records is one of the callbacks of C75, which goes on as if its calls had panicked.  This includes callbacks that call nothing. *)
Theorem C76_quiet : forall (T : Tol) (EN : Env) (D : Doubles) (SW : Shows) (RN : Rand) (LL : Llvm) fuel d c (f : hearer) p o,
  (forall told t, like_record t \/ exists ok, f told t = Done ok) ->
  let l := fun told t => deaf (f told t) in
  nrun fuel (S d) c (Some f) (mkScene p o) =
  match listen fuel (match q_aim c with
                     | AFile path => LFile path (q_name c) (q_shots c) (q_seed c) l
                     | ABytes bytes => LBytes bytes (q_name c) (q_shots c) (q_seed c) l
                     end) p with
  | HRan told ROk p' => NRan told BackOk (mkScene p' o)
  | HRan told (RErr e) p' => NRan told (BackErr e) (mkScene p' o)
  | HPanic told p' => NRan told BackPanic (mkScene p' o)
  | _ => NGone
  end.
Proof. intros T EN D SW RN LL fuel d c f p o H. exact (quiet_thm fuel d c f p o H). Qed.
Print Assumptions C76_quiet.

(** An inner call without a callback is different: if the callback makes one, at the first text, and both calls return, then all records of the
    outer call go to standard output, after what the inner call shows, and the callback gets blocks without records. *)
Theorem C76_console : forall (T : Tol) (EN : Env) (D : Doubles) (SW : Shows) (RN : Rand) (LL : Llvm) fuel d c c' (f : hearer) p0 h p o told s',
  started p0 -> outlives fuel h p0 = Some p ->
  (forall t, f [] t = Ask c' None (fun _ => Done true)) -> (forall told t, told <> [] -> f told t = Done true) -> or_one (q_shots c) <> 0%N ->
  nrun fuel d c (Some f) (mkScene p o) = NRan told BackOk s' ->
  exists e recs m q x r q', entry_of c e /\ shots_anyhow e fuel (pinit (fprog e)) recs m /\ length recs = N.to_nat (or_one (q_shots c)) /\
    concat told = concat (map (fun _ => block (fattrs e) []) recs) /\
    do_call fuel (plainly c') q = DRan x r q' /\ sout s' = o ++ on_console x ++ concat recs.
Proof.
  intros T EN D SW RN LL fuel d c c' f p0 h p o told s' (g0 & t0 & d0 & ->) Hp F L Nz H. apply outlives_buffer in Hp; [|reflexivity].
  eapply console_thm; eauto. unfold shots_wanted. lia.
Qed.
Print Assumptions C76_console.

Local Existing Instance T0.
Local Existing Instance E0.
Local Existing Instance D0.
Local Existing Instance SW0.
Local Existing Instance RN0.
(** A program that counts its shots, run for two shots.  The callback runs the same program, for one shot and with a callback of its own, at
    each text, and ignores how that ends: during the records it panics. *)
Definition tally : func := entry "main" [("EntryPoint", "")]%string 0 true counting.
Definition twice : request := mkRequest (AFile "a.ll") None (Some 2%N) None.
Definition once : request := mkRequest (AFile "a.ll") None None (Some 3%N).
Definition asking (g : option hearer) : hearer := fun _ _ => Ask once g (fun _ => Done true).
Definition sulking : hearer := fun _ _ => Ask once (Some (fun _ _ => Done true)) (fun r => Done (match r with BackPanic => false | _ => true end)).
Example C76_ex : let LL := LL0 [tally] in let s := mkScene (proc0 true false) [] in
  (exists told s', @nrun T0 E0 D0 SW0 RN0 LL 10 2 twice (Some (asking (Some (fun _ _ => Done true)))) s = NRan told BackOk s' /\
     concat told = concat (map (block (fattrs tally)) [render (RecInt 0 None); render (RecInt 1 None)])) /\
  (forall told t, polite (asking (Some (fun _ _ => Done true)) told t)) /\ started (sproc s) /\ entry_of twice tally /\ settled_text tally 10 /\
  (exists y p1, @do_call T0 E0 D0 SW0 RN0 LL 10 (plainly twice) (sproc s) = DRan y ROk p1) /\
  (exists told s', @nrun T0 E0 D0 SW0 RN0 LL 10 2 twice (Some sulking) s = NRan told BackPanic s' /\
     concat told = preamble (fattrs tally) ++ render (RecInt 0 None)).
Proof.
  cbv zeta. split; [|split; [|split; [|split; [|split; [|split]]]]].
  - eexists. eexists. split; [cbv; reflexivity|reflexivity].
  - intros told t. constructor; intros; constructor.
  - do 3 eexists. reflexivity.
  - exists [tally], [tally]. split; [reflexivity|]. split; [reflexivity|]. apply (proj1 (choose_thm [tally] None)). reflexivity.
  - intros m g t g' t' m1 w1 m2 w2 A B. cbn in A, B. injection A as <- <-. injection B as <- <-. auto.
  - eexists. eexists. cbv. reflexivity.
  - eexists. eexists. split; [cbv; reflexivity|reflexivity].
Qed.

(** A callback that makes calls, for records only. *)
Definition prying : hearer := fun _ t => match t with "O"%char :: _ => Ask once None (fun _ => Done true) | _ => Done true end.
Example C76_quiet_ex : (forall told t, like_record t \/ exists ok, prying told t = Done ok) /\ prying [] (render (RecInt 0 None)) <> Done true /\
  let LL := LL0 [tally] in
  exists told s', @nrun T0 E0 D0 SW0 RN0 LL 10 2 twice (Some prying) (mkScene (proc0 true false) []) = NRan told BackOk s' /\
    concat told = concat (map (block (fattrs tally)) [render (RecInt 0 None); render (RecInt 1 None)]).
Proof.
  split; [|split; [discriminate|]].
  - intros told t. destruct t as [|c t]; [right; eexists; reflexivity|].
    destruct (Ascii.ascii_dec c "O"%char) as [->|N]; [left; eexists; left; reflexivity|]. right. exists true. cbn.
    destruct c as [[] [] [] [] [] [] [] []]; try reflexivity. now contradiction N.
  - cbv zeta. eexists. eexists. split; [cbv; reflexivity|reflexivity].
Qed.

(** The counting program with such a callback: the console gets the records of the inner and the outer call. *)
Definition blurting : hearer := fun told _ => match told with [] => Ask once None (fun _ => Done true) | _ => Done true end.
Example C76_console_ex : let LL := LL0 [tally] in let s := mkScene (proc0 true false) [] in
  exists told s', @nrun T0 E0 D0 SW0 RN0 LL 10 2 twice (Some blurting) s = NRan told BackOk s' /\
    concat told = concat (map (fun _ => block (fattrs tally) []) [0; 0]%nat) /\
    sout s' = block (fattrs tally) (render (RecInt 0 None)) ++ render (RecInt 0 None) ++ render (RecInt 1 None) /\
    (forall t, blurting [] t = Ask once None (fun _ => Done true)) /\ (forall told t, told <> [] -> blurting told t = Done true).
Proof.
  cbv zeta. eexists. eexists. split; [cbv; reflexivity|]. split; [reflexivity|]. split; [reflexivity|]. split; [reflexivity|].
  intros [|a l] t H; [contradiction|reflexivity].
Qed.
