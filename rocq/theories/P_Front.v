(** * The front ends: C58, C59 *)
From Coq Require Import String Ascii List NArith ZArith Reals Bool Lia.
From Verif Require Import Cx Bits Arith ArithR IndexMap Sim SimExp SimApply Spec SpecRun SimRun Text SpecText Backend World BackEx Runner SpecRunner
  RunnerThms RunnerLink RunnerEx Front SpecFront CliThms FrontThms FrontEx.
Import ListNotations.
Local Open Scope string_scope.

(** ** C58: every way of asking shows the same text
    Two processes, each after any calls that returned; the same task asked for in any two ways.  If the first call returns, with or
    without an error, so does the second, the same way; both show the same text, all of it on the console or all of it through the
    callback; and the generators are left alike.  The callback needs text that is UTF-8. *)
Theorem C58_front_ends_partial : forall (T : Tol) (EN : Env) (D : Doubles) (SW : Shows) (RN : Rand) (LL : Llvm)
  fuel g0 t0 std0 g1 t1 std1 h h' a b t p q s r p1,
  after fuel h (mkProc (mkWorld (back_default g0) t0) std0) = Some p -> after fuel h' (mkProc (mkWorld (back_default g1) t1) std1) = Some q ->
  asks a t -> asks b t -> (t_seed t = None -> pgen p = pgen q) -> ptgen p = ptgen q ->
  do_call fuel a p = DRan s r p1 -> returns r -> (has_callback b = true -> utf8 (shown s) = true) ->
  exists s' q1, do_call fuel b q = DRan s' r q1 /\ shown s' = shown s /\ in_place a s /\ in_place b s' /\ pgen q1 = pgen p1 /\ ptgen q1 = ptgen p1.
Proof.
  intros T EN D SW RN LL fuel g0 t0 std0 g1 t1 std1 h h' a b t p q s r p1 Ha Hb Aa Ab G R Ca Rt U.
  destruct (front_thm fuel a b t p q s r p1 Aa Ab (after_buffer fuel h (mkProc (mkWorld (back_default g0) t0) std0) p eq_refl Ha)
    (after_buffer fuel h' (mkProc (mkWorld (back_default g1) t1) std1) q eq_refl Hb) G R Ca Rt U)
    as (s' & q1 & A & B & C & E & F & K & _). exists s', q1. auto 10.
Qed.
Print Assumptions C58_front_ends_partial.
(** The text is that of the shots, each run as in a new process. *)
Theorem C58_text : forall (T : Tol) (EN : Env) (D : Doubles) (SW : Shows) (RN : Rand) (LL : Llvm) fuel g0 t0 std0 h c t p s p1,
  after fuel h (mkProc (mkWorld (back_default g0) t0) std0) = Some p -> asks c t -> do_call fuel c p = DRan s ROk p1 ->
  exists fs f recs m' g' t', only_one (wanted (t_entry t)) fs f /\
    shots_of f fuel (N.to_nat (t_shots t)) (pinit (fprog f)) (match t_seed t with Some g => seeded g | None => pgen p end) (ptgen p) recs m' g' t' /\
    shown s = concat (map (block (fattrs f)) recs).
Proof.
  intros T EN D SW RN LL fuel g0 t0 std0 h c t p s p1 Ha A Ca.
  assert (Hp := after_buffer fuel h (mkProc (mkWorld (back_default g0) t0) std0) p eq_refl Ha).
  (* the console shows the same *)
  destruct t as [src e n g].
  set (con := match src with SFile path => CRun path e (Some n) g false | SBytes bytes => CRunBytes bytes e (Some n) g false end).
  assert (Ac : asks con (mkTask src e n g)) by (destruct src; [exact (a_run path e (Some n) g false)|exact (a_bytes bytes e (Some n) g false)]).
  destruct (front_thm fuel c con _ p p s ROk p1 A Ac Hp Hp (fun _ => eq_refl) eq_refl Ca I ltac:(destruct src; discriminate))
    as (s' & q1 & B & C & _). rewrite <- C. clear C Ca A c.
  rewrite (ask_run con _ fuel p Ac) in B. destruct (delivered_inv _ _ _ _ _ B) as (evs & L & Ro).
  assert (Cc : has_callback con = false) by (destruct src; reflexivity). rewrite Cc, route_console in Ro. inversion Ro; subst s'.
  set (p0 := mode con p) in *. assert (Q : pbuffer p0 = [] /\ pgen p0 = pgen p /\ ptgen p0 = ptgen p) by (destruct src; simpl; auto).
  assert (M : exists fs0, run_module fs0 e fuel (N.to_nat n) (seed_opt g p0) = (evs, ROk, q1)).
  { unfold run_task in L. cbn [t_source t_entry t_shots t_seed] in L. destruct src as [path|bytes].
    - unfold run_file in L. cbv zeta in L. destruct (load_file path) as [fs0|x|]; [|discriminate..]. exists fs0. inversion L. reflexivity.
    - unfold run_bytes in L. cbv zeta in L. destruct (Datatypes.length bytes <? 4)%nat; [discriminate|]. destruct (create_module_from_ir bytes _) as [fs0|x|]; [|discriminate..].
      exists fs0. inversion L. reflexivity. }
  destruct M as [fs0 M]. destruct Q as (Q1 & Q2 & Q3).
  assert (Sd : pbuffer (seed_opt g p0) = [] /\ pgen (seed_opt g p0) = (match g with Some x => seeded x | None => pgen p end) /\ ptgen (seed_opt g p0) = ptgen p).
  { destruct g; simpl; auto. }
  destruct Sd as (S1 & S2 & S3).
  destruct (module_ok fs0 e fuel _ _ evs q1 S1 M) as (fs' & f & recs & m' & g' & t' & A1 & A2 & _ & A4 & A5 & _).
  exists fs', f, recs, m', g', t'. cbn [t_entry t_shots t_seed]. rewrite <- S2, <- S3. split; [exact A2|]. split; [exact A4|].
  unfold shown. cbn [on_console to_callback concat]. rewrite app_nil_r. apply A5.
Qed.
Print Assumptions C58_text.
(** A file run from Python with a callback, after a run on the command line; and the same on the command line. *)
Example C58_ex : let LL := LL0 [note_main] in let p0 := proc0 true false in
  (exists p, @after T0 E0 D0 SW0 RN0 LL 10 [prior] p0 = Some p /\ @pgen T0 E0 RN0 p = g0 /\
     exists s p1, @do_call T0 E0 D0 SW0 RN0 LL 10 py p = DRan s ROk p1 /\ utf8 (shown s) = true /\ on_console s = [] /\ to_callback s <> []) /\
  @after T0 E0 D0 SW0 RN0 LL 10 [] p0 = Some p0 /\
  asks py (mkTask (SFile "a.ll") (Some "main") 2 None) /\ asks cl (mkTask (SFile "a.ll") (Some "main") 2 None).
Proof.
  cbv zeta. split; [|split; [reflexivity|split]].
  - eexists. split; [cbv; reflexivity|]. split; [reflexivity|]. eexists. eexists. split; [cbv; reflexivity|]. split; [reflexivity|]. split; [reflexivity|discriminate].
  - exact (a_run "a.ll" (Some "main") (Some 2%N) None true).
  - refine (a_file "qir-runner" ["-s2"; "--entrypoint"; "main"; "--file=a.ll"] false [] "a.ll" (mkSettings (Some "a.ll") (Some "main") (Some 2%N) None) _ eq_refl _).
    + apply read_options_thm. reflexivity.
    + discriminate.
Qed.
(** A tag that is not UTF-8 is printed by the console but makes the call with a callback panic. *)
Theorem C58_utf8_refuted : exists (T : Tol) (EN : Env) (D : Doubles) (SW : Shows) (RN : Rand) (LL : Llvm) fuel p t a b s p1 s',
  pbuffer p = [] /\ asks a t /\ asks b t /\ do_call fuel a p = DRan s ROk p1 /\ do_call fuel b p = DPanic s'.
Proof.
  exists T0, E0, D0, SW0, RN0, (LL0 [odd_main]), 5, (proc0 true false), (mkTask (SFile "a.ll") None 1 None),
    (CRun "a.ll" None None None false), (CRun "a.ll" None None None true).
  eexists. eexists. eexists. split; [reflexivity|]. split; [exact (a_run "a.ll" None None None false)|]. split; [exact (a_run "a.ll" None None None true)|].
  split; reflexivity.
Qed.
Print Assumptions C58_utf8_refuted.
(** A run that stops the process does not show the same: with a callback the records of the shot that stops are lost. *)
Theorem C58_stop_refuted : exists (T : Tol) (EN : Env) (D : Doubles) (SW : Shows) (RN : Rand) (LL : Llvm) fuel p t a b s s' e p1 p2,
  pbuffer p = [] /\ asks a t /\ asks b t /\ do_call fuel a p = DRan s (RAbort e) p1 /\ do_call fuel b p = DRan s' (RAbort e) p2 /\
  exists lost, lost <> [] /\ shown s = (shown s' ++ lost)%list.
Proof.
  exists T0, E0, D0, SW0, RN0, (LL0 [fail_main]), 5, (proc0 true false), (mkTask (SFile "a.ll") None 1 None),
    (CRun "a.ll" None None None false), (CRun "a.ll" None None None true).
  eexists. eexists. eexists. eexists. eexists. split; [reflexivity|]. split; [exact (a_run "a.ll" None None None false)|]. split; [exact (a_run "a.ll" None None None true)|].
  split; [reflexivity|]. split; [reflexivity|]. eexists. split; [|reflexivity]. discriminate.
Qed.
Print Assumptions C58_stop_refuted.

(** ** C59: the command line
    What is run is what the arguments say: every option at most once, in any order, in any of the five ways of writing it; a file unless
    it is "-" or not given, then standard input; one shot unless the number is given. *)
Theorem C59_runs : forall (T : Tol) (EN : Env) (D : Doubles) (SW : Shows) (RN : Rand) (LL : Llvm) prog args tty stdin fuel p l,
  cli_main (prog :: args) tty stdin fuel p = FRan l <->
  exists s, says args s /\
    ((exists path, s_file s = Some path /\ path <> "-" /\ l = run_file path (s_entry s) fuel (N.to_nat (or_one (s_shots s))) (s_seed s) p) \/
     ((s_file s = None \/ s_file s = Some "-") /\ tty = false /\ l = run_input stdin (s_entry s) fuel (N.to_nat (or_one (s_shots s))) (s_seed s) p)).
Proof.
  intros T EN D SW RN LL prog args tty stdin fuel p l. unfold cli_main. cbn [tl]. split.
  - destruct (read_args args no_settings) as [s| | |] eqn:R; try discriminate. apply read_options_thm in R. intros H. exists s. split; [exact R|].
    destruct (s_file s) as [path|].
    + destruct (String.eqb_spec path "-") as [E|N]; [subst path|].
      * destruct tty; inversion H. right. auto.
      * inversion H. left. exists path. auto.
    + destruct tty; inversion H. right. auto.
  - intros (s & S & H). apply read_options_thm in S. rewrite S. destruct H as [(path & F & N & ->)|(F & -> & ->)].
    + rewrite F. destruct (String.eqb_spec path "-"); [contradiction|]. reflexivity.
    + destruct F as [-> | ->]; reflexivity.
Qed.
Print Assumptions C59_runs.
(** Help or version are shown, and nothing is run, exactly when asked for before anything is wrong, or when there is no input. *)
Theorem C59_shown : forall (T : Tol) (EN : Env) (D : Doubles) (SW : Shows) (RN : Rand) (LL : Llvm) prog args tty stdin fuel p,
  cli_main (prog :: args) tty stdin fuel p = FShown <->
  (exists args' s h post, amounts args' s /\ args = (args' ++ h :: post)%list /\
     (h = "--help" \/ h = "--version" \/ exists w, h = "-h" ++ w \/ h = "-V" ++ w)) \/
  (exists s, says args s /\ (s_file s = None \/ s_file s = Some "-") /\ tty = true).
Proof.
  intros T EN D SW RN LL prog args tty stdin fuel p. unfold cli_main. cbn [tl]. split.
  - destruct (read_args args no_settings) as [s| | |] eqn:R; try discriminate; intros H.
    + apply read_options_thm in R. right. exists s. split; [exact R|]. destruct (s_file s) as [path|].
      * destruct (String.eqb_spec path "-") as [E|N]; [subst path|discriminate]. destruct tty; [auto|discriminate].
      * destruct tty; [auto|discriminate].
    + apply read_help_thm in R. left. destruct R as (a & s & h & post & A & [-> | [w ->]] & E); exists a, s; eexists; exists post; (split; [exact A|]; split; [exact E|eauto]).
    + apply read_version_thm in R. left. destruct R as (a & s & h & post & A & [-> | [w ->]] & E); exists a, s; eexists; exists post; (split; [exact A|]; split; [exact E|eauto]).
  - intros [(a & s & h & post & A & E & H)|(s & S & F & ->)].
    + assert (X : read_args args no_settings = AHelp \/ read_args args no_settings = AVersion).
      { destruct H as [-> | [-> | [w [-> | ->]]]].
        - left. apply read_help_thm. exists a, s, "--help", post. split; [exact A|]. split; [left; reflexivity|exact E].
        - right. apply read_version_thm. exists a, s, "--version", post. split; [exact A|]. split; [left; reflexivity|exact E].
        - left. apply read_help_thm. exists a, s, ("-h" ++ w), post. split; [exact A|]. split; [right; exists w; reflexivity|exact E].
        - right. apply read_version_thm. exists a, s, ("-V" ++ w), post. split; [exact A|]. split; [right; exists w; reflexivity|exact E]. }
      destruct X as [-> | ->]; reflexivity.
    + apply read_options_thm in S. rewrite S. destruct F as [-> | ->]; reflexivity.
Qed.
Print Assumptions C59_shown.
(** Arguments say at most one thing. *)
Theorem C59_one_meaning : forall args s s', says args s -> says args s' -> s = s'.
Proof. intros args s s' A B. apply read_options_thm in A. apply read_options_thm in B. congruence. Qed.
Print Assumptions C59_one_meaning.
(** Everything else is an error and runs nothing. *)
Theorem C59_usage : forall (T : Tol) (EN : Env) (D : Doubles) (SW : Shows) (RN : Rand) (LL : Llvm) prog args tty stdin fuel p,
  (forall s, ~ says args s) ->
  (forall args' s h post, amounts args' s -> args = (args' ++ h :: post)%list ->
     h <> "--help" /\ h <> "--version" /\ forall w, h <> "-h" ++ w /\ h <> "-V" ++ w) ->
  do_call fuel (CMain (prog :: args) tty stdin) p = DUsage p.
Proof.
  intros T EN D SW RN LL prog args tty stdin fuel p A B. unfold do_call.
  destruct (cli_main (prog :: args) tty stdin fuel p) as [| |l] eqn:E; [|reflexivity|].
  - apply C59_shown in E. exfalso. destruct E as [(a & s & h & post & M & E & H)|(s & S & _)]; [|exact (A s S)].
    destruct (B a s h post M E) as (B1 & B2 & B3). destruct H as [H|[H|[w [H|H]]]]; [contradiction|contradiction|exact (proj1 (B3 w) H)|exact (proj2 (B3 w) H)].
  - apply C59_runs in E. destruct E as (s & S & _). exfalso. exact (A s S).
Qed.
Print Assumptions C59_usage.
Example C59_ex :
  says ["--shots=+3"; "-f"; "-"; "-r18446744073709551615"; "-e=a=b"; "--"] (mkSettings (Some "-") (Some "a=b") (Some 3%N) (Some 18446744073709551615%N)) /\
  says ["--entrypoint="; "-s-0"] (mkSettings None (Some "") (Some 0%N) None) /\
  (forall s, ~ says ["-s"; "4294967296"] s) /\ (forall s, ~ says ["-s1"; "--shots=1"] s) /\ (forall s, ~ says ["-e"; "--main"] s) /\
  (forall s, ~ says ["prog.ll"] s) /\ (forall s, ~ says ["-r-0"] s) /\
  @do_call T0 E0 D0 SW0 RN0 (LL0 []) 5 (CMain ["qir-runner"; "-s"; "x"; "--help"] true []) (proc0 true false) = DUsage (proc0 true false).
Proof.
  assert (N : forall args, (match read_args args no_settings with AOptions _ => false | _ => true end) = true -> forall s, ~ says args s).
  { intros args H s S. apply read_options_thm in S. rewrite S in H. discriminate. }
  split; [apply read_options_thm; reflexivity|]. split; [apply read_options_thm; reflexivity|].
  repeat (split; [apply N; reflexivity|]). reflexivity.
Qed.
