(** * The runner: C28, C29, C40-C44 *)
From Coq Require Import String Ascii List NArith ZArith Reals Bool Lia.
From Verif Require Import Cx Bits Arith ArithR IndexMap Sim SimExp SimApply Spec SpecRun SimRun Text Backend World BackEx Runner SpecRunner
  RunnerThms RunnerLink RunnerEx.
Import ListNotations.
Local Open Scope list_scope.

(** ** C28: shots are isolated
    The shots of a run are runs in new processes that share only the generators and the memory of the program;
    for a program without surviving memory and without drawrandomint, only the generator of the simulator. *)
Theorem C28_isolated_partial : forall (T : Tol) (EN : Env) (D : Doubles) (SW : Shows) (RN : Rand) (LL : Llvm)
  fs name fuel n p evs p', pbuffer p = [] -> run_module fs name fuel n p = (evs, ROk, p') ->
  exists fs' f recs m' g' t', prepare fs = inl fs' /\ only_one (wanted name) fs' f /\
    shots_of f fuel n (pinit (fprog f)) (pgen p) (ptgen p) recs m' g' t' /\ arrives (pstd p) (fattrs f) recs evs /\
    pgen p' = g' /\ pbuffer p' = [] /\
    (draws_nothing (fprog f) -> keeps_nothing (fprog f) -> alone f fuel (pgen p) recs g').
Proof.
  intros T EN D SW RN LL fs name fuel n p evs p' H R.
  destruct (module_ok fs name fuel n p evs p' H R) as (fs' & f & recs & m' & g' & t' & A & B & _ & S1 & V & G & _ & P & _).
  exists fs', f, recs, m', g', t'. repeat (split; [assumption|]). intros ND KN. exact (shots_alone f ND KN fuel n _ _ _ _ _ _ _ S1).
Qed.
Print Assumptions C28_isolated_partial.
(** Two shots of a program that prints an unset result and then sets it, leaving qubits and a pending gate: both print 0. *)
Example C28_ex : (exists evs p', @run_module T0 E0 D0 SW0 RN0 (LL0 []) dirty_module None 10 2 (proc0 true false) = (evs, ROk, p')) /\
  @pbuffer T0 E0 RN0 (proc0 true false) = [] /\ @draws_nothing D0 (straight dirty) /\ @keeps_nothing D0 (straight dirty) /\
  @shots_of T0 E0 D0 SW0 RN0 dirty_main 10 2 tt g0 false [@render D0 (RecResult false None); @render D0 (RecResult false None)] tt g0 false.
Proof. split; [apply dirty_run|]. split; [reflexivity|]. split; [apply straight_draws|]. split; [apply straight_keeps|apply dirty_shots]. Qed.
(** Memory of the module is not reset: a program that makes no quantum call and no draw prints something else in its second shot. *)
Theorem C28_globals_refuted : exists (T : Tol) (EN : Env) (D : Doubles) (SW : Shows) (RN : Rand) (LL : Llvm) fs f p evs p',
  run_module fs None 5 2 p = (evs, ROk, p') /\ only_one (wanted None) fs f /\ draws_nothing (fprog f) /\
  at_both evs = block (fattrs f) (render (RecInt 0 None)) ++ block (fattrs f) (render (RecInt 1 None)).
Proof.
  exists T0, E0, D0, SW0, RN0, (LL0 []), [count_main], count_main, (proc0 true false).
  eexists. eexists. split; [reflexivity|]. split; [apply (proj1 (choose_thm _ _)); reflexivity|]. split; [|reflexivity].
  intros [m []] lo hi k; discriminate.
Qed.
Print Assumptions C28_globals_refuted.

(** ** C29: a fixed seed fixes the run of a program that does not draw *)
Theorem C29_seed_partial : forall (T : Tol) (EN : Env) (D : Doubles) (SW : Shows) (RN : Rand) (LL : Llvm) bytes name fuel n seed p p',
  (forall fs fs' f, parse_bitcode bytes = inl fs \/ parse_text bytes = inl fs -> prepare fs = inl fs' -> In f fs' -> draws_nothing (fprog f)) ->
  pstd p = pstd p' -> pbuffer p = [] -> pbuffer p' = [] ->
  exists evs r q q', run_bytes bytes name fuel n (Some seed) p = LRun (evs, r, q) /\ run_bytes bytes name fuel n (Some seed) p' = LRun (evs, r, q').
Proof.
  intros T EN D SW RN LL bytes name fuel n seed p p' ND S1 H H'. rewrite !bytes_thm. destruct (length bytes <? 4); [eauto 10|].
  destruct (if magic bytes then parse_bitcode bytes else parse_text bytes) as [fs|e] eqn:E; [|eauto 10].
  assert (X := module_seed fs name fuel n (seed_opt (Some seed) p) (seed_opt (Some seed) p')
    (fun fs' f P I => ND fs fs' f (ltac:(destruct (magic bytes); auto)) P I) eq_refl S1 H H').
  destruct (run_module fs name fuel n (seed_opt (Some seed) p)) as [[evs r] q], (run_module fs name fuel n (seed_opt (Some seed) p')) as [[evs' r'] q'].
  cbn [fst] in X. inversion X; subst. eauto 10.
Qed.
Print Assumptions C29_seed_partial.
(** Text with the module that leaves qubits behind; one process is new, the other has a register, results and another thread generator. *)
Example C29_ex : let LL := LL0 dirty_module in
  (forall fs fs' f, parse_bitcode [1; 2; 3; 4]%N = inl fs \/ parse_text [1; 2; 3; 4]%N = inl fs -> prepare fs = inl fs' -> In f fs' -> draws_nothing (fprog f)) /\
  @pbuffer T0 E0 RN0 (proc0 true false) = [] /\ @pbuffer T0 E0 RN0 used_proc = [] /\
  exists evs q, @run_bytes T0 E0 D0 SW0 RN0 LL [1; 2; 3; 4]%N None 10 2 (Some 7%N) (proc0 true false) = LRun (evs, ROk, q).
Proof.
  cbv zeta. split; [|split; [reflexivity|split; [reflexivity|]]].
  - intros fs fs' f E P I. assert (fs = dirty_module) by (destruct E as [E|E]; inversion E; reflexivity). subst fs.
    assert (fs' = dirty_module) by (inversion P; reflexivity). subst fs'.
    simpl in I. repeat destruct I as [<-|I]; try apply straight_draws. destruct I.
  - destruct (dirty_run dirty_module true false) as (evs & q & E). exists evs, q. rewrite bytes_thm.
    change (seed_opt (Some 7%N) (proc0 true false)) with (proc0 true false). cbn [length Nat.ltb Nat.leb magic N.eqb Pos.eqb andb orb parse_text LL0]. rewrite E. reflexivity.
Qed.
(** drawrandomint does not use the seeded generator: two runs with one seed differ. *)
Theorem C29_draws_refuted : exists (T : Tol) (EN : Env) (D : Doubles) (SW : Shows) (RN : Rand) (LL : Llvm) fs seed p p' evs evs' q q',
  wback (pworld p) = wback (pworld p') /\ pstd p = pstd p' /\
  run_module fs None 5 1 (set_rng_seed seed p) = (evs, ROk, q) /\ run_module fs None 5 1 (set_rng_seed seed p') = (evs', ROk, q') /\
  at_both evs <> at_both evs'.
Proof.
  exists T0, E0, D0, SW0, RN0, (LL0 []), [coin_main], 7%N, (proc0 true false), (proc0 true true).
  eexists. eexists. eexists. eexists. split; [reflexivity|]. split; [reflexivity|]. split; [reflexivity|]. split; [reflexivity|]. discriminate.
Qed.
Print Assumptions C29_draws_refuted.

(** ** C40: framing of the output of a run *)
Theorem C40_blocks : forall (T : Tol) (EN : Env) (D : Doubles) (SW : Shows) (RN : Rand) (LL : Llvm)
  fs name fuel n p evs p', pbuffer p = [] -> run_module fs name fuel n p = (evs, ROk, p') ->
  exists fs' f recs m' g' t', prepare fs = inl fs' /\ only_one (wanted name) fs' f /\
    shots_of f fuel n (pinit (fprog f)) (pgen p) (ptgen p) recs m' g' t' /\ length recs = n /\
    at_both evs = concat (map (block (fattrs f)) recs) /\
    (pstd p = false -> at_writer evs = concat (map (block (fattrs f)) recs) /\ at_stdout evs = []) /\
    (pstd p = true -> at_writer evs = concat (map (fun _ => block (fattrs f) []) recs) /\ at_stdout evs = concat recs).
Proof.
  intros T EN D SW RN LL fs name fuel n p evs p' H R.
  destruct (module_ok fs name fuel n p evs p' H R) as (fs' & f & recs & m' & g' & t' & A & B & _ & S1 & (V1 & V2 & V3) & _).
  exists fs', f, recs, m', g', t'. split; [assumption|]. split; [assumption|]. split; [assumption|]. split; [exact (shots_length f fuel n _ _ _ _ _ _ _ S1)|].
  split; [exact V1|]. split; intros E; rewrite E in V2, V3; split; try assumption. rewrite map_map in V2. exact V2.
Qed.
Print Assumptions C40_blocks.
(** Runs whose shots return do finish, whatever their number. *)
Theorem C40_finishes : forall (T : Tol) (EN : Env) (D : Doubles) (SW : Shows) (RN : Rand) (LL : Llvm) fs fs' f name fuel n p recs m' g' t',
  prepare fs = inl fs' -> bind_functions fs' = Linked -> only_one (wanted name) fs' f -> fparams f = 0 -> pbuffer p = [] ->
  shots_of f fuel n (pinit (fprog f)) (pgen p) (ptgen p) recs m' g' t' -> exists evs p', run_module fs name fuel n p = (evs, ROk, p').
Proof.
  intros T EN D SW RN LL fs fs' f name fuel n p recs m' g' t' P L O F H S1. assert (M := module_cases fs name fuel n p). rewrite P in M.
  destruct M as (_ & _ & _ & M). rewrite (M f L O). exact (shots_run f fuel n _ p recs m' g' t' H F S1).
Qed.
Print Assumptions C40_finishes.
(** A run that ends in a failing shot: complete blocks, then the beginning of one. *)
Theorem C40_abort : forall (T : Tol) (EN : Env) (D : Doubles) (SW : Shows) (RN : Rand) (LL : Llvm)
  fs name fuel n p evs e p', pbuffer p = [] -> run_module fs name fuel n p = (evs, RAbort e, p') ->
  exists fs' f k recs m1 g1 t1 o, prepare fs = inl fs' /\ only_one (wanted name) fs' f /\ k < n /\
    shots_of f fuel k (pinit (fprog f)) (pgen p) (ptgen p) recs m1 g1 t1 /\ fresh_run f fuel m1 g1 t1 = PStop e o /\
    at_both evs = concat (map (block (fattrs f)) recs) ++ preamble (fattrs f) ++ (if pstd p then o else []).
Proof.
  intros T EN D SW RN LL fs name fuel n p evs e p' H R.
  destruct (module_abort fs name fuel n p evs e p' H R) as (fs' & f & k & recs & m1 & g1 & t1 & o & evs' & A & B & C & S1 & E & (V & _) & W).
  exists fs', f, k, recs, m1, g1, t1, o. rewrite <- V. tauto.
Qed.
Print Assumptions C40_abort.
Example C40_ex : (forall std, exists evs p', @run_module T0 E0 D0 SW0 RN0 (LL0 []) dirty_module None 10 2 (proc0 std false) = (evs, ROk, p')) /\
  @bind_functions D0 dirty_module = Linked /\ only_one (wanted None) dirty_module dirty_main /\ fparams dirty_main = 0 /\
  block (fattrs dirty_main) (@render D0 (RecResult false None)) =
  lit "START" ++ [NL] ++ lit "METADATA" ++ [TAB] ++ lit "entry_point" ++ [NL] ++
  lit "METADATA" ++ [TAB] ++ lit "required_num_qubits" ++ [TAB] ++ lit "4" ++ [NL] ++
  lit "OUTPUT" ++ [TAB] ++ lit "RESULT" ++ [TAB] ++ lit "0" ++ [NL] ++ lit "END" ++ [TAB] ++ lit "0" ++ [NL].
Proof. split; [intros std; apply dirty_run|]. split; [apply dirty_linked|]. split; [apply dirty_only|]. split; reflexivity. Qed.
Example C40_abort_ex : exists evs p', @run_module T0 E0 D0 SW0 RN0 (LL0 []) [fail_main] None 10 3 (proc0 true false) = (evs, RAbort (StopErr (EFail (codes "no"))), p').
Proof. eexists. eexists. reflexivity. Qed.

(** ** C41: the entry point *)
Theorem C41_entry : forall (T : Tol) (EN : Env) (D : Doubles) (SW : Shows) (RN : Rand) (LL : Llvm) fs fs' name fuel n p,
  prepare fs = inl fs' -> bind_functions fs' = Linked ->
  (forall f, only_one (wanted name) fs' f -> run_module fs name fuel n p = run_shots f fuel n (pinit (fprog f)) p) /\
  ((forall f, In f fs' -> ~ wanted name f) -> run_module fs name fuel n p = ([], RErr (FEntry "No matching entry point found."), p)) /\
  (several (wanted name) fs' -> run_module fs name fuel n p = ([], RErr (FEntry "Multiple matching entry points found."), p)) /\
  ((forall f, In f fs' -> ~ wanted name f) \/ several (wanted name) fs' \/ exists f, only_one (wanted name) fs' f).
Proof.
  intros T EN D SW RN LL fs fs' name fuel n p P L. assert (M := module_cases fs name fuel n p). rewrite P in M. destruct M as (_ & M2 & M3 & M4).
  split; [intros f; apply M4; exact L|]. split; [apply M2; exact L|]. split; [apply M3; exact L|]. apply choose_total.
Qed.
Print Assumptions C41_entry.
(** With two entry points a name decides. *)
Example C41_ex : let a := @entry D0 "a" [("entry_point", "")]%string 0 true (straight []) in
  let b := @entry D0 "b" [("EntryPoint", "x")]%string 0 true (straight dirty) in let fs := [a; dirty_main; b] in
  @bind_functions D0 fs = Linked /\ several (wanted None) fs /\ only_one (wanted (Some "b"%string)) fs b /\ forall f, In f fs -> ~ wanted (Some "c"%string) f.
Proof.
  cbv zeta. split; [vm_compute; reflexivity|]. split; [apply (proj2 (proj2 (choose_thm _ _))); reflexivity|].
  split; [apply (proj1 (choose_thm _ _)); reflexivity|]. apply (proj1 (proj2 (choose_thm _ _))). reflexivity.
Qed.

(** ** C42: entry points with parameters are not run, but the refusal comes late *)
Theorem C42_parameters_partial : forall (T : Tol) (EN : Env) (D : Doubles) (SW : Shows) (RN : Rand) (LL : Llvm) fs fs' name fuel n p f,
  prepare fs = inl fs' -> bind_functions fs' = Linked -> only_one (wanted name) fs' f -> fparams f <> 0 -> n <> 0 ->
  exists evs p', run_module fs name fuel n p = (evs, RErr FSignature, p') /\ at_writer evs = preamble (fattrs f) /\ at_stdout evs = [] /\
    pgen p' = pgen p /\ ptgen p' = ptgen p /\ pbuffer p' = pbuffer p.
Proof.
  intros T EN D SW RN LL fs fs' name fuel n p f P L O F N. assert (M := module_cases fs name fuel n p). rewrite P in M. destruct M as (_ & _ & _ & M).
  rewrite (M f L O). destruct n as [|n]; [congruence|]. rewrite (signature_thm f fuel n _ p F). eexists. eexists. split; [reflexivity|].
  split; [apply header_writer|]. split; [apply header_stdout|]. repeat split.
Qed.
Print Assumptions C42_parameters_partial.
Example C42_ex : let f := @entry D0 "main" [("entry_point", "")]%string 1 true (straight dirty) in
  @bind_functions D0 [f] = Linked /\ only_one (wanted None) [f] f /\ fparams f <> 0.
Proof. cbv zeta. split; [vm_compute; reflexivity|]. split; [apply (proj1 (choose_thm _ _)); reflexivity|discriminate]. Qed.
(** A return type is never refused; output has been written before the refusal of parameters; with no shots nothing is refused. *)
Theorem C42_refuted : exists (T : Tol) (EN : Env) (D : Doubles) (SW : Shows) (RN : Rand) (LL : Llvm) p,
  (exists fs f evs p', run_module fs None 5 1 p = (evs, ROk, p') /\ only_one (wanted None) fs f /\ fvoid f = false /\
     at_both evs = block (fattrs f) (render (RecInt 5 None))) /\
  (exists fs f evs p', run_module fs None 5 1 p = (evs, RErr FSignature, p') /\ only_one (wanted None) fs f /\ fparams f = 1 /\ at_both evs <> []) /\
  (exists fs f evs p', run_module fs None 5 0 p = (evs, ROk, p') /\ only_one (wanted None) fs f /\ fparams f = 1).
Proof.
  exists T0, E0, D0, SW0, RN0, (LL0 []), (proc0 true false). split; [|split].
  - exists [entry "main" [("entry_point", "")]%string 0 false (straight [QRecord (RecInt 5 None)])], (entry "main" [("entry_point", "")]%string 0 false (straight [QRecord (RecInt 5 None)])).
    eexists. eexists. split; [reflexivity|]. split; [apply (proj1 (choose_thm _ _)); reflexivity|]. split; reflexivity.
  - exists [entry "main" [("entry_point", "")]%string 1 true (straight [])], (entry "main" [("entry_point", "")]%string 1 true (straight [])).
    eexists. eexists. split; [reflexivity|]. split; [apply (proj1 (choose_thm _ _)); reflexivity|]. split; [reflexivity|discriminate].
  - exists [entry "main" [("entry_point", "")]%string 1 true (straight [])], (entry "main" [("entry_point", "")]%string 1 true (straight [])).
    eexists. eexists. split; [reflexivity|]. split; [apply (proj1 (choose_thm _ _)); reflexivity|reflexivity].
Qed.
Print Assumptions C42_refuted.

(** ** C43: linking *)
Theorem C43_links_partial : forall (D : Doubles) fs, NoDup (map fname fs) ->
  (bind_functions fs = Linked <-> (forall f, In f fs -> external f -> accepted (fname f) (fparams f)) /\ ~ mixed fs) /\
  (forall n k, ~ In n departs -> (accepted n k <-> In (n, k) implementations)).
Proof. intros D fs ND. split; [apply link_thm; exact ND|apply accepted_exact]. Qed.
Print Assumptions C43_links_partial.
Example C43_ex : NoDup (map fname dirty_module) /\ @bind_functions D0 dirty_module = Linked /\
  @bind_functions D0 (declare "__quantum__qis__x__body" 2 :: nil) = Mismatched /\
  @bind_functions D0 (declare "__quantum__qis__u3__body" 4 :: nil) = Unlinked ["__quantum__qis__u3__body"%string] /\
  @bind_functions D0 [declare "__quantum__rt__int_record_output" 1; declare "__quantum__rt__bool_record_output" 2] = Mixed.
Proof.
  split; [|split; [apply dirty_linked|repeat split; vm_compute; reflexivity]].
  assert (E : nodup string_dec (map fname dirty_module) = map fname dirty_module) by (vm_compute; reflexivity). rewrite <- E. apply NoDup_nodup.
Qed.
(** Departures: an implemented function cannot be declared with its own parameters; a function without parameters links with five;
    a documented function does not link; labelled arrays and unlabelled integers link together. *)
Theorem C43_refuted : forall (D : Doubles),
  (In ("__quantum__qis__assertmeasurementprobability__ctl"%string, 2) implementations /\
   bind_functions [declare "__quantum__qis__assertmeasurementprobability__ctl" 2] <> Linked) /\
  (In ("__quantum__rt__array_start_record_output"%string, 0) legacy_implementations /\
   bind_functions [declare "__quantum__rt__array_start_record_output" 5] = Linked) /\
  (In "__quantum__rt__message_record_output"%string documented /\ forall k, bind_functions [declare "__quantum__rt__message_record_output" k] <> Linked) /\
  (In ("__quantum__rt__int_record_output"%string, 1) legacy_implementations /\ In ("__quantum__rt__array_record_output"%string, 2) implementations /\
   bind_functions [declare "__quantum__rt__int_record_output" 1; declare "__quantum__rt__array_record_output" 2] = Linked).
Proof.
  intros D. split; [|split; [|split]].
  - split; [apply (proj1 (counts_iff _ _ implementations)); vm_compute; left; reflexivity|]. vm_compute. discriminate.
  - split; [apply (proj1 (counts_iff _ _ legacy_implementations)); vm_compute; left; reflexivity|]. vm_compute. reflexivity.
  - split; [apply (proj1 (inb_iff _ _)); vm_compute; reflexivity|]. intros k. vm_compute. discriminate.
  - split; [apply (proj1 (counts_iff _ _ legacy_implementations)); vm_compute; left; reflexivity|]. split; [apply (proj1 (counts_iff _ _ implementations)); vm_compute; left; reflexivity|]. vm_compute. reflexivity.
Qed.
Print Assumptions C43_refuted.

(** ** C44: loading *)
Theorem C44_bytes : forall (T : Tol) (EN : Env) (D : Doubles) (SW : Shows) (RN : Rand) (LL : Llvm) bytes name fuel n seed p,
  (length bytes < 4 -> exists p', run_bytes bytes name fuel n seed p = LRun ([], RErr (FInput "byte array is too short"), p')) /\
  (bitcode_magic bytes -> run_bytes bytes name fuel n seed p = LRun
     match parse_bitcode bytes with inl fs => run_module fs name fuel n (seed_opt seed p) | inr e => ([], RErr (FParse e), seed_opt seed p) end) /\
  (4 <= length bytes -> ~ bitcode_magic bytes -> run_bytes bytes name fuel n seed p = LRun
     match parse_text bytes with inl fs => run_module fs name fuel n (seed_opt seed p) | inr e => ([], RErr (FParse e), seed_opt seed p) end) /\
  run_input bytes name fuel n seed p = (if Nat.eqb (length bytes) 0 then LRun ([], RErr (FInput "Input is empty"), p) else run_bytes bytes name fuel n seed p).
Proof.
  intros T EN D SW RN LL bytes name fuel n seed p. rewrite bytes_thm. split; [|split; [|split]].
  - intros H. apply Nat.ltb_lt in H. rewrite H. eauto.
  - intros H. assert (L : (length bytes <? 4) = false). { apply Nat.ltb_ge. destruct H as [[r ->]|[r ->]]; simpl; lia. }
    apply magic_iff in H. rewrite L, H. reflexivity.
  - intros H N. apply Nat.ltb_ge in H. rewrite H. destruct (magic bytes) eqn:E; [apply magic_iff in E; contradiction|reflexivity].
  - destruct bytes; [reflexivity|]. rewrite <- bytes_thm. reflexivity.
Qed.
Print Assumptions C44_bytes.
Example C44_bytes_ex : bitcode_magic [66; 67; 192; 222; 53]%N /\ ~ bitcode_magic [66; 67; 192; 10; 53]%N.
Proof. split; [right; eexists; reflexivity|]. intros [[r E]|[r E]]; discriminate. Qed.
Theorem C44_files : forall (T : Tol) (EN : Env) (D : Doubles) (SW : Shows) (RN : Rand) (LL : Llvm) path name fuel n seed p,
  let finish x := LRun match x with inl fs => run_module fs name fuel n (seed_opt seed p) | inr e => ([], RErr (FParse e), seed_opt seed p) end in
  (has_extension "ll" path -> forall bytes, read_file path = inl bytes ->
     (bitcode_magic bytes -> run_file path name fuel n seed p = finish (parse_bitcode bytes)) /\
     (~ bitcode_magic bytes -> run_file path name fuel n seed p = finish (parse_text bytes))) /\
  (has_extension "ll" path -> forall e, read_file path = inr e -> run_file path name fuel n seed p = finish (inr e)) /\
  (has_extension "bc" path -> run_file path name fuel n seed p = finish
     match read_file path with inl bytes => parse_bitcode bytes | inr e => inr e end) /\
  ((no_extension path \/ exists e, has_extension e path /\ e <> ""%string /\ e <> "ll"%string /\ e <> "bc"%string) ->
     run_file path name fuel n seed p = finish (inr (lit "Unsupported file extension"))).
Proof.
  intros T EN D SW RN LL path name fuel n seed p. cbv zeta. destruct (load_thm path) as (A & B & C). unfold run_file. split; [|split; [|split]].
  - intros H bytes R. rewrite (A H), R. unfold of_sum. split; intros M.
    + apply magic_iff in M. rewrite M. destruct (parse_bitcode bytes); reflexivity.
    + destruct (magic bytes) eqn:E; [apply magic_iff in E; contradiction|]. destruct (parse_text bytes); reflexivity.
  - intros H e R. rewrite (A H), R. reflexivity.
  - intros H. rewrite (B H). destruct (read_file path) as [bytes|e]; [|reflexivity]. unfold of_sum. destruct (parse_bitcode bytes); reflexivity.
  - intros H. rewrite (C H). reflexivity.
Qed.
Print Assumptions C44_files.
Example C44_files_ex : has_extension "ll" "out.d/bell.x.ll" /\ has_extension "bc" "bell.bc" /\ no_extension "out.ll/bell" /\ no_extension ".ll" /\
  has_extension "LL" "bell.LL".
Proof.
  assert (G : forall (c : ascii) s, forallb (fun a => negb (Ascii.eqb a c)) (list_ascii_of_string s) = true -> forall i, String.get i s <> Some c).
  { intros c s. induction s as [|a s IH]; intros H i; [discriminate|]. simpl in H. apply andb_true_iff in H. destruct H as [H1 H2].
    destruct i; simpl; [intros E; inversion E; subst; rewrite Ascii.eqb_refl in H1; discriminate|apply IH; exact H2]. }
  split; [|split; [|split; [|split]]].
  - exists "out.d/"%string, "bell.x"%string. split; [reflexivity|]. split; [discriminate|]. do 3 (split; [intros i; apply G; reflexivity|]). right. exists "out.d"%string. reflexivity.
  - exists ""%string, "bell"%string. split; [reflexivity|]. split; [discriminate|]. do 3 (split; [intros i; apply G; reflexivity|]). left. reflexivity.
  - exists "out.ll/"%string, "b"%char, "ell"%string. split; [reflexivity|]. split; [intros i; apply G; reflexivity|]. split; [intros i; apply G; reflexivity|]. split; [discriminate|]. right. exists "out.ll"%string. reflexivity.
  - exists ""%string, "."%char, "ll"%string. split; [reflexivity|]. split; [intros i; apply G; reflexivity|]. split; [intros i; apply G; reflexivity|]. split; [discriminate|]. left. reflexivity.
  - exists ""%string, "bell"%string. split; [reflexivity|]. split; [discriminate|]. do 3 (split; [intros i; apply G; reflexivity|]). left. reflexivity.
Qed.
