(** * Properties of programs that use memory (C68) *)
From Coq Require Import String Ascii Reals NArith ZArith List Bool Arith Lia.
From Verif Require Import Cx Arith ArithR Sim SimExp SimRun Text Backend Heap SpecHeap HeapLemmas QubitArray Args SpecArgs Runner SpecRunner
  World SimEx BackEx RunnerEx SpecText DoubleText SpecString Strings StringThms Mixed SpecMixed MixedThms TextSteps MixedEx.
Import ListNotations.

(** ** C68: a program that uses memory correctly is a program of Runner.v *)
(** The memory of the runtime can be counted as part of the program: there is a program of Runner.v over the same locals with the
    memory beside them, which runs alike, asks for no random numbers if the first does not, and gives the same shots. *)
Theorem C68_program : forall (T : Tol) (EN : Env) (D : Doubles) (SW : Shows) (RN : Rand) (M : Mode) (p : mprog),
  exists step : local p -> action (gmem p * heap) (local p),
    (forall fuel l st h w, sound p fuel l st h w -> mrun p fuel l st h w = ending (run_from (with_memory p step) fuel (l, st, h) w)) /\
    (asks_no_random p -> draws_nothing (with_memory p step)) /\
    (forall name attrs void fuel n m h g t recs m' h' g' t', mshots p fuel n m h g t recs m' h' g' t' ->
       shots_of (entry_of name attrs void (with_memory p step)) fuel n (m, h) g t recs (m', h') g' t').
Proof.
  intros. exists (memory_step p). split; [apply mixed_thm|]. split; [apply no_random|]. apply mixed_shots.
Qed.
Print Assumptions C68_program.
(** Two qubits of an array control a gate on a third, the array is given back, a number becomes a string and is printed. *)
Example C68_program_ex : forall (T : Tol) (EN : Env) (D : Doubles) (SW : Shows) (RN : Rand) (M : Mode) fuel w,
  sound toffoli_prog fuel (0, 0) [] [] w /\ asks_no_random toffoli_prog.
Proof.
  intros. split; [apply toffoli_sound|]. intros [i a] lo hi k. do 8 (destruct i as [|i]; [discriminate|]). discriminate.
Qed.
(** A shot of such a program, with what it prints and the memory it leaves. *)
Example C68_shots_ex : exists h w,
  @mshots T0 E0 D0 SW0 RN0 debug_mode small_prog 6 1 0 [] g0 true [lit "INFO" ++ TAB :: lit "0" ++ [NL]] 1 h (rng (bsim (wback w))) (wtgen w) /\
  length h = 2.
Proof. exact small_run. Qed.

(** Such a program has no undefined behaviour. *)
Theorem C68_defined : forall (T : Tol) (EN : Env) (D : Doubles) (SW : Shows) (RN : Rand) (M : Mode) (p : mprog) fuel l st h w,
  sound p fuel l st h w -> mrun p fuel l st h w <> MUndef.
Proof. exact @sound_defined. Qed.
Print Assumptions C68_defined.

(** A module whose entry point is such a program runs as many shots as asked for and prints one block for each, with what the
    program prints. *)
Theorem C68_module : forall (T : Tol) (EN : Env) (D : Doubles) (SW : Shows) (RN : Rand) (M : Mode) (LL : Llvm) (p : mprog),
  exists step : local p -> action (gmem p * heap) (local p),
  forall fs fs' name entry attrs void fuel n q recs m' h' g' t', let f := entry_of entry attrs void (with_memory p step) in
  prepare fs = inl fs' -> bind_functions fs' = Linked -> only_one (wanted name) fs' f -> pbuffer q = [] ->
  mshots p fuel n (ginit p) [] (pgen q) (ptgen q) recs m' h' g' t' ->
  exists evs q', run_module fs name fuel n q = (evs, ROk, q') /\ arrives (pstd q) attrs recs evs /\ length recs = n.
Proof. exact @mixed_module. Qed.
Print Assumptions C68_module.
(** The module with only this entry point meets the hypotheses, whatever the step. *)
Example C68_module_ex : forall step, let f := entry_of "main" [("entry_point", "")]%string true (with_memory (@small_prog D0) step) in
  @prepare D0 (LL0 []) [f] = inl [f] /\ bind_functions [f] = Linked /\ only_one (wanted None) [f] f /\ pbuffer (proc0 false true) = [] /\
  exists recs m' h' g' t', @mshots T0 E0 D0 SW0 RN0 debug_mode small_prog 6 1 (ginit (@small_prog D0)) [] (pgen (proc0 false true)) (ptgen (proc0 false true)) recs m' h' g' t'.
Proof.
  intros step f. split; [reflexivity|]. split; [reflexivity|]. split; [apply (proj1 (RunnerThms.choose_thm [f] None)); reflexivity|]. split; [reflexivity|].
  destruct small_run as (h & w & Sh & _). do 5 eexists. exact Sh.
Qed.

(** In a program, a value becomes a new string with a plain text from which the value can be read back; nothing else changes. *)
Theorem C68_text : forall (T : Tol) (EN : Env) (SW : Shows) (RN : Rand) (M : Mode) (p : @mprog D64) l st h w c k,
  gstep p l = MText _ _ c k -> (forall a, c = TBig a -> exists z, big_is h a z) ->
  exists a h' t, (forall fuel, mrun p (S fuel) l st h w = mrun p fuel (k a) st h' w) /\
    stands_for h c t /\ Forall plain t /\
    nth_error h a = None /\ str_is h' a t /\ forall x, x < length h -> nth_error h' x = nth_error h x.
Proof. exact @text_step. Qed.
Print Assumptions C68_text.
(** Printing a string of a program prints its text, as in C64; a string that is not UTF-8 ends the program. *)
Theorem C68_message : forall (T : Tol) (EN : Env) (D : Doubles) (SW : Shows) (RN : Rand) (M : Mode) (p : mprog) l st h w a t k,
  gstep p l = MMessage _ _ a k -> str_is h a t ->
  (forall m, is_text t m -> exists v, read_message v = Some m /\ (Forall plain t -> v = t) /\
     forall fuel, mrun p (S fuel) l st h w = mrun p fuel k st h (with_wout w (bout (wback w) ++ lit "INFO" ++ TAB :: v ++ [NL]))) /\
  ((~ exists m, is_text t m) -> forall fuel, mrun p (S fuel) l st h w = MStopped StopTrap (bout (wback w))).
Proof. exact @message_step. Qed.
Print Assumptions C68_message.
(** A program that prints a double. *)
Definition double_prog (x : Math.f64) : @mprog D64 :=
  {| gmem := unit; gloc := nat * nat; ginit := tt; gstart := fun _ => (0, 0);
     gstep := fun l => match fst l with
                       | 0 => MText _ _ (@TDouble D64 x) (fun a => (1, a))
                       | 1 => MMessage _ _ (snd l) (2, 0)
                       | _ => MDone _ _ tt
                       end;
     gcode := fun _ _ _ _ _ _ => (2, 0); gcapt := fun _ _ => None |}.
Example C68_text_ex : forall (T : Tol) (EN : Env) (SW : Shows) (RN : Rand) (M : Mode) x w, exists h t,
  SpecDouble.reads t x /\ mrun (double_prog x) 3 (0, 0) [] [] w = MEnd tt h (with_wout w (bout (wback w) ++ lit "INFO" ++ TAB :: t ++ [NL])).
Proof.
  intros T EN SW RN M x w.
  destruct (C68_text T EN SW RN M (double_prog x) (0, 0) [] [] w (@TDouble D64 x) _ eq_refl) as (a & h & t & E & R & P & _ & S1 & _); [discriminate|].
  exists h, t. split; [exact R|]. rewrite E.
  destruct (C68_message T EN D64 SW RN M (double_prog x) (1, a) [] h w a t _ eq_refl S1) as [H _].
  destruct (H (map N_of_ascii t) (plain_text t P)) as (v & _ & V & G). rewrite (G 1), (V P). reflexivity.
Qed.
