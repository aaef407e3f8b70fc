(** * Callbacks that call the runner *)
From Coq Require Import String Ascii List NArith ZArith Reals Bool Lia.
From Verif Require Import Cx Bits Arith ArithR IndexMap Sim SimExp SimApply Spec SpecRun SimRun Text SpecText Backend Runner SpecRunner
  RunnerThms Front SpecFront CliThms FrontThms Listen SpecListen ListenThms Nested SpecNested.
Import ListNotations.
Local Open Scope list_scope.

Section Nested.
Context {T : Tol} {EN : Env} {D : Doubles} {SW : Shows} {RN : Rand} {LL : Llvm}.

(** ** Texts *)
Lemma end_line : line [lit "END"; lit "0"] = lit "END" ++ [TAB] ++ lit "0" ++ [NL].
Proof. reflexivity. Qed.
Lemma block_nl : forall attrs r, exists l, block attrs r = l ++ [NL].
Proof.
  intros attrs r. exists (preamble attrs ++ r ++ lit "END" ++ [TAB] ++ lit "0"). unfold block. rewrite end_line. rewrite <- !app_assoc. reflexivity.
Qed.
Lemma blocks_more : forall e recs r, blocks e (recs ++ [r]) = blocks e recs ++ block (fattrs e) r.
Proof. intros e recs r. unfold blocks. rewrite map_app, concat_app. cbn. now rewrite app_nil_r. Qed.
Lemma blocks_edge : forall e recs, edge (blocks e recs).
Proof.
  intros e recs. induction recs as [|r recs IH] using rev_ind; [left; reflexivity|]. rewrite blocks_more. apply edge_app; auto.
  destruct (block_nl (fattrs e) r) as [l ->]. apply edge_nl.
Qed.
Lemma anyhow_app : forall e fuel m recs m1 g t m2 w, shots_anyhow e fuel m recs m1 -> fresh_run e fuel m1 g t = PDone m2 w ->
  shots_anyhow e fuel m (recs ++ [bout (wback w)]) m2.
Proof.
  intros e fuel m recs m1 g t m2 w H F. induction H as [m|m g' t' m1 w' recs m' F' H IH]; cbn [app].
  - eapply anyhow_more; [exact F|constructor].
  - eapply anyhow_more; [exact F'|auto].
Qed.
Lemma parts_snd : forall ts : list text, map snd (map (pair false) ts) = ts.
Proof. intros ts. induction ts as [|t ts IH]; [reflexivity|]. cbn [map snd]. now rewrite IH. Qed.

(** ** Sending *)
Definition calm (o : text) (s : scene) : Prop := pbuffer (sproc s) = [] /\ pstd (sproc s) = false /\ sout s = o.
Definition civil (f : hearer) : Prop := forall told t, polite (f told t).
Definition keeps (run : request -> option hearer -> scene -> nheard) : Prop :=
  forall c f s told r s', civil f -> pbuffer (sproc s) = [] -> run c (Some f) s = NRan told r s' -> calm (sout s) s'.
Lemma perform_calm : forall run, keeps run -> forall busy o x s ok s', polite x -> calm o s -> perform run busy x s = Some (ok, s') ->
  calm o s' /\ can_end x ok.
Proof.
  intros run K busy o x s ok s' P. revert s ok s'. induction P as [b|c g k Pg _ Pk IH]; intros s ok s' C H; cbn [perform] in H.
  - injection H as <- <-. split; auto. constructor.
  - destruct busy.
    + destruct (IH _ _ _ _ C H) as [C' E]. split; auto. econstructor; eauto.
    + destruct (run c (Some g) s) as [told r s1|] eqn:R; [|discriminate].
      assert (C1 : calm o s1). { destruct C as (C1 & C2 & C3). rewrite <- C3. eapply K; eauto. }
      destruct (IH _ _ _ _ C1 H) as [C' E]. split; auto. econstructor; eauto.
Qed.
Lemma heeded_nil : forall f, heeded f [].
Proof. intros f [|? ?] ? ? X; discriminate. Qed.
Lemma heeded_more : forall f told t, heeded f told -> can_end (f told t) true -> heeded f (told ++ [t]).
Proof.
  intros f told t K H a u b E. destruct b as [|v b].
  - apply app_inj_tail in E. destruct E as [<- <-]. auto.
  - destruct (exists_last (l := v :: b) ltac:(discriminate)) as [b' [y Ey]]. rewrite Ey in E.
    change (u :: b' ++ [y]) with ((u :: b') ++ [y]) in E. rewrite app_assoc in E. apply app_inj_tail in E. destruct E as [-> ->].
    eapply K. reflexivity.
Qed.
Lemma nsend_all_spec : forall run, keeps run -> forall f, civil f -> forall o ts told s told' ok s', heeded f told -> calm o s ->
  nsend_all run f told ts s = Some (told', ok, s') -> calm o s' /\
  if ok then heeded f told' /\ concat told' = concat told ++ concat (map snd ts)
  else (exists rest, concat told ++ concat (map snd ts) = concat told' ++ rest) /\
       (refused f told' \/ heeded f told' /\ exists bad, In bad (map snd ts) /\ utf8 bad = false).
Proof.
  intros run K f Cv o ts. induction ts as [|[b t] ts IH]; intros told s told' ok s' He C H; cbn [nsend_all] in H.
  - injection H as <- <- <-. split; auto. split; auto. cbn. now rewrite app_nil_r.
  - unfold nsend in H. cbn [fst snd] in H. destruct t as [|c t].
    + destruct (IH _ _ _ _ _ He C H) as [C' X]. split; auto. destruct ok; [exact X|]. destruct X as [A [B|[B (bad & I & U)]]]; split; auto.
      right. split; auto. exists bad. split; auto. right. auto.
    + destruct (utf8 (c :: t)) eqn:U.
      * destruct (perform run b (f told (c :: t)) s) as [[ok1 s1]|] eqn:P; [|discriminate].
        destruct (perform_calm run K b o _ _ _ _ (Cv _ _) C P) as [C1 E]. destruct ok1.
        -- destruct (IH _ _ _ _ _ (heeded_more _ _ _ He E) C1 H) as [C' X]. split; auto. rewrite concat_app in X. cbn [concat] in X.
           rewrite app_nil_r in X. cbn [map snd concat]. rewrite app_assoc. destruct ok; [exact X|].
           destruct X as [A [B|[B (bad & I & U')]]]; split; auto. right. split; auto. exists bad. split; auto. right. auto.
        -- injection H as <- <- <-. split; auto. split; [|left; exists told, (c :: t); auto]. exists (concat (map snd ts)). rewrite concat_app.
           cbn [concat map snd]. now rewrite app_nil_r, <- app_assoc.
      * injection H as <- <- <-. split; auto. split; [eexists; reflexivity|]. right. split; auto. exists (c :: t). split; [left; auto|auto].
Qed.

(** ** Shots *)
Definition stopped_at (f : hearer) (e : func) (fuel n : nat) (told : list text) : Prop :=
  exists text rest, up_to e fuel n text /\ text = concat told ++ rest /\ (refused f told \/ heeded f told /\ utf8 text = false).
Definition all_shots (f : hearer) (e : func) (fuel n : nat) (told : list text) : Prop :=
  heeded f told /\ exists recs m, shots_anyhow e fuel (pinit (fprog e)) recs m /\ length recs = n /\ concat told = blocks e recs.
Lemma nshots_spec : forall run, keeps run -> forall f, civil f -> forall o e fuel n m s told recs0 told' r s',
  calm o s -> concat told = blocks e recs0 -> shots_anyhow e fuel (pinit (fprog e)) recs0 m -> heeded f told ->
  nshots run f e fuel n m s told = NRan told' r s' -> calm o s' /\
  match r with
  | BackOk => all_shots f e fuel (length recs0 + n) told'
  | BackPanic => stopped_at f e fuel (length recs0 + n) told'
  | BackErr x => x = FSignature /\ fparams e <> 0 /\ n <> 0 /\ concat told' = concat told ++ preamble (fattrs e)
  end.
Proof.
  intros run K f Cv o e fuel n. induction n as [|n IH]; intros m s told recs0 told' r s' C Et Sh He H; cbn [nshots] in H.
  - injection H as <- <- <-. split; auto. split; auto. exists recs0, m. rewrite Nat.add_0_r. auto.
  - destruct (nsend_all run f told (map (pair false) (header_parts (fattrs e))) s) as [[[told1 ok1] s1]|] eqn:S1; [|discriminate].
    apply (nsend_all_spec run K f Cv o) in S1; auto. destruct S1 as [C1 S1]. rewrite parts_snd, header_text, header_both in S1. destruct ok1.
    + destruct S1 as [He1 E1]. destruct C1 as (B1 & D1 & O1). destruct (Nat.eqb_spec (fparams e) 0) as [F|F].
      * rewrite (code_fresh e fuel m (sproc s1) B1), D1 in H.
        destruct (fresh_run e fuel m (pgen (sproc s1)) (ptgen (sproc s1))) as [m1 w|x y|y] eqn:Fr; try discriminate.
        cbn [map concat] in H. rewrite app_nil_r in H.
        assert (C2 : calm o (mkScene (mkProc (with_wout w []) false) (sout s1))) by (repeat split; auto).
        destruct (nsend_all run f told1 _ _) as [[[told2 ok2] s3]|] eqn:S2; [|discriminate].
        apply (nsend_all_spec run K f Cv o) in S2; auto. destruct S2 as [C3 S2]. cbn [map snd] in S2.
        assert (Bl : concat told1 ++ concat [bout (wback w); lit "END" ++ [TAB] ++ lit "0"; [NL]] = blocks e (recs0 ++ [bout (wback w)])).
        { rewrite E1, Et, blocks_more. unfold block. rewrite end_line. cbn [concat]. rewrite <- !app_assoc. reflexivity. }
        destruct ok2.
        -- destruct S2 as [He2 E2]. pose proof (eq_trans E2 Bl) as E3. clear E2. rename E3 into E2. pose proof (anyhow_app _ _ _ _ _ _ _ _ _ Sh Fr) as Sh'.
           destruct (IH _ _ _ _ _ _ _ C3 E2 Sh' He2 H) as [C' X]. split; auto. rewrite app_length in X. cbn [length] in X.
           replace (length recs0 + S n) with (length recs0 + 1 + n) by lia. destruct r; auto. destruct X as (_ & X & _). congruence.
        -- injection H as <- <- <-. split; auto. destruct S2 as [[rest R0] X]. pose proof (eq_trans (eq_sym Bl) R0) as R. exists (blocks e (recs0 ++ [bout (wback w)])), rest.
           split; [|split; auto].
           ++ exists (recs0 ++ [bout (wback w)]), m1. split; [eapply anyhow_app; eauto|]. left. split; auto. rewrite app_length. cbn. lia.
           ++ destruct X as [X|[X (bad & I & U)]]; auto. right. split; auto. rewrite <- Bl.
              pose proof (clean_tail (bout (wback w)) bad I U (concat told1) []) as Y. rewrite app_nil_r in Y. apply Y.
              rewrite E1, Et. apply edge_app; [apply blocks_edge|]. rewrite <- header_both. apply header_edge.
      * injection H as <- <- <-. split; [repeat split; auto|].
        auto.
    + injection H as <- <- <-. split; auto. destruct S1 as [[rest R] X]. rewrite Et in R. exists (blocks e recs0 ++ preamble (fattrs e)), rest.
      split; [|split; auto].
      * exists recs0, m. split; auto. right. split; auto. lia.
      * destruct X as [X|[X (bad & I & U)]]; auto. right. split; auto.
        pose proof (clean_header (fattrs e) bad I U (blocks e recs0) []) as Y. rewrite app_nil_r, header_text, header_both in Y. apply Y.
        apply blocks_edge.
Qed.

(** ** Calls *)
Definition shots_wanted (c : request) : nat := N.to_nat (or_one (q_shots c)).
Definition tale (fuel : nat) (f : hearer) (c : request) (p : proc) (told : list text) (r : reply) : Prop :=
  match r with
  | BackOk => exists e, entry_of c e /\ all_shots f e fuel (shots_wanted c) told
  | BackPanic => exists e, entry_of c e /\ stopped_at f e fuel (shots_wanted c) told
  | BackErr x => exists y p1, do_call fuel (plainly c) p = DRan y (RErr x) p1 /\ shown y = concat told
  end.
Lemma seed_calm : forall g p o, pbuffer p = [] -> calm o (mkScene (seed_opt g (use_std_out false p)) o).
Proof. intros [g|] p o H; repeat split; auto. Qed.
Lemma shown_console : forall t, shown (mkSeen t []) = t.
Proof. intros t. unfold shown. cbn. apply app_nil_r. Qed.
Lemma ntell_spec : forall run, keeps run -> forall f, civil f -> forall fuel c s told r s', pbuffer (sproc s) = [] ->
  ntell run fuel f c s = NRan told r s' -> calm (sout s) s' /\ tale fuel f c (sproc s) told r.
Proof.
  intros run K f Cv fuel c s told r s' B H. unfold ntell in H. cbv zeta in H.
  pose proof (seed_calm (q_seed c) (sproc s) (sout s) B) as C0. set (s0 := mkScene _ _) in *.
  assert (L : forall l, match l with
      | Parsed fs => nmodule run f fs (q_name c) fuel (N.to_nat (match q_shots c with Some n => n | None => 1%N end)) s0
      | ParseErr e => NRan [] (BackErr (FParse e)) s0 | PastEnd => NGone end = NRan told r s' ->
    l = module_of (q_aim c) -> match q_aim c with ABytes bytes => (length bytes <? 4)%nat = false | _ => True end ->
    calm (sout s) s' /\ tale fuel f c (sproc s) told r).
  { clear H. intros l H El Ln.
    assert (Err : forall x, (forall p, match l with Parsed fs => run_module fs (q_name c) fuel (shots_wanted c) p = ([], RErr x, p) | ParseErr m => x = FParse m | PastEnd => False end) ->
      calm (sout s) s0 /\ tale fuel f c (sproc s) [] (BackErr x)).
    { intros x X. split; [exact C0|]. unfold tale, plainly, do_call. destruct (q_aim c) as [path|bytes]; cbn [module_of] in El.
      - unfold run_file. cbv zeta. rewrite <- El. cbn [negb]. specialize (X (seed_opt (q_seed c) (use_std_out true (sproc s)))).
        unfold shots_wanted, or_one in X. destruct l as [fs|m|]; [rewrite X|rewrite X|contradiction]; cbn [delivered]; rewrite route_console;
          do 2 eexists; split; reflexivity.
      - unfold run_bytes. cbv zeta. rewrite Ln, <- El. cbn [negb]. specialize (X (seed_opt (q_seed c) (use_std_out true (sproc s)))).
        unfold shots_wanted, or_one in X. destruct l as [fs|m|]; [rewrite X|rewrite X|contradiction]; cbn [delivered]; rewrite route_console;
          do 2 eexists; split; reflexivity. }
    destruct l as [fs|m|]; [|injection H as <- <- <-; apply Err; auto|discriminate].
    unfold nmodule in H. destruct (prepare fs) as [fs'|e] eqn:Ep.
    2: { injection H as <- <- <-. apply Err. intros p. unfold run_module. now rewrite Ep. }
    destruct (bind_functions fs') eqn:Eb; try (injection H as <- <- <-; apply Err; intros p; unfold run_module; now rewrite Ep, Eb).
    destruct (choose_entry_point fs' (q_name c)) as [e|e] eqn:Ec.
    2: { injection H as <- <- <-. apply Err. intros p. unfold run_module. now rewrite Ep, Eb, Ec. }
    destruct (nshots_spec run K f Cv (sout s) e fuel _ _ _ _ [] _ _ _ C0 eq_refl (anyhow_none _ _ _) (heeded_nil f) H) as [C' X]. split; auto.
    assert (En : entry_of c e) by (exists fs, fs'; repeat split; auto; apply choose_thm; auto).
    unfold tale. cbn [length Nat.add] in X. unfold shots_wanted, or_one. destruct r as [|x|]; [exists e; auto| |exists e; auto].
    destruct X as (-> & F & Nz & X). cbn [concat app map] in X.
    assert (Q : forall p, run_module fs (q_name c) fuel (N.to_nat match q_shots c with Some n => n | None => 1%N end) p =
      (header (fattrs e), RErr FSignature, mkProc (initialize (pworld p)) (pstd p))).
    { intros p. unfold run_module. rewrite Ep, Eb, Ec. destruct (N.to_nat _) as [|k] eqn:Ek; [contradiction|]. apply signature_thm. auto. }
    unfold plainly, do_call. destruct (q_aim c) as [path|bytes]; cbn [module_of] in El.
    - unfold run_file. cbv zeta. rewrite <- El, Q. cbn [delivered negb]. rewrite route_console. do 2 eexists. split; [reflexivity|].
      now rewrite shown_console, X, header_both.
    - unfold run_bytes. cbv zeta. rewrite Ln, <- El, Q. cbn [delivered negb]. rewrite route_console. do 2 eexists. split; [reflexivity|].
      now rewrite shown_console, X, header_both. }
  destruct (q_aim c) as [path|bytes] eqn:Ea; [apply (L _ H eq_refl I)|].
  destruct (length bytes <? 4)%nat eqn:Ln; [|apply (L _ H eq_refl eq_refl)].
  injection H as <- <- <-. split; [exact C0|]. unfold tale, plainly, do_call. rewrite Ea. unfold run_bytes. cbv zeta. rewrite Ln.
  cbn [delivered]. rewrite route_console. do 2 eexists. split; reflexivity.
Qed.
Lemma nrun_keeps : forall fuel d, keeps (nrun fuel d).
Proof.
  intros fuel d. induction d as [|d IH]; intros c f s told r s' Cv B H; cbn [nrun] in H; [discriminate|].
  eapply ntell_spec; eauto.
Qed.
Theorem nested_thm : forall fuel d c f s told r s', civil f -> pbuffer (sproc s) = [] -> nrun fuel d c (Some f) s = NRan told r s' ->
  calm (sout s) s' /\ tale fuel f c (sproc s) told r.
Proof.
  intros fuel [|d] c f s told r s' Cv B H; cbn [nrun] in H; [discriminate|]. eapply ntell_spec; eauto. apply nrun_keeps.
Qed.

(** ** Programs whose text does not depend on the generators *)
Lemma anyhow_same : forall e fuel, settled_text e fuel -> forall m recs m1 recs' m2, shots_anyhow e fuel m recs m1 -> shots_anyhow e fuel m recs' m2 ->
  length recs = length recs' -> recs = recs'.
Proof.
  intros e fuel S m recs m1 recs' m2 H. revert recs' m2. induction H as [m|m g t m1 w recs m' F H IH]; intros recs' m2 H' L.
  - destruct recs'; [reflexivity|discriminate].
  - inversion H' as [|m0 g' t' m3 w' recs0 m4 F' H0 E1 E2 E3]; subst; [discriminate|]. destruct (S _ _ _ _ _ _ _ _ _ F F') as [-> ->]. f_equal.
    apply (IH _ _ H0). now injection L.
Qed.
Lemma shots_anyhow_of : forall e fuel n m g t recs m' g' t', shots_of e fuel n m g t recs m' g' t' -> shots_anyhow e fuel m recs m'.
Proof. intros e fuel n m g t recs m' g' t' H. induction H; [constructor|eapply anyhow_more; eauto]. Qed.
Lemma only_one_fun : forall (P : func -> Prop) fs a b, only_one P fs a -> only_one P fs b -> a = b.
Proof.
  intros P fs a b (l1 & l2 & -> & Pa & Na) (k1 & k2 & E & Pb & Nb).
  assert (I : In b (l1 ++ a :: l2)) by (rewrite E; apply in_elt). apply in_app_or in I. destruct I as [I|[I|I]]; auto.
  - destruct (Na b); auto. apply in_or_app. auto.
  - destruct (Na b); auto. apply in_or_app. auto.
Qed.
Lemma entry_fun : forall c a b, entry_of c a -> entry_of c b -> a = b.
Proof.
  intros c a b (fs & fs' & A1 & A2 & A3) (gs & gs' & B1 & B2 & B3). rewrite A1 in B1. injection B1 as <-. rewrite A2 in B2. injection B2 as <-.
  eapply only_one_fun; eauto.
Qed.
Lemma console_shots : forall fuel c p y p1, pbuffer p = [] -> do_call fuel (plainly c) p = DRan y ROk p1 ->
  exists e recs m, entry_of c e /\ shots_anyhow e fuel (pinit (fprog e)) recs m /\ length recs = shots_wanted c /\ shown y = blocks e recs.
Proof.
  intros fuel c p y p1 B H.
  assert (M : forall fs q evs, module_of (q_aim c) = Parsed fs -> pbuffer q = [] -> run_module fs (q_name c) fuel (shots_wanted c) q = (evs, ROk, p1) ->
    y = mkSeen (at_both evs) [] ->
    exists e recs m, entry_of c e /\ shots_anyhow e fuel (pinit (fprog e)) recs m /\ length recs = shots_wanted c /\ shown y = blocks e recs).
  { intros fs q evs El Bq R ->. destruct (module_ok _ _ _ _ _ _ _ Bq R) as (fs' & e & recs & m' & g' & t' & Ep & On & _ & Sh & (Ar & _) & _).
    exists e, recs, m'. split; [exists fs, fs'; auto|]. split; [eapply shots_anyhow_of; eauto|]. split; [eapply shots_length; eauto|].
    rewrite shown_console. exact Ar. }
  assert (Bs : pbuffer (seed_opt (q_seed c) (use_std_out true p)) = []) by (destruct (q_seed c); exact B).
  unfold plainly in H. destruct (q_aim c) as [path|bytes]; cbn [do_call negb] in H; apply delivered_inv in H; destruct H as (evs & R & Ro);
    rewrite route_console in Ro; injection Ro as <-.
  - unfold run_file in R. cbv zeta in R. cbn [module_of] in M. destruct (load_file path) as [fs|x|]; try discriminate. injection R as R.
    eapply M; eauto.
  - unfold run_bytes in R. cbv zeta in R. cbn [module_of] in M. destruct (length bytes <? 4)%nat; try discriminate.
    destruct (create_module_from_ir bytes _) as [fs|x|]; try discriminate. injection R as R. eapply M; eauto.
Qed.
Theorem same_text_thm : forall fuel d c f p o told s' y p1, civil f -> pbuffer p = [] ->
  (forall e, entry_of c e -> settled_text e fuel) -> do_call fuel (plainly c) p = DRan y ROk p1 ->
  nrun fuel d c (Some f) (mkScene p o) = NRan told BackOk s' -> concat told = shown y.
Proof.
  intros fuel d c f p o told s' y p1 Cv B St H N. apply nested_thm in N; auto. destruct N as [_ (e & En & _ & recs & m & Sh & L & E)].
  destruct (console_shots _ _ _ _ _ B H) as (e' & recs' & m' & En' & Sh' & L' & E'). pose proof (entry_fun _ _ _ En' En). subst e'.
  rewrite E, E'. f_equal. eapply (anyhow_same e fuel (St e En)); [exact Sh|exact Sh'|congruence].
Qed.

(** ** Callbacks that call nothing, or only at records *)
Definition to_lcall (c : request) (f : listener) : lcall :=
  match q_aim c with
  | AFile path => LFile path (q_name c) (q_shots c) (q_seed c) f
  | ABytes bytes => LBytes bytes (q_name c) (q_shots c) (q_seed c) f
  end.
Definition as_nheard (o : text) (h : heard) : nheard :=
  match h with
  | HRan told ROk p => NRan told BackOk (mkScene p o)
  | HRan told (RErr e) p => NRan told (BackErr e) (mkScene p o)
  | HPanic told p => NRan told BackPanic (mkScene p o)
  | _ => NGone
  end.
(** [f] makes calls only for records. *)
Definition calm_heads (f : hearer) : Prop := forall told t, like_record t \/ exists ok, f told t = Done ok.
Definition idle (f : hearer) (x : bool * text) : Prop := fst x = true \/ forall told, exists ok, f told (snd x) = Done ok.
Lemma perform_busy : forall run x s, perform run true x s = Some (deaf x, s).
Proof.
  intros run. fix IH 1. intros [ok|c g k] s; [reflexivity|]. cbn [perform deaf]. apply IH.
Qed.
Lemma quiet_send : forall run (f : hearer) ts told s, Forall (idle f) ts ->
  nsend_all run f told ts s = let '(told', ok) := send_all (fun told t => deaf (f told t)) told (map snd ts) in Some (told', ok, s).
Proof.
  intros run f ts. induction ts as [|[b t] ts IH]; intros told s F; [reflexivity|]. inversion F as [|? ? H F' E1]; subst.
  cbn [nsend_all map snd send_all]. unfold nsend, send. cbn [fst snd].
  destruct t as [|c t]; [apply IH; auto|]. destruct (utf8 (c :: t)); [|reflexivity].
  assert (P : perform run b (f told (c :: t)) s = Some (deaf (f told (c :: t)), s)).
  { destruct H as [H|H]; cbn [fst snd] in H; [subst; apply perform_busy|]. destruct (H told) as [ok ->]. reflexivity. }
  rewrite P. destruct (deaf (f told (c :: t))); [apply IH; auto|reflexivity].
Qed.
Lemma head_idle : forall f, calm_heads f -> forall b t, ~ like_record t -> idle f (b, t).
Proof. intros f H b t N. right. intros told. destruct (H told t) as [X|X]; [contradiction|exact X]. Qed.
Lemma header_idle : forall f, calm_heads f -> forall attrs, Forall (idle f) (map (pair false) (header_parts attrs)).
Proof.
  intros f H attrs. assert (X : Forall (fun t => ~ like_record t) (header_parts attrs)).
  { unfold header_parts. constructor; [intros [r [E|E]]; discriminate|]. induction attrs as [|[k v] attrs IH]; [constructor|]. cbn [flat_map].
    apply Forall_app. split; [|exact IH]. unfold metadata_parts. constructor; [intros [r [E|E]]; discriminate|]. apply Forall_app. split.
    - destruct (String.eqb _ _); constructor; [|constructor]. intros [r [E|E]]; discriminate.
    - constructor; [|constructor]. intros [r [E|E]]; discriminate. }
  apply Forall_map. eapply Forall_impl; [|exact X]. intros t N. apply head_idle; auto.
Qed.
Lemma tail_idle : forall f, calm_heads f -> forall r, Forall (idle f) [(true, r); (false, lit "END" ++ [TAB] ++ lit "0"); (false, [NL])].
Proof.
  intros f H r. constructor; [left; reflexivity|]. constructor; [|constructor; [|constructor]]; apply head_idle; auto; intros [x [E|E]]; discriminate.
Qed.
Lemma quiet_shots : forall run f, calm_heads f -> forall e fuel n m p o told, pstd p = false ->
  nshots run f e fuel n m (mkScene p o) told = as_nheard o (listen_shots (fun told t => deaf (f told t)) e fuel n m p told).
Proof.
  intros run f H e fuel n. induction n as [|n IH]; intros m p o told S; [reflexivity|]. cbn [nshots listen_shots].
  rewrite quiet_send, parts_snd by (apply header_idle; auto).
  destruct (send_all _ told (header_parts (fattrs e))) as [told1 [|]]; [|reflexivity]. cbn [sproc sout]. destruct (Nat.eqb (fparams e) 0); [|reflexivity].
  unfold run_code. rewrite S. cbn [snd]. destruct (run_from _ _ _ _) as [m' w|x y|y]; [|reflexivity..]. rewrite quiet_send by (apply tail_idle; auto).
  cbn [map snd concat]. rewrite app_nil_r. destruct (send_all _ told1 _) as [told2 [|]]; [|reflexivity]. apply IH. reflexivity.
Qed.
Theorem quiet_thm : forall fuel d c f p o, calm_heads f ->
  nrun fuel (S d) c (Some f) (mkScene p o) = as_nheard o (listen fuel (to_lcall c (fun told t => deaf (f told t))) p).
Proof.
  intros fuel d c f p o H. cbn [nrun]. unfold ntell. cbv zeta. cbn [sproc sout].
  assert (S : pstd (seed_opt (q_seed c) (use_std_out false p)) = false) by (destruct (q_seed c); reflexivity).
  assert (M : forall fs n, nmodule (nrun fuel d) f fs (q_name c) fuel n (mkScene (seed_opt (q_seed c) (use_std_out false p)) o) =
    as_nheard o (listen_module (fun told t => deaf (f told t)) fs (q_name c) fuel n (seed_opt (q_seed c) (use_std_out false p)))).
  { intros fs n. unfold nmodule, listen_module. destruct (prepare fs) as [fs'|x]; [|reflexivity]. destruct (bind_functions fs'); try reflexivity.
    destruct (choose_entry_point fs' (q_name c)) as [e|x]; [|reflexivity]. apply quiet_shots; [exact H|exact S]. }
  unfold to_lcall. destruct (q_aim c) as [path|bytes]; cbn [listen].
  - unfold listen_file. cbv zeta. destruct (load_file path); [apply M|reflexivity..].
  - unfold listen_bytes. cbv zeta. destruct (length bytes <? 4)%nat; [reflexivity|]. destruct (create_module_from_ir bytes _); [apply M|reflexivity..].
Qed.

(** ** A callback that makes one call without a callback *)
Lemma shots_std : forall e fuel n m p, pstd (snd (run_shots e fuel n m p)) = pstd p.
Proof.
  intros e fuel n. induction n as [|n IH]; intros m p; [reflexivity|]. cbn [run_shots]. destruct (Nat.eqb (fparams e) 0); [|reflexivity].
  destruct (run_code _ _ _ _ _) as [ev [m' w|x y|y]]; [|reflexivity..].
  specialize (IH m' (mkProc (with_wout w []) (pstd p))). destruct (run_shots e fuel n m' _) as [[evs r] p']. exact IH.
Qed.
Lemma module_std : forall fs name fuel n p, pstd (snd (run_module fs name fuel n p)) = pstd p.
Proof.
  intros fs name fuel n p. unfold run_module. destruct (prepare fs) as [fs'|x]; [|reflexivity]. destruct (bind_functions fs'); try reflexivity.
  destruct (choose_entry_point fs' name); [|reflexivity]. apply shots_std.
Qed.
Lemma plain_std : forall fuel c p x r p', do_call fuel (plainly c) p = DRan x r p' -> pstd p' = true.
Proof.
  intros fuel c p x r p' H. assert (S : pstd (seed_opt (q_seed c) (use_std_out true p)) = true) by (destruct (q_seed c); reflexivity).
  unfold plainly in H. destruct (q_aim c) as [path|bytes]; cbn [do_call negb] in H; apply delivered_inv in H; destruct H as (evs & R & _).
  - unfold run_file in R. cbv zeta in R. destruct (load_file path) as [fs|y|]; [|injection R as <- <- <-; exact S|discriminate]. injection R as R.
    pose proof (module_std fs (q_name c) fuel (N.to_nat (match q_shots c with Some n => n | None => 1%N end)) (seed_opt (q_seed c) (use_std_out true p))) as X.
    rewrite R in X. exact (eq_trans X S).
  - unfold run_bytes in R. cbv zeta in R. destruct (length bytes <? 4)%nat; [injection R as <- <- <-; exact S|].
    destruct (create_module_from_ir bytes _) as [fs|y|]; [|injection R as <- <- <-; exact S|discriminate]. injection R as R.
    pose proof (module_std fs (q_name c) fuel (N.to_nat (match q_shots c with Some n => n | None => 1%N end)) (seed_opt (q_seed c) (use_std_out true p))) as X.
    rewrite R in X. exact (eq_trans X S).
Qed.
Lemma plain_buffer : forall fuel c p x r p', pbuffer p = [] -> do_call fuel (plainly c) p = DRan x r p' -> returns r -> pbuffer p' = [].
Proof.
  intros fuel c p x r p' B H R. apply (after_buffer fuel [plainly c] p p' B). cbn [after]. rewrite H. destruct r; try contradiction; reflexivity.
Qed.
Section Once.
Variable f : hearer.
Hypothesis later : forall told t, told <> [] -> f told t = Done true.
Lemma later_send : forall run ts told s told' ok s', told <> [] -> nsend_all run f told ts s = Some (told', ok, s') ->
  s' = s /\ told' <> [] /\ (ok = true -> concat told' = concat told ++ concat (map snd ts)).
Proof.
  intros run ts. induction ts as [|[b t] ts IH]; intros told s told' ok s' N H; cbn [nsend_all] in H.
  - injection H as <- <- <-. split; auto. split; auto. intros _. cbn. now rewrite app_nil_r.
  - unfold nsend in H. cbn [fst snd] in H. destruct t as [|c t]; [apply (IH _ _ _ _ _ N H)|]. destruct (utf8 (c :: t)).
    + rewrite later in H by auto. cbn [perform] in H. apply IH in H; [|now destruct told].
      destruct H as (A & B & C). split; auto. split; auto. intros O. rewrite (C O), concat_app. cbn [concat map snd]. now rewrite app_nil_r, <- app_assoc.
    + injection H as <- <- <-. split; auto. split; auto. discriminate.
Qed.
(** A shot whose head has been told. *)
Definition emptied (e : func) (recs : list text) : text := concat (map (fun _ => block (fattrs e) []) recs).
Lemma shot_after_head : forall run e fuel n, (forall m s told told' s', told <> [] -> pbuffer (sproc s) = [] -> pstd (sproc s) = true ->
    nshots run f e fuel n m s told = NRan told' BackOk s' ->
    exists recs m', shots_anyhow e fuel m recs m' /\ length recs = n /\ concat told' = concat told ++ emptied e recs /\ sout s' = sout s ++ concat recs) ->
  forall m s told1 told' s', told1 <> [] -> pbuffer (sproc s) = [] -> pstd (sproc s) = true ->
  (if Nat.eqb (fparams e) 0 then
    match run_code (fprog e) fuel m (pstd (sproc s)) (initialize (pworld (sproc s))) with
    | (ev, PDone m' w') =>
      match nsend_all run f told1 [(true, bout (wback w')); (false, lit "END" ++ [TAB] ++ lit "0"); (false, [NL])]
          (mkScene (mkProc (with_wout w' []) (pstd (sproc s))) (sout s ++ concat (map snd ev))) with
      | None => NGone
      | Some (told2, false, s3) => NRan told2 BackPanic s3
      | Some (told2, true, s3) => nshots run f e fuel n m' s3 told2
      end
    | _ => NGone
    end
  else NRan told1 (BackErr FSignature) (mkScene (mkProc (initialize (pworld (sproc s))) (pstd (sproc s))) (sout s))) = NRan told' BackOk s' ->
  exists r recs m', shots_anyhow e fuel m (r :: recs) m' /\ length recs = n /\
    concat told' = concat told1 ++ line [lit "END"; lit "0"] ++ emptied e recs /\ sout s' = sout s ++ concat (r :: recs).
Proof.
  intros run e fuel n IH m s told1 told' s' N1 B D1 H. destruct (Nat.eqb (fparams e) 0); [|discriminate].
  rewrite (code_fresh e fuel m (sproc s) B), D1 in H.
  destruct (fresh_run e fuel m (pgen (sproc s)) (ptgen (sproc s))) as [m1 w|x y|y] eqn:Fr; try discriminate.
  destruct (nsend_all run f told1 _ _) as [[[told2 ok2] s3]|] eqn:S2; [|discriminate]. destruct ok2; [|discriminate].
  destruct (later_send _ _ _ _ _ _ _ N1 S2) as (-> & N2 & E2). specialize (E2 eq_refl).
  apply IH in H; [|exact N2|reflexivity|reflexivity]. destruct H as (recs & m' & Sh & L & E & O). exists (bout (wback w)), recs, m'.
  split; [eapply anyhow_more; eauto|]. split; auto. split.
  - rewrite E, E2, <- app_assoc. reflexivity.
  - rewrite O. cbn [sout map snd concat]. now rewrite app_nil_r, <- app_assoc.
Qed.
Lemma std_shots : forall run e fuel n m s told told' s', told <> [] -> pbuffer (sproc s) = [] -> pstd (sproc s) = true ->
  nshots run f e fuel n m s told = NRan told' BackOk s' ->
  exists recs m', shots_anyhow e fuel m recs m' /\ length recs = n /\ concat told' = concat told ++ emptied e recs /\ sout s' = sout s ++ concat recs.
Proof.
  intros run e fuel n. induction n as [|n IH]; intros m s told told' s' N B S H.
  - injection H as <- <-. exists [], m. split; [constructor|]. cbn. rewrite !app_nil_r. auto.
  - cbn [nshots] in H. destruct (nsend_all run f told _ s) as [[[told1 ok1] s1]|] eqn:S1; [|discriminate]. destruct ok1; [|discriminate].
    destruct (later_send _ _ _ _ _ _ _ N S1) as (-> & N1 & E1). specialize (E1 eq_refl). rewrite parts_snd, header_text, header_both in E1.
    destruct (shot_after_head run e fuel n IH m s told1 told' s' N1 B S H) as (r & recs & m' & Sh & L & E & O).
    exists (r :: recs), m'. split; auto. split; [cbn; auto|]. split; auto. rewrite E, E1. unfold emptied. cbn [map concat]. unfold block.
    rewrite <- !app_assoc. reflexivity.
Qed.
Theorem console_thm : forall fuel d c c' p o told s', (forall t, f [] t = Ask c' None (fun _ => Done true)) -> pbuffer p = [] -> shots_wanted c <> 0 ->
  nrun fuel d c (Some f) (mkScene p o) = NRan told BackOk s' ->
  exists e recs m q x r q', entry_of c e /\ shots_anyhow e fuel (pinit (fprog e)) recs m /\ length recs = shots_wanted c /\
    concat told = emptied e recs /\ do_call fuel (plainly c') q = DRan x r q' /\ sout s' = o ++ on_console x ++ concat recs.
Proof.
  intros fuel [|d] c c' p o told s' F B Nz H; cbn [nrun] in H; [discriminate|]. unfold ntell in H. cbv zeta in H. cbn [sproc sout] in H.
  assert (Bs : pbuffer (seed_opt (q_seed c) (use_std_out false p)) = []) by (destruct (q_seed c); exact B).
  set (p0 := seed_opt _ _) in *.
  assert (M : forall fs, module_of (q_aim c) = Parsed fs -> nmodule (nrun fuel d) f fs (q_name c) fuel (shots_wanted c) (mkScene p0 o) = NRan told BackOk s' ->
    exists e recs m q x r q', entry_of c e /\ shots_anyhow e fuel (pinit (fprog e)) recs m /\ length recs = shots_wanted c /\
    concat told = emptied e recs /\ do_call fuel (plainly c') q = DRan x r q' /\ sout s' = o ++ on_console x ++ concat recs).
  { clear H. intros fs El H. unfold nmodule in H. destruct (prepare fs) as [fs'|y] eqn:Ep; [|discriminate]. destruct (bind_functions fs'); try discriminate.
    destruct (choose_entry_point fs' (q_name c)) as [e|y] eqn:Ec; [|discriminate]. exists e.
    assert (En : entry_of c e) by (exists fs, fs'; repeat split; auto; apply choose_thm; auto).
    destruct (shots_wanted c) as [|n]; [contradiction|]. cbn [nshots] in H.
    destruct (nsend_all (nrun fuel d) f [] _ (mkScene p0 o)) as [[[told1 ok1] s1]|] eqn:S1; [|discriminate]. destruct ok1; [|discriminate].
    unfold header_parts in S1. cbn [map nsend_all] in S1. unfold nsend in S1.
    change (snd (false, lit "START" ++ [NL])) with ("S"%char :: lit "TART" ++ [NL]) in S1. cbn [fst] in S1.
    change (utf8 ("S"%char :: lit "TART" ++ [NL])) with true in S1. cbn iota in S1. rewrite F in S1. cbn [perform] in S1.
    match type of S1 with context [nrun fuel d c' ?x ?y] => destruct (nrun fuel d c' x y) as [told0 r0 s0|] eqn:R end; [|discriminate].
    assert (X : exists x r q', do_call fuel (plainly c') p0 = DRan x r q' /\ returns r /\ s0 = mkScene q' (o ++ on_console x)).
    { destruct d as [|d]; cbn [nrun] in R; [discriminate|]. unfold nconsole in R. cbn [sproc sout] in R.
      destruct (do_call fuel (plainly c') p0) as [x r q'| | | |] eqn:Dc; try discriminate. exists x, r, q'. split; auto.
      destruct r; try discriminate; injection R as <- <- <-; split; auto; exact Logic.I. }
    destruct X as (x & r & q' & Dc & Rt & ->). pose proof (plain_std _ _ _ _ _ _ Dc) as Sd. pose proof (plain_buffer _ _ _ _ _ _ Bs Dc Rt) as Bq.
    cbn [app] in S1.
    apply later_send in S1; [|discriminate]. destruct S1 as (-> & N1 & E1). specialize (E1 eq_refl). rewrite parts_snd in E1.
    assert (E1' : concat told1 = preamble (fattrs e)) by (rewrite E1, <- header_both, <- header_text; reflexivity).
    apply shot_after_head in H; [|intros m2 s2 t2 t3 s3; apply std_shots|exact N1|exact Bq|exact Sd].
    destruct H as (rr & recs & m' & Sh & L & E & O).
    exists (rr :: recs), m', p0, x, r, q'. split; auto. split; auto. split; [cbn; auto|]. split; [|split; auto].
    - rewrite E, E1'. unfold emptied. cbn [map concat]. unfold block. rewrite <- !app_assoc. reflexivity.
    - rewrite O. cbn [sout]. now rewrite <- app_assoc. }
  destruct (q_aim c) as [path|bytes]; cbn [module_of] in M.
  - destruct (load_file path) as [fs|y|]; try discriminate. apply (M fs eq_refl H).
  - destruct (length bytes <? 4)%nat; [discriminate|]. destruct (create_module_from_ir bytes _) as [fs|y|]; try discriminate. apply (M fs eq_refl H).
Qed.
End Once.
End Nested.
