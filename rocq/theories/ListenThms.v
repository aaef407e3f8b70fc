(** * Callbacks that may raise *)
From Coq Require Import String Ascii List NArith ZArith Reals Bool Lia.
From Verif Require Import Cx Bits Arith ArithR IndexMap Sim SimExp SimApply Spec SpecRun SimRun Text SpecText Backend Runner SpecRunner
  RunnerThms Front SpecFront CliThms FrontThms Listen SpecListen.
Import ListNotations.
Local Open Scope list_scope.

(** ** Texts cut after an ASCII character *)
Definition edge (t : text) : Prop := t = [] \/ exists t' c, t = t' ++ [c] /\ byte 0 127 c = true.
Lemma edge_cut : forall t u, edge t -> utf8 (t ++ u) = (utf8 t && utf8 u)%bool.
Proof.
  intros t u [->|(t' & c & -> & H)]; [reflexivity|]. rewrite <- app_assoc. cbn [app]. rewrite !utf8_cut by exact H. change (utf8 []) with true.
  now rewrite andb_true_r.
Qed.
Lemma edge_nl : forall t, edge (t ++ [NL]).
Proof. intros t. right. exists t, NL. auto. Qed.
Lemma bad_before : forall t u c v, edge t -> byte 0 127 c = true -> utf8 u = false -> utf8 (t ++ u ++ c :: v) = false.
Proof. intros t u c v E H U. rewrite edge_cut by auto. rewrite utf8_cut, U by exact H. apply andb_false_r. Qed.

(** A part that is no text makes the whole not a text. *)
Definition clean (ts : list text) : Prop := forall bad, In bad ts -> utf8 bad = false -> forall a b, edge a -> utf8 (a ++ concat ts ++ b) = false.
Lemma clean_tail : forall r, clean [r; lit "END" ++ [TAB] ++ lit "0"; [NL]].
Proof.
  intros r bad I U a b E. destruct I as [<-|[<-|[<-|[]]]]; try discriminate U. cbn [concat]. rewrite <- app_assoc. apply bad_before; auto.
Qed.
Lemma metadata_text : forall a, concat (metadata_parts a) = metadata a.
Proof.
  intros [k v]. unfold metadata_parts, metadata. cbn [fst snd concat]. rewrite <- !app_assoc.
  destruct (String.eqb v ""); cbn [app concat]; rewrite ?app_nil_r; repeat (rewrite <- app_assoc; cbn [app]); reflexivity.
Qed.
Lemma metadata_edge : forall a, edge (metadata a).
Proof. intros a. destruct (metadata_nl a) as [l ->]. apply edge_nl. Qed.
Lemma edge_app : forall t u, edge t -> edge u -> edge (t ++ u).
Proof. intros t u E [->|(u' & c & -> & H)]; [now rewrite app_nil_r|]. right. exists (t ++ u'), c. rewrite app_assoc. auto. Qed.
Lemma clean_metadata : forall a, clean (metadata_parts a).
Proof.
  intros [k v] bad I U a b E. unfold metadata_parts in *. cbn [fst snd] in *. cbn [In concat] in *. destruct (String.eqb v "").
  - cbn [app concat In] in *. destruct I as [<-|[<-|[]]]; [|discriminate U]. rewrite <- app_assoc. apply bad_before; auto.
  - cbn [app concat In] in *. destruct I as [<-|[<-|[<-|[]]]]; [| |discriminate U].
    + rewrite <- app_assoc. exact (bad_before a (lit "METADATA" ++ TAB :: lit k) TAB _ E eq_refl U).
    + rewrite <- !app_assoc. cbn [app]. rewrite edge_cut by auto. rewrite utf8_cut by reflexivity. rewrite (utf8_cut (lit k)) by reflexivity.
      rewrite <- app_assoc. cbn [app]. rewrite (utf8_cut (lit v)) by reflexivity.
      change (utf8 (TAB :: lit v)) with (utf8 ([] ++ TAB :: lit v)) in U. rewrite utf8_cut in U by reflexivity.
      change (utf8 []) with true in U. cbn [andb] in U. rewrite U. cbn [andb]. now rewrite !andb_false_r.
Qed.
Lemma clean_header : forall attrs, clean (header_parts attrs).
Proof.
  intros attrs bad I U a b E. unfold header_parts in *. destruct I as [<-|I]; [discriminate U|]. cbn [concat]. rewrite <- app_assoc.
  rewrite app_assoc. assert (E1 : edge (a ++ lit "START" ++ [NL])) by (rewrite app_assoc; apply edge_nl).
  revert E1. generalize (a ++ lit "START" ++ [NL]). clear E a. revert I. induction attrs as [|x attrs IH]; intros I t E; [destruct I|].
  cbn [flat_map] in *. rewrite concat_app. apply in_app_or in I. destruct I as [I|I].
  - rewrite <- app_assoc. apply (clean_metadata x bad I U); auto.
  - rewrite <- app_assoc, app_assoc. apply IH; auto. rewrite metadata_text. apply edge_app; auto. apply metadata_edge.
Qed.

Section Listen.
Context {T : Tol} {EN : Env} {D : Doubles} {SW : Shows} {RN : Rand} {LL : Llvm}.

Lemma header_text : forall attrs, concat (header_parts attrs) = at_both (header attrs).
Proof.
  intros attrs. unfold header_parts, header, at_both. cbn [concat map snd]. f_equal. induction attrs as [|a attrs IH]; [reflexivity|].
  cbn [flat_map map concat snd]. rewrite concat_app, metadata_text, IH. reflexivity.
Qed.
Lemma header_edge : forall attrs, edge (at_both (header attrs)).
Proof.
  intros attrs. unfold header, at_both. cbn [map concat snd]. apply edge_app; [apply (edge_nl (lit "START"))|].
  induction attrs as [|a attrs IH]; [left; reflexivity|]. cbn [map concat snd]. apply edge_app; [apply metadata_edge|exact IH].
Qed.

(** ** Sending *)
Lemma took_more : forall f told t, took f told -> f told t = true -> took f (told ++ [t]).
Proof.
  intros f told t K H a u b E. destruct b as [|v b].
  - apply app_inj_tail in E. destruct E as [<- <-]. auto.
  - assert (X : exists b', u :: v :: b = (u :: b') ++ [t] /\ told = a ++ u :: b').
    { destruct (exists_last (l := v :: b) ltac:(discriminate)) as [b' [y Ey]]. rewrite Ey in E |- *.
      change (u :: b' ++ [y]) with ((u :: b') ++ [y]) in E. rewrite app_assoc in E. apply app_inj_tail in E. destruct E as [-> ->].
      exists b'. auto. }
    destruct X as [b' [_ ->]]. eapply K. reflexivity.
Qed.
Lemma send_all_spec : forall f ts told told' ok, took f told -> send_all f told ts = (told', ok) ->
  if ok then took f told' /\ concat told' = concat told ++ concat ts
  else (exists rest, concat told ++ concat ts = concat told' ++ rest) /\
       (raised f told' \/ took f told' /\ exists bad, In bad ts /\ utf8 bad = false).
Proof.
  intros f ts. induction ts as [|t ts IH]; intros told told' ok K H; cbn [send_all] in H.
  - injection H as <- <-. split; auto. cbn. now rewrite app_nil_r.
  - unfold send in H. destruct t as [|c t].
    + specialize (IH _ _ _ K H). destruct ok; [exact IH|]. destruct IH as [A [B|[B (bad & I & U)]]]; split; auto.
      right. split; auto. exists bad. split; auto. right. auto.
    + destruct (utf8 (c :: t)) eqn:U.
      * destruct (f told (c :: t)) eqn:F.
        -- specialize (IH _ _ _ (took_more _ _ _ K F) H). rewrite concat_app in IH. cbn [concat] in IH |- *. rewrite app_nil_r in IH.
           destruct ok; [rewrite app_assoc; exact IH|]. rewrite app_assoc. destruct IH as [A [B|[B (bad & I & U')]]]; split; auto.
           right. split; auto. exists bad. split; auto. right. auto.
        -- injection H as <- <-. split; [|left; exists told, (c :: t); auto]. exists (concat ts). rewrite concat_app. cbn [concat].
           now rewrite app_nil_r, <- app_assoc.
      * injection H as <- <-. split; [eexists; reflexivity|]. right. split; auto. exists (c :: t). split; [left; auto|auto].
Qed.

(** ** Shots *)
Definition hears (f : listener) (text : Text.text) (r : outcome) (p1 : proc) (h : heard) : Prop :=
  match h with
  | HRan told r' q1 => r' = r /\ took f told /\ exists lost, text = concat told ++ lost /\
      (returns r -> lost = [] /\ pgen q1 = pgen p1 /\ ptgen q1 = ptgen p1 /\ pbuffer q1 = [])
  | HPanic told q1 => pbuffer q1 = [] /\ (exists rest, text = concat told ++ rest) /\ (raised f told \/ took f told /\ utf8 text = false)
  | HPastEnd => False
  end.
Lemma stopped : forall f told ts told' b p1 r q1, took f told -> edge (concat told) -> clean ts -> pbuffer q1 = [] ->
  send_all f told ts = (told', false) -> hears f (concat told ++ concat ts ++ b) r p1 (HPanic told' q1).
Proof.
  intros f told ts told' b p1 r q1 K E C Q S. apply send_all_spec in S; auto. destruct S as [[rest R] X]. split; auto. split.
  - exists (rest ++ b). rewrite app_assoc, R, <- app_assoc. reflexivity.
  - destruct X as [X|[X (bad & I & U)]]; auto. right. split; auto. apply (C bad I U). auto.
Qed.
Lemma hears_shots : forall f e fuel n m p q told, pbuffer p = [] -> pbuffer q = [] -> pgen p = pgen q -> ptgen p = ptgen q -> pstd q = false ->
  edge (concat told) -> took f told -> fparams e = 0 ->
  hears f (concat told ++ at_both (fst (fst (run_shots e fuel n m p)))) (snd (fst (run_shots e fuel n m p))) (snd (run_shots e fuel n m p))
    (listen_shots f e fuel n m q told).
Proof.
  intros f e fuel n. induction n as [|n IH]; intros m p q told Hp Hq G R S E K F.
  - cbn. split; auto. split; auto. exists []. auto.
  - rewrite (run_shots_S e fuel n m p Hp F), G, R. cbn [listen_shots]. rewrite F. cbn [Nat.eqb]. rewrite (code_fresh e fuel m q Hq), S.
    destruct (send_all f told (header_parts (fattrs e))) as [told1 ok1] eqn:S1. destruct ok1.
    + destruct (send_all_spec _ _ _ _ _ K S1) as [K1 C1]. rewrite header_text in C1.
      assert (E1 : edge (concat told1)) by (rewrite C1; apply edge_app; auto; apply header_edge).
      destruct (fresh_run e fuel m (pgen q) (ptgen q)) as [m1 w|x o|o]; cbn [snd].
      * cbv zeta. cbn [fst snd].
        assert (B : at_both (header (fattrs e) ++ (if pstd p then [(ToStdout, bout (wback w))] else []) ++
            tail_events (if pstd p then [] else bout (wback w)) ++ fst (fst (run_shots e fuel n m1 (mkProc (with_wout w []) (pstd p))))) =
          at_both (header (fattrs e)) ++ concat [bout (wback w); lit "END" ++ [TAB] ++ lit "0"; [NL]] ++
            at_both (fst (fst (run_shots e fuel n m1 (mkProc (with_wout w []) (pstd p)))))).
        { rewrite !both_app. f_equal. rewrite app_assoc. f_equal. unfold at_both, tail_events.
          destruct (pstd p); cbn [map concat snd app]; rewrite ?app_nil_r; reflexivity. }
        rewrite B, app_assoc, <- C1. clear B.
        destruct (send_all f told1 _) as [told2 ok2] eqn:S2. destruct ok2.
        -- destruct (send_all_spec _ _ _ _ _ K1 S2) as [K2 C2]. rewrite app_assoc, <- C2. apply IH; auto.
           rewrite C2. apply edge_app; auto. right. exists (bout (wback w) ++ lit "END" ++ [TAB] ++ lit "0"), NL. split; [|reflexivity].
           cbn [concat app]. repeat (rewrite <- app_assoc; cbn [app]). reflexivity.
        -- eapply stopped; eauto. apply clean_tail.
      * cbn [fst snd]. rewrite both_app, app_assoc, <- C1. split; auto. split; auto. eexists. split; [reflexivity|]. contradiction.
      * cbn [fst snd]. rewrite both_app, app_assoc, <- C1. split; auto. split; auto. eexists. split; [reflexivity|]. contradiction.
    + destruct (fresh_run e fuel m (pgen q) (ptgen q)); cbv zeta; cbn [fst snd]; rewrite both_app, <- header_text;
        (eapply stopped; eauto; apply clean_header).
Qed.
Lemma hears_signature : forall f e fuel n m p q, pbuffer p = [] -> pbuffer q = [] -> pgen p = pgen q -> ptgen p = ptgen q -> fparams e <> 0 ->
  hears f (at_both (header (fattrs e))) (RErr FSignature) (mkProc (initialize (pworld p)) (pstd p)) (listen_shots f e fuel (S n) m q []).
Proof.
  intros f e fuel n m p q Hp Hq G R F. cbn [listen_shots]. apply Nat.eqb_neq in F. rewrite F.
  assert (K : took f []) by (intros [|? ?] ? ? X; discriminate). assert (E : edge (concat (@nil text))) by (left; reflexivity).
  destruct (send_all f [] (header_parts (fattrs e))) as [told1 ok1] eqn:S1. destruct ok1.
  - destruct (send_all_spec _ _ _ _ _ K S1) as [K1 C1]. rewrite header_text in C1. cbn [concat app] in C1. split; auto. split; auto. exists [].
    split; [now rewrite C1, app_nil_r|]. intros _. rewrite (init_fresh p Hp), (init_fresh q Hq). unfold pgen, ptgen, pbuffer. cbn [pworld wback wtgen].
    fold (pgen p) (pgen q) (ptgen p) (ptgen q). rewrite G, R. auto.
  - rewrite <- header_text. pose proof (stopped f [] _ told1 [] (mkProc (initialize (pworld p)) (pstd p)) (RErr FSignature) q K E (clean_header _) Hq S1) as X.
    cbn [concat app] in X. rewrite app_nil_r in X. exact X.
Qed.
Definition hears_run (f : listener) (x : list event * outcome * proc) (h : heard) : Prop := hears f (at_both (fst (fst x))) (snd (fst x)) (snd x) h.
Lemma hears_error : forall f e p q, pbuffer q = [] -> pgen p = pgen q -> ptgen p = ptgen q -> hears_run f ([], RErr e, p) (HRan [] (RErr e) q).
Proof.
  intros f e p q Hq G R. split; auto. split; [intros [|? ?] ? ? X; discriminate|]. exists []. split; [reflexivity|]. auto.
Qed.
Lemma hears_module : forall f fs name fuel n p q, pbuffer p = [] -> pbuffer q = [] -> pgen p = pgen q -> ptgen p = ptgen q -> pstd q = false ->
  hears_run f (run_module fs name fuel n p) (listen_module f fs name fuel n q).
Proof.
  intros f fs name fuel n p q Hp Hq G R S. unfold run_module, listen_module.
  destruct (prepare fs) as [fs'|e]; [|apply hears_error; auto]. destruct (bind_functions fs'); try (apply hears_error; auto).
  destruct (choose_entry_point fs' name) as [e|e]; [|apply hears_error; auto].
  destruct (Nat.eq_dec (fparams e) 0) as [F|F].
  - pose proof (hears_shots f e fuel n (pinit (fprog e)) p q [] Hp Hq G R S (or_introl eq_refl) ltac:(intros [|? ?] ? ? X; discriminate) F) as X.
    exact X.
  - destruct n as [|n].
    + split; auto. split; [intros [|? ?] ? ? X; discriminate|]. exists []. split; [reflexivity|]. auto.
    + rewrite signature_thm by exact F. apply hears_signature; auto.
Qed.
Definition hears_load (f : listener) (x : loaded) (h : heard) : Prop :=
  match x, h with LRun x, h => hears_run f x h | LPastEnd, HPastEnd => True | _, _ => False end.
Lemma hears_task : forall c fuel p q, pbuffer p = [] -> pbuffer q = [] -> (t_seed (wants c) = None -> pgen p = pgen q) -> ptgen p = ptgen q ->
  hears_load (ear c) (run_task (wants c) fuel p) (listen fuel c q).
Proof.
  intros c fuel p q Hp Hq G R.
  assert (Q : forall g, (g = None -> pgen p = pgen q) -> pbuffer (seed_opt g p) = [] /\ pbuffer (seed_opt g (use_std_out false q)) = [] /\
    pgen (seed_opt g p) = pgen (seed_opt g (use_std_out false q)) /\ ptgen (seed_opt g p) = ptgen (seed_opt g (use_std_out false q)) /\
    pstd (seed_opt g (use_std_out false q)) = false).
  { intros [g|] X; repeat split; auto. }
  destruct c as [path e n g f|bytes e n g f]; cbn [wants t_seed] in G; destruct (Q g G) as (P1 & P2 & P3 & P4 & P5);
    unfold run_task; cbn [wants t_source t_entry t_shots t_seed listen ear].
  - unfold run_file, listen_file. cbv zeta. destruct (load_file path) as [fs|x|]; [|apply hears_error; auto|exact I]. apply hears_module; auto.
  - unfold run_bytes, listen_bytes. cbv zeta. destruct (Datatypes.length bytes <? 4); [apply hears_error; auto|].
    destruct (create_module_from_ir bytes _) as [fs|x|]; [|apply hears_error; auto|exact I]. apply hears_module; auto.
Qed.

(** ** Calls one after the other *)
Lemma listen_buffer : forall fuel c p, pbuffer p = [] ->
  match listen fuel c p with HRan _ ROk p' | HRan _ (RErr _) p' | HPanic _ p' => pbuffer p' = [] | _ => True end.
Proof.
  intros fuel c p Hp. pose proof (hears_task c fuel p p Hp Hp (fun _ => eq_refl) eq_refl) as X.
  destruct (run_task (wants c) fuel p) as [[[evs r] p1]|]; unfold hears_load, hears_run, hears in X; cbn [fst snd] in X;
    destruct (listen fuel c p) as [told r' q1|told q1|]; try exact I; try contradiction.
  - destruct X as (-> & _ & lost & _ & X). destruct r; try exact I; apply (X I).
  - apply X.
Qed.
Lemma outlives_buffer : forall fuel cs p q, pbuffer p = [] -> outlives fuel cs p = Some q -> pbuffer q = [].
Proof.
  intros fuel cs. induction cs as [|[c|c] cs IH]; intros p q Hp H; cbn [outlives] in H; [congruence| |].
  - destruct (after fuel [c] p) as [p'|] eqn:E; [|discriminate]. eapply IH; [|exact H]. eapply after_buffer; eauto.
  - pose proof (listen_buffer fuel c p Hp) as X. destruct (listen fuel c p) as [told r p1|told p1|]; try discriminate; [destruct r; try discriminate|];
      (eapply IH; [exact X|exact H]).
Qed.
Theorem callback_thm : forall fuel a c p q s r p1, asks a (wants c) -> has_callback a = false -> pbuffer p = [] -> pbuffer q = [] ->
  (t_seed (wants c) = None -> pgen p = pgen q) -> ptgen p = ptgen q -> do_call fuel a p = DRan s r p1 -> hears (ear c) (shown s) r p1 (listen fuel c q).
Proof.
  intros fuel a c p q s r p1 A Cb Hp Hq G R Ra. rewrite (ask_run a _ fuel p A), Cb in Ra. destruct (mode_keeps a p) as (M1 & M2 & M3 & _).
  destruct (delivered_inv _ _ _ _ _ Ra) as (evs & L & Ro). rewrite route_console in Ro. injection Ro as <-.
  pose proof (hears_task c fuel (mode a p) q ltac:(congruence) Hq ltac:(intros X; rewrite M2; auto) ltac:(congruence)) as X. rewrite L in X.
  unfold shown. cbn [on_console to_callback concat]. rewrite app_nil_r. exact X.
Qed.
End Listen.
