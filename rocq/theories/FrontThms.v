(** * The front ends show the same text *)
From Coq Require Import String Ascii List NArith ZArith Reals Bool Lia.
From Verif Require Import Cx Bits Arith ArithR IndexMap Sim SimExp SimApply Spec SpecRun SimRun Text SpecText Backend Runner SpecRunner RunnerThms
  Front SpecFront CliThms.
Import ListNotations.
Local Open Scope list_scope.

(** ** UTF-8 can be cut at ASCII characters *)
Lemma byte_not : forall lo hi c, (128 <= lo)%N -> byte 0 127 c = true -> byte lo hi c = false.
Proof.
  intros lo hi c L H. unfold byte in *. apply andb_prop in H. destruct H as [_ H]. apply N.leb_le in H.
  apply andb_false_iff. left. apply N.leb_gt. lia.
Qed.
Lemma utf8_cut_n : forall n a c b, length a <= n -> byte 0 127 c = true -> utf8 (a ++ c :: b) = (utf8 a && utf8 b)%bool.
Proof.
  induction n as [|n IH]; intros a c b L H.
  - destruct a; [|simpl in L; lia]. cbn [app utf8]. rewrite H. reflexivity.
  - assert (K : forall lo hi, (128 <= lo)%N -> byte lo hi c = false) by (intros; apply byte_not; assumption).
    assert (Kc : cont c = false) by (apply K; lia).
    destruct a as [|x a]; [cbn [app utf8]; rewrite H; reflexivity|]. simpl in L. cbn [app utf8].
    destruct (byte 0 127 x); [apply IH; [lia|exact H]|].
    destruct a as [|y a]; cbn [app].
    { rewrite Kc. rewrite !K by lia. cbn [andb]. destruct (byte 194 223 x); [reflexivity|].
      destruct b as [|b1 [|b2 b3]]; [reflexivity| |];
      repeat match goal with |- context [if ?e then _ else _] => destruct e end; reflexivity. }
    simpl in L. destruct (byte 194 223 x); [rewrite IH by (lia || exact H); destruct (cont y); reflexivity|].
    destruct a as [|z a]; cbn [app].
    { rewrite Kc. repeat rewrite andb_false_r. cbn [andb].
      destruct b as [|b1 b3]; repeat match goal with |- context [if ?e then _ else _] => destruct e end; reflexivity. }
    simpl in L.
    destruct (byte 224 224 x); [rewrite IH by (lia || exact H); destruct (byte 160 191 y), (cont z); reflexivity|].
    destruct (byte 225 236 x || byte 238 239 x)%bool; [rewrite IH by (lia || exact H); destruct (cont y), (cont z); reflexivity|].
    destruct (byte 237 237 x); [rewrite IH by (lia || exact H); destruct (byte 128 159 y), (cont z); reflexivity|].
    destruct a as [|w a]; cbn [app].
    { rewrite Kc. repeat rewrite andb_false_r. cbn [andb].
      repeat match goal with |- context [if ?e then _ else _] => destruct e end; reflexivity. }
    simpl in L.
    destruct (byte 240 240 x); [rewrite IH by (lia || exact H); destruct (byte 144 191 y), (cont z), (cont w); reflexivity|].
    destruct (byte 241 243 x); [rewrite IH by (lia || exact H); destruct (cont y), (cont z), (cont w); reflexivity|].
    destruct (byte 244 244 x); [rewrite IH by (lia || exact H); destruct (byte 128 143 y), (cont z), (cont w); reflexivity|].
    reflexivity.
Qed.
Lemma utf8_cut : forall a c b, byte 0 127 c = true -> utf8 (a ++ c :: b) = (utf8 a && utf8 b)%bool.
Proof. intros a c b. exact (utf8_cut_n (length a) a c b (le_n _)). Qed.
Lemma utf8_line : forall a b, utf8 ((a ++ [NL]) ++ b) = (utf8 (a ++ [NL]) && utf8 b)%bool.
Proof. intros a b. rewrite <- app_assoc. cbn [app]. rewrite !utf8_cut by reflexivity. rewrite andb_true_r. reflexivity. Qed.

Section Front.
Context {T : Tol} {EN : Env} {D : Doubles} {SW : Shows} {RN : Rand} {LL : Llvm}.

(** ** The pieces of a run that writes only to its writer *)
Definition pieces (evs : list event) : Prop := Forall (fun e => is_writer e = true) evs /\ (utf8 (at_both evs) = true -> Forall (fun e => utf8 (snd e) = true) evs).
Lemma header_pieces : forall attrs, Forall (fun e => is_writer e = true) (header attrs).
Proof. intros attrs. unfold header. constructor; [reflexivity|]. apply Forall_forall. intros e I. apply in_map_iff in I. destruct I as (a & <- & _). reflexivity. Qed.
Lemma metadata_nl : forall a, exists l, metadata a = l ++ [NL].
Proof. intros a. unfold metadata. eexists. rewrite !app_assoc. reflexivity. Qed.
Lemma header_utf8 : forall attrs b, utf8 (at_both (header attrs) ++ b) = true -> Forall (fun e => utf8 (snd e) = true) (header attrs) /\ utf8 b = true.
Proof.
  intros attrs b H. unfold header, at_both in *. cbn [map concat snd] in H. rewrite <- app_assoc in H. rewrite utf8_line in H.
  apply andb_prop in H. destruct H as [H1 H2]. cbn [snd].
  assert (X : Forall (fun e => utf8 (snd e) = true) (map (fun a => (ToWriter, metadata a)) attrs) /\ utf8 b = true).
  { induction attrs as [|a attrs IH]; [split; [constructor|exact H2]|]. cbn [map concat snd] in H2. rewrite <- app_assoc in H2.
    destruct (metadata_nl a) as [l El]. rewrite El in H2. rewrite utf8_line in H2. apply andb_prop in H2. destruct H2 as [A B].
    destruct (IH B) as [C E]. split; [|exact E]. cbn [map]. constructor; [cbn [snd]; rewrite El; exact A|exact C]. }
  destruct X as [X Y]. split; [constructor; [exact H1|exact X]|exact Y].
Qed.
Lemma pieces_nil : pieces [].
Proof. split; [constructor|intros _; constructor]. Qed.
Lemma pieces_header : forall attrs, pieces (header attrs).
Proof. intros attrs. split; [apply header_pieces|]. intros H. apply (header_utf8 attrs []). rewrite app_nil_r. exact H. Qed.
Lemma pieces_shot : forall attrs rec evs, pieces evs -> pieces (header attrs ++ [(ToWriter, rec); (ToWriter, lit "END" ++ [TAB] ++ lit "0"); (ToWriter, [NL])] ++ evs).
Proof.
  intros attrs rec evs [W U]. split.
  - apply Forall_app. split; [apply header_pieces|]. repeat (constructor; [reflexivity|]). exact W.
  - intros H. rewrite both_app in H. apply header_utf8 in H. destruct H as [H1 H2]. apply Forall_app. split; [exact H1|].
    unfold at_both in H2. cbn [app map concat snd] in H2. change (lit "END" ++ TAB :: lit "0") with ("E"%char :: lit "ND" ++ TAB :: lit "0") in H2.
    cbn [app] in H2. rewrite utf8_cut in H2 by reflexivity. apply andb_prop in H2. destruct H2 as [H2 H3].
    assert (H4 : utf8 (at_both evs) = true) by exact H3.
    constructor; [exact H2|]. constructor; [reflexivity|]. constructor; [reflexivity|]. apply U. exact H4.
Qed.

(** ** The same module in two processes with the same generators *)
Definition same_run (x y : list event * outcome * proc) : Prop :=
  snd (fst x) = snd (fst y) /\
  (returns (snd (fst x)) -> at_both (fst (fst x)) = at_both (fst (fst y)) /\ pgen (snd x) = pgen (snd y) /\ ptgen (snd x) = ptgen (snd y) /\
     pbuffer (snd x) = [] /\ pbuffer (snd y) = []).
Definition well (x : list event * outcome * proc) : Prop := returns (snd (fst x)) -> pieces (fst (fst x)).
Lemma shots_same : forall f fuel n m p q, pbuffer p = [] -> pbuffer q = [] -> pgen p = pgen q -> ptgen p = ptgen q -> fparams f = 0 ->
  same_run (run_shots f fuel n m p) (run_shots f fuel n m q).
Proof.
  intros f fuel n. induction n as [|n IH]; intros m p q Hp Hq G R F.
  - split; [reflexivity|]. intros _. simpl. auto.
  - rewrite (run_shots_S f fuel n m p Hp F), (run_shots_S f fuel n m q Hq F), <- G, <- R.
    destruct (fresh_run f fuel m (pgen p) (ptgen p)) as [m1 w|e o|o]; [|split; [reflexivity|contradiction]..].
    assert (X := IH m1 (mkProc (with_wout w []) (pstd p)) (mkProc (with_wout w []) (pstd q)) eq_refl eq_refl eq_refl eq_refl F).
    cbv zeta. destruct X as [X Y]. split; [exact X|]. cbn [fst snd]. intros Rt. destruct (Y Rt) as (A & B). split; [|exact B].
    rewrite !both_app, A. f_equal. rewrite !app_assoc. f_equal.
    destruct (pstd p), (pstd q); unfold at_both, tail_events; cbn [map concat snd app]; rewrite ?app_nil_r; reflexivity.
Qed.
Lemma shots_well : forall f fuel n m p, pbuffer p = [] -> pstd p = false -> fparams f = 0 -> well (run_shots f fuel n m p).
Proof.
  intros f fuel n. induction n as [|n IH]; intros m p Hp S F; [intros _; apply pieces_nil|].
  rewrite (run_shots_S f fuel n m p Hp F). rewrite S.
  destruct (fresh_run f fuel m (pgen p) (ptgen p)) as [m1 w|e o|o]; [|intros []..].
  assert (X := IH m1 (mkProc (with_wout w []) false) eq_refl eq_refl F). unfold well in *. cbv zeta. cbn [fst snd].
  intros Rt. apply pieces_shot. exact (X Rt).
Qed.
Lemma module_same : forall fs name fuel n p q, pbuffer p = [] -> pbuffer q = [] -> pgen p = pgen q -> ptgen p = ptgen q ->
  same_run (run_module fs name fuel n p) (run_module fs name fuel n q).
Proof.
  intros fs name fuel n p q Hp Hq G R. unfold run_module.
  assert (Z : forall e, same_run ([], RErr e, p) ([], RErr e, q)) by (intros e; split; [reflexivity|]; intros _; simpl; auto).
  destruct (prepare fs) as [fs'|e]; [|apply Z]. destruct (bind_functions fs'); try apply Z. destruct (choose_entry_point fs' name) as [f|e]; [|apply Z].
  destruct (Nat.eq_dec (fparams f) 0) as [F|F]; [apply shots_same; assumption|].
  destruct n as [|n]; [split; [reflexivity|]; intros _; simpl; auto|]. rewrite !signature_thm by exact F.
  split; [reflexivity|]. intros _. cbn [fst snd]. split; [reflexivity|]. rewrite (init_fresh p Hp), (init_fresh q Hq).
  unfold pgen, ptgen, pbuffer. cbn [pworld wback wtgen]. fold (pgen p) (pgen q) (ptgen p) (ptgen q). rewrite G, R. auto.
Qed.
Lemma module_well : forall fs name fuel n p, pbuffer p = [] -> pstd p = false -> well (run_module fs name fuel n p).
Proof.
  intros fs name fuel n p Hp S. unfold run_module.
  assert (Z : forall e, well ([], RErr e, p)) by (intros e _; apply pieces_nil).
  destruct (prepare fs) as [fs'|e]; [|apply Z]. destruct (bind_functions fs'); try apply Z. destruct (choose_entry_point fs' name) as [f|e]; [|apply Z].
  destruct (Nat.eq_dec (fparams f) 0) as [F|F]; [apply shots_well; assumption|].
  destruct n as [|n]; [intros _; apply pieces_nil|]. rewrite signature_thm by exact F. intros _. apply pieces_header.
Qed.

(** ** Tasks *)
Definition run_task (t : task) (fuel : nat) (p : proc) : loaded :=
  match t_source t with
  | SFile path => run_file path (t_entry t) fuel (N.to_nat (t_shots t)) (t_seed t) p
  | SBytes bytes => run_bytes bytes (t_entry t) fuel (N.to_nat (t_shots t)) (t_seed t) p
  end.
Definition mode (c : call) (p : proc) : proc := match c with CMain _ _ _ => p | _ => use_std_out (negb (has_callback c)) p end.
Lemma ask_run : forall c t fuel p, asks c t -> do_call fuel c p = delivered (has_callback c) (run_task t fuel (mode c p)).
Proof.
  intros c t fuel p A. destruct A as [path e n g cb|bytes e n g cb|prog args tty stdin path s S F N|prog args bytes s S F N]; try reflexivity.
  - apply read_options_thm in S. unfold do_call, cli_main. cbn [tl]. rewrite S, F. destruct (String.eqb_spec path "-"); [contradiction|]. reflexivity.
  - apply read_options_thm in S. unfold do_call, cli_main. cbn [tl]. rewrite S.
    assert (E : (match s_file s with Some path => if String.eqb path "-" then None else Some path | None => None end) = None) by (destruct F as [-> | ->]; reflexivity).
    rewrite E. destruct bytes; [contradiction|]. reflexivity.
Qed.
Definition same_load (x y : loaded) : Prop := match x, y with LRun a, LRun b => same_run a b | LPastEnd, LPastEnd => True | _, _ => False end.
Definition well_load (x : loaded) : Prop := match x with LRun a => well a | LPastEnd => True end.
Lemma seed_gen : forall g p q, (g = None -> pgen p = pgen q) -> pgen (seed_opt g p) = pgen (seed_opt g q).
Proof. intros [g|] p q H; [reflexivity|exact (H eq_refl)]. Qed.
Lemma seed_keeps : forall g p, pbuffer (seed_opt g p) = pbuffer p /\ ptgen (seed_opt g p) = ptgen p /\ pstd (seed_opt g p) = pstd p.
Proof. intros [g|] p; repeat split; reflexivity. Qed.
Lemma task_same : forall t fuel p q, pbuffer p = [] -> pbuffer q = [] -> (t_seed t = None -> pgen p = pgen q) -> ptgen p = ptgen q ->
  same_load (run_task t fuel p) (run_task t fuel q).
Proof.
  intros t fuel p q Hp Hq G R. apply seed_gen in G. destruct (seed_keeps (t_seed t) p) as (P1 & P2 & _), (seed_keeps (t_seed t) q) as (Q1 & Q2 & _).
  rewrite <- P1 in Hp. rewrite <- Q1 in Hq. assert (R' : ptgen (seed_opt (t_seed t) p) = ptgen (seed_opt (t_seed t) q)) by congruence.
  assert (Z : forall e, same_load (LRun ([], RErr e, seed_opt (t_seed t) p)) (LRun ([], RErr e, seed_opt (t_seed t) q))).
  { intros e. split; [reflexivity|]. intros _. simpl. auto. }
  unfold run_task. destruct (t_source t) as [path|bytes].
  - unfold run_file. cbv zeta. destruct (load_file path) as [fs|e|]; [|apply Z|exact I]. apply module_same; assumption.
  - unfold run_bytes. cbv zeta. destruct (length bytes <? 4); [apply Z|]. destruct (create_module_from_ir bytes _) as [fs|e|]; [|apply Z|exact I]. apply module_same; assumption.
Qed.
Lemma task_well : forall t fuel p, pbuffer p = [] -> pstd p = false -> well_load (run_task t fuel p).
Proof.
  intros t fuel p Hp S. destruct (seed_keeps (t_seed t) p) as (P1 & _ & P3). rewrite <- P1 in Hp. rewrite <- P3 in S.
  assert (Z : forall e, well_load (LRun ([], RErr e, seed_opt (t_seed t) p))) by (intros e _; apply pieces_nil).
  unfold run_task. destruct (t_source t) as [path|bytes].
  - unfold run_file. cbv zeta. destruct (load_file path) as [fs|e|]; [|apply Z|exact I]. apply module_well; assumption.
  - unfold run_bytes. cbv zeta. destruct (length bytes <? 4); [apply Z|]. destruct (create_module_from_ir bytes _) as [fs|e|]; [|apply Z|exact I]. apply module_well; assumption.
Qed.

(** ** Delivery *)
Lemma route_console : forall evs, route false evs = (mkSeen (at_both evs) [], true).
Proof. induction evs as [|[k t] evs IH]; [reflexivity|]. cbn [route]. rewrite IH. destruct k; reflexivity. Qed.
Lemma route_callback : forall evs, Forall (fun e => is_writer e = true) evs -> Forall (fun e => utf8 (snd e) = true) evs ->
  exists s, route true evs = (s, true) /\ on_console s = [] /\ concat (to_callback s) = at_both evs.
Proof.
  induction evs as [|[k t] evs IH]; intros W U; [exists (mkSeen [] []); auto|].
  inversion W as [|? ? W1 W2]; inversion U as [|? ? U1 U2]; subst. destruct (IH W2 U2) as (s & E & C & K). destruct k; [|discriminate].
  cbn [route]. rewrite E. destruct t as [|c t].
  - exists s. auto.
  - cbn [snd] in U1. rewrite U1. eexists. split; [reflexivity|]. split; [exact C|]. unfold at_both in *. cbn [to_callback concat map snd]. rewrite K. reflexivity.
Qed.
Lemma route_ok : forall evs s, Forall (fun e => is_writer e = true) evs -> route true evs = (s, true) -> on_console s = [] /\ concat (to_callback s) = at_both evs.
Proof.
  induction evs as [|[k t] evs IH]; intros s W R; [inversion R; subst; auto|]. inversion W as [|? ? W1 W2]; subst. destruct k; [|discriminate].
  cbn [route] in R. destruct (route true evs) as [s1 ok] eqn:E. destruct t as [|c t].
  - inversion R; subst. apply (IH s W2 eq_refl).
  - destruct (utf8 (c :: t)); inversion R; subst. destruct (IH s1 W2 eq_refl) as [A B]. split; [exact A|]. unfold at_both in *. cbn [to_callback concat map snd]. rewrite B. reflexivity.
Qed.
Lemma delivered_inv : forall cb l s r p, delivered cb l = DRan s r p -> exists evs, l = LRun (evs, r, p) /\ route cb evs = (s, true).
Proof.
  intros cb l s r p H. destruct l as [[[evs r'] p']|]; [|discriminate]. unfold delivered in H. destruct (route cb evs) as [s' [|]] eqn:E; inversion H; subst. eauto.
Qed.
Lemma mode_keeps : forall c p, pbuffer (mode c p) = pbuffer p /\ pgen (mode c p) = pgen p /\ ptgen (mode c p) = ptgen p /\ (has_callback c = true -> pstd (mode c p) = false).
Proof. intros [] p; simpl; repeat split; try reflexivity; try (intros ->; reflexivity); discriminate. Qed.

Theorem front_thm : forall fuel a b t p q s r p1, asks a t -> asks b t -> pbuffer p = [] -> pbuffer q = [] ->
  (t_seed t = None -> pgen p = pgen q) -> ptgen p = ptgen q ->
  do_call fuel a p = DRan s r p1 -> returns r -> (has_callback b = true -> utf8 (shown s) = true) ->
  exists s' q1, do_call fuel b q = DRan s' r q1 /\ shown s' = shown s /\ in_place a s /\ in_place b s' /\
    pgen q1 = pgen p1 /\ ptgen q1 = ptgen p1 /\ pbuffer p1 = [] /\ pbuffer q1 = [].
Proof.
  intros fuel a b t p q s r p1 Aa Ab Hp Hq G R Ra Rt U.
  rewrite (ask_run a t fuel p Aa) in Ra. rewrite (ask_run b t fuel q Ab).
  destruct (mode_keeps a p) as (Ma1 & Ma2 & Ma3 & Ma4), (mode_keeps b q) as (Mb1 & Mb2 & Mb3 & Mb4).
  assert (X := task_same t fuel (mode a p) (mode b q) ltac:(congruence) ltac:(congruence) ltac:(intros E; rewrite Ma2, Mb2; auto) ltac:(congruence)).
  destruct (delivered_inv _ _ _ _ _ Ra) as (evs & La & Ro). rewrite La in X.
  destruct (run_task t fuel (mode b q)) as [[[evs' r'] q1]|] eqn:Lb; [|contradiction]. destruct X as [X Y]. cbn [fst snd] in X, Y. subst r'.
  destruct (Y Rt) as (E & P1 & P2 & P3 & P4).
  assert (Sa : shown s = at_both evs /\ in_place a s).
  { unfold in_place, shown. destruct (has_callback a) eqn:Ca.
    - assert (W := task_well t fuel (mode a p) ltac:(congruence) (Ma4 eq_refl)). rewrite La in W. destruct (W Rt) as [W1 _].
      destruct (route_ok evs s W1 Ro) as [A B]. rewrite A, B. auto.
    - rewrite route_console in Ro. inversion Ro; subst. simpl. rewrite app_nil_r. auto. }
  destruct Sa as [Sa Ia].
  assert (Sb : exists s', route (has_callback b) evs' = (s', true) /\ shown s' = at_both evs' /\ in_place b s').
  { unfold in_place, shown. destruct (has_callback b) eqn:Cb.
    - assert (W := task_well t fuel (mode b q) ltac:(congruence) (Mb4 eq_refl)). rewrite Lb in W. destruct (W Rt) as [W1 W2].
      rewrite Sa, E in U. destruct (route_callback evs' W1 (W2 (U eq_refl))) as (s' & R1 & R2 & R3). exists s'. rewrite R2, R3. auto.
    - rewrite route_console. eexists. split; [reflexivity|]. simpl. rewrite app_nil_r. auto. }
  destruct Sb as (s' & R1 & R2 & R3). exists s', q1. unfold delivered. rewrite R1.
  split; [reflexivity|]. split; [congruence|]. auto 10.
Qed.

(** ** Calls one after the other *)
Lemma call_cases : forall fuel c p s r p1, do_call fuel c p = DRan s r p1 -> exists t, do_call fuel c p = delivered (has_callback c) (run_task t fuel (mode c p)) \/
  do_call fuel c p = delivered false (LRun ([], RErr (FInput "Input is empty"), p)).
Proof.
  intros fuel c p s r p1 H. destruct c as [path e n g cb|bytes e n g cb|args tty stdin].
  - eexists. left. exact (ask_run _ _ fuel p (a_run path e n g cb)).
  - eexists. left. exact (ask_run _ _ fuel p (a_bytes bytes e n g cb)).
  - unfold do_call, cli_main in *. destruct (read_args (tl args) no_settings) as [st| | |]; try discriminate.
    destruct (match s_file st with Some path => if String.eqb path "-" then None else Some path | None => None end) as [path|].
    + exists (mkTask (SFile path) (s_entry st) (or_one (s_shots st)) (s_seed st)). left. reflexivity.
    + destruct tty; [discriminate|]. destruct stdin as [|x stdin].
      * exists (mkTask (SFile "") None 0 None). right. reflexivity.
      * exists (mkTask (SBytes (x :: stdin)) (s_entry st) (or_one (s_shots st)) (s_seed st)). left. reflexivity.
Qed.
Lemma call_buffer : forall fuel c p s r p1, pbuffer p = [] -> do_call fuel c p = DRan s r p1 -> returns r -> pbuffer p1 = [].
Proof.
  intros fuel c p s r p1 Hp H Rt. destruct (call_cases fuel c p s r p1 H) as (t & [E|E]); rewrite E in H.
  - destruct (delivered_inv _ _ _ _ _ H) as (evs & L & _). destruct (mode_keeps c p) as (M1 & _).
    assert (X := task_same t fuel (mode c p) (mode c p) ltac:(congruence) ltac:(congruence) (fun _ => eq_refl) eq_refl).
    rewrite L in X. destruct X as [_ X]. apply (X Rt).
  - inversion H; subst. exact Hp.
Qed.
Lemma after_buffer : forall fuel cs p q, pbuffer p = [] -> after fuel cs p = Some q -> pbuffer q = [].
Proof.
  intros fuel cs. induction cs as [|c cs IH]; intros p q Hp H; cbn [after] in H; [inversion H; subst; exact Hp|].
  destruct (do_call fuel c p) as [s r p1|s|p1|p1|] eqn:E; try discriminate.
  - destruct r; try discriminate; apply (IH p1 q); auto; (eapply call_buffer; [exact Hp|exact E|exact I]).
  - apply (IH p1 q); auto. destruct c; try (cbn [do_call] in E; unfold delivered in E; destruct (run_file _ _ _ _ _ _) as [[[? ?] ?]|] || destruct (run_bytes _ _ _ _ _ _) as [[[? ?] ?]|]; try discriminate; destruct (route _ _) as [? []]; discriminate).
    unfold do_call in E. destruct (cli_main args tty stdin fuel p) as [| |l]; [inversion E; subst; exact Hp|discriminate|].
    unfold delivered in E. destruct l as [[[? ?] ?]|]; [|discriminate]. destruct (route _ _) as [? []]; discriminate.
  - apply (IH p1 q); auto. destruct c; try (cbn [do_call] in E; unfold delivered in E; destruct (run_file _ _ _ _ _ _) as [[[? ?] ?]|] || destruct (run_bytes _ _ _ _ _ _) as [[[? ?] ?]|]; try discriminate; destruct (route _ _) as [? []]; discriminate).
    unfold do_call in E. destruct (cli_main args tty stdin fuel p) as [| |l]; [discriminate|inversion E; subst; exact Hp|].
    unfold delivered in E. destruct l as [[[? ?] ?]|]; [|discriminate]. destruct (route _ _) as [? []]; discriminate.
Qed.
End Front.
