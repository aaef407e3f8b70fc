(** * Shots, framing, seeds, entry points *)
From Coq Require Import String Ascii List NArith ZArith Reals Bool Lia.
From Verif Require Import Cx Bits Arith ArithR IndexMap Sim SimExp SimApply Spec SpecRun SimRun Text Backend Runner SpecRunner.
Import ListNotations.

Section Runs.
Context {T : Tol} {EN : Env} {D : Doubles} {SW : Shows} {RN : Rand}.

Lemma init_fresh : forall p : proc, pbuffer p = [] -> initialize (pworld p) = mkWorld (back_default (pgen p)) (ptgen p).
Proof. intros [[b t] s] H. unfold pbuffer in H. simpl in H. unfold initialize, rt_initialize, back_default, pgen, ptgen. simpl. rewrite H. reflexivity. Qed.
Lemma init_fresh_out : forall p : proc, with_wout (initialize (pworld p)) [] = mkWorld (back_default (pgen p)) (ptgen p).
Proof. intros [[b t] s]. reflexivity. Qed.

(** What one shot does to a process with an empty buffer. *)
Lemma code_fresh : forall f fuel m p, pbuffer p = [] ->
  run_code (fprog f) fuel m (pstd p) (initialize (pworld p)) =
  match fresh_run f fuel m (pgen p) (ptgen p) with
  | PDone m' w => if pstd p then ([(ToStdout, bout (wback w))], PDone m' (with_wout w [])) else ([], PDone m' w)
  | PStop e o => (if pstd p then [(ToStdout, o)] else [], PStop e o)
  | PMore o => (if pstd p then [(ToStdout, o)] else [], PMore o)
  end.
Proof.
  intros f fuel m p H. unfold run_code, fresh_run. rewrite init_fresh_out. destruct (pstd p) eqn:E.
  - rewrite (init_fresh p H). destruct (run_from _ _ _ _); reflexivity.
  - rewrite (init_fresh p H). destruct (run_from _ _ _ _); reflexivity.
Qed.

(** Views of a list of events. *)
Lemma both_app : forall a b, at_both (a ++ b) = at_both a ++ at_both b.
Proof. intros. unfold at_both. rewrite map_app, concat_app. reflexivity. Qed.
Lemma writer_app : forall a b, at_writer (a ++ b) = at_writer a ++ at_writer b.
Proof. intros. unfold at_writer. rewrite filter_app, map_app, concat_app. reflexivity. Qed.
Lemma stdout_app : forall a b, at_stdout (a ++ b) = at_stdout a ++ at_stdout b.
Proof. intros. unfold at_stdout. rewrite filter_app, map_app, concat_app. reflexivity. Qed.
Lemma lit_nil : forall s, (String.eqb s "" = true <-> lit s = []).
Proof. intros [|a s]; simpl; split; intros H; try reflexivity; discriminate. Qed.
Lemma metadata_line : forall a, metadata a = line (lit "METADATA" :: lit (fst a) :: match lit (snd a) with [] => [] | v => [v] end).
Proof.
  intros [k v]. unfold metadata, line. cbn [fst snd]. destruct (String.eqb v "") eqn:E.
  - apply lit_nil in E. rewrite E. cbn [fields]. repeat rewrite <- app_assoc. reflexivity.
  - destruct (lit v) eqn:L. { apply lit_nil in L. congruence. }
    rewrite <- L. cbn [fields]. repeat rewrite <- app_assoc. reflexivity.
Qed.
Lemma header_writer : forall attrs, at_writer (header attrs) = preamble attrs.
Proof.
  intros attrs. unfold header, preamble, at_writer. cbn [filter is_writer fst map snd concat]. f_equal.
  induction attrs as [|a l IH]; [reflexivity|]. cbn [map filter is_writer fst snd concat]. rewrite IH, metadata_line. reflexivity.
Qed.
Lemma header_both : forall attrs, at_both (header attrs) = preamble attrs.
Proof.
  intros attrs. unfold header, preamble, at_both. cbn [map snd concat]. f_equal.
  induction attrs as [|a l IH]; [reflexivity|]. cbn [map snd concat]. rewrite IH, metadata_line. reflexivity.
Qed.
Lemma header_stdout : forall attrs, at_stdout (header attrs) = [].
Proof.
  intros attrs. unfold header, at_stdout. cbn [filter is_writer fst negb].
  induction attrs as [|a l IH]; [reflexivity|]. cbn [map filter is_writer fst negb]. exact IH.
Qed.

Definition tail_events (o : text) : list event := [(ToWriter, o); (ToWriter, lit "END" ++ [TAB] ++ lit "0"); (ToWriter, [NL])].
Lemma arrives_nil : forall std attrs, arrives std attrs [] [].
Proof. intros [] attrs; repeat split. Qed.
Lemma arrives_cons : forall std attrs r recs evs, arrives std attrs recs evs ->
  arrives std attrs (r :: recs) (header attrs ++ (if std then [(ToStdout, r)] else []) ++ tail_events (if std then [] else r) ++ evs).
Proof.
  intros std attrs r recs evs (A & B & C). unfold arrives.
  rewrite !both_app, !writer_app, !stdout_app, header_both, header_writer, header_stdout, A, B, C.
  destruct std; unfold at_both, at_writer, at_stdout, tail_events;
    cbn [filter is_writer fst negb map snd concat]; unfold block, line; cbn [fields]; repeat rewrite app_nil_r;
    repeat (rewrite <- app_assoc || rewrite app_nil_l); repeat split; reflexivity.
Qed.
Lemma arrives_app : forall std attrs r1 e1 r2 e2, arrives std attrs r1 e1 -> arrives std attrs r2 e2 -> arrives std attrs (r1 ++ r2) (e1 ++ e2).
Proof.
  intros std attrs r1 e1 r2 e2 (A & B & C) (A' & B' & C'). unfold arrives.
  rewrite both_app, writer_app, stdout_app, A, B, C, A', B', C', map_app, concat_app. split; [reflexivity|].
  destruct std; [rewrite !map_app, !concat_app|rewrite map_app, concat_app]; split; reflexivity.
Qed.

Lemma shots_length : forall f fuel n m g t recs m' g' t', shots_of f fuel n m g t recs m' g' t' -> length recs = n.
Proof. intros f fuel n m g t recs m' g' t' H. induction H; simpl; congruence. Qed.

(** One shot, then the others. *)
Lemma run_shots_S : forall f fuel n m p, pbuffer p = [] -> fparams f = 0 ->
  run_shots f fuel (S n) m p =
  match fresh_run f fuel m (pgen p) (ptgen p) with
  | PDone m1 w =>
    let x := run_shots f fuel n m1 (mkProc (with_wout w []) (pstd p)) in
    (header (fattrs f) ++ (if pstd p then [(ToStdout, bout (wback w))] else []) ++
     tail_events (if pstd p then [] else bout (wback w)) ++ fst (fst x), snd (fst x), snd x)
  | PStop e o => (header (fattrs f) ++ (if pstd p then [(ToStdout, o)] else []), RAbort e, p)
  | PMore o => (header (fattrs f) ++ (if pstd p then [(ToStdout, o)] else []), RRunning, p)
  end.
Proof.
  intros f fuel n m p H F. cbn [run_shots]. rewrite F. cbn [Nat.eqb]. rewrite (code_fresh f fuel m p H).
  destruct (fresh_run f fuel m (pgen p) (ptgen p)) as [m1 w|e o|o]; [|reflexivity..].
  destruct (pstd p).
  - change (with_wout (with_wout w []) []) with (with_wout w []).
    destruct (run_shots f fuel n m1 (mkProc (with_wout w []) true)) as [[evs r] p'] eqn:R. reflexivity.
  - destruct (run_shots f fuel n m1 (mkProc (with_wout w []) false)) as [[evs r] p'] eqn:R. reflexivity.
Qed.

(** Everything a run of the shots can do. *)
Lemma run_shots_thm : forall f fuel n m p, pbuffer p = [] -> fparams f = 0 ->
  match run_shots f fuel n m p with
  | (evs, ROk, p') => exists recs m' g' t', shots_of f fuel n m (pgen p) (ptgen p) recs m' g' t' /\ arrives (pstd p) (fattrs f) recs evs /\
      pgen p' = g' /\ ptgen p' = t' /\ pbuffer p' = [] /\ pstd p' = pstd p
  | (evs, RAbort e, p') => exists k recs m1 g1 t1 o evs', k < n /\ shots_of f fuel k m (pgen p) (ptgen p) recs m1 g1 t1 /\
      fresh_run f fuel m1 g1 t1 = PStop e o /\ arrives (pstd p) (fattrs f) recs evs' /\
      evs = evs' ++ header (fattrs f) ++ (if pstd p then [(ToStdout, o)] else [])
  | (evs, RRunning, p') => exists k recs m1 g1 t1 o evs', k < n /\ shots_of f fuel k m (pgen p) (ptgen p) recs m1 g1 t1 /\
      fresh_run f fuel m1 g1 t1 = PMore o /\ arrives (pstd p) (fattrs f) recs evs' /\
      evs = evs' ++ header (fattrs f) ++ (if pstd p then [(ToStdout, o)] else [])
  | (evs, RErr _, p') => False
  end.
Proof.
  intros f fuel n. induction n as [|n IH]; intros m p H F.
  - simpl. exists [], m, (pgen p), (ptgen p). split; [constructor|]. split; [apply arrives_nil|auto].
  - rewrite (run_shots_S f fuel n m p H F).
    destruct (fresh_run f fuel m (pgen p) (ptgen p)) as [m1 w|e o|o] eqn:E.
    + set (p1 := mkProc (with_wout w []) (pstd p)).
      assert (IH' := IH m1 p1 eq_refl F).
      change (pgen p1) with (rng (bsim (wback w))) in IH'. change (ptgen p1) with (wtgen w) in IH'. change (pstd p1) with (pstd p) in IH'.
      destruct (run_shots f fuel n m1 p1) as [[evs r] p'] eqn:R. cbv zeta. cbn [fst snd]. destruct r.
      * destruct IH' as (recs & m' & g' & t' & S1 & A & P1 & P2 & P3 & P4).
        exists (bout (wback w) :: recs), m', g', t'. split; [econstructor; eauto|]. split; [apply arrives_cons; exact A|auto].
      * exact IH'.
      * destruct IH' as (k & recs & m2 & g1 & t1 & o & evs' & L & S1 & St & A & Ev).
        exists (S k), (bout (wback w) :: recs), m2, g1, t1, o. eexists. split; [lia|]. split; [econstructor; eauto|]. split; [exact St|].
        split; [apply arrives_cons; exact A|]. rewrite Ev. repeat rewrite <- app_assoc. reflexivity.
      * destruct IH' as (k & recs & m2 & g1 & t1 & o & evs' & L & S1 & St & A & Ev).
        exists (S k), (bout (wback w) :: recs), m2, g1, t1, o. eexists. split; [lia|]. split; [econstructor; eauto|]. split; [exact St|].
        split; [apply arrives_cons; exact A|]. rewrite Ev. repeat rewrite <- app_assoc. reflexivity.
    + exists 0, [], m, (pgen p), (ptgen p), o, []. split; [lia|]. split; [constructor|]. split; [exact E|]. split; [apply arrives_nil|reflexivity].
    + exists 0, [], m, (pgen p), (ptgen p), o, []. split; [lia|]. split; [constructor|]. split; [exact E|]. split; [apply arrives_nil|reflexivity].
Qed.
(** Shots that can be run are run. *)
Lemma shots_run : forall f fuel n m p recs m' g' t', pbuffer p = [] -> fparams f = 0 ->
  shots_of f fuel n m (pgen p) (ptgen p) recs m' g' t' -> exists evs p', run_shots f fuel n m p = (evs, ROk, p').
Proof.
  intros f fuel n m p recs m' g' t' H F S1. remember (pgen p) as g. remember (ptgen p) as t.
  revert p H Heqg Heqt. induction S1 as [m g t|n m g t m1 w recs m' g' t' E S1 IH]; intros p H -> ->.
  - eexists. eexists. reflexivity.
  - rewrite (run_shots_S f fuel n m p H F), E.
    destruct (IH (mkProc (with_wout w []) (pstd p)) eq_refl eq_refl eq_refl) as (evs & p' & R).
    cbv zeta. rewrite R. eexists. eexists. reflexivity.
Qed.
Lemma shots_fun : forall f fuel n m g t r1 m1 g1 t1 r2 m2 g2 t2, shots_of f fuel n m g t r1 m1 g1 t1 -> shots_of f fuel n m g t r2 m2 g2 t2 ->
  r1 = r2 /\ m1 = m2 /\ g1 = g2 /\ t1 = t2.
Proof.
  intros f fuel n m g t r1 m1 g1 t1 r2 m2 g2 t2 A. revert r2 m2 g2 t2. induction A; intros r2 m2 g2 t2 B.
  - inversion B; subst. auto.
  - inversion B; subst. rewrite H in H1. inversion H1; subst. destruct (IHA _ _ _ _ H2) as (-> & -> & -> & ->). auto.
Qed.

(** ** The thread's generator is only used by [drawrandomint] *)
Definition same_end {M} (x y : @prun T EN RN M) : Prop :=
  match x, y with
  | PDone m w, PDone m' w' => m = m' /\ wback w = wback w'
  | PStop e o, PStop e' o' => e = e' /\ o = o'
  | PMore o, PMore o' => o = o'
  | _, _ => False
  end.
Lemma same_end_refl : forall M (x : @prun T EN RN M), same_end x x.
Proof. intros M [m w|e o|o]; simpl; auto. Qed.
Lemma run_tgen : forall p, draws_nothing p -> forall fuel l b t t', same_end (run_from p fuel l (mkWorld b t)) (run_from p fuel l (mkWorld b t')).
Proof.
  intros p ND fuel. induction fuel as [|fuel IH]; intros l b t t'; [reflexivity|].
  cbn [run_from wback wtgen]. destruct (pstep p l) as [m|c k|lo hi k|] eqn:E.
  - simpl; auto.
  - destruct (bcall1 c b); [apply IH|simpl; auto].
  - exfalso. apply (ND _ _ _ _ E).
  - simpl; auto.
Qed.
Lemma shots_tgen : forall f, draws_nothing (fprog f) -> forall fuel n m p p', pgen p = pgen p' -> pstd p = pstd p' -> pbuffer p = [] -> pbuffer p' = [] ->
  fst (run_shots f fuel n m p) = fst (run_shots f fuel n m p').
Proof.
  intros f ND fuel n. induction n as [|n IH]; intros m p p' G SD H H'; [reflexivity|].
  destruct (Nat.eq_dec (fparams f) 0) as [F|F].
  2:{ cbn [run_shots]. apply Nat.eqb_neq in F. rewrite F. reflexivity. }
  rewrite (run_shots_S f fuel n m p H F), (run_shots_S f fuel n m p' H' F), G, SD. unfold fresh_run.
  assert (R := run_tgen _ ND fuel (pstart (fprog f) m) (back_default (pgen p')) (ptgen p) (ptgen p')).
  destruct (run_from _ _ _ (mkWorld _ (ptgen p))) as [m1 w|e o|o], (run_from _ _ _ (mkWorld _ (ptgen p'))) as [m1' w'|e' o'|o']; simpl in R; try contradiction.
  - destruct R as [<- R].
    assert (X := IH m1 (mkProc (with_wout w []) (pstd p')) (mkProc (with_wout w' []) (pstd p')) (f_equal (fun b => rng (bsim b)) R) eq_refl eq_refl eq_refl).
    cbv zeta. cbn [fst]. rewrite X, R. reflexivity.
  - destruct R as [<- <-]. reflexivity.
  - subst o'. reflexivity.
Qed.

(** Without memory and draws the shots are alone. *)
Lemma shots_alone : forall f, draws_nothing (fprog f) -> keeps_nothing (fprog f) -> forall fuel n m g t recs m' g' t',
  shots_of f fuel n m g t recs m' g' t' -> alone f fuel g recs g'.
Proof.
  intros f ND KN fuel n m g t recs m' g' t' H. induction H as [m g t|n m g t m1 w recs m' g' t' E H IH]; [constructor|].
  econstructor; [|exact IH]. intros m2 t2. rewrite (KN m2 m).
  assert (R := run_tgen _ ND fuel (pstart (fprog f) m) (back_default g) t t2). unfold fresh_run in *. rewrite E in R.
  destruct (run_from _ _ _ (mkWorld _ t2)) as [m3 w'|e o|o]; simpl in R; try contradiction. destruct R as [_ R].
  exists m3, w'. rewrite <- R. auto.
Qed.

(** ** Entry points *)
Lemma has_attr_iff : forall k f, has_attr k f = true <-> carries k f.
Proof.
  intros k f. unfold has_attr, carries. rewrite existsb_exists. split.
  - intros [[a v] [I E]]. apply String.eqb_eq in E. simpl in E. subst. eauto.
  - intros [v I]. exists (k, v). split; auto. apply String.eqb_refl.
Qed.
Lemma wanted_iff : forall name f, (is_entry_point f && match name with Some n => String.eqb (fname f) n | None => true end)%bool = true <-> wanted name f.
Proof.
  intros name f. rewrite andb_true_iff. unfold is_entry_point, wanted. rewrite orb_true_iff, !has_attr_iff.
  destruct name as [n|].
  - rewrite String.eqb_eq. split; intros [A B]; split; auto. intros n' E. congruence.
  - split; intros [A B]; split; auto. intros n' E. discriminate.
Qed.
Lemma filter_one : forall (P : func -> Prop) (t : func -> bool) fs f, (forall x, t x = true <-> P x) -> filter t fs = [f] <-> only_one P fs f.
Proof.
  intros P t fs f H. split.
  - induction fs as [|x fs IH]; [discriminate|]. simpl. destruct (t x) eqn:E.
    + intros X. inversion X; subst. exists [], fs. split; [reflexivity|]. split; [apply H; exact E|].
      intros y Iy Py. apply H in Py. assert (In y (filter t fs)) by (apply filter_In; auto). rewrite H2 in H0. destruct H0.
    + intros X. destruct (IH X) as (l1 & l2 & -> & Pf & N). exists (x :: l1), l2. split; [reflexivity|]. split; [exact Pf|].
      intros y [->|Iy] Py; [apply H in Py; congruence|apply (N y Iy Py)].
  - intros (l1 & l2 & -> & Pf & N). rewrite filter_app. simpl. rewrite (proj2 (H f) Pf).
    assert (Z : forall l, (forall x, In x l -> ~ P x) -> filter t l = []).
    { induction l as [|x l IH]; intros Nl; [reflexivity|]. simpl. destruct (t x) eqn:E; [|apply IH; intros; apply Nl; simpl; auto].
      exfalso. apply (Nl x (or_introl eq_refl)). apply H. exact E. }
    rewrite !Z; [reflexivity| |]; intros x Ix; apply N; apply in_or_app; auto.
Qed.
Lemma filter_none : forall (P : func -> Prop) (t : func -> bool) fs, (forall x, t x = true <-> P x) -> filter t fs = [] <-> forall f, In f fs -> ~ P f.
Proof.
  intros P t fs H. split.
  - intros E f I Pf. apply H in Pf. assert (In f (filter t fs)) by (apply filter_In; auto). rewrite E in H0. destruct H0.
  - intros N. induction fs as [|x fs IH]; [reflexivity|]. simpl. destruct (t x) eqn:E.
    + exfalso. apply (N x (or_introl eq_refl)). apply H. exact E.
    + apply IH. intros f I. apply N. simpl; auto.
Qed.
Lemma filter_many : forall (P : func -> Prop) (t : func -> bool) fs, (forall x, t x = true <-> P x) -> several P fs <-> exists a b l, filter t fs = a :: b :: l.
Proof.
  intros P t fs H. split.
  - intros (l1 & f & l2 & f' & l3 & -> & Pf & Pf'). apply H in Pf. apply H in Pf'. rewrite filter_app. simpl. rewrite Pf, filter_app. simpl. rewrite Pf'.
    destruct (filter t l1) as [|x [|y q]]; simpl; [|eauto..]. destruct (filter t l2) as [|x q]; simpl; eauto.
  - intros (a & b & l & E).
    assert (Sp : forall fs x r, filter t fs = x :: r -> exists l1 l2, fs = l1 ++ x :: l2 /\ t x = true /\ filter t l2 = r).
    { induction fs0 as [|y fs0 IH]; intros x r X; [discriminate|]. simpl in X. destruct (t y) eqn:Ey.
      - inversion X; subst. exists [], fs0. auto.
      - destruct (IH _ _ X) as (l1 & l2 & -> & A & B). exists (y :: l1), l2. auto. }
    destruct (Sp _ _ _ E) as (l1 & l2 & -> & A & B). destruct (Sp _ _ _ B) as (l3 & l4 & -> & C & _).
    exists l1, a, l3, b, l4. split; [reflexivity|]. split; apply H; assumption.
Qed.
Lemma choose_thm : forall fs name,
  (forall f, choose_entry_point fs name = inl f <-> only_one (wanted name) fs f) /\
  (choose_entry_point fs name = inr "No matching entry point found."%string <-> forall f, In f fs -> ~ wanted name f) /\
  (choose_entry_point fs name = inr "Multiple matching entry points found."%string <-> several (wanted name) fs).
Proof.
  intros fs name. unfold choose_entry_point.
  set (t := fun f => (is_entry_point f && match name with Some n => String.eqb (fname f) n | None => true end)%bool).
  assert (W : forall x, t x = true <-> wanted name x) by (intros; apply wanted_iff).
  split; [|split].
  - intros f. rewrite <- (filter_one _ _ fs f W). destruct (filter t fs) as [|x [|y l]]; split; intros E; inversion E; reflexivity.
  - rewrite <- (filter_none _ _ fs W). destruct (filter t fs) as [|x [|y l]]; split; intros E; inversion E; reflexivity.
  - rewrite (filter_many _ _ fs W). destruct (filter t fs) as [|x [|y l]]; split; intros E; try (destruct E as (? & ? & ? & E)); inversion E; eauto.
Qed.

(** ** Modules *)
Context {LL : Llvm}.
Lemma signature_thm : forall f fuel n m p, fparams f <> 0 ->
  run_shots f fuel (S n) m p = (header (fattrs f), RErr FSignature, mkProc (initialize (pworld p)) (pstd p)).
Proof. intros f fuel n m p F. cbn [run_shots]. apply Nat.eqb_neq in F. rewrite F. reflexivity. Qed.
Lemma module_cases : forall fs name fuel n p, match prepare fs with
  | inr e => run_module fs name fuel n p = ([], RErr (FModule e), p)
  | inl fs' =>
    (bind_functions fs' <> Linked -> run_module fs name fuel n p = ([], RErr (FLink (bind_functions fs')), p)) /\
    (bind_functions fs' = Linked -> (forall f, In f fs' -> ~ wanted name f) ->
       run_module fs name fuel n p = ([], RErr (FEntry "No matching entry point found."), p)) /\
    (bind_functions fs' = Linked -> several (wanted name) fs' ->
       run_module fs name fuel n p = ([], RErr (FEntry "Multiple matching entry points found."), p)) /\
    (forall f, bind_functions fs' = Linked -> only_one (wanted name) fs' f ->
       run_module fs name fuel n p = run_shots f fuel n (pinit (fprog f)) p)
  end.
Proof.
  intros fs name fuel n p. unfold run_module. destruct (prepare fs) as [fs'|e]; [|reflexivity].
  destruct (choose_thm fs' name) as (A & B & C). split; [|split; [|split]].
  - intros H. destruct (bind_functions fs'); congruence || reflexivity.
  - intros -> H. rewrite (proj2 B H). reflexivity.
  - intros -> H. rewrite (proj2 C H). reflexivity.
  - intros f -> H. rewrite (proj2 (A f) H). reflexivity.
Qed.
Lemma choose_total : forall name fs, (forall f, In f fs -> ~ wanted name f) \/ several (wanted name) fs \/ exists f, only_one (wanted name) fs f.
Proof.
  intros name fs. destruct (choose_thm fs name) as (A & B & C). destruct (choose_entry_point fs name) as [f|e] eqn:E.
  - right. right. exists f. apply A. reflexivity.
  - unfold choose_entry_point in *. destruct (filter _ fs) as [|x [|y l]] eqn:Fe; inversion E; subst; [left; apply B; reflexivity|right; left; apply C; reflexivity].
Qed.
Lemma module_ok : forall fs name fuel n p evs p', pbuffer p = [] -> run_module fs name fuel n p = (evs, ROk, p') ->
  exists fs' f recs m' g' t', prepare fs = inl fs' /\ only_one (wanted name) fs' f /\ (n <> 0 -> fparams f = 0) /\
    shots_of f fuel n (pinit (fprog f)) (pgen p) (ptgen p) recs m' g' t' /\ arrives (pstd p) (fattrs f) recs evs /\
    pgen p' = g' /\ ptgen p' = t' /\ pbuffer p' = [] /\ pstd p' = pstd p.
Proof.
  intros fs name fuel n p evs p' H R. assert (M := module_cases fs name fuel n p). destruct (prepare fs) as [fs'|e]; [|rewrite M in R; discriminate].
  destruct M as (M1 & M2 & M3 & M4).
  assert (L : bind_functions fs' = Linked).
  { destruct (bind_functions fs') eqn:E; auto; rewrite M1 in R by discriminate; discriminate. }
  destruct (choose_total name fs') as [N|[N|[f N]]]; [rewrite (M2 L N) in R; discriminate|rewrite (M3 L N) in R; discriminate|].
  rewrite (M4 f L N) in R. destruct (Nat.eq_dec (fparams f) 0) as [F|F].
  - assert (X := run_shots_thm f fuel n (pinit (fprog f)) p H F). rewrite R in X. destruct X as (recs & m' & g' & t' & X). exists fs', f, recs, m', g', t'. tauto.
  - destruct n as [|n]; [|rewrite (signature_thm f fuel n _ p F) in R; discriminate].
    inversion R; subst. exists fs', f, [], (pinit (fprog f)), (pgen p'), (ptgen p'). split; [reflexivity|]. split; [exact N|]. split; [congruence|].
    split; [constructor|]. split; [apply arrives_nil|auto].
Qed.
Lemma module_abort : forall fs name fuel n p evs e p', pbuffer p = [] -> run_module fs name fuel n p = (evs, RAbort e, p') ->
  exists fs' f k recs m1 g1 t1 o evs', prepare fs = inl fs' /\ only_one (wanted name) fs' f /\ k < n /\
    shots_of f fuel k (pinit (fprog f)) (pgen p) (ptgen p) recs m1 g1 t1 /\ fresh_run f fuel m1 g1 t1 = PStop e o /\
    arrives (pstd p) (fattrs f) recs evs' /\ at_both evs = at_both evs' ++ preamble (fattrs f) ++ (if pstd p then o else []).
Proof.
  intros fs name fuel n p evs e p' H R. assert (M := module_cases fs name fuel n p). destruct (prepare fs) as [fs'|e']; [|rewrite M in R; discriminate].
  destruct M as (M1 & M2 & M3 & M4).
  assert (L : bind_functions fs' = Linked).
  { destruct (bind_functions fs') eqn:E; auto; rewrite M1 in R by discriminate; discriminate. }
  destruct (choose_total name fs') as [N|[N|[f N]]]; [rewrite (M2 L N) in R; discriminate|rewrite (M3 L N) in R; discriminate|].
  rewrite (M4 f L N) in R. destruct (Nat.eq_dec (fparams f) 0) as [F|F].
  - assert (X := run_shots_thm f fuel n (pinit (fprog f)) p H F). rewrite R in X. destruct X as (k & recs & m1 & g1 & t1 & o & evs' & X1 & X2 & X3 & X4 & X5).
    exists fs', f, k, recs, m1, g1, t1, o, evs'. repeat (split; [assumption || reflexivity|]). rewrite X5, !both_app, header_both.
    destruct (pstd p); unfold at_both; simpl; rewrite ?app_nil_r; reflexivity.
  - destruct n as [|n]; [discriminate|rewrite (signature_thm f fuel n _ p F) in R; discriminate].
Qed.
(** Nothing but the seed, the module and the shots decides what a seeded run of a program without draws does. *)
Lemma module_seed : forall fs name fuel n p p', (forall fs' f, prepare fs = inl fs' -> In f fs' -> draws_nothing (fprog f)) ->
  pgen p = pgen p' -> pstd p = pstd p' -> pbuffer p = [] -> pbuffer p' = [] ->
  fst (run_module fs name fuel n p) = fst (run_module fs name fuel n p').
Proof.
  intros fs name fuel n p p' ND G S1 H H'. unfold run_module. destruct (prepare fs) as [fs'|e]; [|reflexivity].
  destruct (bind_functions fs'); [|reflexivity..]. destruct (choose_entry_point fs' name) as [f|e] eqn:E; [|reflexivity].
  apply shots_tgen; auto. apply (ND fs'); [reflexivity|]. destruct (choose_thm fs' name) as (A & _). apply A in E. destruct E as (l1 & l2 & -> & _).
  apply in_or_app. right. left. reflexivity.
Qed.
End Runs.
