(** * Proofs about the backend: bookkeeping, for every threshold *)
From Coq Require Import Reals NArith List Bool Lia Lra Arith Sorted Permutation FunctionalExtensionality.
From Verif Require Import Cx Bits Arith ArithR IndexMap Sim SimExp SimApply Spec SpecExp SpecApply SpecRun SimRun
  RunLemmas RunProps RunThms SimProps Text Backend SpecBackend.
Import ListNotations.

(** ** Lists of identifiers *)
Lemma grow_add : forall n m l, grow (n + m) l = grow m (grow n l).
Proof. induction n; simpl; auto. Qed.
Lemma top_cons : forall q qs, top (q :: qs) = Nat.max (S q) (top qs).
Proof. reflexivity. Qed.
Lemma top_app : forall a b, top (a ++ b) = Nat.max (top a) (top b).
Proof. intros. unfold top. rewrite map_app. apply list_max_app. Qed.
Lemma opened_app : forall m l a b, opened (Nat.max m (top a)) (opened m l a) b = opened m l (a ++ b).
Proof.
  intros. unfold opened. rewrite <- grow_add. f_equal. rewrite top_app. lia.
Qed.
Lemma opened_cons : forall m l q qs, opened (Nat.max m (S q)) (opened m l [q]) qs = opened m l (q :: qs).
Proof. intros. assert (E : top [q] = S q) by (unfold top; simpl; lia). rewrite <- E. apply (opened_app m l [q] qs). Qed.
Lemma opened_nil : forall m l, opened m l [] = l.
Proof. reflexivity. Qed.
Lemma opened_done : forall m l qs, (top qs <= m)%nat -> opened m l qs = l.
Proof. intros m l qs H. unfold opened. replace (top qs - m)%nat with 0%nat by lia. reflexivity. Qed.
Lemma grow_incl : forall n l, incl l (grow n l).
Proof.
  induction n; simpl; intros l; [apply incl_refl|]. intros x Hx. apply IHn. apply insert_id_In. auto.
Qed.
Lemma opened_incl : forall m l a b, incl (opened m l a) (opened m l (a ++ b)).
Proof. intros. rewrite <- opened_app. apply grow_incl. Qed.
Lemma top_In : forall q qs, In q qs -> (S q <= top qs)%nat.
Proof. intros q qs H. unfold top. assert (X := list_max_le (map S qs) (list_max (map S qs))). destruct X as [X _].
  specialize (X (le_n _)). rewrite Forall_forall in X. apply X. apply in_map. exact H. Qed.

Section Back.
Context {T : Tol} {EN : Env} {D : Doubles} {SW : Shows}.

(** ** Weakest preconditions; [F] says whether a failure by __quantum__rt__fail is allowed *)
Definition wp {X} (F : Prop) (m : B X) (Q : X -> back -> Prop) (b : back) : Prop :=
  match m b with BOk x b' => Q x b' | BErr (EFail _) _ => F | BErr _ _ => False end.
Lemma wp_bind : forall X Y F (m : B X) (f : X -> B Y) Q b,
  wp F m (fun x b' => wp F (f x) Q b') b -> wp F (bbind m f) Q b.
Proof. unfold wp, bbind. intros. destruct (m b) as [x b'|[] ?]; auto. Qed.
Lemma wp_ret : forall X F (x : X) (Q : X -> back -> Prop) b, Q x b -> wp F (bret x) Q b.
Proof. auto. Qed.
Lemma wp_mono : forall X F (m : B X) (Q Q' : X -> back -> Prop) b,
  (forall x b', Q x b' -> Q' x b') -> wp F m Q b -> wp F m Q' b.
Proof. unfold wp. intros X F m Q Q' b H. destruct (m b) as [x b'|[] ?]; auto. Qed.
Lemma wp_elim : forall X (m : B X) Q b, wp False m Q b -> exists x b', m b = BOk x b' /\ Q x b'.
Proof. unfold wp. intros X m Q b H. destruct (m b) as [x b'|[] ?]; try contradiction. eauto. Qed.
Lemma wp_elim_fail : forall X F (m : B X) Q b, wp F m Q b ->
  (exists x b', m b = BOk x b' /\ Q x b') \/ (exists msg o, m b = BErr (EFail msg) o /\ F).
Proof. unfold wp. intros X F m Q b H. destruct (m b) as [x b'|[] ?]; try contradiction; eauto 6. Qed.
Lemma wp_ok : forall X F (m : B X) Q b x b', m b = BOk x b' -> wp F m Q b -> Q x b'.
Proof. unfold wp. intros X F m Q b x b' ->. auto. Qed.

(** ** Reachable simulator states *)
Definition rch (s : sim) (l : list nat) : Prop :=
  exists g h rs, proper h /\ ~ Exists is_apply h /\ exec (new_sim g) h = Ok (rs, s) /\ l = live_after h.
Lemma rch_reached : forall s l, rch s l -> reached s l.
Proof. intros s l (g & h & rs & P & _ & E & L). exists g, h, rs. auto. Qed.
Lemma rch_new : forall g, rch (new_sim g) [].
Proof.
  intros g. exists g, [], []. split; [split; simpl; auto|]. split; [intro H; inversion H|]. auto.
Qed.
Hypothesis Ho : order_ok.

Lemma live_bstep : forall b b' c, live b = live b' -> live (bstep b c) = live (bstep b' c).
Proof. intros b b' c H. destruct c; simpl; auto; rewrite H; auto. Qed.
Lemma rch_step : forall s l c, rch s l -> (forall b, live b = l -> valid b c) -> unit_call c -> ~ is_apply c ->
  exists r s', run1 s c = Ok (r, s') /\ rch s' (live (bstep (mkBook l true) c)) /\
    (c = CAlloc -> r = RId (fresh_id l)).
Proof.
  intros s l c (g & h & rs & P & Na & E & L) V U Nc. destruct P as [Pv Pu].
  assert (Tr := tracks_reached Ho g h rs s Pv E).
  set (b := fold_left bstep h (mkBook [] true)) in *.
  assert (Lb : live b = l) by (rewrite L; reflexivity).
  destruct (run1_ok Ho s b c Tr (V b Lb)) as [(r & s' & E' & Tr' & _)|[Ia _]]; [|contradiction].
  exists r, s'. split; auto. split.
  - exists g, (h ++ [c]), (rs ++ [r]). split; [split|split; [|split]].
    + apply valid_run_app. split; auto. fold b. split; simpl; auto.
    + apply Forall_app. auto.
    + rewrite Exists_app. intros [X|X]; [auto|]. inversion X; subst; auto. inversion H0.
    + rewrite exec_app, E. simpl. rewrite E'. reflexivity.
    + unfold live_after. rewrite fold_left_app. fold b. simpl. apply live_bstep. auto.
  - intros ->. cbn [run1] in E'. destruct (alloc_call_ok s b Tr) as (r2 & s2 & E2 & _).
    assert (Srt := tracks_sorted s b Tr). destruct (fresh_id_ok (live b) Srt) as [F1 F2].
    assert (W : Abs.wf s) by apply Tr. destruct (Reg.allocate_ok s W) as [K1 [K2 _]].
    assert (Eq : snd (allocate s) = fresh_id (live b)).
    { destruct (Nat.lt_trichotomy (snd (allocate s)) (fresh_id (live b))) as [H|[H|H]]; auto.
      - exfalso. apply K1. apply (tracks_alloc s b _ Tr). auto.
      - exfalso. apply F1. apply (tracks_alloc s b _ Tr). auto. }
    destruct (allocate s) as [s3 q]. inversion E'; subst r. rewrite <- Lb, <- Eq. reflexivity.
Qed.

(** ** Bookkeeping *)
Definition K (b : back) (k : bbook) : Prop := rch (bsim b) (bb_live k) /\ bmax b = bb_max k.

Lemma wp_simcall : forall F c (Q : reply -> back -> Prop) b l, rch (bsim b) l ->
  (forall bk, live bk = l -> valid bk c) -> unit_call c -> ~ is_apply c ->
  (forall r s', rch s' (live (bstep (mkBook l true) c)) -> (c = CAlloc -> r = RId (fresh_id l)) ->
     Q r (with_sim b s')) -> wp F (simcall c) Q b.
Proof.
  intros F c Q b l R V U Na H. destruct (rch_step (bsim b) l c R V U Na) as (r & s' & E & R' & A).
  unfold wp, simcall. rewrite E. apply H; auto.
Qed.
Lemma wp_simdo : forall F c (Q : unit -> back -> Prop) b l, rch (bsim b) l ->
  (forall bk, live bk = l -> valid bk c) -> unit_call c -> ~ is_apply c ->
  (forall s', rch s' (live (bstep (mkBook l true) c)) -> Q tt (with_sim b s')) -> wp F (simdo c) Q b.
Proof.
  intros F c Q b l R V U Na H. unfold simdo. apply wp_bind. eapply wp_simcall; eauto. intros. apply wp_ret. auto.
Qed.
Lemma wp_simbit : forall F c (Q : bool -> back -> Prop) b l, rch (bsim b) l ->
  (forall bk, live bk = l -> valid bk c) -> unit_call c -> ~ is_apply c ->
  (forall v s', rch s' (live (bstep (mkBook l true) c)) -> Q v (with_sim b s')) -> wp F (simbit c) Q b.
Proof.
  intros F c Q b l R V U Na H. unfold simbit. apply wp_bind. eapply wp_simcall; eauto. intros. apply wp_ret. auto.
Qed.

Lemma wp_alloc_times : forall n F (Q : unit -> back -> Prop) b l, rch (bsim b) l ->
  (forall s', rch s' (grow n l) -> Q tt (mkBack s' (bres b) (n + bmax b) (bout b))) -> wp F (alloc_times n) Q b.
Proof.
  induction n; intros F Q b l R H; cbn [alloc_times].
  - apply wp_ret. destruct b as [s r m o]. apply (H s). exact R.
  - apply wp_bind. eapply wp_simcall; eauto; simpl; auto. intros r s' R' _. cbn [bstep live] in R'.
    apply wp_bind. unfold wp at 1. cbn [with_max with_sim bsim bres bmax bout].
    apply (IHn F Q _ (insert_id (fresh_id l) l)); auto. intros s2 R2. cbn [bres bmax bout].
    unfold with_max, with_sim in *. cbn [bres bmax bout bsim] in *. rewrite Nat.add_succ_r. apply H. exact R2.
Qed.
Lemma wp_ensure : forall q F (Q : unit -> back -> Prop) b l, rch (bsim b) l ->
  (forall s', rch s' (opened (bmax b) l [q]) ->
     Q tt (mkBack s' (bres b) (Nat.max (bmax b) (S q)) (bout b))) -> wp F (ensure q) Q b.
Proof.
  intros q F Q b l R H. unfold wp, ensure. change (wp F (alloc_times (S q - bmax b)) Q b).
  eapply wp_alloc_times; eauto. intros s' R'.
  replace (S q - bmax b + bmax b)%nat with (Nat.max (bmax b) (S q)) by lia. apply H.
  unfold opened. replace (top [q]) with (S q) by (unfold top; simpl; lia). exact R'.
Qed.
Lemma wp_ensures : forall qs F (Q : unit -> back -> Prop) b l, rch (bsim b) l ->
  (forall s', rch s' (opened (bmax b) l qs) ->
     Q tt (mkBack s' (bres b) (Nat.max (bmax b) (top qs)) (bout b))) -> wp F (bfor qs ensure) Q b.
Proof.
  induction qs as [|q qs IH]; intros F Q b l R H; cbn [bfor fold_right].
  - apply wp_ret. destruct b as [s r m o]. cbn [bmax bres bout bsim] in *.
    replace m with (Nat.max m (top [])) by (unfold top; simpl; lia). apply H. exact R.
  - apply wp_bind. eapply wp_ensure; eauto. intros s' R'. apply (IH F Q _ (opened (bmax b) l [q])); auto.
    intros s2 R2. cbn [bmax bres bout] in *. rewrite opened_cons in R2.
    replace (Nat.max (Nat.max (bmax b) (S q)) (top qs)) with (Nat.max (bmax b) (top (q :: qs))) by (rewrite top_cons; lia).
    apply H. exact R2.
Qed.
(** ** The entry points, one by one *)
Definition upd (b : back) (s : sim) (m : nat) : back := mkBack s (bres b) m (bout b).
Definition runs (F : Prop) (m : B unit) (b : back) (l : list nat) (qs : list nat) : Prop :=
  forall Q : unit -> back -> Prop,
    (forall s', rch s' (opened (bmax b) l qs) -> Q tt (upd b s' (Nat.max (bmax b) (top qs)))) -> wp F m Q b.

Lemma bmax_upd : forall b s m, bmax (upd b s m) = m. Proof. reflexivity. Qed.
Lemma bsim_upd : forall b s m, bsim (upd b s m) = s. Proof. reflexivity. Qed.
Lemma upd_upd : forall b s m s' m', upd (upd b s m) s' m' = upd b s' m'. Proof. reflexivity. Qed.
Lemma runs_seq : forall F (m1 m2 : B unit) b l q1 q2,
  runs F m1 b l q1 ->
  (forall s', rch s' (opened (bmax b) l q1) ->
     runs F m2 (upd b s' (Nat.max (bmax b) (top q1))) (opened (bmax b) l q1) q2) ->
  runs F (bbind m1 (fun _ => m2)) b l (q1 ++ q2).
Proof.
  intros F m1 m2 b l q1 q2 H1 H2 Q HQ. apply wp_bind. apply H1. intros s' R'. apply H2; auto.
  intros s2 R2. rewrite bmax_upd in *. rewrite opened_app in R2. rewrite upd_upd.
  rewrite <- Nat.max_assoc, <- top_app. apply HQ. exact R2.
Qed.
(** A second part that names nothing new. *)
Lemma runs_seq_old : forall F (m1 m2 : B unit) b l q1,
  runs F m1 b l q1 ->
  (forall s', rch s' (opened (bmax b) l q1) ->
     runs F m2 (upd b s' (Nat.max (bmax b) (top q1))) (opened (bmax b) l q1) []) ->
  runs F (bbind m1 (fun _ => m2)) b l q1.
Proof. intros. rewrite <- (app_nil_r q1). apply runs_seq; auto. Qed.
Lemma runs_old : forall F m b l qs, runs F m b l qs -> (top qs <= bmax b)%nat -> runs F m b l [].
Proof.
  intros F m b l qs H Ht Q HQ. apply H. rewrite opened_done by auto. intros s' R'.
  replace (Nat.max (bmax b) (top qs)) with (Nat.max (bmax b) (top [])) by (unfold top at 1; simpl; lia).
  apply HQ. exact R'.
Qed.
Lemma runs_simdo : forall F c b l, rch (bsim b) l -> (forall bk, live bk = l -> valid bk c) -> unit_call c -> ~ is_apply c ->
  live (bstep (mkBook l true) c) = l -> runs F (simdo c) b l [].
Proof.
  intros F c b l R V U A E Q HQ. eapply wp_simdo; eauto. intros s' R'. rewrite E in R'. destruct b as [s r m o].
  unfold upd in HQ. cbn [bmax bres bout top map list_max fold_right] in *. rewrite opened_nil, Nat.max_0_r in HQ. apply HQ. exact R'.
Qed.
Lemma runs_ret : forall F b l, rch (bsim b) l -> runs F (bret tt) b l [].
Proof.
  intros F b l R Q HQ. apply wp_ret. destruct b as [s r m o].
  unfold upd in HQ. cbn [bmax bres bout top map list_max fold_right] in *. rewrite opened_nil, Nat.max_0_r in HQ. apply HQ. exact R.
Qed.
Lemma runs_ensure : forall F b l q, rch (bsim b) l -> runs F (ensure q) b l [q].
Proof.
  intros F b l q R Q HQ. eapply wp_ensure; eauto.
Qed.
Lemma runs_ensures : forall F b l qs, rch (bsim b) l -> runs F (bfor qs ensure) b l qs.
Proof. intros F b l qs R Q HQ. eapply wp_ensures; eauto. Qed.
Lemma runs_old_for : forall X F (f : X -> B unit) l xs b, rch (bsim b) l ->
  (forall x b', In x xs -> bmax b' = bmax b -> rch (bsim b') l -> runs F (f x) b' l []) -> runs F (bfor xs f) b l [].
Proof.
  intros X F f l xs. induction xs as [|x xs IH]; intros b R H; cbn [bfor fold_right].
  - apply runs_ret. exact R.
  - apply (runs_seq_old F (f x) (bfor xs f) b l []).
    + apply H; simpl; auto.
    + intros s' R'. rewrite opened_nil in *.
      assert (E : Nat.max (bmax b) (top []) = bmax b) by (unfold top; simpl; lia). rewrite E.
      apply IH; auto. intros y b' Hy E' Rb. apply H; simpl; auto.
Qed.

Lemma Cn2_Cis : forall x : R, Cn2 (Cis x) = 1%R.
Proof. intros x. unfold Cn2, Cis. simpl. assert (H := sin2_cos2 x). unfold Rsqr in H. lra. Qed.
Ltac step := match goal with
  | |- runs _ (bbind (ensure ?q) (fun _ => _)) _ _ (?q :: ?l) =>
      change (q :: l) with ([q] ++ l); apply runs_seq; [apply runs_ensure; assumption|intros]
  end.

Ltac sd := apply runs_simdo;
  [assumption | let bk := fresh "bk" in let E := fresh "E" in intros bk E; cbn [valid]; unfold targets_ok; rewrite !E
  | cbn [unit_call]; auto; try apply Cn2_Cis | cbn [is_apply]; auto | reflexivity ].
Lemma runs_gate : forall F g q b l, rch (bsim b) l -> In q (opened (bmax b) l [q]) -> runs F (qis_gate g q) b l [q].
Proof.
  intros F g q b l R Hq. unfold qis_gate. step. sd. auto.
Qed.
Lemma runs_gate_old : forall F g q b l, rch (bsim b) l -> In q l -> (S q <= bmax b)%nat -> runs F (qis_gate g q) b l [].
Proof.
  intros F g q b l R Hq Hm. assert (Ht : (top [q] <= bmax b)%nat) by (unfold top; simpl; lia).
  apply runs_old with [q]; auto. apply runs_gate; auto. rewrite opened_done; auto.
Qed.
Lemma runs_c1 : forall F g c t b l, rch (bsim b) l -> NoDup [t; c] -> incl [t; c] (opened (bmax b) l [t; c]) ->
  runs F (qis_c1 g c t) b l [t; c].
Proof.
  intros F g c t b l R N I. unfold qis_c1. step. step. sd.
  split; auto. rewrite bmax_upd, opened_app. exact I.
Qed.
Lemma runs_c2 : forall F g c1 c2 t b l, rch (bsim b) l -> NoDup [t; c1; c2] ->
  incl [t; c1; c2] (opened (bmax b) l [t; c1; c2]) -> runs F (qis_c2 g c1 c2 t) b l [t; c1; c2].
Proof.
  intros F g c1 c2 t b l R N I. unfold qis_c2. step. step. step. sd.
  split; auto. rewrite !bmax_upd. rewrite <- Nat.max_assoc, <- top_app, !opened_app. exact I.
Qed.
Lemma runs_ctl : forall F g cs t b l, rch (bsim b) l -> NoDup (t :: cs) ->
  incl (t :: cs) (opened (bmax b) l (t :: cs)) -> runs F (qis_ctl g cs t) b l (t :: cs).
Proof.
  intros F g cs t b l R N I. unfold qis_ctl. step. apply runs_seq_old.
  - apply runs_ensures; auto.
  - intros. sd. split; auto. rewrite bmax_upd, opened_app. exact I.
Qed.
Lemma runs_sx : forall F q b l, rch (bsim b) l -> In q (opened (bmax b) l [q]) -> runs F (qis_sx q) b l [q].
Proof.
  intros F q b l R Hq. assert (M : (S q <= Nat.max (bmax b) (top [q]))%nat) by (unfold top; simpl; lia).
  apply runs_seq_old; [apply runs_gate; auto|]. intros.
  apply runs_seq_old; [apply runs_gate_old; auto|]. intros. rewrite opened_nil in *.
  apply runs_gate_old; auto. rewrite !bmax_upd. lia.
Qed.
Lemma runs_rzz : forall F th x y b l, rch (bsim b) l -> NoDup [x; y] -> incl [x; y] (opened (bmax b) l [x; y]) ->
  runs F (qis_rzz th x y) b l [x; y].
Proof.
  intros F th x y b l R N I. assert (M : (top [x; y] <= Nat.max (bmax b) (top [x; y]))%nat) by lia.
  assert (X : (S x <= top [x; y])%nat) by (apply top_In; simpl; auto).
  apply runs_seq_old; [apply runs_c1; auto|]. intros.
  apply runs_seq_old; [apply runs_gate_old; auto; [apply I; simpl; auto|rewrite bmax_upd; lia]|]. intros. rewrite opened_nil in *.
  apply runs_old with [x; y]; [apply runs_c1; auto|rewrite !bmax_upd; lia].
  rewrite opened_done; auto. rewrite !bmax_upd; lia.
Qed.
Lemma runs_gate_on : forall F g q l b, rch (bsim b) l -> In q l -> (S q <= bmax b)%nat -> runs F (qis_gate g q) b l [].
Proof. intros. apply runs_gate_old; auto. Qed.
Lemma runs_seq2 : forall F (m1 m2 : B unit) b l, runs F m1 b l [] ->
  (forall b', bmax b' = bmax b -> rch (bsim b') l -> runs F m2 b' l []) -> runs F (bbind m1 (fun _ => m2)) b l [].
Proof.
  intros F m1 m2 b l H1 H2. apply runs_seq_old; auto. intros s' R'. rewrite opened_nil in *. apply H2; auto.
  rewrite bmax_upd. unfold top; simpl; lia.
Qed.
Lemma runs_rzz_old : forall F th x y b l, rch (bsim b) l -> x <> y -> In x l -> In y l -> (top [x; y] <= bmax b)%nat ->
  runs F (qis_rzz th x y) b l [].
Proof.
  intros. apply runs_old with [x; y]; auto. apply runs_rzz; auto.
  - constructor; [simpl; intros [E|[]]; auto|constructor; auto; constructor].
  - rewrite opened_done by auto. intros z [<-|[<-|[]]]; auto.
Qed.
Lemma runs_rxx : forall F th x y b l, rch (bsim b) l -> In x (opened (bmax b) l [x]) -> In y (opened (bmax b) l [x; y]) ->
  x <> y -> runs F (qis_rxx th x y) b l [x; y].
Proof.
  intros F th x y b l R Hx Hy N. unfold qis_rxx. change [x; y] with ([x] ++ [y]).
  apply runs_seq; [apply runs_gate; auto|]. intros s R1.
  assert (Hx' : In x (opened (bmax b) l ([x] ++ [y]))) by (apply opened_incl; auto).
  assert (T2 : top [x] = S x) by (unfold top; simpl; lia).
  assert (T3 : top [y] = S y) by (unfold top; simpl; lia).
  apply runs_seq_old; [apply runs_gate; auto; rewrite bmax_upd, opened_app; exact Hy|]. intros s2 R2.
  rewrite !bmax_upd, upd_upd in *. rewrite !opened_app in *. rewrite <- Nat.max_assoc, <- top_app in *.
  assert (T1 : top ([x] ++ [y]) = Nat.max (S x) (S y)) by (rewrite top_app, T2, T3; auto).
  set (m := Nat.max (bmax b) (top ([x] ++ [y]))) in *. set (l' := opened (bmax b) l ([x] ++ [y])) in *.
  assert (M1 : (S x <= m)%nat) by lia. assert (M2 : (S y <= m)%nat) by lia.
  apply runs_seq2; [apply runs_rzz_old; auto; change [x; y] with ([x] ++ [y]); rewrite bmax_upd; lia|]. intros b3 E3 R3. rewrite bmax_upd in E3.
  apply runs_seq2; [apply runs_gate_old; auto; lia|]. intros b4 E4 R4.
  apply runs_gate_old; auto; lia.
Qed.
Lemma runs_ryy : forall F th x y b l, rch (bsim b) l -> In x (opened (bmax b) l [x]) -> In y (opened (bmax b) l [x; y]) ->
  x <> y -> runs F (qis_ryy th x y) b l [x; y].
Proof.
  intros F th x y b l R Hx Hy N. unfold qis_ryy. change [x; y] with ([x] ++ [y]).
  assert (T2 : top [x] = S x) by (unfold top; simpl; lia).
  assert (T3 : top [y] = S y) by (unfold top; simpl; lia).
  apply runs_seq; [apply runs_gate; auto|]. intros s R1.
  assert (Hx' : In x (opened (bmax b) l ([x] ++ [y]))) by (apply opened_incl; auto).
  change [y] with ([] ++ [y]). apply runs_seq; [apply runs_gate_old; auto; rewrite bmax_upd; lia|]. intros s2 R2.
  change [y] with ([] ++ [y]). apply runs_seq; [apply runs_gate_old; auto; rewrite !bmax_upd; lia|]. intros s3 R3.
  rewrite !bmax_upd, !upd_upd, !opened_nil in *. change (top []) with 0%nat. rewrite !Nat.max_0_r.
  apply runs_seq_old; [apply runs_gate; auto; rewrite bmax_upd, opened_app; exact Hy|]. intros s4 R4.
  rewrite !bmax_upd, upd_upd in *. rewrite !opened_app in *. rewrite <- Nat.max_assoc, <- top_app in *.
  assert (T1 : top ([x] ++ [y]) = Nat.max (S x) (S y)) by (rewrite top_app, T2, T3; auto).
  set (m := Nat.max (bmax b) (top ([x] ++ [y]))) in *. set (l' := opened (bmax b) l ([x] ++ [y])) in *.
  assert (M1 : (S x <= m)%nat) by lia. assert (M2 : (S y <= m)%nat) by lia.
  apply runs_seq2; [apply runs_gate_old; auto|intros b5 E5 R5]. rewrite bmax_upd in E5.
  apply runs_seq2; [apply runs_gate_old; auto; lia|intros b6 E6 R6].
  apply runs_seq2; [apply runs_rzz_old; auto; change [x; y] with ([x] ++ [y]); lia|intros b7 E7 R7].
  do 5 (apply runs_seq2; [apply runs_gate_old; auto; lia|intros ? ? ?]).
  apply runs_gate_old; auto; lia.
Qed.
Definition r_names (p : pauli) (q : nat) : list nat := match p with PI_ => [] | _ => [q] end.
Lemma runs_r : forall F p th q b l, rch (bsim b) l -> incl (r_names p q) (opened (bmax b) l (r_names p q)) ->
  runs F (qis_r p th q) b l (r_names p q).
Proof.
  intros F p th q b l R I. destruct p; simpl in *; try (apply runs_gate; auto; apply I; simpl; auto). apply runs_ret; auto.
Qed.
Definition rctl_names (cs : list nat) (p : pauli) (q : nat) : list nat :=
  match cs, p with [], PI_ => [] | _, _ => q :: cs end.
Lemma runs_r_ctl : forall F cs p th q b l, rch (bsim b) l -> NoDup (rctl_names cs p q) ->
  incl (rctl_names cs p q) (opened (bmax b) l (rctl_names cs p q)) ->
  runs F (qis_r_ctl cs p th q) b l (rctl_names cs p q).
Proof.
  intros F cs p th q b l R N I. destruct p.
  - destruct cs as [|h rest]; [apply runs_ret; auto|]. cbn [qis_r_ctl rctl_names] in *. step. apply runs_seq_old.
    + apply runs_ensures; auto.
    + intros. sd. 
      inversion N; subst. split; auto. rewrite bmax_upd, opened_app. intros z Hz. apply I. right. exact Hz.
  - destruct cs; apply runs_ctl; auto.
  - destruct cs; apply runs_ctl; auto.
  - destruct cs; apply runs_ctl; auto.
Qed.
Lemma runs_exp : forall F ps th qs b l, rch (bsim b) l -> NoDup qs -> incl qs (opened (bmax b) l qs) ->
  (length ps <= length qs)%nat -> runs F (qis_exp ps th qs) b l qs.
Proof.
  intros F ps th qs b l R N I L. apply runs_seq_old; [apply runs_ensures; auto|]. intros.
  sd. split; auto.
Qed.
Lemma runs_exp_ctl : forall F cs ps th qs b l, rch (bsim b) l -> NoDup (cs ++ qs) ->
  incl (cs ++ qs) (opened (bmax b) l (cs ++ qs)) ->
  (length ps <= length qs)%nat -> runs F (qis_exp_ctl cs ps th qs) b l (cs ++ qs).
Proof.
  intros F cs ps th qs b l R N I L. apply runs_seq; [apply runs_ensures; auto|]. intros.
  apply runs_seq_old; [apply runs_ensures; auto|]. intros.
  sd. split; auto. split; auto.
  rewrite bmax_upd, opened_app. exact I.
Qed.
Lemma runs_swap : forall F x y b l, rch (bsim b) l -> In x (opened (bmax b) l [x; y]) -> In y (opened (bmax b) l [x; y]) ->
  runs F (qis_swap x y) b l [x; y].
Proof.
  intros F x y b l R Hx Hy. unfold qis_swap. step. step. sd.
  rewrite bmax_upd, opened_app. auto.
Qed.

(** ** Entry points with a result, in terms of the book *)
Definition kruns {X} (F : Prop) (m : B X) (b : back) (k : bbook) : Prop := wp F m (fun _ b' => K b' k) b.
Definition bopen (k : bbook) (qs : list nat) : bbook :=
  mkBBook (Nat.max (bb_max k) (top qs)) (opened (bb_max k) (bb_live k) qs).
Lemma runs_k : forall F m b k qs, K b k -> runs F m b (bb_live k) qs -> kruns F m b (bopen k qs).
Proof.
  intros F m b k qs [R M] H. apply H. intros s' R'. unfold K, bopen. cbn [bb_live bb_max]. rewrite <- M. split; auto.
Qed.
Lemma kruns_bind : forall X Y F (m : B X) (f : X -> B Y) b k k', kruns F m b k ->
  (forall x b', K b' k -> kruns F (f x) b' k') -> kruns F (bbind m f) b k'.
Proof. intros X Y F m f b k k' H1 H2. apply wp_bind. eapply wp_mono; [|exact H1]. intros x b' Hb. apply H2. exact Hb. Qed.
Lemma kruns_ret : forall X F (x : X) b k, K b k -> kruns F (bret x) b k.
Proof. auto. Qed.
Lemma bopen_nil : forall k, bopen k [] = k.
Proof. intros [m l]. unfold bopen. cbn [bb_max bb_live]. rewrite opened_nil. f_equal. unfold top; simpl; lia. Qed.
Lemma runs_k0 : forall F m b k, K b k -> runs F m b (bb_live k) [] -> kruns F m b k.
Proof. intros F m b k H1 H2. rewrite <- (bopen_nil k). apply runs_k; auto. Qed.
Lemma kruns_ensure : forall F q b k, K b k -> kruns F (ensure q) b (bopen k [q]).
Proof. intros F q b k H. apply runs_k; auto. apply runs_ensure. apply H. Qed.
Lemma kruns_ensures : forall F qs b k, K b k -> kruns F (bfor qs ensure) b (bopen k qs).
Proof. intros F q b k H. apply runs_k; auto. apply runs_ensures. apply H. Qed.
Lemma kruns_simcall : forall F c b k, K b k -> (forall bk, live bk = bb_live k -> valid bk c) -> unit_call c -> ~ is_apply c ->
  live (bstep (mkBook (bb_live k) true) c) = bb_live k -> kruns F (simcall c) b k.
Proof.
  intros F c b k [R M] V U A E. eapply wp_simcall; eauto. intros r s' R' _. rewrite E in R'. split; auto.
Qed.
Lemma kruns_simdo : forall F c b k, K b k -> (forall bk, live bk = bb_live k -> valid bk c) -> unit_call c -> ~ is_apply c ->
  live (bstep (mkBook (bb_live k) true) c) = bb_live k -> kruns F (simdo c) b k.
Proof. intros. eapply kruns_bind; [apply kruns_simcall; eauto|]. intros. apply kruns_ret; auto. Qed.
Lemma kruns_simbit : forall F c b k, K b k -> (forall bk, live bk = bb_live k -> valid bk c) -> unit_call c -> ~ is_apply c ->
  live (bstep (mkBook (bb_live k) true) c) = bb_live k -> kruns F (simbit c) b k.
Proof. intros. eapply kruns_bind; [apply kruns_simcall; eauto|]. intros. apply kruns_ret; auto. Qed.
Ltac ksd := first [eapply kruns_simdo | eapply kruns_simbit | eapply kruns_simcall];
  [eassumption | let bk := fresh "bk" in let E := fresh "E" in intros bk E; cbn [valid]; unfold targets_ok; rewrite ?E
  | cbn [unit_call]; auto | cbn [is_apply]; auto | reflexivity ].
Lemma kruns_expand : forall F i b k, K b k -> kruns F (expand i) b k.
Proof. intros. exact H. Qed.
Lemma kruns_put : forall F i v b k, K b k -> kruns F (put_res i v) b k.
Proof. intros. exact H. Qed.
Lemma kruns_get : forall F i b k, K b k -> kruns F (get_res i) b k.
Proof. intros. exact H. Qed.
Lemma kruns_emit : forall F t b k, K b k -> kruns F (emit t) b k.
Proof. intros. exact H. Qed.
Lemma kruns_if : forall F (r : bool) (m : B unit) b k, K b k -> (K b k -> kruns F m b k) ->
  kruns F (if r then m else bret tt) b k.
Proof. intros F [] m b k H1 H2; auto. Qed.
Lemma kruns_for : forall X F (f : X -> B unit) k xs b, K b k ->
  (forall x b', In x xs -> K b' k -> kruns F (f x) b' k) -> kruns F (bfor xs f) b k.
Proof.
  intros X F f k xs. induction xs as [|x xs IH]; intros b Kb H; cbn [bfor fold_right].
  - apply kruns_ret; auto.
  - eapply kruns_bind; [apply H; simpl; auto|]. intros u b' Kb'. apply IH; auto. intros. apply H; simpl; auto.
Qed.
Lemma bfor_map : forall X Y (g : X -> Y) (f : Y -> B unit) xs, bfor (map g xs) f = bfor xs (fun x => f (g x)).
Proof. intros X Y g f xs. induction xs as [|x xs IH]; [reflexivity|]. unfold bfor in *. simpl. rewrite IH. reflexivity. Qed.

Lemma kruns_reset : forall F q b k, K b k -> In q (bb_live (bopen k [q])) -> kruns F (qis_reset q) b (bopen k [q]).
Proof.
  intros F q b k Kb Hq. eapply kruns_bind; [apply kruns_ensure; eassumption|]. intros _ b1 K1.
  eapply kruns_bind; [ksd; auto|]. intros r b2 K2. apply kruns_if; auto. intros _. ksd; auto.
Qed.
Lemma kruns_mresetz : forall F q i b k, K b k -> In q (bb_live (bopen k [q])) -> kruns F (qis_mresetz q i) b (bopen k [q]).
Proof.
  intros F q i b k Kb Hq. eapply kruns_bind; [apply kruns_ensure; eassumption|]. intros _ b1 K1.
  eapply kruns_bind; [apply kruns_expand; eassumption|]. intros _ b2 K2.
  eapply kruns_bind; [ksd; auto|]. intros r b3 K3.
  eapply kruns_bind; [apply kruns_if; eauto; intros _; ksd; auto|]. intros _ b4 K4. apply kruns_put; auto.
Qed.
Lemma kruns_mz : forall F q i b k, K b k -> In q (bb_live (bopen k [q])) -> kruns F (qis_mz q i) b (bopen k [q]).
Proof.
  intros F q i b k Kb Hq. eapply kruns_bind; [apply kruns_ensure; eassumption|]. intros _ b1 K1.
  eapply kruns_bind; [apply kruns_expand; eassumption|]. intros _ b2 K2.
  eapply kruns_bind; [ksd; auto|]. intros r b3 K3. apply kruns_put; auto.
Qed.
Lemma kruns_m : forall F q b k, K b k -> In q (bb_live (bopen k [q])) -> kruns F (qis_m q) b (bopen k [q]).
Proof.
  intros F q b k Kb Hq. eapply kruns_bind; [apply kruns_ensure; eassumption|]. intros _ b1 K1.
  eapply kruns_bind; [ksd; auto|]. intros r b3 K3. apply kruns_ret; auto.
Qed.
Lemma kruns_is_zero : forall F q b k, K b k -> In q (bb_live (bopen k [q])) -> kruns F (api_qubit_is_zero q) b (bopen k [q]).
Proof.
  intros F q b k Kb Hq. eapply kruns_bind; [apply kruns_ensure; eassumption|]. intros _ b1 K1. ksd; auto.
Qed.
Lemma kruns_to_z : forall F pq b k, K b k -> In (snd pq) (bb_live k) -> kruns F (to_z pq) b k.
Proof.
  intros F [p q] b k Kb Hq. cbn [snd] in Hq. destruct p; cbn [to_z]; try (apply kruns_ret; auto); try (ksd; auto; fail).
  eapply kruns_bind; [ksd; auto|]. intros _ b1 K1. eapply kruns_bind; [ksd; auto|]. intros _ b2 K2. ksd; auto.
Qed.
Lemma kruns_from_z : forall F pq b k, K b k -> In (snd pq) (bb_live k) -> kruns F (from_z pq) b k.
Proof.
  intros F [p q] b k Kb Hq. cbn [snd] in Hq. destruct p; cbn [from_z]; try (apply kruns_ret; auto); try (ksd; auto; fail).
  eapply kruns_bind; [ksd; auto|]. intros _ b1 K1. eapply kruns_bind; [ksd; auto|]. intros _ b2 K2. ksd; auto.
Qed.
Lemma wp_map_to_z : forall F ps qs b k, K b k -> length ps = length qs ->
  incl (map snd (paired ps qs)) (bb_live (bopen k (map snd (paired ps qs)))) ->
  wp F (map_to_z_basis ps qs) (fun cl b' => cl = paired ps qs /\ K b' (bopen k (map snd (paired ps qs)))) b.
Proof.
  intros F ps qs b k Kb L I. unfold map_to_z_basis. rewrite L, Nat.eqb_refl. fold (paired ps qs).
  rewrite <- (bfor_map _ _ snd ensure). apply wp_bind. eapply wp_mono; [|apply (kruns_ensures F _ b k Kb)].
  cbv beta. intros _ b1 K1. apply wp_bind.
  assert (X : kruns F (bfor (paired ps qs) to_z) b1 (bopen k (map snd (paired ps qs)))).
  { apply kruns_for; auto. intros x b' Hx Kb'. apply kruns_to_z; auto. apply I. apply in_map. exact Hx. }
  eapply wp_mono; [|exact X]. cbv beta. intros _ b2 K2. apply wp_ret. auto.
Qed.
Lemma kruns_measure : forall F ps qs b k, let n := map snd (paired ps qs) in
  K b k -> length ps = length qs -> NoDup n -> incl n (bb_live (bopen k n)) -> kruns F (qis_measure ps qs) b (bopen k n).
Proof.
  intros F ps qs b k n Kb L N I. unfold kruns, qis_measure. apply wp_bind.
  eapply wp_mono; [|apply (wp_map_to_z F ps qs b k Kb L I)]. cbv beta. intros cl b1 [-> K1].
  eapply (kruns_bind _ _ F _ _ b1 (bopen k n) (bopen k n)); [ksd; auto|]. intros r b2 K2.
  eapply kruns_bind; [|intros; apply kruns_ret; eauto]. apply kruns_for; auto.
  intros x b' Hx Kb'. apply kruns_from_z; auto. apply I. apply in_map. exact Hx.
Qed.
Lemma kruns_assert : forall ps qs res p msg t b k, let n := map snd (paired ps qs) in
  K b k -> length ps = length qs -> NoDup n -> incl n (bb_live (bopen k n)) ->
  kruns True (qis_assert ps qs res p msg t) b (bopen k n).
Proof.
  intros ps qs res p msg t b k n Kb L N I. unfold kruns, qis_assert. apply wp_bind.
  eapply wp_mono; [|apply (wp_map_to_z True ps qs b k Kb L I)]. cbv beta. intros cl b1 [-> K1].
  eapply (kruns_bind _ _ True _ _ b1 (bopen k n) (bopen k n)); [ksd; auto|]. intros r b2 K2.
  eapply kruns_bind.
  - match goal with |- kruns _ (if ?c then _ else _) _ _ => destruct c end; [exact Logic.I|apply kruns_ret; exact K2].
  - intros _ b3 K3. apply kruns_for; auto. intros x b' Hx Kb'. apply kruns_from_z; auto. apply I. apply in_map. exact Hx.
Qed.
Lemma kruns_recorded : forall F i b k, K b k -> kruns F (recorded i) b k.
Proof. intros F i b k H. unfold kruns, wp, recorded. destruct (bres b); exact H. Qed.

Lemma wp_alloc : forall F (Q : nat -> back -> Prop) b l, rch (bsim b) l ->
  (forall s', rch s' (insert_id (fresh_id l) l) ->
     Q (fresh_id l) (upd b s' (Nat.max (bmax b) (S (fresh_id l))))) -> wp F rt_qubit_allocate Q b.
Proof.
  intros F Q b l R H. apply wp_bind. eapply wp_simcall; eauto; simpl; auto. intros r s' R' E.
  rewrite (E eq_refl). unfold wp. apply H. exact R'.
Qed.
Lemma wp_alloc_array : forall n F (Q : list nat -> back -> Prop) b l, rch (bsim b) l ->
  (forall qs s', rch s' (grow n l) -> Q qs (upd b s' (alloc_max n (bmax b) l))) -> wp F (rt_allocate_array n) Q b.
Proof.
  induction n; intros F Q b l R H; cbn [rt_allocate_array].
  - apply wp_ret. destruct b. apply H. exact R.
  - apply wp_bind. eapply wp_alloc; eauto. intros s' R'. apply wp_bind.
    eapply IHn; [exact R'|]. intros qs s2 R2. apply wp_ret. apply H. exact R2.
Qed.
Lemma live_release : forall l q t, live (bstep (mkBook l t) (CRelease q)) = remove_id q l.
Proof. intros. cbn [bstep live]. destruct (remove_id q l); reflexivity. Qed.
Lemma kruns_release : forall F q b k, K b k -> In q (bb_live k) ->
  kruns F (rt_qubit_release q) b (mkBBook (bb_max k) (remove_id q (bb_live k))).
Proof.
  intros F q b k [R M] Hq. eapply wp_simdo; eauto; simpl; auto.
  - intros bk E. rewrite E. auto.
  - intros s' R'. change (rch s' (live (bstep (mkBook (bb_live k) true) (CRelease q)))) in R'.
    rewrite live_release in R'. split; auto.
Qed.
Lemma remove_id_In : forall x q l, In x l -> x <> q -> In x (remove_id q l).
Proof. intros x q l H N. unfold remove_id. apply filter_In. split; auto. apply negb_true_iff. apply Nat.eqb_neq. auto. Qed.
Lemma kruns_release_array : forall F qs b k, K b k -> NoDup qs -> incl qs (bb_live k) ->
  kruns F (rt_release_array qs) b (mkBBook (bb_max k) (fold_left (fun l q => remove_id q l) qs (bb_live k))).
Proof.
  intros F qs. induction qs as [|q qs IH]; intros b k Kb N I; unfold rt_release_array; cbn [bfor fold_right fold_left].
  - apply kruns_ret. destruct k; exact Kb.
  - inversion N; subst. eapply kruns_bind; [apply kruns_release; eauto; apply I; simpl; auto|]. intros _ b' K'.
    apply (IH b' _ K'); auto. intros x Hx. cbn [bb_live]. apply remove_id_In; [apply I; simpl; auto|]. intros ->. auto.
Qed.
Lemma kruns_capture : forall F b k, K b k -> kruns F api_capture b k.
Proof. intros F b k Kb. eapply kruns_bind; [ksd; auto|]. intros. apply kruns_ret; auto. Qed.
Lemma kruns_dump : forall F b k, K b k -> kruns F (qis_dumpmachine 0) b k.
Proof.
  intros F b k Kb. unfold qis_dumpmachine. unfold kruns, wp. match goal with |- match ?m b with _ => _ end => change (kruns F m b k) end.
  eapply kruns_bind with k.
  - destruct (bres b); [apply kruns_ret; auto|apply kruns_emit; auto].
  - intros _ b1 K1. eapply kruns_bind; [ksd; auto|]. intros. apply kruns_emit; auto.
Qed.

Lemma vunit_k : forall F m b k, kruns F m b k -> kruns F (vunit m) b k.
Proof. intros. eapply kruns_bind; eauto. Qed.
Lemma rbind_k : forall X F (m : B X) (f : X -> breply) b k, kruns F m b k -> kruns F (bbind m (fun x => bret (f x))) b k.
Proof. intros. eapply kruns_bind; eauto. Qed.
Lemma bopen_bk : forall k c, bopen k (bnames c) = mkBBook (Nat.max (bb_max k) (top (bnames c))) (opened (bb_max k) (bb_live k) (bnames c)).
Proof. reflexivity. Qed.
Ltac kopen := match goal with |- kruns _ _ _ (mkBBook (Nat.max (bb_max ?k) (top (bnames ?c))) _) => rewrite <- (bopen_bk k c); cbn [bnames] end.
Lemma bcall_k : forall b k c, K b k -> bvalid k c -> kruns (is_assert c) (bcall1 c) b (bbstep k c).
Proof.
  intros b k c Kb V. assert (R := proj1 Kb). assert (M := proj2 Kb).
  unfold bvalid in V.
  destruct c; cbn [bcall1 bbstep]; try kopen; try apply vunit_k; try apply rbind_k; cbn [bnames] in V.
  - apply runs_k; auto. apply runs_gate; auto. rewrite M. apply V. simpl; auto.
  - apply runs_k; auto. apply runs_c1; auto; [apply V|rewrite M; apply V].
  - apply runs_k; auto. apply runs_c2; auto; [apply V|rewrite M; apply V].
  - apply runs_k; auto. apply runs_ctl; auto; [apply V|rewrite M; apply V].
  - apply runs_k; auto. apply runs_sx; auto. rewrite M. apply V. simpl; auto.
  - apply runs_k; auto. apply runs_rxx; auto; try rewrite M; apply V.
  - apply runs_k; auto. apply runs_ryy; auto; try rewrite M; apply V.
  - apply runs_k; auto. apply runs_rzz; auto; [apply V|rewrite M; apply V].
  - replace (match p with PI_ => [] | _ => [q] end) with (r_names p q) in * by (destruct p; reflexivity).
    apply runs_k; auto. apply runs_r; auto. rewrite M. apply V.
  - replace (match p with PI_ => [] | _ => [q] end) with (r_names p q) in * by (destruct p; reflexivity).
    apply runs_k; auto. apply runs_r; auto. rewrite M. apply V.
  - replace (match cs with [] => match p with PI_ => [] | _ => q :: cs end | _ :: _ => q :: cs end) with (rctl_names cs p q) in *
      by (destruct cs, p; reflexivity).
    apply runs_k; auto. apply runs_r_ctl; auto; [apply V|rewrite M; apply V].
  - replace (match cs with [] => match p with PI_ => [] | _ => q :: cs end | _ :: _ => q :: cs end) with (rctl_names cs p q) in *
      by (destruct cs, p; reflexivity).
    apply runs_k; auto. apply runs_r_ctl; auto; [apply V|rewrite M; apply V].
  - apply runs_k; auto. apply runs_exp; auto; try rewrite M; apply V.
  - apply runs_k; auto. apply runs_exp; auto; try rewrite M; apply V.
  - apply runs_k; auto. apply runs_exp_ctl; auto; try rewrite M; apply V.
  - apply runs_k; auto. apply runs_exp_ctl; auto; try rewrite M; apply V.
  - apply runs_k; auto. apply runs_swap; auto; rewrite M; apply V.
  - apply kruns_reset; auto. apply V. simpl; auto.
  - apply kruns_mresetz; auto. apply V. simpl; auto.
  - apply kruns_mz; auto. apply V. simpl; auto.
  - rewrite bopen_nil. exact Kb.
  - rewrite bopen_nil. exact Kb.
  - apply kruns_m; auto. apply V. simpl; auto.
  - apply kruns_measure; auto; apply V.
  - apply kruns_is_zero; auto. apply V. simpl; auto.
  - apply kruns_assert; auto; apply V.
  - eapply wp_alloc; eauto. intros s' R'. split; auto. rewrite bmax_upd, M. reflexivity.
  - eapply wp_alloc_array; eauto. intros qs s' R'. split; auto. rewrite bmax_upd, M. reflexivity.
  - apply kruns_release; auto.
  - apply kruns_release_array; auto; apply V.
  - rewrite bopen_nil. exact Kb.
  - rewrite bopen_nil. apply kruns_capture; auto.
  - rewrite bopen_nil. rewrite V. apply kruns_dump; auto.
  - rewrite bopen_nil. exact Kb.
  - rewrite bopen_nil. eapply kruns_bind; [apply kruns_recorded; eassumption|]. intros. apply kruns_emit; auto.
  - rewrite bopen_nil. eapply kruns_bind; [apply kruns_recorded; eassumption|]. intros. apply kruns_emit; auto.
  - rewrite bopen_nil. exact Kb.
  - destruct V.
  - split; [apply rch_new|reflexivity].
Qed.
Lemma K_start : forall g, K (back_default g) bbstart.
Proof. intros g. split; [apply rch_new|reflexivity]. Qed.
Lemma bexec_k : forall h b k rs b', K b k -> bproper k h -> bexec h b = BOk rs b' -> K b' (fold_left bbstep h k).
Proof.
  induction h as [|c h IH]; intros b k rs b' Kb P E; cbn [bexec bproper fold_left] in *.
  - inversion E; subst; auto.
  - destruct P as [P1 P2]. assert (X := bcall_k b k c Kb P1). unfold bbind in E. unfold kruns, wp in X.
    destruct (bcall1 c b) as [r b1|]; [|discriminate]. destruct (bexec h b1) as [rs1 b2|] eqn:E2; [|discriminate].
    inversion E; subst. eapply IH; eauto.
Qed.
Lemma breached_k : forall b l, breached b l -> exists m, K b (mkBBook m l).
Proof.
  intros b l (g & h & rs & P & E & ->). assert (X := bexec_k h _ _ rs b (K_start g) P E).
  exists (bb_max (fold_left bbstep h bbstart)). destruct (fold_left bbstep h bbstart); exact X.
Qed.
(** A valid program is stopped only by an assertion. *)
Lemma bexec_ok : forall h b k, K b k -> bproper k h ->
  (exists rs b', bexec h b = BOk rs b') \/ (exists m o, bexec h b = BErr (EFail m) o /\ Exists is_assert h).
Proof.
  induction h as [|c h IH]; intros b k Kb P; cbn [bexec bproper] in *.
  - left. eexists _, _. reflexivity.
  - destruct P as [P1 P2]. assert (X := bcall_k b k c Kb P1).
    destruct (wp_elim_fail _ _ _ _ _ X) as [(r & b1 & E1 & K1)|(m & o & E1 & F1)]; unfold bbind; rewrite E1.
    + destruct (IH b1 _ K1 P2) as [(rs & b2 & E2)|(m & o & E2 & F2)]; rewrite E2; [left; eexists _, _; reflexivity|].
      right. exists m, o. auto.
    + right. exists m, o. auto.
Qed.
End Back.
