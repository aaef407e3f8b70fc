(** * Proofs about functions of a program that the runtime calls *)
From Coq Require Import Reals NArith ZArith List Bool Arith Lia.
From Verif Require Import Cx Arith ArithR Sim SimExp Spec SpecRun SimRun Text Backend SpecBackend BackThms Heap SpecHeap HeapLemmas HeapThms HeapCalls
  QubitArray Args SpecArgs ArgsThms Runner Mixed SpecMixed Captures Invoke SpecInvoke InvokeThms SpecCalled.
From Verif Require Strings.
Import ListNotations.

Section Under.
Context {T : Tol} {EN : Env} {D : Doubles} {SW : Shows} {RN : Rand} {M : Mode}.
Variable p : mprog.

(** A run above other calls that have not returned. *)
Lemma run_under : forall n l st h w,
  match mrun p n l st h w with
  | MEnd g h' w' => exists m l', gstep p l' = MDone _ _ g /\ forall st0 fuel, mrun p (m + fuel) l (st ++ st0) h w = mrun p fuel l' st0 h' w'
  | MStopped e o => forall st0 fuel, mrun p (n + fuel) l (st ++ st0) h w = MStopped e o
  | _ => True
  end.
Proof.
  induction n as [|n IH]; intros l st h w; [exact I|].
  assert (Next : forall l1 st1 h1 w1, mrun p (S n) l st h w = mrun p n l1 st1 h1 w1 ->
    (forall st0 fuel, mrun p (S fuel) l (st ++ st0) h w = mrun p fuel l1 (st1 ++ st0) h1 w1) ->
    match mrun p (S n) l st h w with
    | MEnd g h' w' => exists m l', gstep p l' = MDone _ _ g /\ forall st0 fuel, mrun p (m + fuel) l (st ++ st0) h w = mrun p fuel l' st0 h' w'
    | MStopped e o => forall st0 fuel, mrun p (S n + fuel) l (st ++ st0) h w = MStopped e o
    | _ => True
    end).
  { intros l1 st1 h1 w1 -> H. specialize (IH l1 st1 h1 w1). destruct (mrun p n l1 st1 h1 w1) as [g h' w'|e o|o|]; try exact I.
    - destruct IH as (m & l' & G & R). exists (S m), l'. split; [exact G|]. intros st0 fuel. change (S m + fuel) with (S (m + fuel)). rewrite H. apply R.
    - intros st0 fuel. change (S n + fuel) with (S (n + fuel)). rewrite H. apply IH. }
  assert (Stop : forall r, (forall st0 fuel, mrun p (S fuel) l (st ++ st0) h w = r) -> match r with MStopped _ _ | MUndef => True | _ => False end ->
    match mrun p (S n) l st h w with
    | MEnd g h' w' => exists m l', gstep p l' = MDone _ _ g /\ forall st0 fuel, mrun p (m + fuel) l (st ++ st0) h w = mrun p fuel l' st0 h' w'
    | MStopped e o => forall st0 fuel, mrun p (S n + fuel) l (st ++ st0) h w = MStopped e o
    | _ => True
    end).
  { intros r H K. assert (H0 := H [] n). rewrite app_nil_r in H0. rewrite H0. destruct r; try destruct K; try exact I. intros st0 fuel. apply H. }
  destruct (gstep p l) as [g|c k|c k|i k|a k|c k|tp off i k|tp off bs k|c k|a k|a|cal args res g k|cal i al g k|lo hi k|] eqn:E.
  Ltac calc E Er := intros; cbn [mrun app]; rewrite E, ?Er; cbn [mnext]; reflexivity.
  Ltac one E r Next Stop := destruct r as [? ? ?| | | |] eqn:Er;
    [eapply Next; calc E Er|eapply Stop; [calc E Er|exact I]|eapply Stop; [calc E Er|exact I]|eapply Stop; [calc E Er|exact I]|eapply Stop; [calc E Er|exact I]].
  - destruct st as [|[cal args k|k] st].
    + cbn [mrun]. rewrite E. exists 0, l. split; [exact E|]. reflexivity.
    + destruct (mem (invoke_cleanup cal args) h (wback w)) as [r h1 b1| | | |] eqn:Er;
        [apply (Next (k g) st h1 (mkWorld b1 (wtgen w))); calc E Er|eapply Stop; [calc E Er|exact I]..].
    + apply (Next (k g) st h w); intros; cbn [mrun app]; rewrite E; reflexivity.
  - one E (dev (bcall1 c) h (wback w)) Next Stop.
  - one E (pcall1 c h (wback w)) Next Stop.
  - one E (qubit_allocate_array i h (wback w)) Next Stop.
  - one E (qubit_release_array a h (wback w)) Next Stop.
  - one E (mem (hcall1 c) h (wback w)) Next Stop.
  - one E (mem (tuple_read tp off i) h (wback w)) Next Stop.
  - one E (mem (tuple_write tp off bs) h (wback w)) Next Stop.
  - one E (mem (tcall1 c) h (wback w)) Next Stop.
  - destruct (Strings.rt_message a h (bout (wback w))) eqn:Er; [eapply Next; calc E Er|eapply Stop; [calc E Er|exact I]..].
  - destruct (Strings.rt_fail a h (bout (wback w))) eqn:Er; [eapply Next; calc E Er|eapply Stop; [calc E Er|exact I]..].
  - destruct (mem (enter cal args) h (wback w)) as [[[i args'] c] h1 b1| | | |] eqn:Er;
      [apply (Next (gcode p (c_table c) i (c_capture c) args' res g) (FInvoke _ _ cal args' k :: st) h1 (mkWorld b1 (wtgen w))); calc E Er|eapply Stop; [calc E Er|exact I]..].
  - destruct (mem (get_call cal) h (wback w)) as [c h1 b1| | | |] eqn:Er; [|eapply Stop; [calc E Er|exact I]..].
    destruct (match c_mem c with Some t => gcapt p t (if al then 1 else 0) | None => None end) as [f|] eqn:Ef.
    + apply (Next (f (c_capture c) i g) (FCapture _ _ k :: st) h1 (mkWorld b1 (wtgen w))); intros; cbn [mrun app]; rewrite E, Er; cbn [mnext]; rewrite Ef; reflexivity.
    + apply (Next (k g) st h1 (mkWorld b1 (wtgen w))); intros; cbn [mrun app]; rewrite E, Er; cbn [mnext]; rewrite Ef; reflexivity.
  - destruct (draw_int lo hi w) as [[z w']|o] eqn:Er; [eapply Next; calc E Er|eapply Stop; [calc E Er|exact I]].
  - eapply Stop; [intros; cbn [mrun]; rewrite E; reflexivity|exact I].
Qed.

Lemma sound_under : forall st0 m l st h w, (forall n, sound p n l st h w) ->
  (forall n g h' w' l', mrun p n l st h w = MEnd g h' w' -> gstep p l' = MDone _ _ g -> forall n', sound p n' l' st0 h' w') ->
  sound p m l (st ++ st0) h w.
Proof.
  intros st0. induction m as [|m IH]; intros l st h w So Fin; [exact I|].
  assert (Next : forall l1 st1 h1 w1, (forall n, sound p (S n) l st h w -> sound p n l1 st1 h1 w1) ->
    (forall n, mrun p (S n) l st h w = mrun p n l1 st1 h1 w1) -> sound p m l1 (st1 ++ st0) h1 w1).
  { intros l1 st1 h1 w1 H1 H2. apply IH; [intros n; apply H1, So|]. intros n g h' w' l' R. rewrite <- H2 in R. exact (Fin _ _ _ _ _ R). }
  assert (S1 := So 1). cbn [sound] in *.
  destruct (gstep p l) as [g|c k|c k|i k|a k|c k|tp off i k|tp off bs k|c k|a k|a|cal args res g k|cal i al g k|lo hi k|] eqn:E.
  - destruct st as [|[cal args k|k] st]; cbn [app].
    + assert (X := Fin 1 g h w l). cbn [mrun] in X. rewrite E in X. specialize (X eq_refl eq_refl (S m)). cbn [sound] in X. rewrite E in X. exact X.
    + destruct (mem (invoke_cleanup cal args) h (wback w)) as [r h1 b1| | | |] eqn:Er; cbn [onward] in *; try exact I; try exact S1.
      apply (Next (k g) st); [|intros n; cbn [mrun]; rewrite E, Er; reflexivity]. intros n Hn. exact Hn.
    + apply (Next (k g) st); [|intros n; cbn [mrun]; rewrite E; reflexivity]. intros n Hn. exact Hn.
  - destruct (dev (bcall1 c) h (wback w)) eqn:Er; cbn [onward] in *; try exact I; try exact S1.
    apply Next; [|intros n; cbn [mrun]; rewrite E, Er; reflexivity]. intros n Hn. exact Hn.
  - destruct S1 as [Dn S1]. split; [exact Dn|]. destruct (pcall1 c h (wback w)) eqn:Er; cbn [onward] in *; try exact I; try exact S1.
    apply Next; [|intros n; cbn [mrun]; rewrite E, Er; reflexivity]. intros n [_ Hn]. exact Hn.
  - destruct S1 as [Dn S1]. split; [exact Dn|]. destruct (qubit_allocate_array i h (wback w)) eqn:Er; cbn [onward] in *; try exact I; try exact S1.
    apply Next; [|intros n; cbn [mrun]; rewrite E, Er; reflexivity]. intros n [_ Hn]. exact Hn.
  - destruct S1 as [Dn S1]. split; [exact Dn|]. destruct (qubit_release_array a h (wback w)) eqn:Er; cbn [onward] in *; try exact I; try exact S1.
    apply Next; [|intros n; cbn [mrun]; rewrite E, Er; reflexivity]. intros n [_ Hn]. exact Hn.
  - destruct (mem (hcall1 c) h (wback w)) eqn:Er; cbn [onward] in *; try exact I; try exact S1.
    apply Next; [|intros n; cbn [mrun]; rewrite E, Er; reflexivity]. intros n Hn. exact Hn.
  - destruct (mem (tuple_read tp off i) h (wback w)) eqn:Er; cbn [onward] in *; try exact I; try exact S1.
    apply Next; [|intros n; cbn [mrun]; rewrite E, Er; reflexivity]. intros n Hn. exact Hn.
  - destruct (mem (tuple_write tp off bs) h (wback w)) eqn:Er; cbn [onward] in *; try exact I; try exact S1.
    apply Next; [|intros n; cbn [mrun]; rewrite E, Er; reflexivity]. intros n Hn. exact Hn.
  - destruct (mem (tcall1 c) h (wback w)) eqn:Er; cbn [onward] in *; try exact I; try exact S1.
    apply Next; [|intros n; cbn [mrun]; rewrite E, Er; reflexivity]. intros n Hn. exact Hn.
  - destruct S1 as (t & St & _). exists t. split; [exact St|]. intros o Eo.
    apply Next; [|intros n; cbn [mrun]; rewrite E, Eo; reflexivity]. intros n (t' & _ & Hn). exact (Hn o Eo).
  - exact S1.
  - destruct (mem (enter cal args) h (wback w)) as [[[i args'] c] h1 b1| | | |] eqn:Er; cbn [onward] in *; try exact I; try exact S1.
    apply (Next _ (FInvoke _ _ cal args' k :: st)); [|intros n; cbn [mrun]; rewrite E, Er; reflexivity]. intros n Hn. exact Hn.
  - destruct (mem (get_call cal) h (wback w)) as [c h1 b1| | | |] eqn:Er; cbn [onward] in *; try exact I; try exact S1.
    destruct (match c_mem c with Some t => gcapt p t (if al then 1 else 0) | None => None end) as [f|] eqn:Ef.
    + apply (Next _ (FCapture _ _ k :: st)); [|intros n; cbn [mrun]; rewrite E, Er; cbn [mnext]; rewrite Ef; reflexivity]. intros n Hn. exact Hn.
    + apply Next; [|intros n; cbn [mrun]; rewrite E, Er; cbn [mnext]; rewrite Ef; reflexivity]. intros n Hn. exact Hn.
  - destruct (draw_int lo hi w) as [[z w']|o] eqn:Er; [|exact I]. apply Next; [|intros n; cbn [mrun]; rewrite E, Er; reflexivity]. intros n Hn. exact Hn.
  - exact I.
Qed.
End Under.

Section Called.
Context {T : Tol} {EN : Env} {D : Doubles} {SW : Shows} {RN : Rand} {M : Mode}.
Variable p : mprog.

Lemma end_stays : forall n l h w g h' w', mrun p n l [] h w = MEnd g h' w' -> exists m, forall fuel, mrun p (m + S fuel) l [] h w = MEnd g h' w'.
Proof.
  intros n l h w g h' w' R. assert (U := run_under p n l [] h w). rewrite R in U. destruct U as (m & l' & G & U). exists m.
  intros fuel. etransitivity; [exact (U [] (S fuel))|]. cbn [mrun]. rewrite G. reflexivity.
Qed.
Lemma end_one : forall n n2 l h w g h' w' g2 h2 w2, mrun p n l [] h w = MEnd g h' w' -> mrun p n2 l [] h w = MEnd g2 h2 w2 -> g2 = g /\ h2 = h' /\ w2 = w'.
Proof.
  intros n n2 l h w g h' w' g2 h2 w2 R R2. destruct (end_stays _ _ _ _ _ _ _ R) as [m E]. destruct (end_stays _ _ _ _ _ _ _ R2) as [m2 E2].
  specialize (E m2). specialize (E2 m). replace (m + S m2) with (m2 + S m) in E by lia. rewrite E2 in E. injection E as -> -> ->. auto.
Qed.
Lemma end_not_stop : forall n n2 l h w g h' w' e o, mrun p n l [] h w = MEnd g h' w' -> mrun p n2 l [] h w = MStopped e o -> False.
Proof.
  intros n n2 l h w g h' w' e o R R2. destruct (end_stays _ _ _ _ _ _ _ R) as [m E]. assert (U := run_under p n2 l [] h w). rewrite R2 in U.
  specialize (U [] (m + 1)). cbn [app] in U. specialize (E n2). replace (n2 + (m + 1)) with (m + S n2) in U by lia. rewrite U in E. discriminate.
Qed.

(** A function called by the runtime. *)
Lemma call_ends : forall l h w g h' w', (forall n, sound p n l [] h w) -> (exists n, mrun p n l [] h w = MEnd g h' w') ->
  exists m l', gstep p l' = MDone _ _ g /\
    forall st, (forall fuel, mrun p (m + fuel) l st h w = mrun p fuel l' st h' w') /\
      ((forall l2, gstep p l2 = MDone _ _ g -> forall fuel, sound p fuel l2 st h' w') -> forall fuel, sound p fuel l st h w).
Proof.
  intros l h w g h' w' So [n R]. assert (U := run_under p n l [] h w). rewrite R in U. destruct U as (m & l' & G & U). exists m, l'. split; [exact G|].
  intros st. split; [intros fuel; apply (U st)|]. intros K fuel. apply (sound_under p st fuel l [] h w So).
  intros n2 g2 h2 w2 l2 R2 G2. destruct (end_one _ _ _ _ _ _ _ _ _ _ _ R R2) as (-> & -> & ->). exact (K l2 G2).
Qed.
Lemma call_stops : forall l h w e o, (forall n, sound p n l [] h w) -> (exists n, mrun p n l [] h w = MStopped e o) -> stops p l h w e o.
Proof.
  intros l h w e o So [n R]. exists n. intros st. assert (U := run_under p n l [] h w). rewrite R in U. split; [intros fuel; apply (U st)|].
  intros fuel. apply (sound_under p st fuel l [] h w So). intros n2 g2 h2 w2 l2 R2. destruct (end_not_stop _ _ _ _ _ _ _ _ _ _ R2 R).
Qed.

Lemma entered : forall A (plain ctld : layout A), lasting plain -> lasting ctld -> forall h cal cn cl c a css x,
  alive h cal cn cl (VCall c) -> c_ctls c = length css -> given plain ctld h a css x -> fits css ->
  exists i a1 h1, enter cal (Some a) h = HOk (i, Some a1, c) h1 /\
    match css with
    | [] => i = (if c_adj c then 1 else 0) /\ exists n al d, alive h1 a1 n al (VTup d) /\ plain h1 d x
    | _ => i = (if c_adj c then 3 else 2) /\
           exists n al ct d, alive h1 a1 n al (VTup (ptr_bytes (PObj ct) ++ d)) /\ holds_qubits h1 ct (concat css) /\ ctld h1 d x
    end /\
    forall h2, undisturbed h1 h2 -> exists h', invoke_cleanup cal (Some a1) h2 = HOk tt h' /\ undisturbed h h'.
Proof.
  intros A plain ctld Lp Lc h cal cn cl c a css x Ac El G F. unfold enter. destruct css as [|cs css].
  - destruct G as (n & al & d & Aa & P). rewrite (bind_ok _ _ _ _ _ _ _ (prepare_plain _ _ _ _ _ _ _ _ _ Ac El Aa)).
    pose proof (alive_app _ [live 1 0 (VTup d)] _ _ _ _ Ac) as C1. apply alive_iff in C1.
    rewrite (bind_ok _ _ _ _ _ _ _ (get_call_live _ _ _ _ _ (proj2 C1))).
    eexists _, _, _. split; [reflexivity|]. split; [split; [reflexivity|]|].
    + exists 1, 0, d. split; [apply alive_new|exact (Lp _ _ _ _ (app_keeps _ _) P)].
    + intros h2. apply cleanup_plain with (cn := cn) (cl := cl) (c := c); assumption.
  - destruct (nested_controls ctld _ _ _ _ _ G) as (ds & els & rest & Ld & C & K & E & Le & Q).
    assert (El' : c_ctls c = length ds) by (rewrite El, Ld; reflexivity).
    destruct (prepare_controlled _ _ _ _ _ _ _ _ _ Ac El' C) as (h1 & args & ct & P & Ep). rewrite (bind_ok _ _ _ _ _ _ _ Ep).
    pose proof (call_kept _ _ _ _ _ _ _ _ _ _ _ P Ac) as C1. rewrite (bind_ok _ _ _ _ _ _ _ (get_call_live _ _ _ _ _ C1)).
    eexists _, _, _. split; [reflexivity|]. split; [split; [destruct (c_adj c); reflexivity|]|].
    + assert (Cv : exists m ml, m <> 0 /\ nth_error h1 ct = Some (live m ml (VArr 8 (concat els)))).
      { destruct P as (_ & _ & _ & [(m & ml & Nm & _ & C2)|(_ & _ & C2)] & _); rewrite E in C2; [exists (S m), ml|exists 1, 0]; auto. }
      destruct Cv as (m & ml & Nm & C2). exists 1, 0, ct, rest. split; [apply alive_iff; split; [lia|exact (proj1 (proj2 (proj2 P)))]|]. split.
      * exists m, ml, els. split; [split; [apply alive_iff; auto|exact Le]|]. split; [exact Q|]. rewrite (forall2_len _ _ _ _ _ Q). exact F.
      * exact (Lc _ _ _ _ (pending_keeps _ _ _ _ _ _ _ P) K).
    + intros h2. apply cleanup_controlled with (sz := 8%Z) (ct := ct) (d := concat ds) (rest := rest) (cn := cn) (cl := cl) (c := c); [exact P|exact Ac|rewrite El'; lia].
Qed.

Lemma called_thm : forall A (plain ctld : layout A) (op : operation A), lasting plain -> lasting ctld ->
  forall l cal cn cl c a res g k h w css x, gstep p l = MInvoke _ _ cal (Some a) res g k ->
  alive h cal cn cl (VCall c) -> carries_out p (c_table c) (c_capture c) plain ctld op ->
  c_ctls c = length css -> given plain ctld h a css x -> fits css ->
  match op (c_adj c) (all_controls css) x (wback w) with
  | BOk tt b' => exists h', goes_on p l h w (k g) h' (mkWorld b' (wtgen w)) /\ undisturbed h h'
  | BErr e o => stops p l h w (StopErr e) o
  end.
Proof.
  intros A plain ctld op Lp Lc l cal cn cl c a res g k h w css x E Ac [I0 I1] El G F.
  destruct (entered A plain ctld Lp Lc h cal cn cl c a css x Ac El G F) as (i & a1 & h1 & En & Cd & Cl).
  assert (Ds : does p (gcode p (c_table c) i (c_capture c) (Some a1) res g) g h1 w (op (c_adj c) (all_controls css) x (wback w))).
  { destruct css as [|cs css]; destruct Cd as [-> Cd].
    - destruct Cd as (n & al & d & Aa & P). exact (I0 (c_adj c) a1 n al d x h1 w res g Aa P).
    - destruct Cd as (n & al & ct & d & Aa & Hq & P). exact (I1 (c_adj c) a1 n al ct d _ x h1 w res g Aa Hq P). }
  clear I0 I1 Cd. set (lc := gcode p (c_table c) i (c_capture c) (Some a1) res g) in *.
  assert (First : forall st, (forall fuel, mrun p (S fuel) l st h w = mrun p fuel lc (FInvoke _ _ cal (Some a1) k :: st) h1 w) /\
    forall fuel, sound p fuel lc (FInvoke _ _ cal (Some a1) k :: st) h1 w -> sound p (S fuel) l st h w).
  { destruct w as [b t]. intros st. split; intros fuel; cbn [mrun sound wback]; rewrite E; unfold mem; rewrite En; [reflexivity|]. intros So. exact So. }
  destruct Ds as [So Ds]. destruct (op (c_adj c) (all_controls css) x (wback w)) as [[] b'|e o].
  - destruct Ds as (n & h2 & R & U). destruct (Cl h2 U) as (h' & Ec & U'). exists h'. split; [|exact U'].
    destruct (call_ends lc h1 w g h2 _ So (ex_intro _ n R)) as (m & l' & G' & K). exists (S (m + 1)). intros st.
    destruct (First st) as [F1 F2]. destruct (K (FInvoke _ _ cal (Some a1) k :: st)) as [K1 K2]. split.
    + intros fuel. cbn [Nat.add]. rewrite F1. rewrite <- Nat.add_assoc, K1. cbn [Nat.add mrun]. rewrite G'. unfold mem. cbn [wback]. rewrite Ec. reflexivity.
    + intros So2 [|fuel]; [exact I|]. apply F2, K2. intros l2 G2 [|f]; [exact I|]. cbn [sound]. rewrite G2. unfold mem. cbn [wback]. rewrite Ec. cbn [onward wtgen]. apply So2.
  - destruct (call_stops lc h1 w (StopErr e) o So Ds) as (n & K). exists (S n). intros st. destruct (First st) as [F1 F2].
    destruct (K (FInvoke _ _ cal (Some a1) k :: st)) as [K1 K2]. split.
    + intros fuel. cbn [Nat.add]. rewrite F1. apply K1.
    + intros [|fuel]; [exact I|]. apply F2, K2.
Qed.

Lemma captures_thm : forall mf, keeps_captures p mf -> forall l cal by_ is_alias g k h w h',
  gstep p l = MCapture _ _ cal by_ is_alias g k -> capture_update mf cal by_ is_alias h = HOk tt h' ->
  goes_on p l h w (k g) h' w.
Proof.
  intros mf Kc l cal by_ is_alias g k h w h' E Cu. unfold capture_update in Cu.
  unfold hbind in Cu. destruct (get_call cal h) as [c h0| | |] eqn:Gc; try discriminate.
  destruct w as [b t].
  assert (Null : match c_mem c with Some t => gcapt p t (if is_alias then 1 else 0) | None => None end = None -> h' = h0 -> goes_on p l h (mkWorld b t) (k g) h' (mkWorld b t)).
  { intros Nl ->. exists 1. intros st. split.
    - intros fuel. cbn [Nat.add mrun]. rewrite E. unfold mem. rewrite Gc. cbn [mnext]. rewrite Nl. reflexivity.
    - intros So [|fuel]; [exact I|]. cbn [sound]. rewrite E. unfold mem. rewrite Gc. cbn [onward]. rewrite Nl. apply So. }
  destruct (c_mem c) as [tb|] eqn:Em; [|apply Null; [reflexivity|unfold hret in Cu; congruence]].
  assert (Ke := Kc tb (if is_alias then 1 else 0)). destruct (entry mf tb (if is_alias then 1 else 0)) as [f|].
  2:{ apply Null; [exact Ke|unfold hret in Cu; congruence]. }
  destruct Ke as (start & Es & Ke). destruct (Ke (c_capture c) by_ g h0 (mkWorld b t) h' Cu) as [So R].
  destruct (call_ends _ _ _ _ _ _ So R) as (m & l' & G' & K). exists (S (m + 1)). intros st. destruct (K (FCapture _ _ k :: st)) as [K1 K2]. split.
  - intros fuel. cbn [Nat.add mrun]. rewrite E. unfold mem. rewrite Gc. cbn [mnext wback wtgen]. rewrite Em, Es, <- Nat.add_assoc, K1. cbn [Nat.add mrun]. rewrite G'. reflexivity.
  - intros So2 [|fuel]; [exact I|]. cbn [sound]. rewrite E. unfold mem. rewrite Gc. cbn [onward wback wtgen]. rewrite Em, Es. apply K2.
    intros l2 G2 [|f']; [exact I|]. cbn [sound]. rewrite G2. apply So2.
Qed.

Lemma called_gates : exact_world -> forall t m cap g g', adjoint_of g = Some g' -> carries_out p t cap one_qubit one_qubit (gate_op g g') ->
  forall l cal cn cl adj a res gm k h w css q lv psi, let lv' := opened (bmax (wback w)) lv (q :: concat css) in
  gstep p l = MInvoke _ _ cal (Some a) res gm k -> alive h cal cn cl (VCall (mkCallable t m cap adj (length css))) ->
  given one_qubit one_qubit h a css q -> fits css ->
  breached (wback w) lv -> bshows (wback w) lv psi -> NoDup (q :: concat css) -> incl (q :: concat css) lv' ->
  exists h' b', goes_on p l h w (k gm) h' (mkWorld b' (wtgen w)) /\ undisturbed h h' /\ breached b' lv' /\
    bshows b' lv' (cgate (concat css) (if adj then dagger (gmat g) else gmat g) q psi) /\ same_rest (wback w) b'.
Proof.
  intros EW t m cap g g' Eg I l cal cn cl adj a res gm k h w css q lv psi lv' E Ac G F R Sh Nd Inc.
  assert (K := called_thm nat one_qubit one_qubit (gate_op g g') one_qubit_lasting one_qubit_lasting l cal cn cl _ a res gm k h w css q E Ac I eq_refl G F).
  cbn [c_adj] in K. set (g1 := if adj then g' else g).
  assert (Em : gmat g1 = if adj then dagger (gmat g) else gmat g) by (unfold g1; destruct adj; [apply dagger_ok, Eg|reflexivity]).
  unfold gate_op in K. fold g1 in K. rewrite <- Em. set (c := gate_call g1 (all_controls css) q) in *.
  assert (Bn : bnames c = q :: concat css) by (unfold c; destruct css; reflexivity).
  assert (Bo : bop c = Some (cgate (concat css) (gmat g1) q)) by (unfold c; destruct css; reflexivity).
  assert (V : bvalid (mkBBook (bmax (wback w)) lv) c) by (unfold c in *; destruct css; cbn [bvalid gate_call all_controls bb_max bb_live]; rewrite ?Bn; split; assumption).
  assert (Y : y_free (wback w) c).
  { intros x y. unfold c. destruct css; cbn [gate_call all_controls turns_y]; [|discriminate]. unfold g1.
    destruct adj, g; try discriminate; injection Eg as <-; discriminate. }
  destruct (op_thm EW (wback w) lv psi c _ R Sh V Bo Y) as (b' & E1 & R' & S' & Re). rewrite E1 in K. destruct K as (h2 & E2 & U).
  rewrite Bn in R', S'. exists h2, b'. auto.
Qed.
End Called.
