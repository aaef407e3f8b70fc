(** * Sequences of gates that do the same: proofs *)
From Coq Require Import List NArith ZArith Reals Bool Lia Lra FunctionalExtensionality.
From Verif Require Import Cx Bits BitsLemmas Arith ArithR Sim SimExp Spec SpecExp SpecRun SimRun QLib SpecLemmas SimProps BackMath Text Backend SpecBackend Runner SpecIdeal SpecChance Chance
  SpecIdle IdleThms SpecAlike AlikeThms SpecRewrite.
Import ListNotations.
Local Open Scope R_scope.

Section Rewrite.
Context {T : Tol} {EN : Env} {D : Doubles} {SW : Shows} {RN : Rand}.

(** ** A global phase makes no difference *)
Inductive side_phase : side -> side -> Prop :=
| sp_go : forall r m m', upto_phase m m' -> side_phase (Go r m) (Go r m')
| sp_halt : forall e o, side_phase (Halt e o) (Halt e o).
Lemma phase_refl : forall psi, phase_eq psi psi.
Proof. intros psi. exists C1. split; [unfold Cn2, C1; simpl; ring|]. apply functional_extensionality. intros b. unfold scale. ring. Qed.
Lemma phase_map : forall (F : qstate -> qstate) psi phi, (forall c f, F (scale c f) = scale c (F f)) -> phase_eq psi phi -> phase_eq (F psi) (F phi).
Proof. intros F psi phi L (c & U & ->). exists c. split; [exact U|apply L]. Qed.
Lemma phase_size : forall l psi phi, phase_eq psi phi -> size2 l psi = size2 l phi.
Proof. intros l psi phi (c & U & ->). rewrite size2_scale, U. ring. Qed.
Lemma phase_chance : forall m m', upto_phase m m' -> chance m = chance m'.
Proof. intros m m' (B & V & _). unfold chance. rewrite B. now apply phase_size. Qed.
Lemma phase_nothing : forall l psi phi, phase_eq psi phi -> nothing l psi = nothing l phi.
Proof. intros l psi phi H. unfold nothing. now rewrite (phase_size l psi phi H). Qed.
Lemma proj_lin : forall ids r c f, proj ids r (scale c f) = scale c (proj ids r f).
Proof. intros. apply functional_extensionality. intros b. unfold proj, scale. destruct (Bool.eqb _ _); ring. Qed.
Lemma eigen_lin : forall pl r c f, eigen_proj pl r (scale c f) = scale c (eigen_proj pl r f).
Proof. intros pl r. apply (on_linear (fun _ => True)). apply on_eigen. auto. Qed.
Lemma phase_born : forall n ids psi phi, phase_eq psi phi -> born n ids psi = born n ids phi.
Proof.
  intros n ids psi phi (c & U & ->). unfold born, qsum. f_equal. apply map_ext. intros b. destruct (par ids b); [|reflexivity].
  unfold scale. rewrite Cn2_mul, U. ring.
Qed.
Lemma phase_discards : forall qs l psi phi, phase_eq psi phi -> Forall2 phase_eq (discards qs l psi) (discards qs l phi).
Proof.
  induction qs as [|q qs IH]; intros l psi phi H; cbn [discards]; [constructor; auto|].
  destruct (remove_id q l) as [|x l']; [rewrite (phase_nothing l psi phi H); apply IH, phase_refl|].
  apply Forall2_app; apply IH; apply (phase_map (fun f => drop_qubit q _ (proj [q] _ f))); try exact H; intros c f; rewrite proj_lin; apply drop_scale'.
Qed.
Lemma phase_sides : forall m m' c, upto_phase m m' -> Forall2 side_phase (sides m c) (sides m' c).
Proof.
  intros [k v u r o] [k' v' u' r' o'] c (B & V & Eu & Er & Eo). cbn in B, V, Eu, Er, Eo. subst k' u' r' o'.
  assert (G : forall rep m m', upto_phase m m' -> Forall2 side_phase [Go rep m] [Go rep m']) by (intros; constructor; [now constructor|constructor]).
  assert (W : forall (f g : bool -> side), (forall b, side_phase (f b) (g b)) -> Forall2 side_phase (bothways f) (bothways g)) by (intros f g H; repeat constructor; apply H).
  assert (U : forall k1 psi phi u1 r1 o1, phase_eq psi phi -> upto_phase (mkPath k1 psi u1 r1 o1) (mkPath k1 phi u1 r1 o1)) by (intros; repeat split; auto).
  assert (L : forall qs l k1, Forall2 side_phase (map (fun psi' => Go VUnit (moved (mkPath k v u r o) k1 psi')) (discards qs l v))
    (map (fun psi' => Go VUnit (moved (mkPath k v' u r o) k1 psi')) (discards qs l v'))).
  { intros qs l k1. assert (H := phase_discards qs l v v' V). induction H; constructor; auto. constructor. apply U. auto. }
  unfold sides. destruct (bop c) as [F|] eqn:Eb.
  { apply G. apply U. apply phase_map; [|exact V]. apply (on_linear _ F (on_bop c F Eb)). }
  destruct c; try discriminate; cbn [h_book h_vec h_used h_res h_out]; unfold moved, noted, looked, printed; cbn [h_book h_vec h_used h_res h_out];
    try (apply G; apply U; exact V);
    try (apply W; intros b; constructor; apply U; apply (phase_map (proj _ b)); [apply proj_lin|exact V]);
    try (apply W; intros b; constructor; apply U; apply (phase_map (fun f => drop_qubit _ b (proj _ b f))); [intros; rewrite proj_lin; apply drop_scale'|exact V]);
    try (apply W; intros b; constructor; apply U; apply (phase_map (eigen_proj _ b)); [apply eigen_lin|exact V]);
    try exact (L _ _ _).
  all: try (destruct location; [apply G, U, V|repeat constructor]).
  all: try (destruct (Nat.eqb u 0); apply G, U, V).
  all: try (rewrite (phase_nothing _ v v' V); apply G, U, phase_refl).
  all: try (repeat constructor; fail).
  - rewrite (phase_born _ _ v v' V). apply G, U, V.
  - match goal with |- context [eigen_proj ?pl ?b v] =>
      rewrite (phase_size _ _ _ (phase_map (eigen_proj pl b) v v' (eigen_lin pl b) V)), (phase_size _ v v' V) end.
    destruct (Rlt_dec _ _); [constructor; constructor|apply G, U, V].
Qed.
Lemma phase_chances : forall p n l m m' t, upto_phase m m' -> chances p n l m t = chances p n l m' t.
Proof.
  intros p. induction n as [|n IH]; intros l m m' t H; cbn [chances].
  - rewrite (phase_chance m m' H). destruct H as (_ & _ & _ & _ & ->). reflexivity.
  - assert (Eo : h_out m = h_out m') by apply H. assert (Ec := phase_chance m m' H).
    destruct (pstep p l) eqn:Ep; try (rewrite Ec, Eo; reflexivity).
    + assert (F := phase_sides m m' c H). induction F as [|x y xs ys R F IHF]; [reflexivity|]. cbn [flat_map]. rewrite IHF. f_equal.
      destruct R as [r a b R|e o]; [|rewrite Ec; reflexivity]. rewrite (phase_chance a b R). destruct (Req_EM_T (chance b) 0); [reflexivity|]. apply IH, R.
    + destruct (Z.ltb hi lo); [rewrite Ec, Eo; reflexivity|]. apply IH, H.
Qed.

(** ** Running through a circuit *)
Lemma gate_step : forall m c, bop c <> None -> hvalid m c -> supported (bb_live (h_book m)) (h_vec m) ->
  sides m c = [Go VUnit (gated m c)] /\ supported (bb_live (h_book (gated m c))) (h_vec (gated m c)) /\ chance (gated m c) = chance m.
Proof.
  intros m c B V S. assert (L : c <> QCapture /\ c <> QDump 0) by (split; intros ->; apply B; reflexivity).
  destruct (step_facts m c S V (proj1 L) (proj2 L)) as [Su Es].
  assert (Eg : sides m c = [Go VUnit (gated m c)]) by (unfold sides, gated; destruct (bop c); [reflexivity|contradiction]).
  rewrite Eg in *. split; [reflexivity|]. split; [exact (Su _ (or_introl eq_refl))|]. rewrite <- Es. cbn [map Rsum fold_right side_wt]. unfold Rsum. simpl. ring.
Qed.
Lemma circuit_runs : forall p cs n l l1 m t, making p cs l l1 -> circuit m cs -> supported (bb_live (h_book m)) (h_vec m) -> chance m <> 0 ->
  chances p (length cs + n) l m t = chances p n l1 (after m cs) t /\
  supported (bb_live (h_book (after m cs))) (h_vec (after m cs)) /\ chance (after m cs) = chance m.
Proof.
  intros p. induction cs as [|c cs IH]; intros n l l1 m t M Ci Sm Nz.
  - cbn [making] in M. subst l1. auto.
  - destruct M as (k & El & M). destruct Ci as (B & V & Ci). destruct (gate_step m c B V Sm) as (Eg & S' & C').
    assert (Nz' : chance (gated m c) <> 0) by (rewrite C'; exact Nz).
    destruct (IH n (k VUnit) l1 (gated m c) t M Ci S' Nz') as (I1 & I2 & I3).
    change (after m (c :: cs)) with (after (gated m c) cs). split; [|split; [exact I2|rewrite I3; exact C']].
    change (length (c :: cs) + n)%nat with (S (length cs + n)). rewrite (chances_call _ _ _ _ _ _ _ El), Eg. cbn [flat_map onward].
    destruct (Req_EM_T (chance (gated m c)) 0); [contradiction|]. rewrite app_nil_r. exact I1.
Qed.
(** ** Deferred measurement *)
Lemma more : forall p n l m t, ends_within p n l m t -> chances p (S n) l m t = chances p n l m t.
Proof.
  intros p. induction n as [|n IH]; intros l m t H; [destruct H|]. cbn [ends_within] in H.
  change (chances p (S (S n)) l m t) with (match pstep p l with
    | ADone mem => [(chance m, EDone mem (h_out m) t)]
    | ATrap => [(chance m, EStop StopTrap (h_out m))]
    | ARandom lo hi k =>
      if Z.ltb hi lo then [(chance m, EStop (StopErr (EFail bad_range)) (h_out m ++ render (RecMessage bad_range)))]
      else chances p (S n) (k (fst (draw_range lo hi t))) m (snd (draw_range lo hi t))
    | ACall c k => flat_map (onward p (S n) k t m) (sides m c)
    end).
  change (chances p (S n) l m t) with (match pstep p l with
    | ADone mem => [(chance m, EDone mem (h_out m) t)]
    | ATrap => [(chance m, EStop StopTrap (h_out m))]
    | ARandom lo hi k =>
      if Z.ltb hi lo then [(chance m, EStop (StopErr (EFail bad_range)) (h_out m ++ render (RecMessage bad_range)))]
      else chances p n (k (fst (draw_range lo hi t))) m (snd (draw_range lo hi t))
    | ACall c k => flat_map (onward p n k t m) (sides m c)
    end).
  destruct (pstep p l) eqn:Ep; try reflexivity.
  - assert (X : forall xs, (forall x, In x xs -> In x (sides m c)) -> flat_map (onward p (S n) k t m) xs = flat_map (onward p n k t m) xs); [|apply X; auto].
    induction xs as [|x xs IHx]; intros Hx; [reflexivity|]. cbn [flat_map]. rewrite IHx by (intros y Hy; apply Hx; now right). f_equal.
    destruct x as [r m'|e o]; [|reflexivity]. cbn [onward]. destruct (Req_EM_T (chance m') 0) as [_|Nz]; [reflexivity|].
    apply IH. apply (H r m'); [apply Hx; now left|exact Nz].
  - destruct (Z.ltb hi lo) eqn:El; [reflexivity|]. apply Z.ltb_ge in El. apply IH. auto.
Qed.
Lemma circuit_keeps : forall cs m, circuit m cs -> supported (bb_live (h_book m)) (h_vec m) ->
  supported (bb_live (h_book (after m cs))) (h_vec (after m cs)) /\ chance (after m cs) = chance m.
Proof.
  induction cs as [|c cs IH]; intros m H Sm; [auto|]. destruct H as (B & V & H). destruct (gate_step m c B V Sm) as (_ & S' & C').
  destruct (IH (gated m c) H S') as [I1 I2]. change (after m (c :: cs)) with (after (gated m c) cs). split; [exact I1|congruence].
Qed.
Definition effect (cs : list bcall) (psi : qstate) : qstate := fold_left (fun psi c => match bop c with Some F => F psi | None => psi end) cs psi.
Lemma after_vec : forall cs m, circuit m cs -> h_vec (after m cs) = effect cs (h_vec m) /\ h_used (after m cs) = h_used m /\ h_res (after m cs) = h_res m /\
  h_out (after m cs) = h_out m.
Proof.
  induction cs as [|c cs IH]; intros m H; [auto|]. destruct H as (B & V & H). destruct (IH (gated m c) H) as (I1 & I2 & I3 & I4).
  change (after m (c :: cs)) with (after (gated m c) cs). rewrite I1, I2, I3, I4. unfold gated. destruct (bop c) as [F|] eqn:Eb; [|contradiction].
  cbn [effect fold_left]. rewrite Eb. auto.
Qed.
Lemma ready_book : forall m m' c, h_book m' = h_book m -> ready m c -> ready m' c.
Proof. intros m m' c E (A & V & M). unfold ready, hvalid in *. rewrite E. auto. Qed.
Lemma ready_circuit : forall m cs m', Forall (ready m) cs -> Forall (fun c => bop c <> None) cs -> h_book m' = h_book m -> circuit m' cs /\ h_book (after m' cs) = h_book m.
Proof.
  intros m. induction cs as [|c cs IH]; intros m' R B E; [split; [exact I|exact E]|]. apply Forall_cons_iff in R as [R1 R2]. apply Forall_cons_iff in B as [B1 B2].
  assert (R1' := ready_book m m' c E R1). destruct R1' as (A & V & M).
  assert (Eg : h_book (gated m' c) = h_book m).
  { unfold gated. destruct (bop c) as [F|]; [|exact E]. cbn [moved h_book]. rewrite (still _ c A M). exact E. }
  destruct (IH (gated m' c) R2 B2 Eg) as [I1 I2]. split; [split; [exact B1|]; split; [exact V|exact I1]|exact I2].
Qed.
Lemma controlled_bop : forall q c c', controlled q c c' -> exists F F', bop c = Some F /\ bop c' = Some F' /\ forall psi, F' psi = ctrl_op [q] F psi.
Proof.
  intros q c c' H. destruct H; do 2 eexists; (split; [reflexivity|]; split; [reflexivity|]); intros psi; try reflexivity;
    apply functional_extensionality; intros b; unfold cgate, ctrl_op; cbn [forallb]; destruct (bit b q); reflexivity.
Qed.
Lemma controlled_names : forall q c c' m, controlled q c c' -> hvalid m c' -> ~ In q (bnames c).
Proof.
  intros q c c' m H V. destruct H; cbn [hvalid bvalid] in V.
  - destruct V as [V _]. cbn [bnames] in *. inversion V as [|? ? Na _]. intros [->|[]]. apply Na. now left.
  - destruct V as [V _]. cbn [bnames] in *. inversion V as [|? ? Na Nb]. inversion Nb as [|? ? Nc _]. intros [->|[->|[]]]; [apply Na|apply Nc]; now left.
  - destruct V as [V _]. cbn [bnames] in *. inversion V as [|? ? Na Nb]. inversion Nb as [|? ? Nc _]. intros [->|Hi]; [apply Na; now left|now apply Nc].
  - destruct V as [V _]. destruct a; cbn [bnames] in *; try tauto; inversion V as [|? ? Na _]; intros [->|[]]; apply Na; now left.
  - destruct V as [V _]. cbn [bnames app] in *. inversion V as [|? ? Na _]. exact Na.
Qed.
Lemma defer_vec : forall q cs cs', Forall2 (controlled q) cs cs' -> Forall (fun c => ~ In q (bnames c)) cs -> forall psi,
  proj [q] true (effect cs' psi) = effect cs (proj [q] true psi) /\ proj [q] false (effect cs' psi) = proj [q] false psi.
Proof.
  intros q cs cs' H. induction H as [|c c' cs cs' Hc H IH]; intros N psi; [auto|]. apply Forall_cons_iff in N as [N1 N2].
  destruct (controlled_bop q c c' Hc) as (F & F' & E1 & E2 & E3). cbn [effect fold_left]. rewrite E1, E2.
  destruct (IH N2 (F' psi)) as [I1 I2]. unfold effect in I1, I2. rewrite I1, I2. split.
  - f_equal. transitivity (proj [q] true (F psi)).
    + rewrite E3. apply functional_extensionality. intros b. unfold proj, ctrl_op, par. cbn [map fold_right forallb]. destruct (bit b q); reflexivity.
    + apply (on_commute (fun x => x = q) (fun x => In x (bnames c))); [now apply on_proj|now apply on_bop|]. intros x -> Hx. contradiction.
  - rewrite E3. apply functional_extensionality. intros b. unfold proj, ctrl_op, par. cbn [map fold_right forallb]. destruct (bit b q); reflexivity.
Qed.
Lemma learns_odds : forall p (E : ended (pmem p) -> bool) q w l f n m t, learns p q w l f -> ready m (QM q) ->
  odds E (chances p (asking w + n) l m t) =
  Rsum (map (fun r => if Req_EM_T (chance (seen m q w r)) 0 then 0 else odds E (chances p n (f r) (seen m q w r) t)) [true; false]).
Proof.
  intros p E q w l f n m t L (A & V & M).
  assert (Bk : bbstep (h_book m) (QM q) = h_book m) by (apply still; assumption).
  assert (Z : odds E [] = 0) by reflexivity.
  destruct w as [i|]; cbn [learns asking] in *.
  - destruct L as (k & k' & E1 & E2 & E3). cbn [Nat.add]. rewrite (chances_call _ _ _ _ _ _ _ E1), odds_flat. unfold sides. cbn [bop]. unfold bothways.
    change (bbstep (h_book m) (QMz q i)) with (bbstep (h_book m) (QM q)). rewrite Bk. cbn [map]. 
    assert (Y : forall r, odds E (onward p (S n) k t m (Go VUnit (noted i r (moved m (h_book m) (proj [q] r (h_vec m)))))) =
      if Req_EM_T (chance (seen m q (Some i) r)) 0 then 0 else odds E (chances p n (f r) (seen m q (Some i) r) t)).
    { intros r. cbn [onward]. set (m1 := noted i r (moved m (h_book m) (proj [q] r (h_vec m)))).
      assert (Ec : chance (seen m q (Some i) r) = chance m1) by reflexivity. rewrite Ec. destruct (Req_EM_T (chance m1) 0) as [_|Nz]; [exact Z|].
      rewrite (chances_call _ _ _ _ _ _ _ E2). unfold sides. cbn [bop flat_map onward]. change (chance (looked i m1)) with (chance m1).
      destruct (Req_EM_T (chance m1) 0) as [F|_]; [contradiction|]. rewrite app_nil_r.
      assert (Er : h_res m1 i = r) by (unfold m1, noted; cbn [h_res]; now rewrite Nat.eqb_refl). rewrite Er, E3. reflexivity. }
    rewrite !Y. reflexivity.
  - destruct L as (k & E1 & E3). cbn [Nat.add]. rewrite (chances_call _ _ _ _ _ _ _ E1), odds_flat. unfold sides. cbn [bop]. unfold bothways. rewrite Bk. cbn [map].
    assert (Y : forall r, odds E (onward p n k t m (Go (as_result r) (moved m (h_book m) (proj [q] r (h_vec m))))) =
      if Req_EM_T (chance (seen m q None r)) 0 then 0 else odds E (chances p n (f r) (seen m q None r) t)).
    { intros r. cbn [onward]. change (seen m q None r) with (moved m (h_book m) (proj [q] r (h_vec m))). destruct (Req_EM_T _ 0); [exact Z|]. now rewrite E3. }
    rewrite !Y. reflexivity.
Qed.
Lemma seen_book : forall m q w r, h_book (seen m q w r) = h_book m.
Proof. intros m q [i|] r; reflexivity. Qed.
Lemma seen_vec : forall m q w r, h_vec (seen m q w r) = proj [q] r (h_vec m).
Proof. intros m q [i|] r; reflexivity. Qed.
Lemma seen_eq : forall m m' q w r, h_book m' = h_book m -> h_used m' = h_used m -> h_res m' = h_res m -> h_out m' = h_out m ->
  seen m' q w r = mkPath (h_book m) (proj [q] r (h_vec m')) (h_used (seen m q w r)) (h_res (seen m q w r)) (h_out (seen m q w r)).
Proof.
  intros [b v u rs o] [b' v' u' rs' o'] q w r E1 E2 E3 E4. cbn in E1, E2, E3, E4. subst. destruct w; reflexivity.
Qed.
Lemma proj_supported : forall l q r psi, supported l psi -> supported l (proj [q] r psi).
Proof. intros l q r psi H b i Hb Hi. unfold proj. rewrite (H b i Hb Hi). destruct (Bool.eqb _ _); reflexivity. Qed.
Lemma defer_seen : forall m q w cs cs', Forall (ready m) cs -> Forall (ready m) cs' -> Forall2 (controlled q) cs cs' ->
  circuit m cs' /\ circuit (seen m q w true) cs /\ h_book (after m cs') = h_book m /\
  seen (after m cs') q w true = after (seen m q w true) cs /\ seen (after m cs') q w false = seen m q w false.
Proof.
  intros m q w cs cs' R R' H.
  assert (B : Forall (fun c => bop c <> None) cs /\ Forall (fun c => bop c <> None) cs' /\ Forall (fun c => ~ In q (bnames c)) cs).
  { clear R. induction H as [|c c' cs cs' Hc H IH]; [auto|]. apply Forall_cons_iff in R' as [R1 R2]. destruct (IH R2) as (I1 & I2 & I3).
    destruct (controlled_bop q c c' Hc) as (F & F' & E1 & E2 & _). assert (Nn := controlled_names q c c' m Hc (proj1 (proj2 R1))).
    repeat split; constructor; auto; congruence. }
  destruct B as (B1 & B2 & B3). destruct (ready_circuit m cs' m R' B2 eq_refl) as [Q1 K1].
  destruct (ready_circuit m cs (seen m q w true) R B1 (seen_book m q w true)) as [Q2 K2].
  destruct (after_vec cs' m Q1) as (V1 & U1 & S1 & O1). destruct (after_vec cs _ Q2) as (V2 & U2 & S2 & O2).
  destruct (defer_vec q cs cs' H B3 (h_vec m)) as [D1 D2].
  split; [exact Q1|]. split; [exact Q2|]. split; [exact K1|]. split.
  - rewrite (seen_eq m (after m cs') q w true K1 U1 S1 O1), V1, D1. rewrite seen_vec in V2. destruct (after (seen m q w true) cs). cbn in *. congruence.
  - rewrite (seen_eq m (after m cs') q w false K1 U1 S1 O1), V1, D2. destruct m; destruct w; reflexivity.
Qed.
Lemma defer_step : forall p E n n' m t q w cs cs' l l' f f' l1 l2, learns p q w l f -> making p cs (f true) l1 -> making p cs' l' l2 -> learns p q w l2 f' ->
  ready m (QM q) -> Forall (ready m) cs -> Forall (ready m) cs' -> Forall2 (controlled q) cs cs' ->
  supported (bb_live (h_book m)) (h_vec m) -> chance m <> 0 ->
  (chance (after (seen m q w true) cs) <> 0 -> odds E (chances p n l1 (after (seen m q w true) cs) t) = odds E (chances p n' (f' true) (after (seen m q w true) cs) t)) ->
  (chance (seen m q w false) <> 0 -> odds E (chances p (length cs + n) (f false) (seen m q w false) t) = odds E (chances p n' (f' false) (seen m q w false) t)) ->
  odds E (chances p (asking w + (length cs + n)) l m t) = odds E (chances p (length cs' + (asking w + n')) l' m t).
Proof.
  intros p E n n' m t q w cs cs' l l' f f' l1 l2 L1 M1 M2 L2 Rq R R' H Sm Nz H1 H0.
  destruct (defer_seen m q w cs cs' R R' H) as (Q1 & Q2 & K1 & S1 & S0).
  destruct (circuit_runs p cs' (asking w + n') l' l2 m t M2 Q1 Sm Nz) as (-> & _).
  rewrite (learns_odds p E q w l f _ m t L1 Rq), (learns_odds p E q w l2 f' _ _ t L2 (ready_book m _ _ K1 Rq)). cbn [map]. rewrite S1, S0.
  assert (Sx : supported (bb_live (h_book (seen m q w true))) (h_vec (seen m q w true))) by (rewrite seen_book, seen_vec; now apply proj_supported).
  destruct (circuit_keeps cs _ Q2 Sx) as [Sy Cy]. rewrite Cy.
  f_equal. unfold Rsum. cbn [fold_right]. f_equal; [|f_equal].
  - destruct (Req_EM_T (chance (seen m q w true)) 0) as [_|N1]; [reflexivity|].
    destruct (circuit_runs p cs n (f true) l1 _ t M1 Q2 Sx N1) as (-> & _). apply H1. rewrite Cy. exact N1.
  - destruct (Req_EM_T (chance (seen m q w false)) 0) as [_|N1]; [reflexivity|]. auto.
Qed.
Lemma rewritten_thm : forall p E n l n' l' m t, rewritten p n l n' l' m t -> supported (bb_live (h_book m)) (h_vec m) -> chance m <> 0 ->
  odds E (chances p n l m t) = odds E (chances p n' l' m t).
Proof.
  intros p E n l n' l' m t H.
  induction H as [n l n' l' m t H|n l n' l' m t H IH|n l n1 l1 n' l' m t H1 IH1 H2 IH2|n l1 n' l1' m t cs cs' l l' M1 M2 Q1 Q2 U H IH|n l n' l' m t c k k' E1 E2 V H IH|n l n' l' m t lo hi k k' E1 E2 H IH|n l m t H|n n' m t q w cs cs' l l' f f' l1 l2 L1 M1 M2 L2 Rq R R' H H1 IH1 H0 IH0]; intros S Nz.
  - exact (alike_thm p E n l n' l' m t H S).
  - symmetry. auto.
  - rewrite IH1 by assumption. auto.
  - destruct (circuit_runs p cs n l l1 m t M1 Q1 S Nz) as (-> & _). destruct (circuit_runs p cs' n' l' l1' m t M2 Q2 S Nz) as (-> & S' & C').
    rewrite (phase_chances p n l1 _ _ t U). apply IH; [exact S'|rewrite C'; exact Nz].
  - rewrite (chances_call _ _ _ _ _ _ _ E1), (chances_call _ _ _ _ _ _ _ E2), !odds_flat. apply Rsum_ext. intros x Hx.
    destruct x as [r m'|e o]; [|reflexivity]. cbn [onward]. destruct (Req_EM_T (chance m') 0) as [Z|Nz']; [reflexivity|].
    apply (IH r m' Hx Nz'); [|exact Nz']. exact (stays_supported m c r m' S V Hx).
  - cbn [chances]. rewrite E1, E2. destruct (Z.ltb hi lo) eqn:El; [reflexivity|]. apply Z.ltb_ge in El. auto.
  - f_equal. apply more, H.
  - destruct (defer_seen m q w cs cs' R R' H) as (_ & Q2 & _).
    assert (Sx : forall r, supported (bb_live (h_book (seen m q w r))) (h_vec (seen m q w r))) by (intros r; rewrite seen_book, seen_vec; now apply proj_supported).
    apply (defer_step p E n n' m t q w cs cs' l l' f f' l1 l2); auto.
    intros Nt. apply IH1; [exact Nt|exact (proj1 (circuit_keeps cs _ Q2 (Sx true)))|exact Nt].
Qed.

(** ** The rules *)
Lemma eq_phase : forall psi phi, psi = phi -> phase_eq psi phi.
Proof. intros psi phi ->. apply phase_refl. Qed.
Lemma mat_phase : forall c U V q psi, Cn2 c = 1 -> U = mscale c V -> phase_eq (gate1 U q psi) (gate1 V q psi).
Proof. intros c U V q psi H ->. exists c. split; [exact H|]. apply functional_extensionality. intros b. unfold gate1, scale, mscale. ring. Qed.
Lemma Cn2_Ci : Cn2 Ci = 1. Proof. unfold Cn2, Ci. simpl. ring. Qed.
Lemma Cn2_mCi : Cn2 (- Ci)%C = 1. Proof. unfold Cn2, Ci. simpl. ring. Qed.
Lemma Cn2_m1 : Cn2 (- C1)%C = 1. Proof. unfold Cn2, C1. simpl. ring. Qed.
Lemma XX : mmul mX mX = mI. Proof. mat_ring. Qed.
Lemma YY : mmul mY mY = mI. Proof. mat_ring. Qed.
Lemma ZZ : mmul mZ mZ = mI. Proof. mat_ring. Qed.
Lemma RzRz : forall a b, mmul (mRz b) (mRz a) = mRz (a + b).
Proof.
  intros. apply mat_ext; unfold mmul, mRz, mk2; cunfold; simpl; replace ((a + b) / 2) with (a / 2 + b / 2) by field;
    rewrite ?cos_neg, ?sin_neg, ?cos_plus, ?sin_plus; apply C_eq; simpl; ring.
Qed.
Lemma set_back : forall k a b u v, a <> b -> bit k b = v -> set_bit (set_bit k a u) b v = set_bit k a u.
Proof. intros k a b u v N E. apply set_bit_id'. rewrite bit_set_other by exact N. exact E. Qed.
Ltac bits k a b N :=
  let Ea := fresh in let Eb := fresh in
  unfold cgate, gate1, mX, mZ, mk2; cbn [forallb]; rewrite !andb_true_r;
  destruct (bit k a) eqn:Ea, (bit k b) eqn:Eb;
  repeat (rewrite ?bit_set_same, ?bit_set_other, ?Ea, ?Eb by congruence);
  repeat (rewrite ?(set_set_comm _ b a) by congruence; rewrite ?set_set_same);
  repeat rewrite (fun u => set_back k a b u _ N Eb); rewrite ?(set_bit_id' k a _ Ea), ?(set_bit_id' k b _ Eb); ring.
Lemma cgate_pass : forall cs ds U V t q psi, t <> q -> ~ In q cs -> ~ In t ds ->
  cgate cs U t (cgate ds V q psi) = cgate ds V q (cgate cs U t psi).
Proof.
  intros cs ds U V t q psi N Nq Nt. apply functional_extensionality. intros k. unfold cgate at 1 3.
  destruct (forallb (bit k) cs) eqn:Ec, (forallb (bit k) ds) eqn:Ed.
  - unfold gate1 at 1 2. unfold cgate. rewrite !forallb_bit_set by assumption. rewrite Ec, Ed. exact (f_equal (fun f => f k) (gate1_comm U V t q psi N)).
  - unfold gate1, cgate. rewrite !forallb_bit_set by assumption. rewrite Ec, Ed. reflexivity.
  - unfold gate1, cgate. rewrite !forallb_bit_set by assumption. rewrite Ec, Ed. reflexivity.
  - unfold cgate. rewrite Ec, Ed. reflexivity.
Qed.
Lemma rule_effect : forall cs cs', rule cs cs' -> forall psi, (forall c, In c (cs ++ cs') -> match c with QC1 _ a b | QSwap a b => a <> b | _ => True end) ->
  phase_eq (effect cs psi) (effect cs' psi).
Proof.
  assert (Q : forall a b : nat, a <> b -> ~ In b [a]) by (intros a b N [H|[]]; congruence).
  intros cs cs' H psi. destruct H; intros N; unfold effect; cbn [fold_left bop gmat].
  - apply eq_phase. destruct H as [<-|[<-|[<-|[<-|[]]]]]; cbn [gmat]; rewrite gate1_comp, ?XX, ?YY, ?ZZ, ?HH; apply gate1_I.
  - apply eq_phase. rewrite gate1_comp, SS. apply gate1_I.
  - apply eq_phase. rewrite gate1_comp. replace (mmul mTadj mT) with mI; [apply gate1_I|].
    assert (E := CisCis (PI / 4)). unfold mTadj, mT. apply mat_ext; unfold mmul, mPhase, mI, mk2; try ring. rewrite <- E. ring.
  - apply eq_phase. rewrite gate1_comp. f_equal. mat_ring.
  - apply eq_phase. rewrite gate1_comp. f_equal. unfold mT, mS. apply mat_ext; unfold mmul, mPhase, mk2; try ring.
    transitivity (Cis (PI / 2)); [|unfold Cis; rewrite cos_PI2, sin_PI2; reflexivity].
    replace (PI / 2) with (PI / 4 + PI / 4) by field. unfold Cis. rewrite cos_plus, sin_plus. cunfold. apply C_eq; simpl; ring.
  - apply eq_phase. rewrite gate1_comp. f_equal. apply mat_ext; unfold mmul, mSX, mX, mk2; cunfold; apply C_eq; simpl; lra.
  - apply eq_phase. rewrite !gate1_comp. f_equal. rewrite <- mmul_assoc, XH, mmul_assoc, HH. apply mmul_I_l.
  - rewrite !gate1_comp. apply (mat_phase (- C1)%C); [exact Cn2_m1|]. rewrite <- mmul_assoc, YH.
    transitivity (mscale (- C1)%C (mmul mH (mmul mH mY))); [apply mat_ext; unfold mmul, mscale; ring|]. now rewrite mmul_assoc, HH, mmul_I_l.
  - apply eq_phase. rewrite !gate1_comp. f_equal. rewrite <- mmul_assoc, ZH, mmul_assoc, HH. apply mmul_I_l.
  - rewrite gate1_comp. apply (mat_phase (- Ci)%C); [exact Cn2_mCi|]. mat_ring.
  - rewrite gate1_comp. apply (mat_phase Ci); [exact Cn2_Ci|]. mat_ring.
  - apply eq_phase. rewrite gate1_comp, RxRx, Rplus_comm. reflexivity.
  - apply eq_phase. rewrite gate1_comp, RyRy, Rplus_comm. reflexivity.
  - apply eq_phase. rewrite gate1_comp, RzRz. reflexivity.
  - apply (mat_phase (- Ci)%C); [exact Cn2_mCi|]. unfold mRx. rewrite cos_PI2, sin_PI2. mat_ring.
  - apply (mat_phase (- Ci)%C); [exact Cn2_mCi|]. unfold mRy. rewrite cos_PI2, sin_PI2. mat_ring.
  - apply (mat_phase (- Ci)%C); [exact Cn2_mCi|]. unfold mRz, Cis. rewrite cos_neg, sin_neg, cos_PI2, sin_PI2. mat_ring.
  - apply (mat_phase (Cis (- (PI / 2 / 2)))); [apply Cn2_Cis|]. unfold mRz, mS. apply mat_ext; unfold mscale, mPhase, mk2; try ring.
    replace Ci with (Cis (PI / 2)) by (unfold Cis; rewrite cos_PI2, sin_PI2; reflexivity).
    assert (X : forall a b, (Cis a * Cis b)%C = Cis (a + b)) by (intros; unfold Cis; rewrite cos_plus, sin_plus; cunfold; apply C_eq; simpl; ring).
    rewrite X. f_equal. field.
  - exists (- C1)%C. split; [exact Cn2_m1|]. unfold mRx. replace (2 * PI / 2) with PI by field. rewrite cos_PI, sin_PI.
    rewrite <- (gate1_I q psi) at 2. rewrite <- gate1_mscale. f_equal. mat_ring.
  - apply eq_phase. assert (Nab : a <> b) by (apply (N (QC1 g a b)); now left).
    rewrite cgate_comp by auto. destruct H as [<-|[<-|[<-|[]]]]; cbn [gmat]; rewrite ?XX, ?YY, ?ZZ; apply cgate_I.
  - apply eq_phase. apply functional_extensionality. intros k. change mZ with (mPhase (- C1)%C). rewrite !cgate_phase. cbn [forallb].
    rewrite !andb_true_r, andb_comm. reflexivity.
  - apply eq_phase. assert (Nab : a <> b) by (apply (N (QC1 GZ a b)); right; now left).
    rewrite (cgate_conj [a] mZ mH mX b psi (Q a b Nab) ZH), gate1_comp, HH. apply gate1_I.
  - apply eq_phase. assert (Nab : a <> b) by (apply (N (QC1 GX a b)); now left). apply functional_extensionality. intros k.
    unfold swap_qubits, swap_assign, cgate, gate1, mX, mk2. cbn [forallb]. rewrite !andb_true_r.
    destruct (bit k a) eqn:Ea, (bit k b) eqn:Eb; rewrite ?bit_set_same, ?bit_set_other, ?Ea, ?Eb by congruence;
      rewrite ?bit_set_same, ?bit_set_other, ?Ea, ?Eb by congruence; rewrite ?set_set_same.
    + rewrite (set_bit_id' k a true Ea). ring.
    + rewrite (set_set_comm k b a true false) by congruence. ring.
    + ring.
    + rewrite (set_bit_id' k a false Ea), (set_bit_id' k b false Eb). reflexivity.
  - apply eq_phase. assert (Nab : b <> a) by (apply (N (QC1 GX b a)); now left). apply rzz_exp. congruence.
  - apply (mat_phase (Cis (- (PI / 4 / 2)))); [apply Cn2_Cis|]. unfold mRz, mT. apply mat_ext; unfold mscale, mPhase, mk2; try ring.
    assert (X : forall a b, (Cis a * Cis b)%C = Cis (a + b)) by (intros; unfold Cis; rewrite cos_plus, sin_plus; cunfold; apply C_eq; simpl; ring).
    rewrite X. f_equal. field.
  - apply eq_phase, rx_exp.
  - apply eq_phase, ry_exp.
  - apply eq_phase, rz_exp.
  - rewrite ri_exp. eexists. split; [apply Cn2_Cis|reflexivity].
  - apply eq_phase. f_equal. field.
  - apply eq_phase. cbn [combine]. f_equal. field.
  - apply eq_phase. reflexivity.
  - apply eq_phase. reflexivity.
  - apply eq_phase. reflexivity.
  - apply eq_phase. rewrite !gate1_comp. f_equal. symmetry. exact ZH.
  - apply eq_phase. assert (Nab : a <> b) by (apply (N (QC1 GX a b)); right; now left). apply functional_extensionality. intros k.
    bits k a b Nab.
  - apply eq_phase. assert (Nab : a <> b) by (apply (N (QC1 GX a b)); right; now left). apply functional_extensionality. intros k.
    bits k a b Nab.
  - apply eq_phase. assert (Nab : a <> b) by (apply (N (QC1 GX a b)); right; now left). apply functional_extensionality. intros k.
    bits k a b Nab.
  - apply eq_phase. assert (Nab : a <> b) by (apply (N (QC1 GX a b)); right; now left). apply functional_extensionality. intros k.
    bits k a b Nab.
  - apply eq_phase. assert (Nab : a <> b) by (apply (N (QC1 GZ a b)); right; now left). apply functional_extensionality. intros k.
    bits k a b Nab.
  - apply eq_phase. assert (Nab : a <> b) by (apply (N (QC1 GX a b)); now left). assert (Nac : a <> c) by (apply (N (QC1 GX a c)); right; now left).
    destruct (Nat.eq_dec b c) as [->|Nbc]; [reflexivity|]. apply cgate_pass; auto.
  - apply eq_phase. assert (Nac : a <> c) by (apply (N (QC1 GX a c)); now left). assert (Nbc : b <> c) by (apply (N (QC1 GX b c)); right; now left).
    apply functional_extensionality. intros k. unfold cgate, gate1. cbn [forallb]. rewrite !andb_true_r, !(bit_set_other k c a), !(bit_set_other k c b) by congruence.
    destruct (bit k a), (bit k b); reflexivity.
  - apply eq_phase. apply functional_extensionality. intros k. change mZ with (mPhase (- C1)%C). rewrite !cgate_phase.
    destruct (forallb (bit k) [b; a]), (forallb (bit k) [d; c]); ring.
Qed.
(** A valid controlled gate has its control apart from its target. *)
Lemma circuit_apart : forall cs m, circuit m cs -> forall c, In c cs -> match c with QC1 _ a b => a <> b | _ => True end.
Proof.
  induction cs as [|x cs IH]; intros m H c Hc; [destruct Hc|]. destruct H as (B & V & H). destruct Hc as [<-|Hc]; [|exact (IH _ H c Hc)].
  destruct x; try exact I. destruct V as [V _]. inversion V as [|? ? Na _]. intros ->. apply Na. now left.
Qed.
Lemma rules_thm : forall cs cs' m, rule cs cs' -> circuit m cs -> circuit m cs' -> h_book (after m cs) = h_book (after m cs') -> upto_phase (after m cs) (after m cs').
Proof.
  intros cs cs' m R Q1 Q2 Eb. destruct (after_vec cs m Q1) as (V1 & U1 & R1 & O1). destruct (after_vec cs' m Q2) as (V2 & U2 & R2 & O2).
  split; [exact Eb|]. split; [|split; [|split]; congruence]. rewrite V1, V2. apply (rule_effect cs cs' R).
  intros c Hc. apply in_app_or in Hc. destruct c; try exact I.
  - destruct Hc as [Hc|Hc]; [exact (circuit_apart cs m Q1 _ Hc)|exact (circuit_apart cs' m Q2 _ Hc)].
  - destruct R; cbn [app In] in Hc; repeat (destruct Hc as [Hc|Hc]; try discriminate Hc; try contradiction).
    injection Hc as <- <-. exact (circuit_apart _ m Q1 (QC1 GX _ _) (or_introl eq_refl)).
Qed.
End Rewrite.
