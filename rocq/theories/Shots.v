(** * Several shots with rounding: proofs *)
From Coq Require Import String List NArith ZArith Reals Bool Lia Lra.
From Verif Require Import Cx Bits Arith ArithR Sim SimExp Spec SpecExp SpecRun SimRun SpecAny Any SpecNear SpecRound SpecLedger SpecRoundR RoundR
  RunLemmas Text Backend SpecBackend Runner SpecRunner SpecIdeal SpecChance SpecOdds BackAny SpecShot BackAnyR Boxes Shot SpecShots.
From Verif Require Odds RoundLedger RunThms Chance.
Import ListNotations.
Local Open Scope R_scope.
Local Open Scope list_scope.

(** ** Weighted endings *)
Section Mean.
Context {X Y : Type}.
Definition mean (f : Y -> R) (G : X -> R) (ls : list (Y * X)) : R := fold_right Rplus 0 (map (fun l => f (fst l) * G (snd l)) ls).
Lemma mean_cons : forall f G l ls, mean f G (l :: ls) = f (fst l) * G (snd l) + mean f G ls.
Proof. reflexivity. Qed.
Lemma mean_le : forall f G H ls, Forall (fun l => 0 <= f (fst l)) ls -> (forall x, G x <= H x) -> mean f G ls <= mean f H ls.
Proof.
  intros f G H ls F L. induction F as [|l ls Fl F IH]; [unfold mean; simpl; lra|]. rewrite !mean_cons.
  assert (E := Rmult_le_compat_l _ _ _ Fl (L (snd l))). lra.
Qed.
Lemma mean_lin : forall f a b G H ls, mean f (fun x => a * G x + b * H x) ls = a * mean f G ls + b * mean f H ls.
Proof. intros. induction ls as [|l ls IH]; [unfold mean; simpl; ring|]. rewrite !mean_cons, IH. ring. Qed.
(** The levels below a number. *)
Fixpoint levels (N : nat) (z : R) : R := match N with O => 0 | S n => levels n z + (if Rlt_dec (INR n) z then 1 else 0) end.
Lemma levels_le : forall N z, 0 <= levels N z <= INR N.
Proof. induction N as [|N IH]; intros z; [simpl; lra|]. rewrite S_INR. cbn [levels]. assert (H := IH z). destruct (Rlt_dec _ _); lra. Qed.
Lemma levels_near : forall N z, 0 <= z -> (z <= INR N -> z <= levels N z) /\ (INR N < z -> levels N z = INR N) /\ levels N z <= z + 1.
Proof.
  induction N as [|N IH]; intros z Hz; [simpl; lra|]. rewrite S_INR. cbn [levels]. destruct (IH z Hz) as (H1 & H2 & H3). assert (H4 := levels_le N z).
  destruct (Rlt_dec (INR N) z) as [L|L]; [rewrite (H2 L); lra|]. assert (z <= levels N z) by (apply H1; lra). split; [lra|]. split; [lra|]. lra.
Qed.
(** Two totals that are close on all sets are close on all weightings between 0 and 1. *)
Definition ind (E : X -> bool) (x : X) : R := if E x then 1 else 0.
Lemma mean_levels : forall f (G : X -> R) z N ls, mean f (fun x => levels N (z * G x)) ls =
  fold_right Rplus 0 (map (fun k => mean f (ind (fun x => if Rlt_dec (INR k) (z * G x) then true else false)) ls) (rev (seq 0 N))).
Proof.
  intros f G z N ls. induction N as [|N IH].
  - simpl. induction ls as [|l ls IHl]; [reflexivity|]. rewrite mean_cons, IHl. simpl. ring.
  - rewrite seq_S, rev_app_distr. cbn [rev app map fold_right]. rewrite <- IH. rewrite Nat.add_0_l.
    transitivity (mean f (fun x => 1 * levels N (z * G x) + 1 * ind (fun y => if Rlt_dec (INR N) (z * G y) then true else false) x) ls); [|rewrite mean_lin; ring].
    unfold mean. f_equal. apply map_ext. intros l. cbn [levels]. unfold ind. destruct (Rlt_dec _ _); ring.
Qed.
End Mean.
Lemma levels_mean : forall {X Y : Type} (f : Y -> R) (G : X -> R) N ls K, (0 < N)%nat -> (forall x, 0 <= G x <= 1) ->
  Forall (fun l => 0 <= f (fst l)) ls -> mean f (fun _ => 1) ls <= K ->
  mean f G ls <= / INR N * mean f (fun x => levels N (INR N * G x)) ls <= mean f G ls + / INR N * K.
Proof.
  intros X Y f G N ls K N0 HG F M. assert (P : 0 < INR N) by (apply lt_0_INR; exact N0). assert (Pi := Rinv_0_lt_compat _ P).
  assert (L : forall x, INR N * G x <= levels N (INR N * G x) <= INR N * G x + 1).
  { intros x. destruct (HG x) as [G0 G1]. assert (0 <= INR N * G x) by (apply Rmult_le_pos; lra).
    assert (INR N * G x <= INR N * 1) by (apply Rmult_le_compat_l; lra). destruct (levels_near N (INR N * G x)) as (H1 & _ & H3); auto. split; [apply H1; lra|exact H3]. }
  assert (A1 : mean f (fun x => INR N * G x + 0 * 1) ls <= mean f (fun x => levels N (INR N * G x)) ls) by (apply mean_le; auto; intros x; assert (Lx := L x); lra).
  assert (A2 : mean f (fun x => levels N (INR N * G x)) ls <= mean f (fun x => INR N * G x + 1 * 1) ls) by (apply mean_le; auto; intros x; assert (Lx := L x); lra).
  rewrite (mean_lin f (INR N) 0 G (fun _ => 1)) in A1. rewrite (mean_lin f (INR N) 1 G (fun _ => 1)) in A2.
  assert (B1 := Rmult_le_compat_l (/ INR N) _ _ (Rlt_le _ _ Pi) A1). assert (B2 := Rmult_le_compat_l (/ INR N) _ _ (Rlt_le _ _ Pi) A2).
  assert (B3 := Rmult_le_compat_l (/ INR N) _ _ (Rlt_le _ _ Pi) M).
  rewrite !Rmult_plus_distr_l, <- !Rmult_assoc, Rinv_l in B1, B2 by lra. lra.
Qed.
Theorem close_sets : forall {X Y Z : Type} (f : Y -> R) (h : Z -> R) (ls : list (Y * X)) (ws : list (Z * X)) d,
  Forall (fun l => 0 <= f (fst l)) ls -> Forall (fun l => 0 <= h (fst l)) ws ->
  (forall E, mean f (ind E) ls <= mean h (ind E) ws <= mean f (ind E) ls + d) ->
  forall G, (forall x, 0 <= G x <= 1) -> mean f G ls <= mean h G ws <= mean f G ls + d.
Proof.
  intros X Y Z f h ls ws d F H C G HG. set (K := Rmax (mean f (fun _ => 1) ls) (mean h (fun _ => 1) ws)).
  assert (K1 : mean f (fun _ => 1) ls <= K) by apply Rmax_l. assert (K2 : mean h (fun _ => 1) ws <= K) by apply Rmax_r.
  assert (K0 : 0 <= K). { eapply Rle_trans; [|exact K1]. clear - F. unfold mean. induction F as [|l ls Fl F IH]; simpl; lra. }
  assert (Lv : forall N, (0 < N)%nat -> mean f (fun x => levels N (INR N * G x)) ls <= mean h (fun x => levels N (INR N * G x)) ws <=
    mean f (fun x => levels N (INR N * G x)) ls + INR N * d).
  { intros N _. rewrite !mean_levels. pose (z := INR N).
    assert (Q : forall l, fold_right Rplus 0 (map (fun k => mean f (ind (fun x => if Rlt_dec (INR k) (z * G x) then true else false)) ls) l) <=
      fold_right Rplus 0 (map (fun k => mean h (ind (fun x => if Rlt_dec (INR k) (z * G x) then true else false)) ws) l) <=
      fold_right Rplus 0 (map (fun k => mean f (ind (fun x => if Rlt_dec (INR k) (z * G x) then true else false)) ls) l) + INR (length l) * d).
    { induction l as [|k l IH]; [simpl; lra|]. cbn [map fold_right length]. rewrite S_INR.
      assert (C1 := C (fun x => if Rlt_dec (INR k) (z * G x) then true else false)). lra. }
    assert (Q1 := Q (rev (seq 0 N))). rewrite rev_length, seq_length in Q1. exact Q1. }
  assert (Ap : forall e, 0 < e -> exists N, (0 < N)%nat /\ / INR N * K <= e).
  { intros e He. destruct (archimed_cor1 (e / (K + 1))) as [N [L N0]]; [apply Rdiv_lt_0_compat; lra|]. exists N. split; [exact N0|].
    apply (Rmult_lt_compat_r (K + 1)) in L; [|lra]. replace (e / (K + 1) * (K + 1)) with e in L by (field; lra).
    assert (I0 : 0 < / INR N) by (apply Rinv_0_lt_compat; apply lt_0_INR; auto). lra. }
  split; apply le_epsilon; intros e He; destruct (Ap e He) as (N & N0 & HN); destruct (Lv N N0) as [L1 L2];
    assert (P : 0 < INR N) by (apply lt_0_INR; exact N0); assert (Pi := Rinv_0_lt_compat _ P);
    assert (M1 := levels_mean f G N ls K N0 HG F K1); assert (M2 := levels_mean h G N ws K N0 HG H K2);
    assert (B1 := Rmult_le_compat_l (/ INR N) _ _ (Rlt_le _ _ Pi) L1); assert (B2 := Rmult_le_compat_l (/ INR N) _ _ (Rlt_le _ _ Pi) L2);
    rewrite Rmult_plus_distr_l, <- Rmult_assoc, Rinv_l in B2 by lra; lra.
Qed.

(** ** With exact numbers: the shots of Runner *)
Section Exact.
Context {A : Arith} {AP : Approx} {D : Doubles} {SW : Shows} {T : Tol} {EN' : @Env (@RArith T)} {RN : @Rand T EN'}.
Theorem same_world : forall (p : aprogram) mem fuel l k t s,
  @play _ EN' _ s (@shot_tree (@RArith T) (PhasesR T) D (thread_of RN) (real_program p) fuel l k t) =
  match run_from (exact_program p mem) fuel l (mkWorld (back_of s k) t) with
  | PDone m w => (Fine (@SDone (thread_of RN) _ m (wtgen w)) (mkDesk (bres (wback w)) (bmax (wback w)) (bout (wback w))), bsim (wback w))
  | _ => @play _ EN' _ s (@shot_tree (@RArith T) (PhasesR T) D (thread_of RN) (real_program p) fuel l k t)
  end.
Proof.
  intros p mem. induction fuel as [|n IH]; intros l k t s; [reflexivity|]. cbn [shot_tree run_from].
  change (pstep (exact_program p mem) l) with (exact_step (astep p l)).
  change (@astep _ D (real_program p) l) with (@real_step A AP D T _ _ (astep p l)). destruct (astep p l) as [m|c f|lo hi f|]; cbn [exact_step real_step].
  - cbn [play wback wtgen]. unfold back_of. cbn. destruct k; reflexivity.
  - rewrite play_bind by reflexivity. assert (H := same_call (real_call c) s k). unfold ApR in H. rewrite (@exact_same A AP D T c) in H. unfold bres_of in H. cbn [wback].
    rewrite <- H. unfold PhR. destruct (play s (@acall1 _ (PhasesR T) D (real_call c) k)) as [[r k'|e o] s']; cbn [fst snd]; [apply (IH (f r) k' t s')|reflexivity].
  - unfold draw_int. cbn [wback wtgen]. destruct (hi <? lo)%Z; [reflexivity|]. change (@tg_range (thread_of RN) lo hi t) with (draw_range lo hi t).
    destruct (draw_range lo hi t) as [z t']. apply (IH (f z) k t' s).
  - reflexivity.
Qed.
Theorem same_shots : forall (p : aprogram) mem0 fuel n mem g t recs,
  @shots (@RArith T) EN' (PhasesR T) D (thread_of RN) (real_program p) fuel n mem g t = Some recs <->
  exists m' g' t', shots_of (exact_func p mem0) fuel n mem g t recs m' g' t'.
Proof.
  intros p mem0 fuel. induction n as [|n IH]; intros mem g t recs.
  - cbn [shots]. split.
    + intros [= <-]. exists mem, g, t. constructor.
    + intros (m' & g' & t' & H). inversion H; subst. reflexivity.
  - cbn [shots]. assert (W := same_world p mem0 fuel (astart p mem) desk0 t (new_sim g)). assert (Se := same_shot p mem0 fuel (astart p mem) desk0 t (new_sim g)).
    unfold shot. change (fresh_run (exact_func p mem0) fuel mem g t) with (run_from (exact_program p mem0) fuel (astart p mem) (mkWorld (back_of (new_sim g) desk0) t)) in *.
    change (@astart _ D (real_program p) mem) with (astart p mem).
    assert (Fr : fresh_run (exact_func p mem0) fuel mem g t = run_from (exact_program p mem0) fuel (astart p mem) (mkWorld (back_of (new_sim g) desk0) t)) by reflexivity.
    destruct (run_from (exact_program p mem0) fuel (astart p mem) (mkWorld (back_of (new_sim g) desk0) t)) as [m1 w1|e o|o] eqn:Er.
    + rewrite W. cbn [dout]. split.
      * destruct (shots _ _ _ _ _ _) as [rs|] eqn:E; cbn [option_map]; [|discriminate]. intros [= <-].
        destruct (proj1 (IH m1 (rng (bsim (wback w1))) (wtgen w1) rs) E) as (m' & g' & t' & H). exists m', g', t'. eapply shots_more; [exact Fr|exact H].
      * intros (m' & g' & t' & H). inversion H as [|? ? ? ? m2 w2 rs ? ? ? F2 H2]; subst. rewrite Fr in F2. injection F2 as <- <-.
        rewrite (proj2 (IH m1 (rng (bsim (wback w1))) (wtgen w1) rs)) by eauto. reflexivity.
    + cbn [ending] in Se. split.
      * destruct (play _ _) as [[[m2 t2|e2|] k2|e2 o2] s2]; cbn [fst shot_end] in Se; discriminate.
      * intros (m' & g' & t' & H). inversion H as [|? ? ? ? m2 w2 rs ? ? ? F2 H2]; subst. rewrite Fr in F2. discriminate.
    + cbn [ending] in Se. split.
      * destruct (play _ _) as [[[m2 t2|e2|] k2|e2 o2] s2]; cbn [fst shot_end] in Se; discriminate.
      * intros (m' & g' & t' & H). inversion H as [|? ? ? ? m2 w2 rs ? ? ? F2 H2]; subst. rewrite Fr in F2. discriminate.
Qed.
End Exact.

(** ** Boxes for several shots *)
Lemma inside_app : forall b c xs, inside xs (b ++ c) <-> inside xs b /\ inside (fun n => xs (length b + n)%nat) c.
Proof.
  induction b as [|[lo hi] b IH]; intros c xs; cbn [app inside length].
  - simpl. tauto.
  - rewrite IH. cbn beta. simpl. tauto.
Qed.
Lemma inside_ext : forall b xs ys, (forall n, xs n = ys n) -> inside xs b -> inside ys b.
Proof.
  induction b as [|[lo hi] b IH]; intros xs ys E H; [exact I|]. destruct H as [H1 H2]. split; [rewrite <- E; exact H1|]. apply (IH (fun n => xs (S n))); auto.
Qed.
Section Shots.
Context {A : Arith} {EN : Env} {AP : Approx} {PP : ApproxP} {PH : Phases} {D : Doubles} {SW : Shows}.
Context {T : Tol} {EN' : @Env (@RArith T)} {RN : @Rand T EN'}.
Lemma gen_at_add : forall n k g, gen_at (n + k) g = gen_at k (gen_at n g).
Proof. induction n as [|n IH]; intros k g; [reflexivity|]. cbn [Nat.add gen_at]. apply IH. Qed.
Lemma samples_at : forall n g k, samples g (n + k)%nat = samples (gen_at n g) k.
Proof. intros. unfold samples. now rewrite gen_at_add. Qed.

Section One.
Variables (q u : R) (p : aprogram) (fuel : nat).
Definition follow (rest : amem p -> tgen -> list (box * option (list text))) (be : box * ended (amem p)) : list (box * option (list text)) :=
  match snd be with
  | EDone mem' out t' => map (fun br => (fst be ++ fst br, option_map (cons out) (snd br))) (rest mem' t')
  | _ => [(fst be, None)]
  end.
Fixpoint leaves_n (n : nat) (mem : amem p) (t : tgen) : list (box * option (list text)) :=
  match n with
  | O => [([], Some [])]
  | S n' => flat_map (follow (leaves_n n')) (leaves_of q u p fuel mem t)
  end.
Lemma leaves_n_apart : (forall mem t, apart (map fst (leaves_of q u p fuel mem t))) -> forall n mem t, apart (map fst (leaves_n n mem t)).
Proof.
  intros Ap. induction n as [|n IH]; intros mem t.
  - cbn. split; repeat constructor.
  - cbn [leaves_n]. destruct (Ap mem t) as [F O]. revert F O. generalize (leaves_of q u p fuel mem t) as ls.
    induction ls as [|[b e] ls IHl]; intros F O; [split; constructor|]. cbn [map fst] in F, O. assert (F1 := Forall_inv F). apply Forall_inv_tail in F.
    inversion O as [|? ? O1 O2]; subst. destruct (IHl F O2) as [IF IO]. cbn [flat_map]. rewrite map_app.
    assert (Hd : exists cs, map fst (follow (leaves_n n) (b, e)) = map (app b) cs /\ apart cs).
    { unfold follow. cbn [fst snd]. destruct e as [m' o' t'|e o'|o'].
      - exists (map fst (leaves_n n m' t')). split; [rewrite !map_map; reflexivity|apply IH].
      - exists [[]]. split; [cbn; now rewrite app_nil_r|split; repeat constructor].
      - exists [[]]. split; [cbn; now rewrite app_nil_r|split; repeat constructor]. }
    destruct Hd as (cs & -> & [Ca Co]).
    assert (Tl : Forall (fun c => exists b0 c0, In b0 (map fst ls) /\ c = b0 ++ c0) (map fst (flat_map (follow (leaves_n n)) ls))).
    { apply Forall_forall. intros c Hc. apply in_map_iff in Hc. destruct Hc as ([c1 r1] & <- & Hc). apply in_flat_map in Hc. destruct Hc as ([b0 e0] & Hb & Hc).
      unfold follow in Hc. cbn [fst snd] in *. assert (I0 : In b0 (map fst ls)) by (apply in_map_iff; exists (b0, e0); auto).
      destruct e0 as [m' o' t'|e0 o'|o'].
      - apply in_map_iff in Hc. destruct Hc as ([c2 r2] & E & _). injection E as <- _. eauto.
      - destruct Hc as [E|[]]. injection E as <- _. exists b0, []. rewrite app_nil_r. auto.
      - destruct Hc as [E|[]]. injection E as <- _. exists b0, []. rewrite app_nil_r. auto. }
    split.
    + apply Forall_app. split; [|exact IF]. apply Forall_map. eapply Forall_impl; [|exact Ca]. intros c Hc. apply Forall_app. auto.
    + assert (X : forall l1 l2 : list box, ForallOrdPairs (fun b c => forall xs, ~ (inside xs b /\ inside xs c)) l1 -> ForallOrdPairs (fun b c => forall xs, ~ (inside xs b /\ inside xs c)) l2 ->
          (forall x y, In x l1 -> In y l2 -> forall xs, ~ (inside xs x /\ inside xs y)) -> ForallOrdPairs (fun b c => forall xs, ~ (inside xs b /\ inside xs c)) (l1 ++ l2)).
      { clear. induction l1 as [|x l1 IH]; intros l2 O1 O2 H; [exact O2|]. inversion O1 as [|? ? H1 H2]; subst. cbn [app]. constructor.
        - apply Forall_app. split; [exact H1|]. apply Forall_forall. intros y Hy. apply H; simpl; auto.
        - apply IH; auto. intros y z Hy Hz. apply H; simpl; auto. }
      apply X; [|exact IO|].
      * clear - Co. induction Co as [|c cs Hc _ IHc]; cbn [map]; constructor; auto. apply Forall_map. eapply Forall_impl; [|exact Hc].
        cbv beta. intros d Hd xs [H1 H2]. apply inside_app in H1. apply inside_app in H2. apply (Hd (fun n => xs (length b + n)%nat)). tauto.
      * intros x y Hx Hy xs [H1 H2]. apply in_map_iff in Hx. destruct Hx as (c & <- & _). rewrite Forall_forall in Tl.
        destruct (Tl y Hy) as (b0 & c0 & Hb & ->). apply inside_app in H1. apply inside_app in H2. rewrite Forall_forall in O1. apply (O1 b0 Hb xs). tauto.
Qed.
Lemma leaves_n_in : (forall mem t g y, In y (leaves_of q u p fuel mem t) -> inside (samples g) (fst y) ->
    ends p fuel mem g t = snd y /\ rng (snd (@shot A EN PH D (thread_of RN) p fuel mem g t)) = gen_at (length (fst y)) g) ->
  forall n mem t g y, In y (leaves_n n mem t) -> inside (samples g) (fst y) -> @shots A EN PH D (thread_of RN) p fuel n mem g t = snd y.
Proof.
  intros H. induction n as [|n IH]; intros mem t g y Iy Ib.
  - destruct Iy as [<-|[]]. reflexivity.
  - cbn [leaves_n] in Iy. apply in_flat_map in Iy. destruct Iy as ([b e] & Hb & Iy). unfold follow in Iy. cbn [fst snd] in Iy. cbn [shots].
    assert (Ib0 : inside (samples g) b).
    { destruct e as [m' o' t'|e o'|o']; [apply in_map_iff in Iy; destruct Iy as ([b1 r1] & <- & _); apply inside_app in Ib; apply Ib|destruct Iy as [<-|[]]; exact Ib..]. }
    destruct (H mem t g _ Hb Ib0) as [He Hr]. cbn [fst snd] in He, Hr. unfold ends in He.
    destruct (@shot A EN PH D (thread_of RN) p fuel mem g t) as [a s]. cbn [fst snd] in He, Hr. destruct e as [m' o' t'|e o'|o'].
    + destruct a as [[m1 t1|e1|] k1|e1 o1]; cbn [shot_end] in He; try discriminate. injection He as -> <- ->.
      apply in_map_iff in Iy. destruct Iy as ([b1 r1] & <- & I1). cbn [fst snd] in *. apply inside_app in Ib. destruct Ib as [_ Ib].
      rewrite Hr. rewrite (IH m' t' (gen_at (length b) g) (b1, r1) I1); [reflexivity|]. cbn [fst]. eapply inside_ext; [|exact Ib]. intros k. apply samples_at.
    + destruct Iy as [<-|[]]. destruct a as [[m1 t1|e1|] k1|e1 o1]; cbn [shot_end] in He; try discriminate; reflexivity.
    + destruct Iy as [<-|[]]. destruct a as [[m1 t1|e1|] k1|e1 o1]; cbn [shot_end] in He; try discriminate; reflexivity.
Qed.

(** *** Odds *)
Definition lenb (len : R * R -> R) (b : box) : R := fold_right (fun r x => len r * x) 1 b.
Lemma lenb_app : forall len b c, lenb len (b ++ c) = lenb len b * lenb len c.
Proof. intros len. unfold lenb. induction b as [|r b IH]; intros c; cbn [app fold_right]; [ring|]. rewrite IH. ring. Qed.
Lemma mass_mean : forall {X} f (E : X -> bool) ls, mass f E ls = mean f (ind E) ls.
Proof. intros. unfold mass, mean, ind. f_equal. apply map_ext. intros l. destruct (E (snd l)); ring. Qed.
Lemma chance_mean : forall {X} (E : X -> bool) ws, chance_of E ws = mean (fun w => w) (ind E) ws.
Proof. intros. unfold chance_of, mean, ind. f_equal. apply map_ext. intros l. destruct (E (snd l)); ring. Qed.
Lemma mass_app : forall {X} f (E : X -> bool) l1 l2, mass f E (l1 ++ l2) = mass f E l1 + mass f E l2.
Proof. intros X f E l1 l2. unfold mass. induction l1 as [|x l1 IH]; cbn; [ring|]. rewrite IH. ring. Qed.
Lemma chance_app : forall {X} (E : X -> bool) l1 l2, chance_of E (l1 ++ l2) = chance_of E l1 + chance_of E l2.
Proof. intros X E l1 l2. unfold chance_of. induction l1 as [|x l1 IH]; cbn; [ring|]. rewrite IH. ring. Qed.

(** The chances do not depend on the first value of the program's memory. *)
Lemma chances_init : forall m1 m2 fuel0 l h t, chances (exact_program p m1) fuel0 l h t = chances (exact_program p m2) fuel0 l h t.
Proof.
  intros m1 m2. induction fuel0 as [|n IH]; intros l h t; [reflexivity|]. cbn [chances].
  change (pstep (exact_program p m1) l) with (exact_step (astep p l)). change (pstep (exact_program p m2) l) with (exact_step (astep p l)).
  destruct (exact_step (astep p l)) as [m|c k|lo hi k|]; try reflexivity.
  - apply flat_map_ext. intros [r h'|e o]; [|reflexivity]. destruct (Req_EM_T _ _); [reflexivity|apply IH].
  - destruct (hi <? lo)%Z; [reflexivity|apply IH].
Qed.
Lemma sound_init : forall P m1 m2 fuel0 l h t, sound P (exact_program p m1) fuel0 l h t -> sound P (exact_program p m2) fuel0 l h t.
Proof.
  intros P m1 m2. induction fuel0 as [|n IH]; intros l h t; [auto|]. cbn [sound].
  change (pstep (exact_program p m1) l) with (exact_step (astep p l)). change (pstep (exact_program p m2) l) with (exact_step (astep p l)).
  destruct (exact_step (astep p l)) as [m|c k|lo hi k|]; auto.
  intros (H1 & H2 & H3). split; [exact H1|]. split; [exact H2|]. intros r m' I1 I2. apply IH. apply H3; auto.
Qed.

Variables (mem0 : amem p) (len : R * R -> R) (d : R).
Hypothesis len_pos : forall r, 0 <= fst r -> fst r <= snd r -> snd r <= 1 -> 0 <= len r.
Hypothesis in_unit : forall mem t, apart (map fst (leaves_of q u p fuel mem t)).
Hypothesis chances_pos : forall mem t, Forall (fun w => 0 < fst w) (chances (exact_program p mem0) fuel (astart p mem) path0 t).
Hypothesis series_one : forall n mem t, chance_of (fun _ => true) (series (exact_program p mem0) fuel n mem t) = 1.
Hypothesis d_pos : 0 <= d.
Hypothesis one_shot : forall mem t (E : ended (amem p) -> bool),
  mass (lenb len) E (leaves_of q u p fuel mem t) <= chance_of E (chances (exact_program p mem0) fuel (astart p mem) path0 t) <=
  mass (lenb len) E (leaves_of q u p fuel mem t) + d.
Lemma lenb_pos : forall b, Forall (fun r => 0 <= fst r /\ fst r <= snd r /\ snd r <= 1) b -> 0 <= lenb len b.
Proof.
  intros b F. induction F as [|r b (H1 & H2 & H3) F IH]; unfold lenb; cbn [fold_right]; [lra|]. apply Rmult_le_pos; [apply len_pos; auto|exact IH].
Qed.
Lemma leaves_n_pos : forall n mem t, Forall (fun y => 0 <= lenb len (fst y)) (leaves_n n mem t).
Proof.
  intros n mem t. destruct (leaves_n_apart in_unit n mem t) as [F _]. rewrite Forall_map in F. eapply Forall_impl; [|exact F]. intros y. apply lenb_pos.
Qed.
Lemma series_pos : forall n mem t, Forall (fun w => 0 <= fst w) (series (exact_program p mem0) fuel n mem t).
Proof.
  induction n as [|n IH]; intros mem t; cbn [series]; [repeat constructor; cbn; lra|].
  change (pstart (exact_program p mem0) mem) with (astart p mem). assert (C := chances_pos mem t). apply Forall_forall. intros y Hy. apply in_flat_map in Hy.
  destruct Hy as ([x e] & Hx & Hy). rewrite Forall_forall in C. assert (C1 := C _ Hx). cbn [fst snd] in *. destruct e as [m' o' t'|e o'|o'].
  - apply in_map_iff in Hy. destruct Hy as ([x1 r1] & <- & H1). assert (I1 := IH m' t'). rewrite Forall_forall in I1. specialize (I1 _ H1). cbn [fst] in *.
    apply Rmult_le_pos; lra.
  - destruct Hy as [<-|[]]. cbn [fst]. lra.
  - destruct Hy as [<-|[]]. cbn [fst]. lra.
Qed.
(** What follows one shot, with rounding and exactly. *)
Definition next_odds (n : nat) (E : option (list text) -> bool) (e : ended (amem p)) : R :=
  match e with
  | EDone mem' out t' => mass (lenb len) (fun r => E (option_map (cons out) r)) (leaves_n n mem' t')
  | _ => if E None then 1 else 0
  end.
Definition next_chance (n : nat) (E : option (list text) -> bool) (e : ended (amem p)) : R :=
  match e with
  | EDone mem' out t' => chance_of (fun r => E (option_map (cons out) r)) (series (exact_program p mem0) fuel n mem' t')
  | _ => if E None then 1 else 0
  end.
Lemma mass_step : forall n E mem t, mass (lenb len) E (leaves_n (S n) mem t) = mean (lenb len) (next_odds n E) (leaves_of q u p fuel mem t).
Proof.
  intros n E mem t. cbn [leaves_n]. induction (leaves_of q u p fuel mem t) as [|[b e] ls IH]; [reflexivity|].
  cbn [flat_map]. rewrite mass_app, mean_cons, IH. f_equal. unfold follow. cbn [fst snd]. destruct e as [m' o' t'|e o'|o']; cbn [next_odds].
  - unfold mass. rewrite map_map. cbn [fst snd]. induction (leaves_n n m' t') as [|[y1 y2] ys IHy]; cbn [map fold_right fst snd]; [ring|].
    rewrite IHy, lenb_app. destruct (E _); ring.
  - unfold mass. cbn [map fold_right fst snd]. destruct (E None); ring.
  - unfold mass. cbn [map fold_right fst snd]. destruct (E None); ring.
Qed.
Lemma chance_step : forall n E mem t, chance_of E (series (exact_program p mem0) fuel (S n) mem t) =
  mean (fun w => w) (next_chance n E) (chances (exact_program p mem0) fuel (astart p mem) path0 t).
Proof.
  intros n E mem t. cbn [series]. change (pstart (exact_program p mem0) mem) with (astart p mem).
  induction (chances (exact_program p mem0) fuel (astart p mem) path0 t) as [|[x e] ws IH]; [reflexivity|].
  cbn [flat_map fst snd]. rewrite chance_app, mean_cons, IH. f_equal. cbn [fst snd]. destruct e as [m' o' t'|e o'|o']; cbn [next_chance].
  - unfold chance_of. rewrite map_map. cbn [fst snd]. induction (series (exact_program p mem0) fuel n m' t') as [|y ys IHy]; cbn [map fold_right]; [ring|].
    rewrite IHy. destruct (E _); ring.
  - unfold chance_of. cbn [map fold_right fst snd]. destruct (E None); ring.
  - unfold chance_of. cbn [map fold_right fst snd]. destruct (E None); ring.
Qed.
Theorem shots_close : forall n E mem t,
  mass (lenb len) E (leaves_n n mem t) <= chance_of E (series (exact_program p mem0) fuel n mem t) <= mass (lenb len) E (leaves_n n mem t) + INR n * d.
Proof.
  induction n as [|n IH]; intros E mem t.
  - cbn. unfold mass, chance_of, lenb. cbn. destruct (E _); lra.
  - rewrite mass_step, chance_step. rewrite S_INR.
    assert (C01 : forall E n mem t, 0 <= chance_of E (series (exact_program p mem0) fuel n mem t) <= 1).
    { clear - series_one chances_pos. intros E n mem t. rewrite <- (series_one n mem t). assert (Pos := series_pos n mem t).
      unfold chance_of. induction Pos as [|y ys Hy Pos IHy]; cbn [map fold_right]; [lra|]. destruct (E (snd y)); lra. }
    assert (G01 : forall e, 0 <= next_chance n E e <= 1).
    { intros [m' o' t'|e o'|o']; cbn [next_chance]; [apply C01|destruct (E None); lra..]. }
    assert (Lp : Forall (fun l => 0 <= lenb len (fst l)) (leaves_of q u p fuel mem t)).
    { destruct (in_unit mem t) as [F _]. rewrite Forall_map in F. eapply Forall_impl; [|exact F]. intros y. apply lenb_pos. }
    assert (Wp : Forall (fun l : R * ended (amem p) => 0 <= fst l) (chances (exact_program p mem0) fuel (astart p mem) path0 t)).
    { eapply Forall_impl; [|apply (chances_pos mem t)]. cbv beta. intros a Ha. apply Rlt_le. exact Ha. }
    assert (H : mean (lenb len) (next_chance n E) (leaves_of q u p fuel mem t) <= mean (fun w => w) (next_chance n E) (chances (exact_program p mem0) fuel (astart p mem) path0 t) <=
      mean (lenb len) (next_chance n E) (leaves_of q u p fuel mem t) + d).
    { apply (close_sets (lenb len) (fun w => w)); auto. intros E0. assert (O1 := one_shot mem t E0). rewrite mass_mean, chance_mean in O1. exact O1. }
    assert (Nx : forall e, next_odds n E e <= next_chance n E e <= next_odds n E e + INR n * d).
    { assert (0 <= INR n * d) by (apply Rmult_le_pos; [apply pos_INR|exact d_pos]).
      intros [m' o' t'|e o'|o']; cbn [next_odds next_chance]; [apply IH|destruct (E None); lra..]. }
    assert (M1 : mean (lenb len) (next_odds n E) (leaves_of q u p fuel mem t) <= mean (lenb len) (next_chance n E) (leaves_of q u p fuel mem t)) by (apply mean_le; auto; intros e; apply Nx).
    assert (M2 : mean (lenb len) (next_chance n E) (leaves_of q u p fuel mem t) <= mean (lenb len) (fun e => 1 * next_odds n E e + (INR n * d) * 1) (leaves_of q u p fuel mem t)).
    { apply mean_le; auto. intros e. assert (Ne := Nx e). lra. }
    rewrite (mean_lin (lenb len) 1 (INR n * d) (next_odds n E) (fun _ => 1)) in M2.
    assert (Tot : mean (lenb len) (fun _ => 1) (leaves_of q u p fuel mem t) <= 1).
    { assert (O1 := proj1 (one_shot mem t (fun _ => true))). assert (S1 := series_one 1 mem t).
      assert (Sw : chance_of (fun _ => true) (chances (exact_program p mem0) fuel (astart p mem) path0 t) = 1).
      { rewrite chance_step in S1. rewrite <- S1. rewrite chance_mean. unfold mean. f_equal. apply map_ext. intros [x e]. cbn [fst snd]. unfold ind.
        destruct e as [m' o' t'|e o'|o']; cbn [next_chance]; try reflexivity. unfold chance_of. cbn. ring. }
      rewrite mass_mean in O1. apply (Rle_trans _ _ _ O1). apply Req_le. exact Sw. }
    assert (0 <= INR n * d) by (apply Rmult_le_pos; [apply pos_INR|exact d_pos]).
    assert (Q := Rmult_le_compat_l (INR n * d) _ _ H0 Tot). lra.
Qed.
End One.
End Shots.

(** ** Everything together *)
Section All.
Context {A : Arith} {EN : Env} {AP : Approx} {PP : ApproxP} {PH : Phases} {D : Doubles} {SW : Shows}.
Context {T : Tol} {EN' : @Env (@RArith T)} {RN : @Rand T EN'}.
Lemma Rsum_chance : forall {X} (ws : list (R * X)), chance_of (fun _ => true) ws = Rsum (map fst ws).
Proof. intros. unfold chance_of. induction ws as [|x ws IH]; [reflexivity|]. cbn. cbn in IH. now rewrite IH. Qed.
Theorem shots_odds : exact_world -> all_samples -> forall w m q u lost (p : aprogram) fuel, shots_fit w m q u lost p fuel ->
  forall (P : bcall -> Prop) len ep mem0, careful P -> lists_nothing P ->
  (forall mem t, sound P (exact_program p mem0) fuel (pstart (exact_program p mem0) mem) path0 t) ->
  0 <= q < 1 / 2 -> 0 <= u <= q -> 0 <= ep <= u -> 0 <= lost ->
  (forall r, 0 <= fst r -> fst r <= snd r -> snd r <= 1 -> 0 <= len r /\ Rabs (len r - (snd r - fst r)) <= ep) ->
  forall n mem t (E : option (list text) -> bool),
    mass (lenb len) E (leaves_n q u p fuel n mem t) <= chance_of E (series (exact_program p mem0) fuel n mem t) <=
    mass (lenb len) E (leaves_n q u p fuel n mem t) + INR n * (lost + INR m * (2 * (u + ep))).
Proof.
  intros EW Ev w m q u lost p fuel F P len ep mem0 CP LN Sd Hq Hu He Hl Len n mem t E. apply shots_close.
  - intros r H1 H2 H3. apply (Len r H1 H2 H3).
  - intros mem1 t1. apply (leaves_apart w m); [apply (F mem1 t1)|exact Hu].
  - intros mem1 t1. apply (Chance.chances_sum P (exact_program p mem0) LN fuel (astart p mem1) path0 t1); [apply Chance.start_supported|rewrite Chance.start_chance; apply R1_neq_R0|apply (Sd mem1 t1)].
  - intros n1 mem1 t1. rewrite Rsum_chance. exact (Chance.series_sum EW P (exact_func p mem0) fuel LN Sd n1 mem1 t1).
  - assert (0 <= INR m * (2 * (u + ep))) by (apply Rmult_le_pos; [apply pos_INR|lra]). lra.
  - intros mem1 t1 E1. destruct (F mem1 t1) as [F1 K1].
    destruct (shot_odds EW Ev w m q u p fuel mem1 t1 F1 P len ep CP LN) as [K H]; auto.
    { apply (sound_init p P mem0 mem1). exact (Sd mem1 t1). }
    specialize (H E1). cbv zeta in H. unfold lenb.
    rewrite (chances_init p mem0 mem1). 
    match type of H with ?a <= ?b <= _ => assert (G : a <= b <= a + (lost + INR m * (2 * (u + ep)))) by lra end. exact G.
Qed.
End All.
