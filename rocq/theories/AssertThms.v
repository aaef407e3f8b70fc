(** * Theorems on assertions with rounding *)
From Coq Require Import String List NArith ZArith Reals Bool Lia Lra.
From Flocq Require Import IEEE754.BinarySingleNaN Core.Raux.
From Verif Require Import Cx Bits Arith ArithR Spec SimExp SpecExp SpecRun Sim SpecAny Any AnyRun SpecNear SpecRound SpecLedger LedgerBound
  Math Binary64 SpecBinary64 Binary64Lemmas Text Backend SpecBackend BackMath Runner BackAny AssertAny SpecAssert SpecSettled.
From Verif Require Import QLib QSum Reg SpecLemmas RunLemmas RoundLedger SpecSettled.
From Verif Require Settled SpecLemmas.
Import ListNotations.
Local Open Scope R_scope.

Section Thms.
Context {A : Arith} {EN : Env} {AP : Approx} {PP : ApproxP} {CK : Asserts} {D : Doubles}.

(** ** Running a tree whose calls are known *)
Lemma play_assoc : forall X Y Z (t : tree X) (f : X -> tree Y) (g : Y -> tree (answer Z)) s,
  play s (tbind (tbind t f) g) = play s (tbind t (fun x => tbind (f x) g)).
Proof.
  intros X Y Z t. induction t as [x|o c k IH|t IH]; intros f g s; cbn [tbind play]; [reflexivity| |apply IH].
  destruct (arun1 s c) as [[r s']|e]; [apply IH|reflexivity].
Qed.
Lemma play_ext : forall X Z (t : tree X) (f g : X -> tree (answer Z)) s, (forall s x, play s (f x) = play s (g x)) ->
  play s (tbind t f) = play s (tbind t g).
Proof.
  intros X Z t. induction t as [x|o c k IH|t IH]; intros f g s E; cbn [tbind play]; [apply E| |apply IH; exact E].
  destruct (arun1 s c) as [[r s']|e]; [apply IH; exact E|reflexivity].
Qed.
Definition runs {X} (m : W X) (k : desk) (cs : list acall) (x : X) (k' : desk) : Prop :=
  forall s rs s' Y (f : answer X -> tree (answer Y)), aexec s cs = Ok (rs, s') -> play s (tbind (m k) f) = play s' (f (Fine x k')).
Lemma runs_ret : forall X (x : X) k, runs (wret x) k [] x k.
Proof. intros X x k s rs s' Y f E. inversion E; subst. reflexivity. Qed.
Lemma runs_bind : forall X Y (m : W X) (f : X -> W Y) k cs x k' cs' y k'', runs m k cs x k' -> runs (f x) k' cs' y k'' ->
  runs (wbind m f) k (cs ++ cs') y k''.
Proof.
  intros X Y m f k cs x k' cs' y k'' H1 H2 s rs s' Z g E. rewrite Settled.aexec_app in E.
  destruct (aexec s cs) as [[rs1 s1]|] eqn:E1; [|discriminate]. cbn [bind] in E.
  destruct (aexec s1 cs') as [[rs2 s2]|] eqn:E2; [|discriminate]. inversion E; subst.
  unfold wbind. rewrite play_assoc. rewrite (H1 s rs1 s1 _ _ E1). exact (H2 s1 rs2 s' _ _ E2).
Qed.
Lemma runs_do : forall c k, runs (ask_do c) k [c] tt k.
Proof.
  intros c k s rs s' Y f E. unfold ask_do, wbind, ask, wret. cbn [tbind play]. cbn [aexec] in E.
  destruct (arun1 s c) as [[r s1]|]; [|discriminate]. inversion E; subst. reflexivity.
Qed.
Lemma runs_for : forall X (l : list X) (f : X -> W unit) g, (forall x k, runs (f x) k (g x) tt k) -> forall k, runs (wfor l f) k (flat_map g l) tt k.
Proof.
  intros X l f g H k. induction l as [|x l IH]; [apply runs_ret|]. cbn [wfor fold_right flat_map]. eapply runs_bind; [apply H|exact IH].
Qed.
Lemma runs_more : forall n k, runs (a_alloc_times n) k (repeat AAlloc n) tt (mkDesk (dres k) (n + dmax k) (dout k)).
Proof.
  induction n as [|n IH]; intros k; [destruct k; apply runs_ret|]. cbn [a_alloc_times repeat].
  intros s rs s' Y f E. unfold wbind at 1, ask. cbn [tbind play]. cbn [aexec] in E. destruct (arun1 s AAlloc) as [[r s1]|]; [|discriminate].
  cbn [bind] in E. destruct (aexec s1 (repeat AAlloc n)) as [[rs2 s2]|] eqn:E2; [|discriminate]. inversion E; subst. unfold wbind. cbn [tbind].
  rewrite (IH _ s1 rs2 s' _ _ E2). cbn [dres dmax dout]. rewrite Nat.add_succ_r. reflexivity.
Qed.
Lemma runs_ensure : forall q k, runs (a_ensure q) k (repeat AAlloc (S q - dmax k)) tt (mkDesk (dres k) (Nat.max (dmax k) (S q)) (dout k)).
Proof.
  intros q k. unfold a_ensure. assert (H := runs_more (S q - dmax k) k). replace (S q - dmax k + dmax k)%nat with (Nat.max (dmax k) (S q)) in H by lia. exact H.
Qed.
Definition room (k : desk) (cl : list (pauli * nat)) : desk := mkDesk (dres k) (Nat.max (dmax k) (top (map snd cl))) (dout k).
Lemma runs_ensures : forall cl k, runs (wfor cl (fun pq => a_ensure (snd pq))) k (repeat AAlloc (top (map snd cl) - dmax k)) tt (room k cl).
Proof.
  induction cl as [|[p q] cl IH]; intros k.
  - unfold room. cbn. rewrite Nat.max_0_r. destruct k; apply runs_ret.
  - cbn [wfor fold_right map snd]. assert (H := runs_bind _ _ _ (fun _ => wfor cl (fun pq => a_ensure (snd pq))) _ _ _ _ _ _ _ (runs_ensure q k) (IH _)).
    cbn [dmax dres dout] in H. rewrite <- repeat_app in H. unfold room in *. cbn [dmax dres dout map snd] in *.
    change (top (q :: map snd cl)) with (Nat.max (S q) (top (map snd cl))).
    replace (Nat.max (S q) (top (map snd cl)) - dmax k)%nat with (S q - dmax k + (top (map snd cl) - Nat.max (dmax k) (S q)))%nat by lia.
    replace (Nat.max (dmax k) (Nat.max (S q) (top (map snd cl)))) with (Nat.max (Nat.max (dmax k) (S q)) (top (map snd cl))) by lia. exact H.
Qed.
Lemma runs_to_z : forall pq k, runs (a_to_z pq) k (turning (AGate AH) (AGate AS) pq) tt k.
Proof.
  intros [[| | |] q] k; unfold a_to_z, turning; cbn [fst snd]; try apply runs_ret; try apply runs_do.
  apply (runs_bind _ _ _ _ _ [_] _ _ _ _ _ (runs_do _ k)), (runs_bind _ _ _ _ _ [_] _ _ _ _ _ (runs_do _ k)), runs_do.
Qed.
Lemma runs_from_z : forall pq k, runs (a_from_z pq) k (turning_back (AGate AH) (AGate ASadj) pq) tt k.
Proof.
  intros [[| | |] q] k; unfold a_from_z, turning_back; cbn [fst snd]; try apply runs_ret; try apply runs_do.
  apply (runs_bind _ _ _ _ _ [_] _ _ _ _ _ (runs_do _ k)), (runs_bind _ _ _ _ _ [_] _ _ _ _ _ (runs_do _ k)), runs_do.
Qed.
Lemma runs_map : forall ps qs k, length ps = length qs ->
  runs (a_map_to_z_basis ps qs) k (repeat AAlloc (top (map snd (paired ps qs)) - dmax k) ++ flat_map (turning (AGate AH) (AGate AS)) (paired ps qs))
    (paired ps qs) (room k (paired ps qs)).
Proof.
  intros ps qs k L. unfold a_map_to_z_basis. apply Nat.eqb_eq in L. rewrite L. cbv zeta. change (filter not_id (combine ps qs)) with (paired ps qs).
  eapply runs_bind; [apply runs_ensures|]. rewrite <- (app_nil_r (flat_map _ _)). eapply runs_bind; [apply runs_for; apply runs_to_z|apply runs_ret].
Qed.

(** ** The exact machine *)
Section Machine.
Variable draws : gen -> R * gen.
Lemma mrun_app : forall h1 m h2, mrun draws m (h1 ++ h2) = mrun draws (mrun draws m h1) h2.
Proof. induction h1 as [|c h1 IH]; intros m h2; [reflexivity|]. apply IH. Qed.
Lemma mrun_alloc : forall n m, vec (mrun draws m (repeat CAlloc n)) = vec m /\ live (bk (mrun draws m (repeat CAlloc n))) = grow n (live (bk m)).
Proof.
  induction n as [|n IH]; intros m; [split; reflexivity|]. cbn [repeat mrun grow]. destruct (IH (mstep1 draws m CAlloc)) as [H1 H2].
  unfold mstep1 in *. destruct (draws (mgen m)) as [x g]. cbn in *. rewrite H1, H2. auto.
Qed.
Lemma mrun_gate : forall g q m, vec (mstep1 draws m (CGate g q)) = gate1 (gmat g) q (vec m) /\ bk (mstep1 draws m (CGate g q)) = bk m.
Proof. intros g q m. unfold mstep1. destruct (draws (mgen m)). split; reflexivity. Qed.
Lemma mrun_turn : forall (f : pauli * nat -> list call) (z : pauli -> mat),
  (forall pq m, vec (mrun draws m (f pq)) = gate1 (z (fst pq)) (snd pq) (vec m) /\ bk (mrun draws m (f pq)) = bk m) ->
  forall cl m, vec (mrun draws m (flat_map f cl)) = turn z cl (vec m) /\ bk (mrun draws m (flat_map f cl)) = bk m.
Proof.
  intros f z H. induction cl as [|pq cl IH]; intros m; [split; reflexivity|]. cbn [flat_map]. rewrite mrun_app.
  destruct (IH (mrun draws m (f pq))) as [E1 E2]. destruct (H pq m) as [E3 E4]. rewrite E1, E2, E3, E4. split; reflexivity.
Qed.
Lemma turning_does : forall pq m, vec (mrun draws m (turning (CGate GH) (CGate GS) pq)) = gate1 (zmat (fst pq)) (snd pq) (vec m) /\
  bk (mrun draws m (turning (CGate GH) (CGate GS) pq)) = bk m.
Proof.
  intros [p q] m. unfold turning. destruct p; cbn [fst snd mrun zmat].
  - now rewrite gate1_I.
  - apply mrun_gate.
  - now rewrite gate1_I.
  - rewrite <- !gate1_comp. rewrite (proj1 (mrun_gate GH q _)), (proj2 (mrun_gate GH q _)), (proj1 (mrun_gate GS q _)), (proj2 (mrun_gate GS q _)), (proj1 (mrun_gate GH q m)), (proj2 (mrun_gate GH q m)).
    split; reflexivity.
Qed.
Lemma turning_back_does : forall pq m, vec (mrun draws m (turning_back (CGate GH) (CGate GSadj) pq)) = gate1 (zinv (fst pq)) (snd pq) (vec m) /\
  bk (mrun draws m (turning_back (CGate GH) (CGate GSadj) pq)) = bk m.
Proof.
  intros [p q] m. unfold turning_back. destruct p; cbn [fst snd mrun zinv].
  - now rewrite gate1_I.
  - apply mrun_gate.
  - now rewrite gate1_I.
  - rewrite <- !gate1_comp. rewrite (proj1 (mrun_gate GH q _)), (proj2 (mrun_gate GH q _)), (proj1 (mrun_gate GSadj q _)), (proj2 (mrun_gate GSadj q _)), (proj1 (mrun_gate GH q m)), (proj2 (mrun_gate GH q m)).
    split; reflexivity.
Qed.
End Machine.

(** ** Histories *)
Lemma play_leaf : forall X (t : tree (answer X)) s, play s (tbind t Leaf) = play s t.
Proof.
  intros X t. induction t as [x|o c k IH|t IH]; intros s; cbn [tbind play]; [reflexivity| |apply IH].
  destruct (arun1 s c) as [[r s']|e]; [apply IH|reflexivity].
Qed.
Lemma within_app : forall w t h1 m h2 rs, replies_within w t m (h1 ++ h2) rs ->
  exists r1 r2, rs = r1 ++ r2 /\ length r1 = length h1 /\ replies_within w t m h1 r1 /\ replies_within w t (mrun sampled m h1) h2 r2.
Proof.
  induction h1 as [|c h1 IH]; intros m h2 rs H; [exists [], rs; cbn; auto|]. destruct rs as [|r rs]; [contradiction|]. cbn [app replies_within] in H.
  destruct H as [H1 H2]. destruct (IH _ _ _ H2) as (r1 & r2 & -> & L & H3 & H4). exists (r :: r1), r2. cbn. auto.
Qed.
Lemma aexec_length : forall h s rs s', aexec s h = Ok (rs, s') -> length rs = length h.
Proof.
  induction h as [|c h IH]; intros s rs s' E; [inversion E; reflexivity|]. cbn [aexec] in E. destruct (arun1 s c) as [[r s1]|]; [|discriminate].
  cbn [bind] in E. destruct (aexec s1 h) as [[rs1 s2]|] eqn:E1; [|discriminate]. inversion E; subst. cbn. f_equal. eapply IH; eauto.
Qed.
Lemma split_same : forall X (a b c d : list X), a ++ b = c ++ d -> length a = length c -> a = c /\ b = d.
Proof.
  induction a as [|x a IH]; intros b [|y c] d E L; try discriminate L; [auto|]. injection E as -> E. destruct (IH b c d E) as [-> ->]; auto.
Qed.
Lemma aexec_split : forall s h1 h2 rs s', aexec s (h1 ++ h2) = Ok (rs, s') -> exists r1 s1 r2, aexec s h1 = Ok (r1, s1) /\ aexec s1 h2 = Ok (r2, s') /\ rs = r1 ++ r2.
Proof.
  intros s h1 h2 rs s' E. rewrite Settled.aexec_app in E. destruct (aexec s h1) as [[r1 s1]|]; [|discriminate]. cbn [bind] in E.
  destruct (aexec s1 h2) as [[r2 s2]|] eqn:E2; [|discriminate]. inversion E; subst. exists r1, s1, r2. auto.
Qed.
Lemma flat_stands : forall (f : pauli * nat -> list acall) (f' : pauli * nat -> list call), (forall pq, Forall2 call_stands (f pq) (f' pq)) ->
  forall cl, Forall2 call_stands (flat_map f cl) (flat_map f' cl).
Proof. intros f f' H. induction cl as [|pq cl IH]; [constructor|]. cbn [flat_map]. apply Forall2_app; auto. Qed.
Lemma peek_stands : forall n cl, Forall2 call_stands (peek_a n cl) (peek_c n cl).
Proof.
  intros n cl. unfold peek_a, peek_c, peek. apply Forall2_app; [|apply Forall2_app; [|constructor]].
  - induction n as [|n IH]; [constructor|]. cbn. constructor; [exact I|exact IH].
  - apply flat_stands. intros [[| | |] q]; unfold turning; cbn [fst snd]; repeat constructor.
  - reflexivity.
  - apply flat_stands. intros [[| | |] q]; unfold turning_back; cbn [fst snd]; repeat constructor.
Qed.
Definition mild (c : acall) : Prop := SpecRound.turn c = 0 /\ forall m, SpecRound.held m c.
Lemma mild_fit : forall h h2, Forall mild h2 -> angles_fit h -> angles_fit (h ++ h2).
Proof.
  intros h h2 M [H1 H2]. assert (E : turns (h ++ h2) = turns h).
  { clear H1 H2. induction h as [|c h IH]; cbn [app turns fold_right].
    - induction M as [|c h2 [Mc _] _ IH]; [reflexivity|]. cbn [turns fold_right]. unfold turns in IH. rewrite Mc, IH. cbn. ring.
    - unfold turns in IH. rewrite IH. reflexivity. }
  split; rewrite E; [exact H1|]. apply Forall_app. split; [exact H2|]. apply Forall_forall. intros c I. rewrite Forall_forall in M. apply (M c I).
Qed.
Lemma peek_mild : forall n cl, Forall mild (peek_a n cl).
Proof.
  intros n cl. unfold peek_a, peek. rewrite !Forall_app. split; [|split; [|split]].
  - induction n; constructor; auto. split; [reflexivity|intros; exact I].
  - induction cl as [|[[| | |] q] cl IH]; cbn; repeat (constructor; [split; [reflexivity|intros; exact I]|]); auto.
  - constructor; [|constructor]. split; [reflexivity|intros; exact I].
  - induction cl as [|[[| | |] q] cl IH]; cbn; repeat (constructor; [split; [reflexivity|intros; exact I]|]); auto.
Qed.


Lemma Forall2_length_eq : forall X Y (P : X -> Y -> Prop) a b, Forall2 P a b -> length a = length b.
Proof. intros X Y P a b H. induction H; cbn; congruence. Qed.
Lemma turning_stands : forall pq, Forall2 call_stands (turning (AGate AH) (AGate AS) pq) (turning (CGate GH) (CGate GS) pq).
Proof. intros [[| | |] q]; unfold turning; cbn [fst snd]; repeat constructor. Qed.
Lemma alloc_stands : forall n, Forall2 call_stands (repeat AAlloc n) (repeat CAlloc n).
Proof. induction n; cbn; constructor; auto. exact I. Qed.
Lemma machine_book : forall draws h' m h, Forall2 call_stands h h' -> bk (mrun draws m h') = books (bk m) h.
Proof.
  intros draws h' m h F. revert m. induction F as [|c c' h h' S F IH]; intros m; [reflexivity|]. cbn [mrun]. rewrite IH. unfold books. cbn [fold_left].
  f_equal. unfold mstep1. destruct (draws (mgen m)). cbn [bk]. apply stands_book. exact S.
Qed.
(** ** The assertion *)
Hypothesis L : approx_ok.
Hypothesis Lp : approx_p_ok.
Hypothesis O : any_order.
Section One.
Variables (w : nat) (p : R).
Hypothesis Hp : 0 < p <= 1.
Variables (g : gen) (h : list acall) (h' : list call) (x : R).

(** The state of the exact machine before, during and after the assertion. *)
Lemma peek_machine : forall m n cl, NoDup (map snd cl) ->
  let m1 := mrun sampled m (repeat CAlloc n ++ flat_map (turning (CGate GH) (CGate GS)) cl) in
  vec m1 = turn zmat cl (vec m) /\ live (bk m1) = grow n (live (bk m)) /\ vec (mrun sampled m (peek_c n cl)) = vec m.
Proof.
  intros m n cl N m1. unfold m1, peek_c, peek. rewrite !mrun_app.
  destruct (mrun_alloc sampled n m) as [A1 A2]. set (ma := mrun sampled m (repeat CAlloc n)) in *.
  destruct (mrun_turn sampled _ _ (turning_does sampled) cl ma) as [B1 B2]. set (mb := mrun sampled ma _) in *.
  rewrite B1, B2, A1, A2. split; [reflexivity|]. split; [reflexivity|].
  rewrite (proj1 (mrun_turn sampled _ _ (turning_back_does sampled) cl _)).
  assert (E : vec (mrun sampled mb [CJointProb (map snd cl)]) = vec mb).
  { cbn [mrun]. unfold mstep1. destruct (sampled (mgen mb)). reflexivity. }
  rewrite E, B1, A1. apply turn_back. exact N.
Qed.

(** The exact vector has length one. *)
Lemma ok_step : forall b c c' psi y, call_stands c c' -> avalid b c -> (forall q, In q (live b) -> (q < w)%nat) -> vec_ok w (live b) psi ->
  match projects (live b) psi y c' with Some (qs, r) => 0 < chance (live b) qs r psi | None => True end ->
  vec_ok w (live (bstep b c')) (vstep (live b) psi y c').
Proof.
  intros b c c' psi y S V Bw Ok C.
  assert (X : call_means c c' \/ (exists q, c' = CRelease q /\ c = ARelease q) \/ (exists q, c' = CMeasure q) \/ (exists qs, c' = CJointMeasure qs) \/ (exists v q, c' = CForce v q)).
  { destruct c, c'; simpl in S; try contradiction; eauto 8; try (subst; right; left; eauto; fail); right; right; right; right; eauto. }
  destruct X as [D1|[(q & -> & ->)|[(q & ->)|[(qs & ->)|(v & q & ->)]]]].
  - rewrite (means_book c c' b D1). exact (vec_step w b c c' psi y D1 V Bw Ok).
  - cbn [vstep bstep projects] in *. destruct (remove_id q (live b)) as [|z zs] eqn:Er; [split; [apply ket0_supported|apply ket0_norm]|]. cbn [live].
    rewrite <- Er. destruct (vec_collapsed w (live b) [q] _ psi Ok Bw C) as [V1 V2]. simpl in V.
    split; [apply supported_drop; auto|]. rewrite norm2_drop; auto. intros a Ha. apply collapsed_value; auto.
  - exact (vec_collapsed w (live b) [q] _ psi Ok Bw C).
  - exact (vec_collapsed w (live b) qs _ psi Ok Bw C).
  - cbn [vstep bstep projects] in *. unfold chance in C. destruct (Req_EM_T _ 0) as [Z|_]; [exact Ok|].
    exact (vec_collapsed w (live b) [q] v psi Ok Bw C).
Qed.
Lemma ok_run : forall hs hs' m, decided w p x m hs' -> Forall2 call_stands hs hs' -> avalid_run (bk m) hs -> vec_ok w (live (bk m)) (vec m) ->
  vec_ok w (live (bk (mrun sampled m hs'))) (vec (mrun sampled m hs')).
Proof.
  intros hs hs' m De F. revert m De. induction F as [|c c' hs hs' S F IH]; intros m De V Ok; [exact Ok|].
  cbn [mrun]. cbn [decided] in De. destruct De as (Bw & P & De). cbn [avalid_run] in V. destruct V as [V1 V2]. apply IH; [exact De| |].
  - unfold mstep1. destruct (sampled (mgen m)). cbn [bk]. rewrite (stands_book c c' (bk m) S). exact V2.
  - unfold mstep1. destruct (sampled (mgen m)) as [y g'] eqn:E. cbn [bk vec]. apply (ok_step (bk m) c c' (vec m) y); auto.
    cbn [fst] in P. destruct (projects (live (bk m)) (vec m) y c') as [[qs r]|]; [|exact Logic.I]. lra.
Qed.
Lemma decided_app : forall a b m, decided w p x m (a ++ b) -> decided w p x m a /\ decided w p x (mrun sampled m a) b.
Proof.
  induction a as [|c a IH]; intros b m De; [split; [exact Logic.I|exact De]|]. cbn [app decided mrun] in *. destruct De as (B & P & De).
  destruct (IH _ _ De) as [D1 D2]. auto.
Qed.
Lemma perr_worst : forall n k, perr <= worst w n k p.
Proof.
  intros n k. unfold worst. assert (P0 := pp_err Lp).
  assert (Q : 1 <= (4 / p) ^ k). { apply pow_R1_Rle. apply Rmult_le_reg_r with p; [lra|]. replace (4 / p * p) with 4 by (field; lra). lra. }
  assert (W : 1 <= 2 ^ w) by (apply pow_R1_Rle; lra).
  assert (Dn : 0 <= drift w n).
  { unfold drift, step_err. assert (A1 := ap_thr L). assert (A2 := ap_dlt L). apply Rmult_le_pos; [apply pos_INR|]. apply Rmult_le_pos; [lra|apply sqrt_pos]. }
  assert (N1 : 1 <= INR (1 + k)). { rewrite plus_INR. assert (Hk := pos_INR k). simpl. lra. }
  assert (E1 : 1 * perr <= INR (1 + k) * ((2 * 2 ^ w + 1) * perr)).
  { apply Rmult_le_compat; [lra|exact P0|exact N1|]. rewrite <- (Rmult_1_l perr) at 1. apply Rmult_le_compat_r; lra. }
  assert (E2 : 1 * perr <= (4 / p) ^ k * (3 * drift w n + INR (1 + k) * ((2 * 2 ^ w + 1) * perr))).
  { apply Rmult_le_compat; [lra|exact P0|exact Q|]. lra. }
  lra.
Qed.

Theorem assert_near : forall k ps qs, length ps = length qs ->
  let cl := paired ps qs in let n := (top (map snd cl) - dmax k)%nat in
  NoDup (map snd cl) -> avalid_run (mkBook [] true) (h ++ peek_a n cl) -> Forall2 call_stands h h' -> angles_fit h ->
  clear_of_odd_pi (h' ++ peek_c n cl) -> decided w p x (initial g) (h' ++ peek_c n cl) ->
  let t := worst w (total_lcost (mkBook [] true) (h ++ peek_a n cl)) (total_pcount (h ++ peek_a n cl)) p in
  t <= 1 / 2 -> t <= p / 2 -> t <= x -> thr + t < p ->
  let m := mrun sampled (initial g) h' in let l := grow n (live (bk m)) in
  exists rs s rs' s', aexec (new_sim g) h = Ok (rs, s) /\ aexec s (peek_a n cl) = Ok (rs', s') /\
    vec (mrun sampled (initial g) (h' ++ peek_c n cl)) = vec m /\
    0 <= one_prob (width l) cl (vec m) <= 1 /\
    exists a, pclose a (one_prob (width l) cl (vec m)) t /\
    forall res prob msg tl,
      play s (a_assert ps qs res prob msg tl k) =
      if far (if Nat.eqb res 0 then pcompl a else a) prob tl
      then (Broken (EFail msg) (dout k ++ render (RecMessage msg)), snd (play s (a_assert ps qs res prob msg tl k)))
      else (Fine tt (room k cl), s').
Proof.
  intros k ps qs Le cl n N V M Fa Cl De t T1 T2 T3 T4 m l.
  destruct (measuring_bound L Lp O w p Hp g x (h ++ peek_a n cl) (h' ++ peek_c n cl)) as (rs & s' & E & Rw); auto.
  { apply Forall2_app; [exact M|apply peek_stands]. }
  { apply mild_fit; [apply peek_mild|exact Fa]. }
  destruct (aexec_split _ _ _ _ _ E) as (r1 & s & r2 & E1 & E2 & ->). exists r1, s, r2, s'. split; [exact E1|]. split; [exact E2|].
  rewrite mrun_app. fold m. destruct (peek_machine m n cl N) as (P1 & P2 & P3). split; [exact P3|].
  destruct (within_app _ _ _ _ _ _ Rw) as (q1 & q2 & Eq & Lq & _ & Rq). fold m in Rq.
  assert (X : r1 = q1 /\ r2 = q2).
  { apply split_same; [exact Eq|]. rewrite (aexec_length _ _ _ _ E1), Lq. apply (Forall2_length_eq _ _ _ _ _ M). }
  destruct X as [-> ->]. clear Eq Lq Rw.
  unfold peek_a, peek in E2. rewrite app_assoc in E2. unfold peek_c, peek in Rq. rewrite app_assoc in Rq.
  destruct (aexec_split _ _ _ _ _ E2) as (u1 & s1 & u2 & F1 & F2 & ->).
  destruct (within_app _ _ _ _ _ _ Rq) as (v1 & v2 & Ev & Lv & _ & Rv). cbv zeta in P1, P2. set (m1 := mrun sampled m (_ ++ _)) in *.
  assert (X : u1 = v1 /\ u2 = v2).
  { apply split_same; [exact Ev|]. rewrite (aexec_length _ _ _ _ F1), Lv. rewrite !app_length, !repeat_length. f_equal.
    apply (Forall2_length_eq _ _ _ _ _ (flat_stands _ _ turning_stands cl)). }
  destruct X as [-> ->]. clear Ev Lv. cbn [app] in F2, Rv. cbn [aexec] in F2.
  destruct (arun1 s1 (AJointProb (map snd cl))) as [[r s2]|] eqn:Er; [|discriminate]. cbn [bind] in F2.
  destruct (aexec s2 (flat_map (turning_back (AGate AH) (AGate ASadj)) cl)) as [[u3 s3]|] eqn:F3; [|discriminate]. inversion F2; subst v2 s3. clear F2.
  destruct Rv as [Rr _]. cbn [reply_within] in Rr. destruct Rr as (a & Ra & Ca). subst r.
  rewrite P1, P2 in Ca. fold l in Ca.
  assert (Cn : incl (map snd cl) l).
  { assert (V2 := proj2 (Settled.valid_app _ _ _ V)). fold n in V2. unfold peek_a, peek in V2. rewrite app_assoc in V2. apply Settled.valid_app in V2. destruct V2 as [_ V2].
    cbn [app avalid_run] in V2. destruct V2 as [[_ V2] _]. cbn [avalid] in V2.
    intros q Hq. specialize (V2 q Hq). unfold l. rewrite <- P2. unfold m1, m. rewrite <- mrun_app.
    rewrite (machine_book _ _ (initial g)) with (h := h ++ repeat AAlloc n ++ flat_map (turning (AGate AH) (AGate AS)) cl).
    - unfold books in *. cbn [initial bk]. rewrite fold_left_app. exact V2.
    - apply Forall2_app; [exact M|]. apply Forall2_app; [apply alloc_stands|apply flat_stands, turning_stands]. }
  assert (Bt : born (width l) (map snd cl) (turn zmat cl (vec m)) = one_prob (width l) cl (vec m)).
  { apply born_turn; [exact N|intros a0 q; apply paired_no_id|intros q Hq; apply SpecLemmas.width_lt, Cn; exact Hq]. }
  rewrite Bt in Ca. split.
  { rewrite <- Bt, <- P1. destruct (decided_app _ _ _ De) as [D1 D2]. fold m in D2. unfold peek_c, peek in D2. rewrite app_assoc in D2.
    destruct (decided_app _ _ _ D2) as [D3 D4]. fold m1 in D4. cbn [app decided] in D4. destruct D4 as (Bw & _ & _).
    assert (Okm : vec_ok w (live (bk m)) (vec m)).
    { apply (ok_run h h' (initial g)); [exact D1|exact M|exact (proj1 (Settled.valid_app _ _ _ V))|]. split; [apply ket0_supported|apply ket0_norm]. }
    assert (Ok1 : vec_ok w (live (bk m1)) (vec m1)).
    { apply (ok_run (repeat AAlloc n ++ flat_map (turning (AGate AH) (AGate AS)) cl)); [exact D3| | |exact Okm].
      - apply Forall2_app; [apply alloc_stands|apply flat_stands, turning_stands].
      - assert (V2 := proj2 (Settled.valid_app _ _ _ V)). unfold peek_a, peek in V2. rewrite app_assoc in V2. apply Settled.valid_app in V2.
        destruct V2 as [V2 _]. unfold m. rewrite (machine_book sampled h' (initial g) h M). exact V2. }
    rewrite P2 in Ok1, Bw. fold l in Ok1, Bw. split; [apply born_nonneg|]. rewrite (vec_born w l) by (auto; exact Ok1).
    destruct Ok1 as [_ N1]. rewrite <- N1. apply born_le_norm. }
  exists a. split; [exact Ca|]. intros res prob msg tl.
  assert (G : play s (a_assert ps qs res prob msg tl k) = play s2 (tbind ((if far (if Nat.eqb res 0 then pcompl a else a) prob tl then wfail msg else wret tt) (room k cl))
    (fun z => match z with Fine _ k' => wfor cl a_from_z k' | Broken e o => Leaf (Broken e o) end))).
  { unfold a_assert. unfold wbind at 1. rewrite (runs_map ps qs k Le s v1 s1 _ _ F1). fold cl. unfold wbind at 1, ask. cbn [tbind play room dout]. rewrite Er. reflexivity. }
  destruct (far _ prob tl).
  - rewrite G. cbn. reflexivity.
  - rewrite G. cbn [wret tbind]. rewrite <- play_leaf. rewrite (runs_for _ cl a_from_z _ runs_from_z (room k cl) s2 u3 s' _ _ F3). reflexivity.
Qed.


(** An assertion passes if the probability lies within the tolerance by the margin, and fails if it lies outside by it. *)
Hypothesis K : asserts_ok.
Theorem assert_decides : forall k ps qs, length ps = length qs ->
  let cl := paired ps qs in let n := (top (map snd cl) - dmax k)%nat in
  NoDup (map snd cl) -> avalid_run (mkBook [] true) (h ++ peek_a n cl) -> Forall2 call_stands h h' -> angles_fit h ->
  clear_of_odd_pi (h' ++ peek_c n cl) -> decided w p x (initial g) (h' ++ peek_c n cl) ->
  let t := worst w (total_lcost (mkBook [] true) (h ++ peek_a n cl)) (total_pcount (h ++ peek_a n cl)) p in
  t <= 1 / 2 -> t <= p / 2 -> t <= x -> thr + t < p ->
  let m := mrun sampled (initial g) h' in let l := grow n (live (bk m)) in
  exists rs s rs' s', aexec (new_sim g) h = Ok (rs, s) /\ aexec s (peek_a n cl) = Ok (rs', s') /\
    vec (mrun sampled (initial g) (h' ++ peek_c n cl)) = vec m /\
    forall res prob msg tl, pfin prob -> pfin tl -> Rabs (pval prob) <= 8 ->
    let e := Rabs (result_prob (width l) cl (negb (Nat.eqb res 0)) (vec m) - pval prob) in
    (e + (t + 2 * perr) <= pval tl -> play s (a_assert ps qs res prob msg tl k) = (Fine tt (room k cl), s')) /\
    (pval tl + (t + 2 * perr) < e ->
     exists s'', play s (a_assert ps qs res prob msg tl k) = (Broken (EFail msg) (dout k ++ render (RecMessage msg)), s'')).
Proof.
  intros k ps qs Le cl n N V M Fa Cl De t T1 T2 T3 T4 m l.
  destruct (assert_near k ps qs Le N V M Fa Cl De T1 T2 T3 T4) as (rs & s & rs' & s' & E1 & E2 & Ev & B1 & a & [Fa1 Ca] & Pl).
  exists rs, s, rs', s'. split; [exact E1|]. split; [exact E2|]. split; [exact Ev|]. intros res prob msg tl Fp Ft Bp e.
  fold cl in B1, Ca, Pl. fold n in B1, Ca, Pl. fold m in B1, Ca. fold l in B1, Ca. fold t in Ca.
  assert (P0 := pp_err Lp). assert (Pt : perr <= t) by apply perr_worst.
  set (o := one_prob (width l) cl (vec m)) in *.
  assert (Ba : Rabs (pval a) <= 8). { apply Rabs_le_inv in Ca. apply Rabs_le. lra. }
  set (b := if Nat.eqb res 0 then pcompl a else a).
  assert (Hb : pclose b (result_prob (width l) cl (negb (Nat.eqb res 0)) (vec m)) (t + perr) /\ Rabs (pval b) <= 8).
  { unfold b, result_prob. fold o. destruct (Nat.eqb res 0); cbn [negb].
    - destruct (pp_compl Lp a Fa1 Ba) as [F2 C2]. apply Rabs_le_inv in Ca. apply Rabs_le_inv in C2.
      split; [split; [exact F2|]|]; apply Rabs_le; lra.
    - split; [split; [exact Fa1|]|exact Ba]. lra. }
  destruct Hb as [[Fb Cb] Bb]. fold o in Cb. unfold e. set (P := result_prob _ _ _ _) in *.
  specialize (Pl res prob msg tl). fold b in Pl. rewrite Pl.
  assert (X : Rabs (Rabs (pval b - pval prob) - Rabs (P - pval prob)) <= t + perr).
  { eapply Rle_trans; [apply Rabs_triang_inv2|]. replace (pval b - pval prob - (P - pval prob)) with (pval b - P) by ring. exact Cb. }
  apply Rabs_le_inv in X. split; intros H.
  - rewrite (as_near K b prob tl) by (auto; lra). reflexivity.
  - rewrite (as_far K b prob tl) by (auto; lra). eexists. reflexivity.
Qed.

(** [qubit_is_zero]. *)
Theorem is_zero_near : forall k q, let n := (S q - dmax k)%nat in
  avalid_run (mkBook [] true) (h ++ repeat AAlloc n ++ [AIsZero q]) -> Forall2 call_stands h h' -> angles_fit h ->
  clear_of_odd_pi (h' ++ repeat CAlloc n ++ [CIsZero q]) -> decided w p x (initial g) (h' ++ repeat CAlloc n ++ [CIsZero q]) ->
  let t := worst w (total_lcost (mkBook [] true) (h ++ repeat AAlloc n ++ [AIsZero q])) (total_pcount (h ++ repeat AAlloc n ++ [AIsZero q])) p in
  t <= 1 / 2 -> t <= p / 2 -> t <= x -> thr + t < p ->
  let m := mrun sampled (initial g) h' in let l := grow n (live (bk m)) in
  exists rs s b s', aexec (new_sim g) h = Ok (rs, s) /\
    play s (a_is_zero q k) = (Fine b (mkDesk (dres k) (Nat.max (dmax k) (S q)) (dout k)), s') /\
    vec (mrun sampled (initial g) (h' ++ repeat CAlloc n ++ [CIsZero q])) = vec m /\
    (born (width l) [q] (vec m) <= thr - t -> b = true) /\ (thr + t < born (width l) [q] (vec m) -> b = false).
Proof.
  intros k q n V M Fa Cl De t T1 T2 T3 T4 m l.
  destruct (measuring_bound L Lp O w p Hp g x (h ++ repeat AAlloc n ++ [AIsZero q]) (h' ++ repeat CAlloc n ++ [CIsZero q])) as (rs & s' & E & Rw); auto.
  { apply Forall2_app; [exact M|]. apply Forall2_app; [apply alloc_stands|]. repeat constructor. }
  { apply mild_fit; [|exact Fa]. apply Forall_app. split; [|repeat constructor]. clear. induction n; constructor; auto. split; [reflexivity|intros; exact Logic.I]. }
  destruct (aexec_split _ _ _ _ _ E) as (r1 & s & r2 & E1 & E2 & ->).
  rewrite mrun_app. fold m. rewrite mrun_app. destruct (mrun_alloc sampled n m) as [Q1 Q2].
  destruct (within_app _ _ _ _ _ _ Rw) as (q1 & q2 & Eq & Lq & _ & Rq). fold m in Rq.
  assert (X : r1 = q1 /\ r2 = q2).
  { apply split_same; [exact Eq|]. rewrite (aexec_length _ _ _ _ E1), Lq. apply (Forall2_length_eq _ _ _ _ _ M). }
  destruct X as [-> ->]. clear Eq Lq Rw.
  destruct (aexec_split _ _ _ _ _ E2) as (u1 & s1 & u2 & F1 & F2 & ->).
  destruct (within_app _ _ _ _ _ _ Rq) as (v1 & v2 & Ev & Lv & _ & Rv). set (m1 := mrun sampled m (repeat CAlloc n)) in *.
  assert (X : u1 = v1 /\ u2 = v2).
  { apply split_same; [exact Ev|]. rewrite (aexec_length _ _ _ _ F1), Lv, !repeat_length. reflexivity. }
  destruct X as [-> ->]. clear Ev Lv. cbn [aexec] in F2. destruct (arun1 s1 (AIsZero q)) as [[r s2]|] eqn:Er; [|discriminate].
  inversion F2; subst v2 s2. clear F2. destruct Rv as [(b & -> & B1 & B2) _]. rewrite Q1, Q2 in B1, B2. fold l in B1, B2.
  exists q1, s, b, s'. split; [exact E1|]. split.
  { unfold a_is_zero. unfold wbind at 1. rewrite (runs_ensure q k s v1 s1 _ _ F1). unfold ask_bit, wbind, ask. cbn [tbind play dout]. rewrite Er. reflexivity. }
  split; [|split].
  - cbn [mrun]. unfold mstep1. destruct (sampled (mgen m1)). exact Q1.
  - intros H. destruct b; auto. specialize (B2 eq_refl). fold t in B2. lra.
  - intros H. destruct b; auto. specialize (B1 eq_refl). fold t in B1. lra.
Qed.
End One.

(** An assertion that finds nothing to complain of asks and turns back. *)
Theorem assert_passes : forall ps qs k s rs s' res prob msg tl, length ps = length qs -> (forall a, far a prob tl = false) ->
  let cl := paired ps qs in aexec s (peek_a (top (map snd cl) - dmax k) cl) = Ok (rs, s') ->
  play s (a_assert ps qs res prob msg tl k) = (Fine tt (room k cl), s').
Proof.
  intros ps qs k s rs s' res prob msg tl Le H cl E. unfold peek_a, peek in E. rewrite app_assoc in E.
  destruct (aexec_split _ _ _ _ _ E) as (u1 & s1 & u2 & F1 & F2 & ->). cbn [app aexec] in F2.
  destruct (arun1 s1 (AJointProb (map snd cl))) as [[r s2]|] eqn:Er; [|discriminate]. cbn [bind] in F2.
  destruct (aexec s2 (flat_map (turning_back (AGate AH) (AGate ASadj)) cl)) as [[u3 s3]|] eqn:F3; [|discriminate]. inversion F2; subst.
  unfold a_assert. unfold wbind at 1. rewrite (runs_map ps qs k Le s u1 s1 _ _ F1). fold cl. unfold wbind at 1, ask. cbn [tbind play room dout]. rewrite Er.
  rewrite H. cbn [wret wbind tbind]. unfold wbind. cbn [tbind]. rewrite <- play_leaf.
  rewrite (runs_for _ cl a_from_z _ runs_from_z (room k cl) s2 u3 s' _ _ F3). reflexivity.
Qed.
End Thms.

(** ** Binary64 *)
Section B64.
Variables cosf sinf : f64 -> f64.
Lemma far_nan : forall a b c : f64, is_nan b = true \/ is_nan c = true -> @far _ (Asserts64 cosf sinf) a b c = false.
Proof.
  intros a b c H. cbn [far Asserts64]. destruct H as [H|H].
  - destruct b; try discriminate. destruct a, c; reflexivity.
  - destruct c; try discriminate. unfold flt. destruct (Babs (fsub a b)); reflexivity.
Qed.
Lemma far_val : forall a b c : f64, is_finite a = true -> is_finite b = true -> is_finite c = true -> Rabs (B2R a) <= 8 -> Rabs (B2R b) <= 8 ->
  exists d, @far _ (Asserts64 cosf sinf) a b c = Rlt_bool (B2R c) (Rabs d) /\ Rabs (d - (B2R a - B2R b)) <= / 2 ^ 49.
Proof.
  intros a b c Fa Fb Fc Ba Bb. assert (H := fsub_err 5 a b ltac:(lia) Fa Fb). change (5 - 54)%Z with (- Z.of_nat 49)%Z in H. rewrite b2_neg in H.
  destruct H as [F E]; [apply diff8; assumption|]. exists (B2R (fsub a b)). split; [|exact E].
  cbn [far Asserts64]. rewrite flt_val; [|exact Fc|rewrite is_finite_Babs; exact F]. now rewrite B2R_Babs.
Qed.
Theorem asserts64_ok : @asserts_ok (Arith64 cosf sinf) (ApproxP64 cosf sinf) (Asserts64 cosf sinf).
Proof.
  split; intros a b c Fa Fb Fc Ba Bb H; destruct (far_val a b c Fa Fb Fc Ba Bb) as (d & -> & E);
    cbn [pval perr ApproxP64] in H; apply Rabs_le_inv in E;
    assert (X := Rabs_triang_inv2 d (B2R a - B2R b)); apply Rabs_le in E; (assert (Y := Rle_trans _ _ _ X E)); apply Rabs_le_inv in Y.
  - apply Rlt_bool_false. lra.
  - apply Rlt_bool_true. lra.
Qed.
End B64.

(** ** With exact numbers *)
From Verif Require Import RoundR BackAnyR.
Section Exact.
Context {T : Tol} {EN : Env} {D : Doubles} {SW : Shows}.
Lemma same_from_z : forall pq, same (a_from_z pq) (from_z pq).
Proof.
  intros [[] q]; unfold a_from_z, from_z; repeat (apply same_bind; [|intros]); try apply same_ret;
    try apply (same_gate_do AH); try apply (same_gate_do ASadj).
Qed.
Lemma same_assert : forall ps qs res prob msg tl, same (a_assert (CK := AssertsR) ps qs res prob msg tl) (qis_assert ps qs res prob msg tl).
Proof.
  intros. unfold a_assert, qis_assert. apply same_bind; [apply same_basis|intros cl]. apply (same_ask (CJointProb (map snd cl))). intros r.
  apply same_bind.
  - cbn [far AssertsR]. destruct r; apply same_if; try apply same_fail; apply same_ret.
  - intros _. apply same_for. apply same_from_z.
Qed.
Lemma same_is_zero : forall q, same (a_is_zero q) (api_qubit_is_zero q).
Proof. intros q. apply same_bind; [apply same_ensure|intros]. apply (same_bit (CIsZero q)). Qed.
End Exact.
