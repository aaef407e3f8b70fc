(** * The closed form of the ledger *)
From Coq Require Import Reals NArith List Bool Lia Lra Arith.
From Verif Require Import Cx Arith ArithR IndexMap Bits Spec Sim SimExp SpecExp SpecRun SimRun SpecAny Any AnyRun SpecNear SpecRound Round
  RoundThms SpecLedger RoundLedger.
Import ListNotations.
Local Open Scope R_scope.

Section LB.
Context {A : Arith} {EN : Env} {AP : Approx} {PP : ApproxP}.
Hypothesis laws : approx_ok.
Hypothesis plaws : approx_p_ok.
Hypothesis horder_perm : any_order.
Variable w : nat.
Variable p : R.
Hypothesis Hp : 0 < p <= 1.

Notation pi0 := ((2 * 2 ^ w + 1) * perr).
Definition level (n k : nat) : R := worst w n k p.

Lemma drift_add : forall a b, drift w (a + b) = drift w a + drift w b.
Proof. intros. unfold drift. rewrite plus_INR. ring. Qed.
Lemma step_err_nonneg : 0 <= step_err.
Proof. unfold step_err. assert (H := ap_thr laws). assert (H' := ap_dlt laws). lra. Qed.
Lemma drift_nonneg : forall n, 0 <= drift w n.
Proof.
  intros n. unfold drift. apply Rmult_le_pos; [apply pos_INR|]. apply Rmult_le_pos; [apply step_err_nonneg|apply sqrt_pos].
Qed.
Lemma pi0_nonneg : 0 <= pi0.
Proof.
  assert (H := pp_err plaws). assert (1 <= 2 ^ w) by (apply pow_R1_Rle; lra). apply Rmult_le_pos; lra.
Qed.
Lemma quarter : 4 <= 4 / p.
Proof. unfold Rdiv. assert (1 <= / p) by (rewrite <- Rinv_1; apply Rinv_le_contravar; lra). lra. Qed.
Lemma qpow : forall k, 1 <= (4 / p) ^ k.
Proof. intros k. apply pow_R1_Rle. assert (H := quarter). lra. Qed.
Lemma inner_nonneg : forall n k, 0 <= 3 * drift w n + INR (1 + k) * pi0.
Proof.
  intros n k. assert (H := drift_nonneg n). assert (0 <= INR (1 + k) * pi0) by (apply Rmult_le_pos; [apply pos_INR|apply pi0_nonneg]). lra.
Qed.
Lemma level_steps : forall n k a, level n k + 3 * drift w a <= level (n + a) k.
Proof.
  intros n k a. unfold level, worst. rewrite drift_add. assert (Q := qpow k). assert (D := drift_nonneg a). nra.
Qed.
Lemma level_mono_k : forall n k, level n k <= level n (S k).
Proof.
  intros n k. unfold level, worst. assert (Q := qpow k). assert (Q4 := quarter). assert (N := inner_nonneg n k).
  assert (P := pi0_nonneg). assert (E : INR (1 + S k) * pi0 = INR (1 + k) * pi0 + pi0) by (replace (1 + S k)%nat with (S (1 + k)) by lia; rewrite S_INR; ring).
  rewrite E. replace ((4 / p) ^ S k) with (4 / p * (4 / p) ^ k) by reflexivity.
  set (u := 3 * drift w n + INR (1 + k) * pi0) in *. replace (3 * drift w n + (INR (1 + k) * pi0 + pi0)) with (u + pi0) by (unfold u; ring).
  set (v := (4 / p) ^ k) in *. assert (v * u <= 4 / p * v * u) by (rewrite (Rmult_assoc (4 / p)); assert (0 <= v * u) by (apply Rmult_le_pos; lra); nra).
  assert (0 <= 4 / p * v * pi0) by (apply Rmult_le_pos; [apply Rmult_le_pos; lra|exact P]). lra.
Qed.
Lemma level_mono : forall n k n' k', (n <= n')%nat -> (k <= k')%nat -> level n k <= level n' k'.
Proof.
  intros n k n' k' Hn Hk. replace n' with (n + (n' - n))%nat by lia. apply Rle_trans with (level n k').
  - induction Hk as [|k' Hk IH]; [apply Rle_refl|]. eapply Rle_trans; [exact IH|apply level_mono_k].
  - assert (H := level_steps n k' (n' - n)). assert (H' := drift_nonneg (n' - n)). lra.
Qed.
Lemma level_proj : forall n k m, m <= level n k -> 4 / p * (m + 3 * drift w 1) + pi0 <= level (n + 1) (S k).
Proof.
  intros n k m H. assert (Q4 := quarter). assert (Q := qpow k). assert (P := pi0_nonneg). assert (D := drift_nonneg 1).
  assert (E : level (n + 1) (S k) = 4 / p * (4 / p) ^ k * (3 * drift w n + INR (1 + k) * pi0 + pi0 + 3 * drift w 1)).
  { unfold level, worst. rewrite drift_add. replace (1 + S k)%nat with (S (1 + k)) by lia. rewrite (S_INR (1 + k)). simpl pow. ring. }
  rewrite E. unfold level, worst in H. set (u := 3 * drift w n + INR (1 + k) * pi0) in *. set (v := (4 / p) ^ k) in *.
  replace (4 / p * v * (u + pi0 + 3 * drift w 1)) with (4 / p * (v * u) + 4 / p * (v * pi0) + 4 / p * (v * (3 * drift w 1))) by ring.
  assert (A1 : 4 / p * m <= 4 / p * (v * u)) by (apply Rmult_le_compat_l; lra).
  assert (A2 : 4 / p * (3 * drift w 1) <= 4 / p * (v * (3 * drift w 1))) by (apply Rmult_le_compat_l; [lra|]; nra).
  assert (A3 : pi0 <= 4 / p * (v * pi0)) by (assert (pi0 <= v * pi0) by nra; assert (0 <= v * pi0) by lra; nra).
  lra.
Qed.

(** ** The ledger stays below the level *)
Definition below (e : ledger) (n k : nat) : Prop := 0 <= off e /\ 0 <= dev e /\ dev e + 3 * off e + pi0 <= level n k.

Lemma prob_err_sum : forall e, prob_err w e = dev e + 3 * off e + pi0.
Proof. intros e. unfold prob_err. ring. Qed.
Lemma below_stepped : forall e n k l c, below e n k -> below (stepped w e l c) (n + lcost l c) k.
Proof.
  intros e n k l c (O & D & H). unfold below, stepped. cbn [off dev]. assert (S1 := level_steps n k (lcost l c)).
  assert (D1 := drift_nonneg (lcost l c)). repeat split; lra.
Qed.
Lemma root_le : forall x, p / 2 <= x -> / sqrt x <= 2 / p.
Proof.
  intros x X. destruct (Rle_or_lt x 1) as [L|L].
  - assert (S0 : 0 < sqrt x) by (apply sqrt_lt_R0; lra). assert (S2 : sqrt x * sqrt x = x) by (apply sqrt_sqrt; lra).
    assert (S1 : sqrt x <= 1) by (rewrite <- sqrt_1; apply sqrt_le_1_alt; exact L).
    apply Rle_trans with (/ (p / 2)); [|right; field; lra]. apply Rinv_le_contravar; [lra|]. nra.
  - apply Rle_trans with 1.
    + rewrite <- Rinv_1. apply Rinv_le_contravar; [lra|]. rewrite <- sqrt_1. apply sqrt_le_1_alt. lra.
    + assert (H := quarter). unfold Rdiv in *. lra.
Qed.
Lemma below_projected : forall e1 n k x, below e1 n k -> p / 2 <= x ->
  below (mkLedger ((off e1 + drift w 1) / sqrt x) (prob_err w e1 / x)) (n + 1) (S k).
Proof.
  intros e1 n k x (O & D & H) X. assert (R1 := root_le x X). assert (D1 := drift_nonneg 1). assert (P0 := pi0_nonneg).
  assert (I1 : / x <= 2 / p) by (apply Rle_trans with (/ (p / 2)); [apply Rinv_le_contravar; lra|right; field; lra]).
  assert (I0 : 0 < / x) by (apply Rinv_0_lt_compat; lra).
  assert (J0 : 0 < / sqrt x) by (apply Rinv_0_lt_compat, sqrt_lt_R0; lra).
  unfold below. cbn [off dev]. rewrite prob_err_sum. unfold Rdiv at 1 2. split; [apply Rmult_le_pos; lra|]. split; [apply Rmult_le_pos; lra|].
  set (m := dev e1 + 3 * off e1 + pi0) in *. eapply Rle_trans; [|apply (level_proj n k m H)].
  assert (A1 : m * / x <= m * (2 / p)) by (apply Rmult_le_compat_l; [unfold m; lra|exact I1]).
  assert (A2 : (off e1 + drift w 1) * / sqrt x <= (off e1 + drift w 1) * (2 / p)) by (apply Rmult_le_compat_l; lra).
  assert (P2 : 0 < 2 / p) by (apply Rdiv_lt_0_compat; lra).
  assert (A3 : 3 * off e1 * (2 / p) <= m * (2 / p)) by (apply Rmult_le_compat_r; [lra|unfold m; lra]).
  replace (4 / p * (m + 3 * drift w 1)) with (m * (2 / p) + m * (2 / p) + 2 * (3 * drift w 1 * (2 / p))) by (field; lra).
  assert (A4 : 0 <= drift w 1 * (2 / p)) by (apply Rmult_le_pos; lra).
  unfold Rdiv at 1 2. lra.
Qed.

Section Run.
Variables (t g : R).
Hypothesis Ht : t <= 1 / 2 /\ t <= p / 2 /\ t <= g /\ thr + t < p.

Lemma fits_below : forall e n k l psi x c c', below (stepped w e l c) n k -> level n k <= t ->
  match projects l psi x c' with
  | Some (qs, r) => p <= chance l qs r psi /\ match c' with CForce _ _ => True | _ => g < Rabs (x - born (width l) qs psi) end
  | None => True
  end -> fits w e l psi x c c'.
Proof.
  intros e n k l psi x c c' (O & D & H) L Hc. unfold fits. cbv zeta. rewrite prob_err_sum. assert (P0 := pi0_nonneg).
  set (e1 := stepped w e l c) in *. split; [lra|]. split; [lra|]. split; [lra|].
  destruct (projects l psi x c') as [[qs r]|]; [|exact Logic.I]. destruct Hc as [Hc Hx]. split; [lra|]. split; [lra|].
  destruct c'; try lra.
Qed.
Lemma next_below : forall e n k l psi x c c', below e n k -> level (n + lcost l c) k <= t -> call_stands c c' ->
  match projects l psi x c' with Some (qs, r) => p <= chance l qs r psi | None => True end ->
  below (next w e l psi x c c') (n + (lcost l c + pcount c)) (k + pcount c).
Proof.
  intros e n k l psi x c c' B L M Hc. assert (B1 := below_stepped e n k l c B). unfold next. cbv zeta.
  set (e1 := stepped w e l c) in *. destruct (projects l psi x c') as [[qs r]|] eqn:Ep.
  - assert (Ec : pcount c = 1%nat).
    { destruct c, c'; simpl in M; try contradiction; simpl in Ep; try discriminate; reflexivity. }
    rewrite Ec. replace (n + (lcost l c + 1))%nat with (n + lcost l c + 1)%nat by lia. replace (k + 1)%nat with (S k) by lia.
    apply below_projected; [exact B1|]. destruct B1 as (_ & _ & H). rewrite prob_err_sum. lra.
  - assert (G : forall e', below e' (n + lcost l c) k -> below e' (n + (lcost l c + pcount c)) (k + pcount c)).
    { intros e' (O & D & H). split; [exact O|]. split; [exact D|]. eapply Rle_trans; [exact H|]. apply level_mono; lia. }
    destruct c'; try (apply G; exact B1).
    apply G. split; [simpl; lra|]. split; [simpl; lra|]. cbn [off dev]. destruct B1 as (O & D & H).
    assert (P0 := pi0_nonneg). lra.
Qed.

Lemma decided_fits : forall h h' m e n k, below e n k -> Forall2 call_stands h h' -> decided w p g m h' ->
  level (n + total_lcost (bk m) h) (k + total_pcount h) <= t -> fits_run w e m h h'.
Proof.
  induction h as [|c h IH]; intros h' m e n k B M D L; inversion M; subst; [exact Logic.I|].
  rename y into c'. rename l' into h'. cbn [decided] in D. destruct D as (W & Dc & D). cbn [total_lcost] in L.
  change (total_pcount (c :: h)) with (pcount c + total_pcount h)%nat in L.
  assert (L1 : level (n + lcost (live (bk m)) c) k <= t) by (eapply Rle_trans; [apply level_mono|exact L]; lia).
  cbn [fits_run]. split; [exact W|]. split.
  - eapply fits_below; [apply below_stepped; exact B|exact L1|exact Dc].
  - apply (IH h' _ _ (n + (lcost (live (bk m)) c + pcount c))%nat (k + pcount c)%nat); auto.
    + apply next_below; auto. destruct (projects _ _ _ _) as [[? ?]|]; tauto.
    + cbn [mstep1 bk]. unfold mstep1, sampled. cbn [bk]. rewrite (stands_book c c' (bk m)) by assumption.
      rewrite <- !Nat.add_assoc in *. exact L.
Qed.

Lemma within_mono : forall pe de pe' de' l psi x c' r, pe <= pe' -> de <= de' ->
  reply_within w pe de l psi x c' r -> reply_within w pe' de' l psi x c' r.
Proof.
  intros pe de pe' de' l psi x c' r Lp Ld H.
  assert (N : forall st, (all_finite st /\ exists phi k, supported l phi /\ listing (values st) l phi /\ Cn2 k = 1 /\
                   dist w phi (scale k psi) <= de) -> (all_finite st /\ exists phi k, supported l phi /\ listing (values st) l phi /\ Cn2 k = 1 /\
                   dist w phi (scale k psi) <= de')).
  { intros st (F & phi & k & S1 & Li & K & D). split; [exact F|]. exists phi, k. split; [exact S1|]. split; [exact Li|]. split; [exact K|]. lra. }
  assert (P : forall q y, pclose q y pe -> pclose q y pe') by (intros q y [F B]; split; [exact F|lra]).
  destruct c'; simpl in *; auto.
  - destruct H as (q & E & H). exists q. auto.
  - destruct H as (b & E & H1 & H2). exists b. split; [exact E|]. split; intros Hb; [specialize (H1 Hb)|specialize (H2 Hb)]; lra.
  - destruct H as (q' & E & H). exists q'. auto.
  - destruct H as (st & E & H). exists st. auto.
  - destruct H as (st & E & H). exists st. auto.
Qed.
Lemma near_within : forall h h' m e n k rs, below e n k -> Forall2 call_stands h h' -> decided w p g m h' ->
  level (n + total_lcost (bk m) h) (k + total_pcount h) <= t -> replies_near w e m h h' rs -> replies_within w t m h' rs.
Proof.
  induction h as [|c h IH]; intros h' m e n k rs B M D L R; inversion M; subst.
  - destruct rs; [exact Logic.I|contradiction].
  - rename y into c'. rename l' into h'. destruct rs as [|r rs]; [contradiction|]. cbn [decided] in D. destruct D as (W & Dc & D).
    cbn [total_lcost] in L. change (total_pcount (c :: h)) with (pcount c + total_pcount h)%nat in L.
    assert (L1 : level (n + lcost (live (bk m)) c) k <= t) by (eapply Rle_trans; [apply level_mono|exact L]; lia).
    cbn [replies_near] in R. destruct R as [R1 R2]. cbn [replies_within]. split.
    + unfold reply_near in R1. cbv zeta in R1. eapply within_mono; [| |exact R1];
        destruct (below_stepped e n k (live (bk m)) c B) as (O & Dv & H); rewrite ?prob_err_sum; assert (P0 := pi0_nonneg); lra.
    + eapply (IH h' _ _ (n + (lcost (live (bk m)) c + pcount c))%nat (k + pcount c)%nat); [| | | |exact R2]; auto.
      * apply next_below; auto. destruct (projects _ _ _ _) as [[? ?]|]; tauto.
      * unfold mstep1, sampled. cbn [bk]. rewrite (stands_book c c' (bk m)) by assumption.
        rewrite <- !Nat.add_assoc in *. exact L.
Qed.
End Run.

Theorem measuring_bound : forall g x h h', avalid_run (mkBook [] true) h -> Forall2 call_stands h h' -> angles_fit h ->
  clear_of_odd_pi h' -> decided w p x (initial g) h' ->
  let t := worst w (total_lcost (mkBook [] true) h) (total_pcount h) p in
  t <= 1 / 2 -> t <= p / 2 -> t <= x -> thr + t < p ->
  exists rs s, aexec (new_sim g) h = Ok (rs, s) /\ replies_within w t (initial g) h' rs.
Proof.
  intros g x h h' V M An Cl D t T1 T2 T3 T4.
  assert (B : below (mkLedger 0 0) 0 0).
  { split; [simpl; lra|]. split; [simpl; lra|]. cbn [off dev]. unfold level, worst, drift. simpl. assert (P := pi0_nonneg). simpl in P. lra. }
  assert (Ht : t <= 1 / 2 /\ t <= p / 2 /\ t <= x /\ thr + t < p) by auto.
  assert (L : level (0 + total_lcost (bk (initial g)) h) (0 + total_pcount h) <= t) by apply Rle_refl.
  destruct (measuring laws plaws horder_perm w g h h' V M An Cl) as (rs & s & E & R).
  - exact (decided_fits t x Ht h h' (initial g) (mkLedger 0 0) 0 0 B M D L).
  - exists rs, s. split; [exact E|]. exact (near_within t x Ht h h' (initial g) (mkLedger 0 0) 0 0 rs B M D L R).
Qed.
End LB.
