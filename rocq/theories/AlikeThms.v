(** * Programs that cannot be told apart: proofs *)
From Coq Require Import List NArith ZArith Reals Bool Lia Lra FunctionalExtensionality.
From Verif Require Import Cx Bits Arith ArithR Sim SimExp Spec SpecExp SpecRun SimRun QLib Text Backend SpecBackend Runner SpecIdeal SpecChance Chance
  SpecIdle IdleThms SpecAlike.
Import ListNotations.
Local Open Scope R_scope.

Section Alike.
Context {T : Tol} {EN : Env} {D : Doubles} {SW : Shows} {RN : Rand}.

(** What a call does: its replies, the results it writes, the operators. *)
Definition acts (c : bcall) : list (breply * bool * (qstate -> qstate)) :=
  match bop c with
  | Some F => [(VUnit, false, F)]
  | None =>
    match c with
    | QM q => [(as_result true, true, proj [q] true); (as_result false, false, proj [q] false)]
    | QMz q i => [(VUnit, true, proj [q] true); (VUnit, false, proj [q] false)]
    | QReset q | QMresetz q _ =>
        [(VUnit, true, fun psi => drop_qubit q true (proj [q] true psi)); (VUnit, false, fun psi => drop_qubit q false (proj [q] false psi))]
    | QMeasure ps qs => [(as_result true, true, eigen_proj (paired ps qs) true); (as_result false, false, eigen_proj (paired ps qs) false)]
    | _ => []
    end
  end.
Definition mark (o : option nat) (v : bool) (m : path) : path := match o with Some i => noted i v m | None => m end.
Definition done (c : bcall) (x : breply * bool * (qstate -> qstate)) (m : path) : path := mark (slot c) (snd (fst x)) (kp (snd x) m).
Lemma still : forall k c, acting c -> (top (bnames c) <= bb_max k)%nat -> bbstep k c = k.
Proof.
  intros [big l] c O H. cbn [bb_max] in H.
  assert (X : mkBBook (Nat.max big (top (bnames c))) (opened big l (bnames c)) = mkBBook big l) by (rewrite opened_none by exact H; f_equal; lia).
  destruct c; try exact X; exfalso; apply O; reflexivity.
Qed.
Lemma sides_acts : forall m c, acting c -> (top (bnames c) <= bb_max (h_book m))%nat -> sides m c = map (fun x => Go (fst (fst x)) (done c x m)) (acts c).
Proof.
  intros m c O H. assert (B := still _ _ O H). unfold sides, acts. rewrite B. destruct (bop c) as [F|] eqn:E.
  - destruct c; try discriminate; reflexivity.
  - destruct c; try discriminate; try (exfalso; apply O; reflexivity); reflexivity.
Qed.
Lemma acts_on : forall c x, In x (acts c) -> on (fun q => In q (bnames c)) (snd x).
Proof.
  intros c x H. unfold acts in H. destruct (bop c) as [F|] eqn:E.
  - destruct H as [<-|[]]. now apply on_bop.
  - destruct c; try discriminate; try contradiction; destruct H as [<-|[<-|[]]]; cbn [snd];
    try (apply on_drop; now left); try (apply on_proj; now left).
    all: apply on_eigen; intros p q H; right; cbn [bnames]; apply (in_map snd) in H; exact H.
Qed.
Lemma done_book : forall c x m, h_book (done c x m) = h_book m.
Proof. intros c x m. unfold done, mark. destruct (slot c); reflexivity. Qed.
Lemma path_eq : forall b v u r o b' v' u' r' o', b = b' -> v = v' -> u = u' -> r = r' -> o = o' -> mkPath b v u r o = mkPath b' v' u' r' o'.
Proof. intros. now subst. Qed.
Lemma done_swap : forall c c' x x' m, unrelated c c' -> In x (acts c) -> In x' (acts c') -> done c' x' (done c x m) = done c x (done c' x' m).
Proof.
  intros c c' x x' m [Hq Hs] Hx Hx'.
  assert (C : snd x' (snd x (h_vec m)) = snd x (snd x' (h_vec m))).
  { symmetry. apply (on_commute _ _ (snd x) (snd x') (acts_on c x Hx) (acts_on c' x' Hx')). exact Hq. }
  unfold done, mark. destruct (slot c) as [i|] eqn:Ei, (slot c') as [i'|] eqn:Ei'; unfold noted, kp; cbn [h_book h_vec h_used h_res h_out]; apply path_eq; auto; try lia.
  extensionality j. destruct (Nat.eqb j i') eqn:E1; [|reflexivity]. destruct (Nat.eqb j i) eqn:E2; [|reflexivity].
  apply Nat.eqb_eq in E1, E2. exfalso. apply (Hs i eq_refl). congruence.
Qed.
Lemma acting_lists : forall c, acting c -> c <> QCapture /\ c <> QDump 0.
Proof. intros c H. split; intros ->; apply H; reflexivity. Qed.
(** Two calls one after the other, without leaving out paths of chance zero in between. *)
Lemma two_calls : forall p E n l m t c c' k j, supported (bb_live (h_book m)) (h_vec m) -> pstep p l = ACall c k -> (forall r, pstep p (k r) = ACall c' (j r)) ->
  ready m c -> ready m c' ->
  odds E (chances p (S (S n)) l m t) =
  Rsum (map (fun x => Rsum (map (fun x' => if Req_EM_T (chance (done c' x' (done c x m))) 0 then 0
    else odds E (chances p n (j (fst (fst x)) (fst (fst x'))) (done c' x' (done c x m)) t)) (acts c'))) (acts c)).
Proof.
  intros p E n l m t c c' k j S El Ek (A1 & V1 & M1) (A2 & V2 & M2).
  destruct (acting_lists _ A1) as [NC ND]. destruct (step_facts m c S V1 NC ND) as [Sup _].
  rewrite (chances_call _ _ _ _ _ _ _ El), odds_flat. rewrite (sides_acts m c A1 M1) in *. rewrite map_map. apply Rsum_ext. intros x Hx.
  cbn [onward]. assert (Sx : supported (bb_live (h_book (done c x m))) (h_vec (done c x m))).
  { apply (Sup (Go (fst (fst x)) (done c x m))). apply in_map_iff. exists x. auto. }
  assert (B := done_book c x m).
  assert (V2' : hvalid (done c x m) c') by (unfold hvalid in *; rewrite B; exact V2).
  assert (M2' : (top (bnames c') <= bb_max (h_book (done c x m)))%nat) by (rewrite B; exact M2).
  destruct (acting_lists _ A2) as [NC' ND']. destruct (step_facts _ c' Sx V2' NC' ND') as [_ Es]. rewrite (sides_acts _ c' A2 M2') in Es.
  destruct (Req_EM_T (chance (done c x m)) 0) as [Z|Nz].
  - rewrite (Rsum_ext _ _ (fun _ => 0)).
    + clear. unfold odds, Rsum. simpl. induction (acts c') as [|a l IH]; simpl; [reflexivity|rewrite <- IH; ring].
    + intros x' Hx'. destruct (Req_EM_T _ 0) as [_|N]; [reflexivity|]. exfalso. apply N. rewrite Z in Es.
      refine (Rsum_zero _ _ Es _ _).
      * intros y Hy. apply in_map_iff in Hy as [z [<- _]]. apply side_pos.
      * apply in_map_iff. exists (Go (fst (fst x')) (done c' x' (done c x m))). split; [reflexivity|]. apply in_map_iff. exists x'. auto.
  - rewrite (chances_call _ _ _ _ _ _ _ (Ek _)), odds_flat, (sides_acts _ c' A2 M2'), map_map. apply Rsum_ext. intros x' _. cbn [onward].
    destruct (Req_EM_T _ 0); reflexivity.
Qed.
Lemma cross_thm : forall p E n l l' m t c c', supported (bb_live (h_book m)) (h_vec m) -> crossed p l l' m c c' ->
  odds E (chances p (S (S n)) l m t) = odds E (chances p (S (S n)) l' m t).
Proof.
  intros p E n l l' m t c c' S (k & k' & j & El & Ek & El' & Ek' & R1 & R2 & U).
  rewrite (two_calls p E n l m t c c' k j S El Ek R1 R2), (two_calls p E n l' m t c' c k' (fun r' r => j r r') S El' Ek' R2 R1).
  rewrite Rsum_swap. apply Rsum_ext. intros x' Hx'. apply Rsum_ext. intros x Hx. now rewrite (done_swap c c' x x' m U Hx Hx').
Qed.
Lemma alike_thm : forall p E n l n' l' m t, alike p n l n' l' m t -> supported (bb_live (h_book m)) (h_vec m) ->
  odds E (chances p n l m t) = odds E (chances p n' l' m t).
Proof.
  intros p E n l n' l' m t H.
  induction H as [n l m t|n l n' l' m t H IH|n l n1 l1 n' l' m t H1 IH1 H2 IH2|n l m t c l' Hi|n l l' m t c c' Hc|n l n' l' m t c k k' E1 E2 V H IH|n l n' l' m t lo hi k k' E1 E2 H IH]; intros S.
  - reflexivity.
  - symmetry. auto.
  - rewrite IH1 by exact S. auto.
  - exact (idle_thm p E n l m t c l' S Hi).
  - exact (cross_thm p E n l l' m t c c' S Hc).
  - rewrite (chances_call _ _ _ _ _ _ _ E1), (chances_call _ _ _ _ _ _ _ E2), !odds_flat. apply Rsum_ext. intros x Hx.
    destruct x as [r m'|e o]; [|reflexivity]. cbn [onward]. destruct (Req_EM_T (chance m') 0) as [Z|Nz]; [reflexivity|].
    apply (IH r m' Hx Nz). exact (stays_supported m c r m' S V Hx).
  - cbn [chances]. rewrite E1, E2. destruct (Z.ltb hi lo) eqn:El; [reflexivity|]. apply Z.ltb_ge in El. auto.
Qed.
End Alike.
