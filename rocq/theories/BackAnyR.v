(** * The backend over any arithmetic, instantiated with exact numbers, is the one of Backend.v *)
From Coq Require Import String List NArith ZArith Reals Bool.
From Verif Require Import Cx Bits Arith ArithR Sim SimExp Spec SpecExp SpecRun SimRun SpecAny Any SpecNear SpecRound SpecLedger SpecRoundR RoundR
  Text Backend SpecBackend Runner SpecRunner SpecIdeal SpecChance SpecOdds BackAny SpecShot.
Import ListNotations.
Local Open Scope R_scope.
Local Open Scope list_scope.

Section Link.
Context {T : Tol} {EN : Env} {D : Doubles} {SW : Shows} {RN : Rand}.
Instance PhR : @Phases RArith := PhasesR T.
Instance TgR : ThreadGen := thread_of RN.
Instance ApR : @Approx RArith := ApproxR T 0.

Definition back_of (s : sim) (k : desk) : back := mkBack s (dres k) (dmax k) (dout k).
Definition bres_of {X} (a : answer X * sim) : bresult X :=
  match fst a with Fine x k => BOk x (back_of (snd a) k) | Broken e o => BErr e o end.
Definition same {X} (m : W X) (m' : B X) : Prop := forall s k, bres_of (play s (m k)) = m' (back_of s k).

Lemma play_bind : forall X Y (t : tree (answer X)) (f : answer X -> tree (answer Y)) s,
  (forall e o, f (Broken e o) = Leaf (Broken e o)) -> play s (tbind t f) = let (a, s') := play s t in match a with Fine _ _ => play s' (f a) | Broken e o => (Broken e o, s') end.
Proof.
  intros X Y t f s Hf. revert s. induction t as [a|o c k IH|t IH]; intros s; cbn [tbind play].
  - destruct a; [reflexivity|]. rewrite Hf. reflexivity.
  - destruct (arun1 s c) as [[r s']|]; [apply IH|reflexivity].
  - apply IH.
Qed.
Lemma same_ret : forall X (x : X), same (wret x) (bret x).
Proof. intros X x s k. reflexivity. Qed.
Lemma same_bind : forall X Y (m : W X) m' (f : X -> W Y) f', same m m' -> (forall x, same (f x) (f' x)) -> same (wbind m f) (bbind m' f').
Proof.
  intros X Y m m' f f' H F s k. unfold wbind, bbind. rewrite play_bind by reflexivity. rewrite <- (H s k). unfold bres_of at 2.
  destruct (play s (m k)) as [[x k'|e o] s']; cbn [fst snd]; [apply F|reflexivity].
Qed.
Lemma same_ask : forall c X (f : areply -> W X) (f' : reply -> B X), (forall r, same (f r) (f' (reply_of r))) ->
  same (wbind (ask (acall_of c)) f) (bbind (simcall c) f').
Proof.
  intros c X f f' F s k. unfold wbind, bbind, ask, simcall. cbn [tbind play]. rewrite run1_of. cbn [bsim back_of].
  destruct (arun1 s (acall_of c)) as [[r s']|]; cbn [bind]; [|reflexivity]. cbn [tbind play]. apply (F r s' k).
Qed.
Lemma same_do : forall c, same (ask_do (acall_of c)) (simdo c).
Proof. intros c. apply same_ask. intros r. apply same_ret. Qed.
Lemma same_bit : forall c, same (ask_bit (acall_of c)) (simbit c).
Proof. intros c. apply same_ask. intros r. destruct r; apply same_ret. Qed.
Lemma same_for : forall X (l : list X) f f', (forall x, same (f x) (f' x)) -> same (wfor l f) (bfor l f').
Proof. intros X l f f' H. induction l as [|x l IH]; [apply same_ret|]. apply same_bind; auto. Qed.
Lemma same_emit : forall t, same (wemit t) (emit t).
Proof. intros t s k. reflexivity. Qed.
Lemma same_fail : forall X m, same (@wfail _ _ X m) (rt_fail m).
Proof. intros X m s k. reflexivity. Qed.
Lemma same_alloc_times : forall n, same (a_alloc_times n) (alloc_times n).
Proof.
  induction n as [|n IH]; [apply same_ret|]. simpl. apply (same_ask CAlloc). intros r. apply same_bind; [|auto]. intros s k. reflexivity.
Qed.
Lemma same_ensure : forall q, same (a_ensure q) (ensure q).
Proof. intros q s k. apply (same_alloc_times (S q - dmax k) s k). Qed.
Lemma same_if : forall X (v : bool) (a b : W X) a' b', same a a' -> same b b' -> same (if v then a else b) (if v then a' else b').
Proof. intros X [|] a b a' b'; auto. Qed.
Lemma same_expand : forall i, same (w_expand i) (expand i).
Proof. intros i s k. reflexivity. Qed.
Lemma same_put : forall i v, same (w_put i v) (put_res i v).
Proof. intros i v s k. reflexivity. Qed.
Lemma same_get : forall i, same (w_get i) (get_res i).
Proof. intros i s k. reflexivity. Qed.
Lemma gate_round : forall g, gate_of (exact_gate g) = g.
Proof. destruct g; reflexivity. Qed.
Lemma same_gate_do : forall g q, same (ask_do (AGate g q)) (simdo (CGate (exact_gate g) q)).
Proof. intros g q. rewrite <- (gate_round g) at 1. apply (same_do (CGate (exact_gate g) q)). Qed.
Lemma same_mc_do : forall g cs q, same (ask_do (AMc g cs q)) (simdo (CMc (exact_gate g) cs q)).
Proof. intros g cs q. rewrite <- (gate_round g) at 1. apply (same_do (CMc (exact_gate g) cs q)). Qed.

Ltac go := repeat first
  [ apply same_ret | apply same_ensure | apply same_expand | apply same_put | apply same_get | apply same_emit | apply same_fail
  | apply same_gate_do | apply same_mc_do | (apply same_for; intros) | (apply same_bind; [|intros]) ].
Lemma same_gate : forall g q, same (a_gate g q) (qis_gate (exact_gate g) q).
Proof. intros. unfold a_gate, qis_gate. go. Qed.
Lemma same_c1 : forall g c q, same (a_c1 g c q) (qis_c1 (exact_gate g) c q).
Proof. intros. unfold a_c1, qis_c1. go. Qed.
Lemma same_ctl : forall g cs q, same (a_ctl g cs q) (qis_ctl (exact_gate g) cs q).
Proof. intros. unfold a_ctl, qis_ctl. go. Qed.
Lemma same_rzz : forall th a b, same (a_rzz th a b) (qis_rzz th a b).
Proof.
  intros. unfold a_rzz, qis_rzz. apply same_bind; [apply (same_c1 AX)|intros]. apply same_bind; [apply (same_gate (@ARz RArith th))|intros]. apply (same_c1 AX).
Qed.
Ltac gt := first [apply (same_gate AH)|apply (same_gate AS)|apply (same_gate ASadj)|apply same_rzz].
Ltac gts := repeat (apply same_bind; [gt|intros]); gt.
Lemma same_r : forall p th q, same (a_r p th q) (qis_r p th q).
Proof.
  intros [] th q; first [apply same_ret|apply (same_gate (@ARx RArith th))|apply (same_gate (@ARy RArith th))|apply (same_gate (@ARz RArith th))].
Qed.
Lemma same_r_ctl : forall cs p th q, same (a_r_ctl cs p th q) (qis_r_ctl cs p th q).
Proof.
  intros cs [] th q; try first [apply (same_ctl (@ARx RArith th))|apply (same_ctl (@ARy RArith th))|apply (same_ctl (@ARz RArith th))].
  destruct cs as [|c cs]; [apply same_ret|]. unfold a_r_ctl, qis_r_ctl. do 2 (apply same_bind; [go|intros]).
  apply (same_do (CPhase cs (Cis (- th / 2)) c)).
Qed.
Lemma same_exp : forall ps th qs, same (a_exp ps th qs) (qis_exp ps th qs).
Proof. intros. unfold a_exp, qis_exp. apply same_bind; [go|intros]. apply (same_do (CExp ps th qs)). Qed.
Lemma same_exp_ctl : forall cs ps th qs, same (a_exp_ctl cs ps th qs) (qis_exp_ctl cs ps th qs).
Proof. intros. unfold a_exp_ctl, qis_exp_ctl. do 2 (apply same_bind; [go|intros]). apply (same_do (CMcExp cs ps th qs)). Qed.
Lemma same_basis : forall ps qs, same (a_map_to_z_basis ps qs) (map_to_z_basis ps qs).
Proof.
  intros. unfold a_map_to_z_basis, map_to_z_basis. destruct (Nat.eqb _ _); [|go]. go.
  match goal with |- same (a_to_z ?x) _ => destruct x as [[] q] end; unfold a_to_z, to_z; go;
    try apply (same_gate_do AH); try apply (same_gate_do AS).
Qed.
Lemma same_recorded : forall i, same (a_recorded i) (recorded i).
Proof.
  intros i s k. unfold a_recorded, recorded. cbn [bres back_of]. destruct (dres k) eqn:E; [reflexivity|].
  assert (H := same_bind _ _ _ _ (fun _ => w_get i) (fun _ => get_res i) (same_expand i) (fun _ => same_get i)). apply (H s k).
Qed.
Lemma same_allocate : same a_qubit_allocate rt_qubit_allocate.
Proof. apply (same_ask CAlloc). intros r. destruct r; intros s k; reflexivity. Qed.
Lemma same_allocate_array : forall n, same (a_allocate_array n) (rt_allocate_array n).
Proof. induction n as [|n IH]; simpl; [apply same_ret|]. apply same_bind; [apply same_allocate|intros]. apply same_bind; [auto|intros]. apply same_ret. Qed.
Lemma same_unit : forall m m', same m m' -> same (wunit m) (vunit m').
Proof. intros. unfold wunit, vunit. apply same_bind; [auto|intros]. apply same_ret. Qed.

Theorem same_call : forall c, same (acall1 c) (bcall1 (exact_call c)).
Proof.
  destruct c; cbn [acall1 bcall1 exact_call]; try apply same_unit.
  - apply same_gate.
  - apply same_c1.
  - unfold a_c2, qis_c2. go.
  - apply same_ctl.
  - unfold a_sx, qis_sx. gts.
  - unfold a_rxx, qis_rxx. gts.
  - unfold a_ryy, qis_ryy. gts.
  - apply same_rzz.
  - apply same_r.
  - apply (same_r p (- th) q).
  - apply same_r_ctl.
  - apply (same_r_ctl cs p (- th) q).
  - apply same_exp.
  - apply (same_exp ps (- th) qs).
  - apply same_exp_ctl.
  - apply (same_exp_ctl cs ps (- th) qs).
  - unfold a_swap, qis_swap. do 2 (apply same_bind; [go|intros]). apply (same_do (CSwap a b)).
  - unfold a_reset, qis_reset. apply same_bind; [go|intros]. apply same_bind; [apply (same_bit (CMeasure q))|intros].
    apply same_if; [apply (same_gate_do AX)|go].
  - unfold a_mresetz, qis_mresetz. do 2 (apply same_bind; [go|intros]). apply same_bind; [apply (same_bit (CMeasure q))|intros].
    apply same_bind; [|intros; go]. apply same_if; [apply (same_gate_do AX)|go].
  - unfold a_mz, qis_mz. do 2 (apply same_bind; [go|intros]). apply same_bind; [apply (same_bit (CMeasure q))|intros; go].
  - unfold a_read_result, qis_read_result. go.
  - unfold a_write_result, rt_write_result. go.
  - apply same_bind; [|intros; go]. unfold a_m, qis_m. apply same_bind; [go|intros]. apply same_bind; [apply (same_bit (CMeasure q))|intros; go].
  - apply same_bind; [|intros; go]. unfold a_measure, qis_measure. apply same_bind; [apply same_basis|intros]. apply same_bind; [apply (same_bit (CJointMeasure _))|intros]. go.
    match goal with |- same (a_from_z ?x) _ => destruct x as [[] ?] end; unfold a_from_z, from_z; go;
      try apply (same_gate_do AH); try apply (same_gate_do ASadj).
  - apply same_bind; [apply same_allocate|intros; go].
  - apply same_bind; [apply same_allocate_array|intros; go].
  - apply (same_do (CRelease q)).
  - apply same_for. intros q. apply (same_do (CRelease q)).
  - unfold a_qubit_to_string, rt_qubit_to_string. go.
  - go.
  - unfold a_result_record, rt_result_record. apply same_bind; [apply same_recorded|intros; go].
  - unfold a_result_record_legacy, rt_result_record_legacy. apply same_bind; [apply same_recorded|intros; go].
  - go.
  - go.
  - intros s k. reflexivity.
Qed.

(** ** Programs *)
Theorem same_run : forall (p : aprogram) mem fuel l k t s,
  shot_end (fst (play s (shot_tree p fuel l k t))) = ending (run_from (exact_program p mem) fuel l (mkWorld (back_of s k) t)).
Proof.
  intros p mem. induction fuel as [|n IH]; intros l k t s; [reflexivity|]. cbn [shot_tree run_from].
  change (pstep (exact_program p mem) l) with (exact_step (astep p l)). destruct (astep p l) as [m|c f|lo hi f|]; cbn [exact_step].
  - reflexivity.
  - rewrite play_bind by reflexivity. assert (H := same_call c s k). unfold bres_of in H. cbn [wback].
    rewrite <- H. destruct (play s (acall1 c k)) as [[r k'|e o] s']; cbn [fst snd]; [apply (IH (f r) k' t s')|reflexivity].
  - unfold draw_int. cbn [wback wtgen]. destruct (hi <? lo)%Z; [reflexivity|]. change (tg_range lo hi t) with (draw_range lo hi t).
    destruct (draw_range lo hi t) as [z t']. apply (IH (f z) k t' s).
  - reflexivity.
Qed.
End Link.
