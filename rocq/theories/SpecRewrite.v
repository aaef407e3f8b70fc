(** * Sequences of gates that do the same

    An optimiser may replace a sequence of gates by another with the same effect up to a global phase. *)
From Coq Require Import List NArith ZArith Reals Bool.
From Verif Require Import Cx Bits Arith ArithR Sim SimExp Spec SpecExp SpecRun SimRun Text Backend SpecBackend Runner SpecIdeal SpecChance SpecIdle SpecAlike.
Import ListNotations.
Local Open Scope R_scope.

Section Rewrite.
Context {T : Tol} {EN : Env} {D : Doubles} {SW : Shows} {RN : Rand}.

(** One gate: the qubits it opens, and its operator applied to the vector. *)
Definition gated (m : path) (c : bcall) : path :=
  match bop c with Some F => moved m (bbstep (h_book m) c) (F (h_vec m)) | None => m end.
(** Gates one after another. *)
Definition after (m : path) (cs : list bcall) : path := fold_left gated cs m.
(** Only gates, each valid where it is reached. *)
Fixpoint circuit (m : path) (cs : list bcall) : Prop :=
  match cs with [] => True | c :: cs' => bop c <> None /\ hvalid m c /\ circuit (gated m c) cs' end.
(** The same but for a global phase. *)
Definition upto_phase (m m' : path) : Prop :=
  h_book m = h_book m' /\ phase_eq (h_vec m) (h_vec m') /\ h_used m = h_used m' /\ h_res m = h_res m' /\ h_out m = h_out m'.
(** From [l] the program makes the calls [cs], which give no results, and is then at [l']. *)
Fixpoint making (p : program) (cs : list bcall) (l l' : ploc p) : Prop :=
  match cs with [] => l = l' | c :: cs' => exists k, pstep p l = ACall c k /\ making p cs' (k VUnit) l' end.

(** Every path of the program ends within [n] steps. *)
Fixpoint ends_within (p : program) (n : nat) (l : ploc p) (m : path) (t : tgen) : Prop :=
  match n with
  | O => False
  | S n' =>
    match pstep p l with
    | ACall c k => forall r m', In (Go r m') (sides m c) -> chance m' <> 0 -> ends_within p n' (k r) m' t
    | ARandom lo hi k => (lo <= hi)%Z -> ends_within p n' (k (fst (draw_range lo hi t))) m (snd (draw_range lo hi t))
    | _ => True
    end
  end.
(** From [l] the program measures [q] and goes on at [f] of the result, which it gets as the reply, or from the static result [i]. *)
Definition learns (p : program) (q : nat) (w : option nat) (l : ploc p) (f : bool -> ploc p) : Prop :=
  match w with
  | None => exists k, pstep p l = ACall (QM q) k /\ forall r, k (as_result r) = f r
  | Some i => exists k k', pstep p l = ACall (QMz q i) k /\ pstep p (k VUnit) = ACall (QReadResult i) k' /\ forall r, k' (VBool r) = f r
  end.
Definition asking (w : option nat) : nat := match w with None => 1 | Some _ => 2 end%nat.
(** The path with that result. *)
Definition seen (m : path) (q : nat) (w : option nat) (r : bool) : path :=
  let m' := moved m (h_book m) (proj [q] r (h_vec m)) in match w with None => m' | Some i => looked i (noted i r m') end.
(** The second gate is the first with [q] as a further control. *)
Inductive controlled (q : nat) : bcall -> bcall -> Prop :=
| co_gate : forall g t, controlled q (QGate g t) (QC1 g q t)
| co_more : forall g c t, controlled q (QC1 g c t) (QC2 g q c t)
| co_any : forall g cs t, controlled q (QCtl g cs t) (QCtl g (q :: cs) t)
| co_turn : forall a th t, controlled q (QR a th t) (QRCtl [q] a th t)
| co_exp : forall ps th qs, controlled q (QExp ps th qs) (QExpCtl [q] ps th qs).

(** [rewritten p n l n' l' m t]: from [l] with [n] steps and from [l'] with [n'] steps the program does the same, but for the order of
    unrelated calls, for idle calls, for sequences of gates that have the same effect up to a global phase on the vector at hand, and for
    gates that depend on the result of a measurement or, before it, are controlled by the qubit. *)
Inductive rewritten (p : program) : nat -> ploc p -> nat -> ploc p -> path -> tgen -> Prop :=
| rw_alike : forall n l n' l' m t, alike p n l n' l' m t -> rewritten p n l n' l' m t
| rw_back : forall n l n' l' m t, rewritten p n l n' l' m t -> rewritten p n' l' n l m t
| rw_then : forall n l n1 l1 n' l' m t, rewritten p n l n1 l1 m t -> rewritten p n1 l1 n' l' m t -> rewritten p n l n' l' m t
| rw_gates : forall n l1 n' l1' m t cs cs' l l', making p cs l l1 -> making p cs' l' l1' -> circuit m cs -> circuit m cs' ->
    upto_phase (after m cs) (after m cs') -> rewritten p n l1 n' l1' (after m cs') t -> rewritten p (length cs + n) l (length cs' + n') l' m t
| rw_call : forall n l n' l' m t c k k', pstep p l = ACall c k -> pstep p l' = ACall c k' -> hvalid m c ->
    (forall r m', In (Go r m') (sides m c) -> chance m' <> 0 -> rewritten p n (k r) n' (k' r) m' t) -> rewritten p (S n) l (S n') l' m t
| rw_draw : forall n l n' l' m t lo hi k k', pstep p l = ARandom lo hi k -> pstep p l' = ARandom lo hi k' ->
    ((lo <= hi)%Z -> rewritten p n (k (fst (draw_range lo hi t))) n' (k' (fst (draw_range lo hi t))) m (snd (draw_range lo hi t))) ->
    rewritten p (S n) l (S n') l' m t
| rw_more : forall n l m t, ends_within p n l m t -> rewritten p (S n) l n l m t
| rw_defer : forall n n' m t q w cs cs' l l' f f' l1 l2, learns p q w l f -> making p cs (f true) l1 -> making p cs' l' l2 -> learns p q w l2 f' ->
    ready m (QM q) -> Forall (ready m) cs -> Forall (ready m) cs' -> Forall2 (controlled q) cs cs' ->
    (chance (after (seen m q w true) cs) <> 0 -> rewritten p n l1 n' (f' true) (after (seen m q w true) cs) t) ->
    (chance (seen m q w false) <> 0 -> rewritten p (length cs + n) (f false) n' (f' false) (seen m q w false) t) ->
    rewritten p (asking w + (length cs + n)) l (length cs' + (asking w + n')) l' m t.

(** Identities that optimisers use, on any qubits. *)
Inductive rule : list bcall -> list bcall -> Prop :=
| ru_twice : forall g q, In g [GX; GY; GZ; GH] -> rule [QGate g q; QGate g q] []
| ru_undo_s : forall q, rule [QGate GS q; QGate GSadj q] []
| ru_undo_t : forall q, rule [QGate GT q; QGate GTadj q] []
| ru_ss : forall q, rule [QGate GS q; QGate GS q] [QGate GZ q]
| ru_tt : forall q, rule [QGate GT q; QGate GT q] [QGate GS q]
| ru_sxsx : forall q, rule [QSx q; QSx q] [QGate GX q]
| ru_hxh : forall q, rule [QGate GH q; QGate GX q; QGate GH q] [QGate GZ q]
| ru_hyh : forall q, rule [QGate GH q; QGate GY q; QGate GH q] [QGate GY q]
| ru_hzh : forall q, rule [QGate GH q; QGate GZ q; QGate GH q] [QGate GX q]
| ru_zx : forall q, rule [QGate GZ q; QGate GX q] [QGate GY q]
| ru_xz : forall q, rule [QGate GX q; QGate GZ q] [QGate GY q]
| ru_rx : forall a b q, rule [QGate (GRx a) q; QGate (GRx b) q] [QGate (GRx (a + b)) q]
| ru_ry : forall a b q, rule [QGate (GRy a) q; QGate (GRy b) q] [QGate (GRy (a + b)) q]
| ru_rz : forall a b q, rule [QGate (GRz a) q; QGate (GRz b) q] [QGate (GRz (a + b)) q]
| ru_x : forall q, rule [QGate (GRx PI) q] [QGate GX q]
| ru_y : forall q, rule [QGate (GRy PI) q] [QGate GY q]
| ru_z : forall q, rule [QGate (GRz PI) q] [QGate GZ q]
| ru_s : forall q, rule [QGate (GRz (PI / 2)) q] [QGate GS q]
| ru_turn : forall q, rule [QGate (GRx (2 * PI)) q] []
| ru_ctwice : forall g a b, In g [GX; GY; GZ] -> rule [QC1 g a b; QC1 g a b] []
| ru_cz : forall a b, rule [QC1 GZ a b] [QC1 GZ b a]
| ru_cx : forall a b, rule [QGate GH b; QC1 GZ a b; QGate GH b] [QC1 GX a b]
| ru_swap : forall a b, rule [QC1 GX a b; QC1 GX b a; QC1 GX a b] [QSwap a b]
| ru_rzz : forall th a b, rule [QC1 GX b a; QGate (GRz th) a; QC1 GX b a] [QRzz th a b]
| ru_t : forall q, rule [QGate (GRz (PI / 4)) q] [QGate GT q]
| ru_qx : forall th q, rule [QR PX_ th q] [QGate (GRx th) q]
| ru_qy : forall th q, rule [QR PY_ th q] [QGate (GRy th) q]
| ru_qz : forall th q, rule [QR PZ_ th q] [QGate (GRz th) q]
| ru_qi : forall th q, rule [QR PI_ th q] []
| ru_adj : forall a th q, rule [QRAdj a th q] [QR a (- th) q]
| ru_exp : forall a th q, rule [QExp [a] th [q]] [QR a (- (2 * th)) q]
| ru_ctl0 : forall g q, rule [QCtl g [] q] [QGate g q]
| ru_ctl1 : forall g a b, rule [QCtl g [a] b] [QC1 g a b]
| ru_ctl2 : forall g a b c, rule [QCtl g [a; b] c] [QC2 g a b c]
(* how X and Z pass through controlled gates, and controlled gates that pass each other *)
| ru_push_h : forall q, rule [QGate GX q; QGate GH q] [QGate GH q; QGate GZ q]
| ru_push_xc : forall a b, rule [QGate GX a; QC1 GX a b] [QC1 GX a b; QGate GX a; QGate GX b]
| ru_push_xt : forall a b, rule [QGate GX b; QC1 GX a b] [QC1 GX a b; QGate GX b]
| ru_push_zc : forall a b, rule [QGate GZ a; QC1 GX a b] [QC1 GX a b; QGate GZ a]
| ru_push_zt : forall a b, rule [QGate GZ b; QC1 GX a b] [QC1 GX a b; QGate GZ a; QGate GZ b]
| ru_push_xz : forall a b, rule [QGate GX a; QC1 GZ a b] [QC1 GZ a b; QGate GX a; QGate GZ b]
| ru_pass_x : forall a b c, rule [QC1 GX a b; QC1 GX a c] [QC1 GX a c; QC1 GX a b]
| ru_pass_t : forall a b c, rule [QC1 GX a c; QC1 GX b c] [QC1 GX b c; QC1 GX a c]
| ru_pass_z : forall a b c d, rule [QC1 GZ a b; QC1 GZ c d] [QC1 GZ c d; QC1 GZ a b].
End Rewrite.
