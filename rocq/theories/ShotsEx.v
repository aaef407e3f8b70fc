(** * Several shots of two entangled qubits in binary64 *)
From Coq Require Import String List NArith ZArith Reals Bool Lia Lra.
From Verif Require Import Cx Bits Arith ArithR Sim SimExp Spec SpecExp SpecRun SimRun SpecAny Any SpecNear SpecRound SpecLedger Math Binary64 SpecBinary64
  Text Backend SpecBackend Runner SpecRunner SpecIdeal IdealEx World BackEx SpecChance SpecOdds BackAny SpecShot BackAny64 SpecShots ShotEx.
From Verif Require ChanceEx.
Import ListNotations.
Local Open Scope R_scope.
Local Open Scope list_scope.

(** The shots print two equal results each, those of the list. *)
Fixpoint all_said (vs : list bool) (rs : list text) : bool :=
  match vs, rs with
  | [], [] => true
  | v :: vs', r :: rs' => ((if list_eq_dec Ascii.ascii_dec r (@ChanceEx.said D0 v) then true else false) && all_said vs' rs')%bool
  | _, _ => false
  end.
Definition says (vs : list bool) (r : option (list text)) : bool := match r with Some rs => all_said vs rs | None => false end.
Lemma says_cons : forall v v' vs r, says (v' :: vs) (option_map (cons (@ChanceEx.said D0 v)) r) = (Bool.eqb v v' && says vs r)%bool.
Proof.
  intros v v' vs [rs|]; cbn [option_map says all_said]; [|now destruct (Bool.eqb v v')]. f_equal.
  destruct v, v'; (destruct (list_eq_dec _ _ _) as [E|E]; [|try reflexivity; exfalso; apply E; reflexivity]); try reflexivity; vm_compute in E; discriminate.
Qed.
Lemma straight_series : forall x y fuel n t, @code_of F64 AP64 D0 x = y ->
  @series T0 ES D0 RNS (@exact_program F64 AP64 D0 (straight x) tt) fuel n tt t = series (IdealEx.tree y) fuel n tt t.
Proof.
  intros x y fuel n. induction n as [|n IH]; intros t E; [reflexivity|]. cbn [series].
  change (pstart (@exact_program F64 AP64 D0 (straight x) tt) tt) with x. change (pstart (IdealEx.tree y) tt) with y.
  assert (C := @straight_chances F64 AP64 D0 T0 ES RNS x y fuel x path0 t). rewrite E in C.
  transitivity (flat_map (fun xe => match snd xe with
    | EDone m out t' => map (fun wr => (fst xe * fst wr, option_map (cons out) (snd wr))) (@series T0 ES D0 RNS (@exact_program F64 AP64 D0 (straight x) tt) fuel n tt t')
    | _ => [(fst xe, None)] end) (@chances T0 ES D0 RNS (IdealEx.tree y) fuel y path0 t)).
  - rewrite <- C. apply flat_map_ext. intros [w [[] o t'|e o|o]]; reflexivity.
  - apply flat_map_ext. intros [w [[] o t'|e o|o]]; try reflexivity. cbn [fst snd]. f_equal. now apply IH.
Qed.
Notation series0 n t := (@series T0 ES D0 RNS (IdealEx.tree (@ChanceEx.bell D0)) 7 n tt t).
Lemma bell_says : forall vs t, chance_of (says vs) (series0 (length vs) t) = (1 / 2) ^ length vs.
Proof.
  induction vs as [|v vs IH]; intros t; cbn [length series].
  - unfold chance_of. cbn. lra.
  - assert (C := proj2 (@ChanceEx.bell_calc T0 ES D0 RNS 0 t)). cbn [Nat.add] in C. etransitivity; [apply f_equal; apply (f_equal (flat_map _)); exact C|].
    cbn [flat_map fst snd]. rewrite app_nil_r.
    assert (H : forall b l, chance_of (says (v :: vs)) (map (fun wr : R * option (list text) => (1 / 2 * fst wr, option_map (cons (@ChanceEx.said D0 b)) (snd wr))) l) =
      if Bool.eqb b v then 1 / 2 * chance_of (says vs) l else 0).
    { intros b l. unfold chance_of. induction l as [|[w r] l IHl]; cbn [map fold_right fst snd]; [destruct (Bool.eqb b v); ring|].
      rewrite IHl, says_cons. destruct (Bool.eqb b v), (says vs r); cbn [andb]; ring. }
    transitivity (chance_of (says (v :: vs)) (map (fun wr : R * option (list text) => (1 / 2 * fst wr, option_map (cons (@ChanceEx.said D0 true)) (snd wr))) (series0 (length vs) t)) +
      chance_of (says (v :: vs)) (map (fun wr : R * option (list text) => (1 / 2 * fst wr, option_map (cons (@ChanceEx.said D0 false)) (snd wr))) (series0 (length vs) t))).
    { generalize (series0 (length vs) t). intros l. unfold chance_of. rewrite map_app.
      assert (G : forall a b, fold_right Rplus 0 (a ++ b) = fold_right Rplus 0 a + fold_right Rplus 0 b) by (induction a as [|x a IHa]; intros; cbn; [ring|rewrite IHa; ring]). apply G. }
    rewrite !H. rewrite IH. destruct v; cbn [Bool.eqb pow]; ring.
Qed.
