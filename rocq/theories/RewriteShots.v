(** * Several shots of programs that do the same: proofs *)
From Coq Require Import List NArith ZArith Reals Bool Lia Lra.
From Verif Require Import Cx Bits Arith ArithR Sim SimExp Spec SpecExp SpecRun SimRun Text Backend SpecBackend Runner SpecRunner SpecIdeal SpecChance Chance
  SpecIdle IdleThms SpecAlike AlikeThms SpecRewrite RewriteThms SpecShot.
Import ListNotations.
Local Open Scope R_scope.

(** ** Averages from tests *)
Section Mean.
Context {X : Type}.
Definition mean (g : X -> R) (ws : list (R * X)) : R := Rsum (map (fun w => fst w * g (snd w)) ws).
Definition level (g : X -> R) (v : R) (x : X) : bool := if Req_EM_T (g x) v then true else false.
Lemma one_level : forall (vs : list R) a y, NoDup vs -> In y vs -> Rsum (map (fun v => v * (if (if Req_EM_T y v then true else false) then a else 0)) vs) = a * y.
Proof.
  induction vs as [|v vs IH]; intros a y N I; [destruct I|]. cbn [map Rsum fold_right]. inversion N as [|? ? Nv Nvs]; subst.
  destruct (Req_EM_T y v) as [->|Ne].
  - assert (Z : Rsum (map (fun v0 => v0 * (if (if Req_EM_T v v0 then true else false) then a else 0)) vs) = 0).
    { clear - Nv. induction vs as [|u vs IH]; [reflexivity|]. cbn [map Rsum fold_right]. destruct (Req_EM_T v u) as [->|_]; [destruct Nv; left; reflexivity|].
      change (u * 0 + Rsum (map (fun v0 => v0 * (if (if Req_EM_T v v0 then true else false) then a else 0)) vs) = 0). rewrite IH; [ring|intros H; apply Nv; right; exact H]. }
    change (v * a + Rsum (map (fun v0 => v0 * (if (if Req_EM_T v v0 then true else false) then a else 0)) vs) = a * v). rewrite Z. ring.
  - destruct I as [->|I]; [destruct Ne; reflexivity|].
    change (v * 0 + Rsum (map (fun v0 => v0 * (if (if Req_EM_T y v0 then true else false) then a else 0)) vs) = a * y). rewrite (IH a y Nvs I). ring.
Qed.
Lemma zeros : forall vs, Rsum (map (fun v => v * 0) vs) = 0.
Proof. induction vs as [|v vs IH]; [reflexivity|]. change (v * 0 + Rsum (map (fun v => v * 0) vs) = 0). rewrite IH. ring. Qed.
Lemma add_both : forall (f h : R -> R) vs, Rsum (map f vs) + Rsum (map h vs) = Rsum (map (fun v => f v + h v) vs).
Proof.
  intros f h. induction vs as [|v vs IH]; [cbn; ring|].
  change (f v + Rsum (map f vs) + (h v + Rsum (map h vs)) = f v + h v + Rsum (map (fun v => f v + h v) vs)). rewrite <- IH. ring.
Qed.
Lemma mean_levels : forall g vs ws, NoDup vs -> (forall w, In w ws -> In (g (snd w)) vs) ->
  mean g ws = Rsum (map (fun v => v * chance_of (level g v) ws) vs).
Proof.
  intros g vs ws N. induction ws as [|w ws IH]; intros I.
  - symmetry. exact (zeros vs).
  - transitivity (fst w * g (snd w) + mean g ws); [reflexivity|]. rewrite IH by (intros u Hu; apply I; right; exact Hu).
    rewrite <- (one_level vs (fst w) (g (snd w)) N (I w (or_introl eq_refl))), add_both. f_equal. apply map_ext. intros v.
    change (chance_of (level g v) (w :: ws)) with ((if level g v (snd w) then fst w else 0) + chance_of (level g v) ws). unfold level. ring.
Qed.
Lemma means : forall ws ws', (forall E, chance_of E ws = chance_of E ws') -> forall g, mean g ws = mean g ws'.
Proof.
  intros ws ws' H g. set (vs := nodup Req_EM_T (map (fun w => g (snd w)) (ws ++ ws'))).
  assert (N : NoDup vs) by apply NoDup_nodup.
  rewrite (mean_levels g vs ws N), (mean_levels g vs ws' N).
  - f_equal. apply map_ext. intros v. rewrite H. reflexivity.
  - intros w Hw. apply nodup_In. apply (in_map (fun w => g (snd w))), in_or_app. right. exact Hw.
  - intros w Hw. apply nodup_In. apply (in_map (fun w => g (snd w))), in_or_app. left. exact Hw.
Qed.
Lemma mass_chance : forall E (ls : list (box * X)) ws, Forall2 (fun leaf w => volume (fst leaf) = fst w /\ snd leaf = snd w) ls ws ->
  mass volume E ls = chance_of E ws.
Proof.
  intros E ls ws F. induction F as [|l w ls ws [E1 E2] F IH]; [reflexivity|]. unfold mass, chance_of in *. cbn [map fold_right]. rewrite IH, E1, E2. reflexivity.
Qed.
End Mean.

Section Shots.
Context {T : Tol} {EN : Env} {D : Doubles} {SW : Shows} {RN : Rand}.
(** ** Several shots *)
Definition next (p : program) (fuel k : nat) (F : option (list text) -> bool) (e : ended (pmem p)) : R :=
  match e with
  | EDone mem' out t' => chance_of (fun r => F (option_map (cons out) r)) (series p fuel k mem' t')
  | _ => if F None then 1 else 0
  end.
Lemma chance_app : forall X (F : X -> bool) a b, chance_of F (a ++ b) = chance_of F a + chance_of F b.
Proof. intros X F a b. unfold chance_of. rewrite map_app. induction (map _ a) as [|x l IH]; cbn [app fold_right]; [ring|rewrite IH; ring]. Qed.
Lemma series_next : forall p fuel k F mem t, chance_of F (series p fuel (S k) mem t) = mean (next p fuel k F) (chances p fuel (pstart p mem) path0 t).
Proof.
  intros p fuel k F mem t. cbn [series]. induction (chances p fuel (pstart p mem) path0 t) as [|[w e] l IH]; [reflexivity|].
  cbn [flat_map]. rewrite chance_app, IH. unfold mean. cbn [map Rsum fold_right fst snd]. f_equal.
  destruct e as [mem' out t'| |]; cbn [next]; try (unfold chance_of; cbn [map fold_right fst snd]; destruct (F None); ring).
  induction (series p fuel k mem' t') as [|[v r] s IHs]; [unfold chance_of; cbn; ring|].
  cbn [map fst snd]. unfold chance_of in *. cbn [map fold_right fst snd]. rewrite IHs. destruct (F (option_map (cons out) r)); ring.
Qed.
Lemma rewritten_series : forall p s s' n n', (forall mem t, rewritten p n (s mem) n' (s' mem) path0 t) ->
  forall k mem t F, chance_of F (series (started p s) n k mem t) = chance_of F (series (started p s') n' k mem t).
Proof.
  intros p s s' n n' H. induction k as [|k IH]; intros mem t F; [reflexivity|].
  rewrite !series_next.
  transitivity (mean (next (started p s') n' k F) (chances (started p s) n (s mem) path0 t)).
  - unfold mean. f_equal. apply map_ext. intros [w e]. cbn [fst snd]. f_equal. destruct e; cbn [next]; auto.
  - apply (means (X := ended (pmem p))). intros E.
    transitivity (odds E (chances p n (s mem) path0 t)); [exact (f_equal (odds E) (started_chances p s n (s mem) path0 t))|].
    transitivity (odds E (chances p n' (s' mem) path0 t)); [|symmetry; exact (f_equal (odds E) (started_chances p s' n' (s' mem) path0 t))].
    refine (rewritten_thm p E _ _ _ _ path0 t (H mem t) start_supported _). rewrite start_chance. lra.
Qed.
End Shots.
