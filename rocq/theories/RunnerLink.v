(** * Linking and loading *)
From Coq Require Import String Ascii List NArith ZArith Reals Bool Lia.
From Verif Require Import Cx Bits Arith ArithR IndexMap Sim SimExp SimApply Spec SpecRun SimRun Text Backend Runner SpecRunner.
Import ListNotations.

(** ** Binding *)
Definition bind_ok (b : binding) (k : nat) : bool :=
  match b with BLegacy _ => true | BBind _ c => Nat.eqb k c | BRecord _ => true | BM _ => Nat.eqb k 2 || Nat.eqb k 1 end.
Definition bind_use (b : binding) (k : nat) : option bool :=
  match b with BLegacy _ => Some true | BBind _ _ => None | BRecord _ => Some (Nat.eqb k 1) | BM _ => None end.

Lemma find_none : forall n ds, ~ In n (map fst ds) -> find_decl n ds = None.
Proof.
  intros n ds H. unfold find_decl. destruct (find _ ds) eqn:E; [|reflexivity]. exfalso. apply find_some in E. destruct E as [I E].
  apply String.eqb_eq in E. apply H. rewrite <- E. apply in_map. exact I.
Qed.
Lemma find_in : forall n k ds, NoDup (map fst ds) -> (find_decl n ds = Some k <-> In (n, k) ds).
Proof.
  intros n k ds. induction ds as [|[n' k'] ds IH]; intros ND; [simpl; split; [discriminate|contradiction]|].
  inversion ND; subst. unfold find_decl. simpl. destruct (String.eqb n' n) eqn:E.
  - apply String.eqb_eq in E. subst. simpl. split; intros H; [inversion H; auto|]. destruct H as [H|H]; [inversion H; reflexivity|].
    exfalso. apply H1. change n with (fst (n, k)). apply in_map. exact H.
  - fold (find_decl n ds). rewrite (IH H2). split; auto. intros [H|H]; auto. inversion H; subst. rewrite String.eqb_refl in E. discriminate.
Qed.
Lemma remove_in : forall n d ds, In d (remove_decl n ds) <-> In d ds /\ fst d <> n.
Proof.
  intros n d ds. unfold remove_decl. rewrite filter_In, negb_true_iff, String.eqb_neq. reflexivity.
Qed.
Lemma remove_nodup : forall n ds, NoDup (map fst ds) -> NoDup (map fst (remove_decl n ds)).
Proof.
  intros n ds. induction ds as [|d ds IH]; intros ND; [constructor|]. inversion ND; subst. simpl. destruct (negb _); [|auto]. simpl. constructor; auto.
  intros I. apply H1. apply in_map_iff in I. destruct I as (x & E & I). rewrite <- E. apply in_map. apply remove_in in I. tauto.
Qed.
Lemma step_thm : forall b ds, NoDup (map fst ds) ->
  match bind_step b ds with
  | None => exists k, In (bind_name b, k) ds /\ bind_ok b k = false
  | Some (u, ds') => (forall k, In (bind_name b, k) ds -> bind_ok b k = true) /\ (forall d, In d ds' <-> In d ds /\ fst d <> bind_name b) /\ NoDup (map fst ds') /\
      (forall v, u = Some v <-> exists k, In (bind_name b, k) ds /\ bind_use b k = Some v)
  end.
Proof.
  intros b ds ND. unfold bind_step. destruct (find_decl (bind_name b) ds) as [k|] eqn:E.
  - assert (I := proj1 (find_in _ _ _ ND) E).
    assert (U : forall k', In (bind_name b, k') ds -> k' = k) by (intros k' I'; apply (find_in _ _ _ ND) in I'; congruence).
    assert (G : forall (u : option bool), bind_ok b k = true -> u = bind_use b k ->
      (forall k0, In (bind_name b, k0) ds -> bind_ok b k0 = true) /\ (forall d, In d (remove_decl (bind_name b) ds) <-> In d ds /\ fst d <> bind_name b) /\
      NoDup (map fst (remove_decl (bind_name b) ds)) /\ (forall v, u = Some v <-> exists k0, In (bind_name b, k0) ds /\ bind_use b k0 = Some v)).
    { intros u O ->. split; [intros k' I'; rewrite (U k' I'); exact O|]. split; [intros d; apply remove_in|]. split; [apply remove_nodup; exact ND|].
      intros v. split; [eauto|]. intros (k' & I' & X). rewrite (U k' I') in X. exact X. }
    destruct b as [n|n c|n|n]; cbn [bind_name bind_ok bind_use] in *.
    + apply G; reflexivity.
    + destruct (Nat.eqb k c) eqn:C; [apply G; auto|]. exists k. auto.
    + apply G; reflexivity.
    + destruct (Nat.eqb k 2 || Nat.eqb k 1)%bool eqn:C; [apply G; auto|]. exists k. auto.
  - assert (Nn : forall k, ~ In (bind_name b, k) ds) by (intros k I; apply (find_in _ _ _ ND) in I; congruence).
    split; [intros k I; exfalso; apply (Nn k I)|]. split; [|split; [exact ND|]].
    + intros [n' k']. split; [|tauto]. intros I. split; [exact I|]. simpl. intros ->. apply (Nn k' I).
    + intros v. split; [discriminate|]. intros (k & I & _). exfalso. apply (Nn k I).
Qed.
Lemma all_thm : forall bs ds, NoDup (map bind_name bs) -> NoDup (map fst ds) ->
  match bind_all bs ds with
  | None => exists b k, In b bs /\ In (bind_name b, k) ds /\ bind_ok b k = false
  | Some (us, rest) => (forall b k, In b bs -> In (bind_name b, k) ds -> bind_ok b k = true) /\
      (forall d, In d rest <-> In d ds /\ ~ In (fst d) (map bind_name bs)) /\
      (forall v, In v us <-> exists b k, In b bs /\ In (bind_name b, k) ds /\ bind_use b k = Some v)
  end.
Proof.
  induction bs as [|b bs IH]; intros ds NB ND.
  - simpl. split; [intros b k []|]. split; [intros d; tauto|]. intros v. split; [contradiction|]. intros (b & k & [] & _).
  - inversion NB; subst. cbn [bind_all]. assert (S1 := step_thm b ds ND). destruct (bind_step b ds) as [[u ds']|].
    2:{ destruct S1 as (k & I & O). exists b, k. simpl. auto. }
    destruct S1 as (A & B & C & E). specialize (IH ds' H2 C).
    assert (Lift : forall b' k, In b' bs -> (In (bind_name b', k) ds' <-> In (bind_name b', k) ds)).
    { intros b' k Ib. rewrite B. simpl. split; [tauto|]. intros I. split; [exact I|]. intros X. apply H1. rewrite <- X. apply in_map. exact Ib. }
    destruct (bind_all bs ds') as [[us rest]|].
    + destruct IH as (A' & B' & E'). split; [|split].
      * intros b' k [<-|Ib] I; [apply A; exact I|]. apply A'; [exact Ib|]. apply Lift; auto.
      * intros d. rewrite B', B. simpl. split; [intros [[X Y] Z]; split; auto; intros [W|W]; congruence|].
        intros [X Y]. split; [split; auto|]; intros W; apply Y; auto.
      * intros v. transitivity ((u = Some v) \/ In v us); [destruct u as [u|]; simpl; [split; [intros [->|X]; auto|intros [X|X]; [inversion X|]; auto]|split; [auto|intros [X|X]; [discriminate|auto]]]|].
        rewrite E, E'. split.
        -- intros [(k & I & X)|(b' & k & Ib & I & X)]; [exists b, k; simpl; auto|]. exists b', k. split; [simpl; auto|]. split; [apply Lift; auto|exact X].
        -- intros (b' & k & [<-|Ib] & I & X); [left; eauto|]. right. exists b', k. split; [exact Ib|]. split; [apply Lift; auto|exact X].
    + destruct IH as (b' & k & Ib & I & O). exists b', k. split; [simpl; auto|]. split; [apply Lift; auto|exact O].
Qed.

(** The table of bindings against the specification's tables. *)
Definition eqs : forall a b : string, {a = b} + {a <> b} := string_dec.
Definition eqp : forall a b : string * nat, {a = b} + {a <> b}.
Proof. decide equality; [apply Nat.eq_dec|apply string_dec]. Defined.
Definition inb (n : string) (l : list string) : bool := if in_dec eqs n l then true else false.
Lemma inb_iff : forall n l, inb n l = true <-> In n l.
Proof. intros n l. unfold inb. destruct (in_dec eqs n l); split; intros; try tauto; discriminate. Qed.
Definition counts_of (n : string) (l : list (string * nat)) : list nat := map snd (filter (fun p => String.eqb (fst p) n) l).
Lemma counts_iff : forall n k l, In k (counts_of n l) <-> In (n, k) l.
Proof.
  intros n k l. unfold counts_of. rewrite in_map_iff. split.
  - intros ([n' k'] & <- & I). apply filter_In in I. destruct I as [I E]. apply String.eqb_eq in E. simpl in *. subst. exact I.
  - intros I. exists (n, k). split; auto. apply filter_In. split; auto. apply String.eqb_refl.
Qed.
Definition same_nats (a b : list nat) : bool := if list_eq_dec Nat.eq_dec a b then true else false.
(** What the specification says about the name of a binding. *)
Definition row_ok (b : binding) : bool :=
  let n := bind_name b in
  match b with
  | BLegacy _ => inb n legacy_names
  | BRecord _ => inb n either_names && negb (inb n legacy_names)
  | BBind _ k => negb (inb n legacy_names) && negb (inb n either_names) &&
      (if inb n departs then same_nats (counts_of n other_count) [k]
       else same_nats (counts_of n other_count) [] && same_nats (nodup Nat.eq_dec (counts_of n implementations)) [k])
  | BM _ => negb (inb n departs) && same_nats (counts_of n other_count) [] && same_nats (counts_of n implementations) [1; 2]
  end.
Lemma rows_ok : forallb row_ok bindings = true.
Proof. vm_compute. reflexivity. Qed.
Lemma row_fact : forall b, In b bindings -> row_ok b = true.
Proof. exact (proj1 (forallb_forall _ _) rows_ok). Qed.
Lemma names_distinct : NoDup (map bind_name bindings).
Proof.
  assert (E : nodup eqs (map bind_name bindings) = map bind_name bindings) by (vm_compute; reflexivity).
  rewrite <- E. apply NoDup_nodup.
Qed.
Lemma all_named : forallb (fun n => inb n (map bind_name bindings))
  (legacy_names ++ either_names ++ map fst other_count ++ filter (fun n => negb (inb n departs)) (map fst implementations)) = true.
Proof. vm_compute. reflexivity. Qed.
Lemma in_departs : forall n, In n departs <-> In n legacy_names \/ In n either_names \/ In n (map fst other_count) \/ In n never_linked.
Proof. intros n. unfold departs. rewrite !in_app_iff. tauto. Qed.
Lemma lists_disjoint : forall n, In n legacy_names -> In n either_names -> False.
Proof.
  intros n X Y. assert (E : forallb (fun n => negb (inb n either_names)) legacy_names = true) by (vm_compute; reflexivity).
  assert (Z := proj1 (forallb_forall _ _) E n X). cbv beta in Z. rewrite (proj2 (inb_iff n either_names) Y) in Z. discriminate Z.
Qed.
Opaque departs legacy_names either_names other_count implementations bindings never_linked counts_of inb.
Lemma row_accepts : forall b k, In b bindings -> (bind_ok b k = true <-> accepted (bind_name b) k).
Proof.
  intros b k I. assert (R := row_fact b I). clear I. unfold row_ok, same_nats in R. unfold accepted.
  destruct b as [n|n c|n|n]; cbn [bind_name bind_ok] in *.
  - apply inb_iff in R. tauto.
  - rewrite !andb_true_iff, !negb_true_iff in R. destruct R as [[A B] R].
    assert (A' : ~ In n legacy_names) by (intros X; apply inb_iff in X; congruence).
    assert (B' : ~ In n either_names) by (intros X; apply inb_iff in X; congruence).
    rewrite Nat.eqb_eq, <- (counts_iff n k other_count), <- (counts_iff n k implementations). destruct (inb n departs) eqn:Dp.
    + apply inb_iff in Dp. destruct (list_eq_dec _ _ _) as [E|]; [|discriminate]. rewrite E. change (In k [c]) with (c = k \/ False). split; [intros ->; tauto|]. intros [X|[X|[[X|[]]|[_ X]]]]; try tauto; congruence.
    + assert (Dp' : ~ In n departs) by (intros X; apply inb_iff in X; congruence).
      apply andb_true_iff in R. destruct R as [R1 R2]. destruct (list_eq_dec _ _ _) as [E1|]; [|discriminate]. destruct (list_eq_dec _ (nodup _ _) _) as [E2|]; [|discriminate].
      rewrite E1. assert (X : In k (counts_of n implementations) <-> k = c).
      { rewrite <- (nodup_In Nat.eq_dec), E2. simpl. split; [intros [Z|[]]; auto|auto]. }
      rewrite X. change (In k []) with False. tauto.
  - apply andb_true_iff in R. destruct R as [R _]. apply inb_iff in R. tauto.
  - rewrite !andb_true_iff, negb_true_iff in R. destruct R as [[A B] C].
    assert (Dp' : ~ In n departs) by (intros X; apply inb_iff in X; congruence).
    assert (A' := Dp'). rewrite in_departs in A'.
    destruct (list_eq_dec _ (counts_of n other_count) _) as [E1|]; [|discriminate]. destruct (list_eq_dec _ (counts_of n implementations) _) as [E2|]; [|discriminate].
    rewrite <- (counts_iff n k other_count), <- (counts_iff n k implementations), E1, E2, orb_true_iff, !Nat.eqb_eq. change (In k []) with False. change (In k [1; 2]) with (1 = k \/ 2 = k \/ False).
    split; [intros [-> | ->]; tauto|]. intros [X|[X|[F|[[X|[X|[]]] _]]]]; try tauto; subst; tauto.
Qed.
Lemma accepted_named : forall n k, accepted n k -> In n (map bind_name bindings).
Proof.
  intros n k H. apply inb_iff. apply (proj1 (forallb_forall _ _) all_named n). rewrite !in_app_iff. destruct H as [H|[H|[H|[H N]]]]; auto.
  - right. right. left. change n with (fst (n, k)). apply in_map. exact H.
  - right. right. right. apply filter_In. split; [change n with (fst (n, k)); apply in_map; exact H|]. apply negb_true_iff.
    destruct (inb n departs) eqn:E; auto. apply inb_iff in E. contradiction.
Qed.
Lemma row_uses : forall b k v, In b bindings -> (bind_use b k = Some v <->
  (v = true /\ (In (bind_name b) legacy_names \/ (In (bind_name b) either_names /\ k = 1))) \/ (v = false /\ In (bind_name b) either_names /\ k <> 1)).
Proof.
  intros b k v I. assert (R := row_fact b I). clear I. unfold row_ok in R.
  assert (disj := lists_disjoint).
  destruct b as [n|n c|n|n]; cbn [bind_name bind_use] in *.
  - apply inb_iff in R. split; [intros X; inversion X; auto|]. intros [[-> _]|(-> & X & _)]; [reflexivity|]. exfalso. apply (disj n); auto.
  - rewrite !andb_true_iff, !negb_true_iff in R. destruct R as [[A B] _]. split; [discriminate|].
    intros [[_ [X|[X _]]]|(_ & X & _)]; apply inb_iff in X; congruence.
  - apply andb_true_iff in R. destruct R as [R S1]. apply inb_iff in R. apply negb_true_iff in S1. split.
    + intros X. inversion X. destruct (Nat.eqb_spec k 1); auto.
    + intros [[-> [X|[_ ->]]]|(-> & _ & X)]; [apply inb_iff in X; congruence|reflexivity|]. apply Nat.eqb_neq in X. rewrite X. reflexivity.
  - rewrite !andb_true_iff, negb_true_iff in R. destruct R as [[A _] _]. split; [discriminate|].
    assert (Dp' : ~ In n departs) by (intros X; apply inb_iff in X; congruence). rewrite in_departs in Dp'.
    intros [[_ [X|[X _]]]|(_ & X & _)]; exfalso; tauto.
Qed.

Section Link.
Context {T : Tol} {EN : Env} {D : Doubles} {SW : Shows} {RN : Rand}.

Lemma decl_in : forall fs n k, In (n, k) (declarations fs) <-> exists f, In f fs /\ external f /\ fname f = n /\ fparams f = k.
Proof.
  intros fs n k. unfold declarations, external. rewrite in_map_iff. split.
  - intros (f & E & I). inversion E; subst. apply filter_In in I. destruct I as [I B]. rewrite andb_true_iff, !negb_true_iff in B. exists f. tauto.
  - intros (f & I & [A B] & <- & <-). exists f. split; [reflexivity|]. apply filter_In. rewrite andb_true_iff, !negb_true_iff. auto.
Qed.
Lemma decl_nodup : forall fs, NoDup (map fname fs) -> NoDup (map fst (declarations fs)).
Proof.
  intros fs. unfold declarations. induction fs as [|f fs IH]; intros ND; [constructor|]. inversion ND; subst. simpl. destruct (_ && _)%bool; [|auto]. simpl.
  constructor; auto. rewrite map_map. intros I. apply H1. apply in_map_iff in I. destruct I as (x & <- & I). simpl. apply filter_In in I. apply in_map. tauto.
Qed.
Lemma forallb_id : forall us, forallb (fun v : bool => v) us = true <-> ~ In false us.
Proof.
  intros us. rewrite forallb_forall. split; [intros H I; specialize (H _ I); discriminate|]. intros H [] I; auto; contradiction.
Qed.
Lemma forallb_neg : forall us, forallb negb us = true <-> ~ In true us.
Proof.
  intros us. rewrite forallb_forall. split; [intros H I; specialize (H _ I); discriminate|]. intros H [] I; auto; contradiction.
Qed.
Lemma link_thm : forall fs, NoDup (map fname fs) ->
  (bind_functions fs = Linked <-> (forall f, In f fs -> external f -> accepted (fname f) (fparams f)) /\ ~ mixed fs).
Proof.
  intros fs ND. assert (A := all_thm bindings (declarations fs) names_distinct (decl_nodup fs ND)). unfold bind_functions.
  destruct (bind_all bindings (declarations fs)) as [[us rest]|].
  - destruct A as (A & B & C).
    assert (U : forall v, In v us <-> exists f, In f fs /\ external f /\
      ((v = true /\ uses_legacy f) \/ (v = false /\ uses_labels f))).
    { intros v. rewrite C. split.
      - intros (b & k & Ib & I & X). apply decl_in in I. destruct I as (f & If & Ef & En & Ek). exists f. split; [exact If|]. split; [exact Ef|].
        unfold uses_legacy, uses_labels. rewrite En, Ek. apply (row_uses b k v Ib). exact X.
      - intros (f & If & Ef & X). assert (In (fname f) (legacy_names ++ either_names)) by (rewrite in_app_iff; unfold uses_legacy, uses_labels in X; tauto).
        assert (Nm : In (fname f) (map bind_name bindings)).
        { apply inb_iff. apply (proj1 (forallb_forall _ _) all_named). rewrite in_app_iff in *. rewrite in_app_iff. tauto. }
        apply in_map_iff in Nm. destruct Nm as (b & Eb & Ib). exists b, (fparams f). split; [exact Ib|]. split; [apply decl_in; exists f; auto|].
        apply (row_uses b (fparams f) v Ib). rewrite Eb. exact X. }
    assert (M : negb (forallb (fun v => v) us || forallb negb us) = true <-> mixed fs).
    { rewrite negb_true_iff, orb_false_iff. rewrite <- !not_true_iff_false, forallb_id, forallb_neg. unfold mixed. split.
      - intros [X Y]. assert (F : In false us) by (destruct (in_dec bool_dec false us); tauto). assert (Tr : In true us) by (destruct (in_dec bool_dec true us); tauto).
        apply U in F. apply U in Tr. destruct F as (f' & If' & Ef' & [[? _]|[_ Ff]]); [discriminate|]. destruct Tr as (f & If & Ef & [[_ Tf]|[? _]]); [|discriminate]. exists f, f'. tauto.
      - intros (f & f' & If & If' & Ef & Ef' & Lf & Lf'). split; intros X; apply X; apply U; [exists f'|exists f]; auto. }
    destruct (negb _) eqn:Mx.
    + split; [discriminate|]. intros [_ X]. exfalso. apply X. apply M. reflexivity.
    + assert (NM : ~ mixed fs) by (intros X; apply M in X; discriminate).
      assert (Ac : (rest = [] <-> forall f, In f fs -> external f -> accepted (fname f) (fparams f))).
      { split.
        - intros -> f If Ef. assert (I : In (fname f, fparams f) (declarations fs)) by (apply decl_in; exists f; auto).
          destruct (in_dec eqs (fname f) (map bind_name bindings)) as [Y|Y].
          + apply in_map_iff in Y. destruct Y as (b & Eb & Ib). rewrite <- Eb. apply (row_accepts b _ Ib). apply A; auto. rewrite Eb. exact I.
          + exfalso. apply (proj2 (B (fname f, fparams f))). auto.
        - intros H. destruct rest as [|[n k] rest]; [reflexivity|]. exfalso.
          destruct (proj1 (B (n, k)) (or_introl eq_refl)) as [I N]. apply N. apply decl_in in I. destruct I as (f & If & Ef & <- & <-).
          apply (accepted_named (fname f) (fparams f)). apply H; auto. }
      destruct rest as [|d rest].
      * split; [intros _; split; [apply Ac; reflexivity|exact NM]|reflexivity].
      * split; [discriminate|]. intros [X _]. apply Ac in X. discriminate.
  - destruct A as (b & k & Ib & I & O). split; [discriminate|]. intros [H _]. exfalso.
    apply decl_in in I. destruct I as (f & If & Ef & En & Ek). specialize (H f If Ef). rewrite En, Ek in H.
    apply (row_accepts b k Ib) in H. congruence.
Qed.
(** The names on which linking agrees with the implementations. *)
Lemma accepted_exact : forall n k, ~ In n departs -> (accepted n k <-> In (n, k) implementations).
Proof.
  intros n k N. unfold accepted. assert (N' := N). rewrite in_departs in N'.
  assert (~ In (n, k) other_count). { intros X. apply N'. right. right. left. change n with (fst (n, k)). apply in_map. exact X. }
  tauto.
Qed.

(** ** Loading *)
Context {LL : Llvm}.
Lemma magic_iff : forall bytes, magic bytes = true <-> bitcode_magic bytes.
Proof.
  intros bytes. unfold bitcode_magic, begins_with. split.
  - destruct bytes as [|a [|b [|c [|d r]]]]; try discriminate. simpl. rewrite orb_true_iff, !andb_true_iff, !N.eqb_eq.
    intros [[[[-> ->] ->] ->]|[[[-> ->] ->] ->]]; [left|right]; exists r; reflexivity.
  - intros [[r ->]|[r ->]]; reflexivity.
Qed.
Lemma is_bitcode_iff : forall bytes, is_bitcode bytes = true <-> bitcode_magic bytes.
Proof.
  intros bytes. unfold is_bitcode. rewrite <- magic_iff. destruct bytes as [|a [|b [|c [|d r]]]]; cbn [firstn magic];
    try (destruct (list_eq_dec _ _ _) as [X|_]; [discriminate|]; destruct (list_eq_dec _ _ _) as [X|_]; [discriminate|]; split; discriminate).
  rewrite orb_true_iff, !andb_true_iff, !N.eqb_eq.
  destruct (list_eq_dec _ _ _) as [X|X]; [inversion X; subst; tauto|].
  destruct (list_eq_dec _ _ _) as [Y|Y]; [inversion Y; subst; tauto|].
  split; [discriminate|]. intros [[[[-> ->] ->] ->]|[[[-> ->] ->] ->]]; [exfalso; apply X|exfalso; apply Y]; reflexivity.
Qed.
Lemma bytes_thm : forall bytes name fuel shots seed p,
  run_bytes bytes name fuel shots seed p = LRun
  (if (length bytes <? 4) then ([], RErr (FInput "byte array is too short"), seed_opt seed p)
   else match (if magic bytes then parse_bitcode bytes else parse_text bytes) with
        | inl fs => run_module fs name fuel shots (seed_opt seed p)
        | inr e => ([], RErr (FParse e), seed_opt seed p)
        end).
Proof.
  intros bytes name fuel shots seed p. unfold run_bytes. destruct (length bytes <? 4); [reflexivity|]. unfold create_module_from_ir, of_sum.
  destruct (magic bytes) eqn:M; [destruct (parse_bitcode bytes); reflexivity|].
  destruct (is_bitcode bytes) eqn:B.
  - apply is_bitcode_iff, magic_iff in B. congruence.
  - simpl. destruct (parse_text bytes); reflexivity.
Qed.

(** Extensions. *)
Lemma split_none : forall c w, (forall i, String.get i w <> Some c) -> split_at c w = [w].
Proof.
  intros c. induction w as [|a w IH]; intros N; [reflexivity|]. cbn [split_at].
  assert (E : Ascii.eqb a c = false). { apply Ascii.eqb_neq. intros ->. apply (N 0). reflexivity. }
  rewrite E, IH; [reflexivity|]. intros i. apply (N (S i)).
Qed.
Lemma split_last : forall c d w, (forall i, String.get i w <> Some c) -> split_at c (d ++ String c w) = split_at c d ++ [w].
Proof.
  intros c d w N. induction d as [|a d IH].
  - simpl. rewrite Ascii.eqb_refl, (split_none c w N). reflexivity.
  - cbn [append split_at]. rewrite IH. destruct (Ascii.eqb a c); [reflexivity|]. destruct (split_at c d) eqn:E; [|reflexivity].
    exfalso. clear -E. destruct d as [|b d]; simpl in E; [discriminate|]. destruct (Ascii.eqb b c); [discriminate|]. destruct (split_at c d); discriminate.
Qed.
Lemma dots_none : forall s, (forall i, String.get i s <> Some "."%char) -> after_last_dot s = None.
Proof.
  induction s as [|a s IH]; intros N; [reflexivity|]. simpl. rewrite IH by (intros i; apply (N (S i))).
  destruct (Ascii.eqb a ".") eqn:E; [|reflexivity]. apply Ascii.eqb_eq in E. subst. exfalso. apply (N 0). reflexivity.
Qed.
Lemma dots_last : forall b e, (forall i, String.get i e <> Some "."%char) -> after_last_dot (b ++ String "." e) = Some e.
Proof.
  induction b as [|a b IH]; intros e N; simpl.
  - rewrite (dots_none e N). reflexivity.
  - rewrite (IH e N). reflexivity.
Qed.
Lemma append_assoc' : forall a b c : string, ((a ++ b) ++ c = a ++ (b ++ c))%string.
Proof. induction a as [|x a IH]; intros; simpl; [reflexivity|]. rewrite IH. reflexivity. Qed.
Lemma get_app : forall a b i x, String.get i (a ++ b)%string = Some x -> (exists j, String.get j a = Some x) \/ (exists j, String.get j b = Some x).
Proof.
  induction a as [|c a IH]; intros b i x H; [right; eauto|]. destruct i as [|i]; simpl in H; [left; exists 0; exact H|].
  destruct (IH _ _ _ H) as [[j E]|E]; [left; exists (S j); exact E|auto].
Qed.
(** The last component of a path. *)
Lemma file_name_last : forall dir w, (dir = ""%string \/ exists d, dir = (d ++ "/")%string) -> no_slash w -> w <> ""%string -> w <> "."%string ->
  file_name (dir ++ w) = if String.eqb w ".." then None else Some w.
Proof.
  intros dir w Hd N E1 E2.
  assert (X : exists l, split_at "/" (dir ++ w) = l ++ [w]).
  { destruct Hd as [->|[d ->]]; [exists []; apply split_none; exact N|]. exists (split_at "/" d). rewrite append_assoc'. apply split_last. exact N. }
  destruct X as [l X]. unfold file_name. rewrite X, filter_app. cbn [filter].
  apply String.eqb_neq in E1. apply String.eqb_neq in E2. rewrite E1, E2. cbn [negb andb]. rewrite rev_app_distr. reflexivity.
Qed.
Lemma extension_thm : forall ext path, has_extension ext path -> ext <> ""%string -> extension path = Some ext.
Proof.
  intros ext path (dir & base & -> & Nb & Sb & Se & De & Hd) Ne. unfold extension.
  assert (NS : no_slash (base ++ "." ++ ext)).
  { intros i E. destruct (get_app _ _ _ _ E) as [[j Y]|[j Y]]; [apply (Sb j Y)|]. destruct j as [|j]; simpl in Y; [discriminate|apply (Se j Y)]. }
  rewrite (file_name_last dir (base ++ "." ++ ext) Hd NS).
  - destruct base as [|b0 base]; [congruence|]. destruct (String.eqb (String b0 base ++ "." ++ ext) "..") eqn:E.
    + apply String.eqb_eq in E. exfalso. simpl in E. inversion E. destruct base as [|b1 base]; simpl in H1; inversion H1; [congruence|]. destruct base; discriminate.
    + simpl. apply dots_last. exact De.
  - destruct base; simpl; [congruence|discriminate].
  - destruct base as [|b0 [|b1 base]]; simpl; [congruence|intros E; inversion E|intros E; inversion E].
Qed.
Lemma no_extension_thm : forall path, no_extension path -> extension path = None.
Proof.
  intros path (dir & a & base & -> & NS & ND & Nd & Hd). unfold extension. rewrite (file_name_last dir _ Hd NS); [|discriminate|exact Nd].
  destruct (String.eqb _ ".."); [reflexivity|]. apply dots_none. exact ND.
Qed.
Lemma load_thm : forall path,
  (has_extension "ll" path -> load_file path =
    match read_file path with inl bytes => of_sum (if magic bytes then parse_bitcode bytes else parse_text bytes) | inr e => ParseErr e end) /\
  (has_extension "bc" path -> load_file path = match read_file path with inl bytes => of_sum (parse_bitcode bytes) | inr e => ParseErr e end) /\
  ((no_extension path \/ exists e, has_extension e path /\ e <> ""%string /\ e <> "ll"%string /\ e <> "bc"%string) ->
    load_file path = ParseErr (lit "Unsupported file extension")).
Proof.
  intros path. unfold load_file. split; [|split].
  - intros H. rewrite (extension_thm _ _ H); [|discriminate]. destruct (read_file path) as [bytes|e]; [|reflexivity]. unfold create_module_from_ir. destruct (magic bytes); reflexivity.
  - intros H. rewrite (extension_thm _ _ H); [|discriminate]. destruct (read_file path); reflexivity.
  - intros [H|(e & H & N0 & N1 & N2)].
    + rewrite (no_extension_thm _ H). reflexivity.
    + rewrite (extension_thm _ _ H N0). clear -N1 N2.
      destruct e as [|a [|b [|c e]]]; try reflexivity.
      * destruct a as [[] [] [] [] [] [] [] []]; reflexivity.
      * destruct a as [[] [] [] [] [] [] [] []]; try reflexivity; destruct b as [[] [] [] [] [] [] [] []]; try reflexivity; congruence.
      * destruct a as [[] [] [] [] [] [] [] []]; try reflexivity; destruct b as [[] [] [] [] [] [] [] []]; reflexivity.
Qed.
End Link.
