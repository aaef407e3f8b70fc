(** * sparsesim/src/lib.rs:1191-1324: application of an arbitrary matrix *)
From Coq Require Import NArith List Bool Arith.
From Verif Require Import Arith IndexMap Bits Sim.
Import ListNotations.

Section Apply.
Context {AR : Arith} {EN : Env}.

(** ndarray's [Array2<Complex64>]. *)
(** lib.rs:1201. *)
Record matrix := mkMatrix { nrows : nat; ncols : nat; entry : nat -> nat -> amp }.

(** lib.rs:1318-1324 [controlled]. *)
Definition controlled (u : matrix) (n : nat) : matrix :=
  let size := nrows u * Nat.pow 2 n in
  let dr := size - nrows u in
  let dc := size - ncols u in
  mkMatrix size size (fun r c =>
    if Nat.leb dr r && Nat.leb dc c then entry u (r - dr) (c - dc)
    else if Nat.eqb r c then amp1 else amp0).

(** lib.rs:1238-1252, one iteration. *)
Definition place_target (s : sim) (it : nat * nat) : res sim :=
  let '(target_loc, target) := it in
  let* loc := find_qubit s target in
  match key_of_loc (id_map s) target_loc with
  | None => Panic EUnwrap
  | Some swap_id =>
      let* s1 := swap_qubit_state s loc target_loc in
      Ok (with_id_map s1
            (im_update (im_update (id_map s1) swap_id (fun _ => loc)) target (fun _ => target_loc)))
  end.

Fixpoint hm_remove (m : sstate) (k : N) : sstate :=
  match m with
  | [] => []
  | (k', v) :: m' => if N.eqb k' k then m' else (k', v) :: hm_remove m' k
  end.

(** lib.rs:1266-1279, one iteration. *)
Definition apply_cell (u : matrix) (i : N) (l : nat) (val : amp) (acc : sstate) (j : nat) : sstate :=
  let c := entry u j l in
  if anz c then acc
  else
    let loc := (i * N.of_nat (nrows u) + N.of_nat j)%N in
    let v := match hm_get acc loc with
             | Some e => aadd e (amul c val)
             | None => amul c val
             end in
    if anz v then hm_remove acc loc else hm_put acc loc v.

(** lib.rs:1261-1281, one entry of the state. *)
Definition apply_row (u : matrix) (acc : sstate) (iv : N * amp) : sstate :=
  let size := N.of_nat (nrows u) in
  let i := (fst iv / size)%N in
  let l := N.to_nat (fst iv mod size) in
  fold_left (apply_cell u i l (snd iv)) (seq 0 (nrows u)) acc.

(** lib.rs:1199-1288 [apply]. *)
Definition apply_matrix (s : sim) (u : matrix) (targets : list nat) (controls : option (list nat))
  : res sim :=
  if negb (Nat.eqb (ncols u) (nrows u)) then Panic ENonSquare
  else if negb (Nat.eqb (ncols u) (Nat.pow 2 (length targets))) then Panic EMatrixSize
  else
    let '(ts, u') := match controls with
                     | Some cs => (cs ++ targets, controlled u (length cs))
                     | None => (targets, u)
                     end in
    let* _ := check_for_duplicates ts in
    let* s1 := flush_queue s ts LHRxRy in
    let* s2 := foldM place_target (enumerate (rev ts)) s1 in
    let st := horder (fold_left (apply_row u') (state s2) []) in
    match st with
    | [] => Panic EEmptyState
    | _ :: _ => Ok (with_state s2 st)
    end.
End Apply.
