(** * sparsesim/src/exp.rs: multi-qubit Pauli exponentials *)
From Coq Require Import NArith List Bool Arith.
From Verif Require Import Arith IndexMap Bits Sim.
Import ListNotations.

(** exp.rs:17-22 [Pauli]. *)
Inductive pauli := PI_ | PX_ | PZ_ | PY_.

Section Exp.
Context {AR : Arith} {EN : Env}.

(** exp.rs:60-78: duplicate check on sorted locations. *)
Fixpoint adjacent_dup (l : list nat) : option nat :=
  match l with
  | x :: ((y :: _) as l') => if Nat.eqb x y then Some y else adjacent_dup l'
  | _ => None
  end.

(** exp.rs:83-97: masks and number of Ys.  [targets[i]] is only evaluated for a
    Pauli different from I, and panics when out of range. *)
Fixpoint exp_masks (ps : list pauli) (i : nat) (targets : list nat)
  (xy yz : N) (y : nat) : res (N * N * nat) :=
  match ps with
  | [] => Ok (xy, yz, y)
  | p :: ps' =>
      match p with
      | PI_ => exp_masks ps' (S i) targets xy yz y
      | _ =>
          match nth_error targets i with
          | None => Panic EIndex
          | Some t =>
              match p with
              | PX_ => exp_masks ps' (S i) targets (set_bit xy t true) yz y
              | PY_ => exp_masks ps' (S i) targets (set_bit xy t true) (set_bit yz t true) (S y)
              | _ => exp_masks ps' (S i) targets xy (set_bit yz t true) y
              end
          end
      end
  end.

(** exp.rs:163-201, one entry of the general branch; [m] is [mapped_state]. *)
Definition exp_entry (ctls : list nat) (xy yz : N) (idc pc pca : amp)
  (m : sstate) (iv : N * amp) : sstate :=
  let '(index, value) := iv in
  if all_set ctls index then
    let alt_index := N.lxor index xy in
    let par := masked_parity yz index in
    match hm_get m alt_index with
    | None =>
        [ (index, amul value idc);
          (alt_index, amul value (if par then aopp pc else pc)) ]
    | Some alt_value =>
        if N.ltb index alt_index then
          (let nv := aadd (amul value idc) (amul alt_value (if par then aopp pca else pca)) in
           if anz nv then [] else [(index, nv)]) ++
          (let nv := aadd (amul alt_value idc) (amul value (if par then aopp pc else pc)) in
           if anz nv then [] else [(alt_index, nv)])
        else []
    end
  else [(index, value)].

(** exp.rs:34-203 [mcexp]. *)
Definition mcexp (s : sim) (ctls : list nat) (paulis : list pauli) (theta : ang)
  (targets : list nat) : res sim :=
  let* s1 := flush_queue s ctls LHRxRy in
  let* s2 := flush_queue s1 targets LHRxRy in
  let* cs := mapM (find_qubit s2) ctls in
  let* ts := mapM (find_qubit s2) targets in
  match adjacent_dup (sort_nat (cs ++ ts)) with
  | Some d => Panic (EDuplicate d)
  | None =>
      let idc := cfull theta in
      let pc := amul ampi (sfull theta) in
      let* (xy, yz, y) := exp_masks paulis 0 ts 0%N 0%N 0 in
      if N.eqb xy 0 then
        let pc1 := aadd pc idc in
        let idc1 := asub (aadd idc idc) pc1 in
        if anz pc1 then
          Ok (with_state s2 (flat_map (fun iv =>
                if all_set cs (fst iv) && masked_parity yz (fst iv)
                then [(fst iv, amul (snd iv) idc1)] else []) (state s2)))
        else if anz idc1 then
          Ok (with_state s2 (flat_map (fun iv =>
                if all_set cs (fst iv) && masked_parity yz (fst iv)
                then [(fst iv, amul (snd iv) pc1)] else []) (state s2)))
        else
          Ok (with_state s2 (map (fun iv =>
                if all_set cs (fst iv)
                then (fst iv, amul (snd iv) (if masked_parity yz (fst iv) then idc1 else pc1))
                else iv) (state s2)))
      else
        let pc2 := amul pc (match Nat.modulo y 4 with
                            | 1 => ampi | 2 => aopp amp1 | 3 => aopp ampi | _ => amp1 end) in
        let pca := if Nat.even y then pc2 else aopp pc2 in
        let m := hm_collect (state s2) in
        Ok (with_state s2 (flat_map (exp_entry cs xy yz idc pc2 pca m) m))
  end.

(** exp.rs:26-28 [exp]. *)
Definition exp_gate (s : sim) (paulis : list pauli) (theta : ang) (targets : list nat) : res sim :=
  mcexp s [] paulis theta targets.
End Exp.
