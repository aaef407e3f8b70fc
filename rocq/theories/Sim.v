(** * sparsesim/src/lib.rs: the sparse state simulator

    Definitions follow the Rust functions one by one.  A Rust panic is the
    outcome [Panic]; the simulator is then lost (the C ABI aborts the process). *)
From Coq Require Import NArith List Bool Arith.
From Verif Require Import Arith IndexMap Bits.
Import ListNotations.

(** Reasons for a panic. *)
(** sparsesim/src/lib.rs:295-1287: the [panic!], [assert!] and [expect] calls, as listed. *)
Inductive perr :=
| EDuplicate (id : nat)      (* lib.rs:537-540, exp.rs:77 *)
| ENotFound (id : nat)       (* lib.rs:295, 321, 347, 379, 504, 508, 554, 563, 1242 *)
| EUnwrap                    (* [unwrap] on [None], lib.rs:1247 *)
| EIndex                     (* slice index out of range *)
| ENonSquare                 (* lib.rs:1208-1211 *)
| EMatrixSize                (* lib.rs:1213-1218 *)
| EEmptyState.               (* lib.rs:1284-1287 *)

Inductive res (T : Type) := Ok (x : T) | Panic (e : perr).
Arguments Ok {T} x.
Arguments Panic {T} e.

Definition bind {T U} (m : res T) (f : T -> res U) : res U :=
  match m with Ok x => f x | Panic e => Panic e end.
Notation "'let*' x ':=' m 'in' f" := (bind m (fun x => f))
  (at level 200, x pattern, m at level 100, f at level 200).

Fixpoint foldM {S X} (f : S -> X -> res S) (l : list X) (s : S) : res S :=
  match l with
  | [] => Ok s
  | x :: l' => let* s' := f s x in foldM f l' s'
  end.

Fixpoint mapM {X Y} (f : X -> res Y) (l : list X) : res (list Y) :=
  match l with
  | [] => Ok []
  | x :: l' => let* y := f x in let* ys := mapM f l' in Ok (y :: ys)
  end.

Section Sim.
Context {AR : Arith} {EN : Env}.

(** lib.rs:60-71 [OpCode]. *)
Inductive opcode := OX | OY | OZ | OS | OSadj | OT | OTadj | ORz (theta : ang).

(** lib.rs:73-79 [FlushLevel]. *)
Inductive level := LH | LHRx | LHRxRy.

(** lib.rs:57, one queued operation: controls, target (identifiers), code. *)
Definition qop := (list nat * nat * opcode)%type.

(** lib.rs:29 [SparseState]. *)
Definition sstate := list (N * amp).

(** lib.rs:37-58 [QuantumSim]. *)
Record sim := mkSim {
  state : sstate;
  id_map : imap nat;
  rng : gen;
  h_flag : N;
  rx_queue : imap ang;
  ry_queue : imap ang;
  op_queue : list qop
}.

Definition with_state (s : sim) (v : sstate) : sim :=
  mkSim v (id_map s) (rng s) (h_flag s) (rx_queue s) (ry_queue s) (op_queue s).
Definition with_id_map (s : sim) (v : imap nat) : sim :=
  mkSim (state s) v (rng s) (h_flag s) (rx_queue s) (ry_queue s) (op_queue s).
Definition with_rng (s : sim) (v : gen) : sim :=
  mkSim (state s) (id_map s) v (h_flag s) (rx_queue s) (ry_queue s) (op_queue s).
Definition with_h (s : sim) (v : N) : sim :=
  mkSim (state s) (id_map s) (rng s) v (rx_queue s) (ry_queue s) (op_queue s).
Definition with_rx (s : sim) (v : imap ang) : sim :=
  mkSim (state s) (id_map s) (rng s) (h_flag s) v (ry_queue s) (op_queue s).
Definition with_ry (s : sim) (v : imap ang) : sim :=
  mkSim (state s) (id_map s) (rng s) (h_flag s) (rx_queue s) v (op_queue s).
Definition with_ops (s : sim) (v : list qop) : sim :=
  mkSim (state s) (id_map s) (rng s) (h_flag s) (rx_queue s) (ry_queue s) v.

(** lib.rs:91-103 [new].  The generator is always passed in; when the Rust
    argument is [None] it comes from the operating system. *)
Definition new_sim (g : gen) : sim :=
  mkSim [(0%N, amp1)] im_empty g 0%N im_empty im_empty [].

(** lib.rs:32 [QUEUE_LIMIT]; an [N] to keep numerals small. *)
Definition QUEUE_LIMIT : N := 10000%N.

(** lib.rs:534-542 [check_for_duplicates]. *)
Fixpoint check_dup_from (seen ids : list nat) : res unit :=
  match ids with
  | [] => Ok tt
  | id :: ids' =>
      if existsb (Nat.eqb id) seen then Panic (EDuplicate id)
      else check_dup_from (id :: seen) ids'
  end.
Definition check_for_duplicates (ids : list nat) : res unit := check_dup_from [] ids.

(** [self.id_map.get(id).unwrap_or_else(|| panic!("Unable to find qubit ..."))]. *)
(** lib.rs:292-295, 319-321, 345-347, 376-379, 502-508, 552-554, 560-563. *)
Definition find_qubit (s : sim) (id : nat) : res nat :=
  match im_get (id_map s) id with Some loc => Ok loc | None => Panic (ENotFound id) end.

(** lib.rs:546-569 [resolve_and_check_qubits]. *)
Definition resolve_and_check_qubits (s : sim) (target : nat) (ctls : list nat)
  : res (nat * list nat) :=
  let* _ := check_for_duplicates (ctls ++ [target]) in
  let* t := find_qubit s target in
  let* cs := mapM (find_qubit s) ctls in
  Ok (t, cs).

(** lib.rs:412-423 [take_ops]. *)
Definition take_ops (s : sim) : res (list qop * sim) :=
  let* ops := mapM (fun '(ctls, target, op) =>
                let* (t, cs) := resolve_and_check_qubits s target ctls in
                Ok (cs, t, op)) (op_queue s) in
  Ok (ops, with_ops s []).

(** [ctls.iter().all(|c| index.bit( *c))]. *)
(** lib.rs:752, 983, 1062, 1075, 1101, 1298; exp.rs:109, 124, 136, 164. *)
Definition all_set (ctls : list nat) (index : N) : bool := forallb (bit index) ctls.

(** lib.rs:732-742 [phase_transform]. *)
Definition phase_transform (phase : amp) (t : nat) (iv : N * amp) : N * amp :=
  (fst iv, amul (snd iv) (if bit (fst iv) t then phase else amp1)).

(** lib.rs:634-636 [x_transform]. *)
Definition x_transform (t : nat) (iv : N * amp) : N * amp :=
  (flip_bit (fst iv) t, snd iv).

(** lib.rs:687-694 [y_transform]. *)
Definition y_transform (t : nat) (iv : N * amp) : N * amp :=
  let k := flip_bit (fst iv) t in
  (k, amul (snd iv) (if bit k t then ampi else aopp ampi)).

(** lib.rs:759-761, 833-835, 851-853, 869-875, 891-897. *)
Definition z_transform := phase_transform (aopp amp1).
Definition s_transform := phase_transform ampi.
Definition sadj_transform := phase_transform (aopp ampi).
Definition t_transform := phase_transform (aadd ars2 (amul ampi ars2)).
Definition tadj_transform := phase_transform (asub ars2 (amul ampi ars2)).

(** lib.rs:913-918 [rz_transform]: multiply by exp(i theta/2) or exp(-i theta/2). *)
Definition rz_transform (theta : ang) (t : nat) (iv : N * amp) : N * amp :=
  (fst iv, amul (snd iv)
     (if bit (fst iv) t then aadd (chalf theta) (amul ampi (shalf theta))
      else asub (chalf theta) (amul ampi (shalf theta)))).

(** One iteration of lib.rs:1297-1312. *)
Definition apply_op (o : qop) (iv : N * amp) : N * amp :=
  let '(ctls, t, op) := o in
  if all_set ctls (fst iv) then
    match op with
    | OX => x_transform t iv
    | OY => y_transform t iv
    | OZ => z_transform t iv
    | OS => s_transform t iv
    | OSadj => sadj_transform t iv
    | OT => t_transform t iv
    | OTadj => tadj_transform t iv
    | ORz theta => rz_transform theta t iv
    end
  else iv.

(** lib.rs:1292-1313 [apply_ops]. *)
Definition apply_ops (ops : list qop) (iv : N * amp) : N * amp :=
  fold_left (fun acc o => apply_op o acc) ops iv.

(** lib.rs:610-617 [flush_ops]. *)
Definition flush_ops (s : sim) : res sim :=
  match op_queue s with
  | [] => Ok s
  | _ :: _ =>
      let* (ops, s1) := take_ops s in
      Ok (with_state s1 (map (apply_ops ops) (state s1)))
  end.

(** lib.rs:571-576 [enqueue_op]. *)
Definition enqueue_op (s : sim) (target : nat) (ctls : list nat) (op : opcode) : res sim :=
  let* s1 := (if N.eqb (N.of_nat (length (op_queue s))) QUEUE_LIMIT then flush_ops s else Ok s) in
  Ok (with_ops s1 (op_queue s1 ++ [(ctls, target, op)])).

(** lib.rs:578-582 [has_queued_hrxy]. *)
Definition has_queued_hrxy (s : sim) (q : nat) : bool :=
  bit (h_flag s) q || im_contains (rx_queue s) q || im_contains (ry_queue s) q.

(** Lookup in a [SparseStateMap] given as its list of entries. *)
(** lib.rs:30; lookups at lib.rs:985-1017, 1103-1125 and exp.rs:166-179. *)
Fixpoint hm_get (m : sstate) (k : N) : option amp :=
  match m with
  | [] => None
  | (k', v) :: m' => if N.eqb k' k then Some v else hm_get m' k
  end.
(** lib.rs:985. *)
Definition hm_contains (m : sstate) (k : N) : bool :=
  match hm_get m k with Some _ => true | None => false end.

(** Collecting pairs into a hash map keeps the last value of each key ... *)
(** lib.rs:975, 1096; exp.rs:162. *)
Fixpoint hm_put (m : sstate) (k : N) (v : amp) : sstate :=
  match m with
  | [] => [(k, v)]
  | (k', v') :: m' => if N.eqb k' k then (k, v) :: m' else (k', v') :: hm_put m' k v
  end.
(** lib.rs:975, 1096; exp.rs:162. *)
Definition hm_from (l : sstate) : sstate :=
  fold_left (fun m kv => hm_put m (fst kv) (snd kv)) l [].
(** ... and iterates in the hash order. *)
(** lib.rs:975, 1096; exp.rs:162. *)
Definition hm_collect (l : sstate) : sstate := horder (hm_from l).

(** lib.rs:980-1026, the body of the fold in [apply_mch]; [m] is [mapped_state]. *)
Definition mch_entry (ctls : list nat) (t : nat) (m : sstate) (iv : N * amp) : sstate :=
  let '(index, value) := iv in
  if all_set ctls index then
    let flipped_index := N.lxor index (one_bit t) in
    match hm_get m flipped_index with
    | None =>
        [ (set_bit index t false, amul value ars2);
          (set_bit index t true,
           amul (amul value ars2) (if bit index t then aopp amp1 else amp1)) ]
    | Some flipped_value =>
        if bit index t then [] else
        (let new_val := aadd value flipped_value in
         if anz new_val then [] else [(index, amul new_val ars2)]) ++
        (let new_val := asub value flipped_value in
         if anz new_val then [] else [(N.lor index (one_bit t), amul new_val ars2)])
    end
  else [(index, value)].

(** lib.rs:962-1027 [apply_mch]. *)
Definition apply_mch (s : sim) (ctls : list nat) (target : nat) : res sim :=
  let* (t, cs) := resolve_and_check_qubits s target ctls in
  let* (ops, s1) := take_ops s in
  let m := hm_collect (map (apply_ops ops) (state s1)) in
  Ok (with_state s1 (flat_map (mch_entry cs t m) m)).

(** lib.rs:1098-1134, the body of the fold in [mcrotation]. *)
Definition rot_entry (m00 m01 m10 : amp) (ctls : list nat) (t : nat)
  (m : sstate) (iv : N * amp) : sstate :=
  let '(index, value) := iv in
  if all_set ctls index then
    let flipped_index := N.lxor index (one_bit t) in
    match hm_get m flipped_index with
    | None =>
        if bit index t then [(flipped_index, amul value m01); (index, amul value m00)]
        else [(index, amul value m00); (flipped_index, amul value m10)]
    | Some flipped_val =>
        if bit index t then [] else
        (let new_val := aadd (amul value m00) (amul flipped_val m01) in
         if anz new_val then [] else [(index, new_val)]) ++
        (let new_val := aadd (amul value m10) (amul flipped_val m00) in
         if anz new_val then [] else [(flipped_index, new_val)])
    end
  else [(index, value)].

(** Multiply by [factor] the entries whose controls are all set, after applying
    [ops]: lib.rs:1060-1065 and 1073-1078. *)
Definition ops_then_factor (ops : list qop) (ctls : list nat) (factor : amp)
  (iv : N * amp) : N * amp :=
  let '(index, value) := apply_ops ops iv in
  if all_set ctls index then (index, amul value factor) else (index, value).

(** lib.rs:1034-1040: first row of the rotation matrix. *)
Definition rot_m00 (theta : ang) : amp := chalf theta.
Definition rot_m01 (theta : ang) (sign_flip : bool) : amp :=
  amul (amul ampi (aopp (shalf theta))) (if sign_flip then aopp ampi else amp1).

(** lib.rs:1032-1136 [mcrotation].  [px] and [py] stand for [self.mcx] and
    [self.mcy] (called at 1044-1048). *)
Definition mcrotation_with
  (px py : sim -> list nat -> nat -> res sim)
  (s : sim) (ctls : list nat) (theta : ang) (target : nat) (sign_flip : bool) : res sim :=
  let m00 := rot_m00 theta in
  let m01 := rot_m01 theta sign_flip in
  if anz m00 then
    let* s1 := (if sign_flip then py s ctls target else px s ctls target) in
    let* (_, cs) := resolve_and_check_qubits s1 target ctls in
    let factor := amul m01 (if sign_flip then ampi else amp1) in
    if ais1 factor then Ok s1
    else
      let* (ops, s2) := take_ops s1 in
      Ok (with_state s2 (map (ops_then_factor ops cs factor) (state s2)))
  else if anz m01 then
    if anz (aadd m00 amp1) then
      let* (ops, s1) := take_ops s in
      let* (_, cs) := resolve_and_check_qubits s1 target ctls in
      Ok (with_state s1 (map (ops_then_factor ops cs (aopp amp1)) (state s1)))
    else Ok s
  else
    let* (t, cs) := resolve_and_check_qubits s target ctls in
    let m10 := amul m01 (if sign_flip then aopp amp1 else amp1) in
    let* (ops, s1) := take_ops s in
    let m := hm_collect (map (apply_ops ops) (state s1)) in
    Ok (with_state s1 (flat_map (rot_entry m00 m01 m10 cs t m) m)).

(** lib.rs:639-650 [x]. *)
Definition gate_x (s : sim) (t : nat) : res sim :=
  let s1 := with_ry s (im_update (ry_queue s) t tneg) in
  if bit (h_flag s1) t then enqueue_op s1 t [] OZ else enqueue_op s1 t [] OX.

(** lib.rs:697-704 [y]. *)
Definition gate_y (s : sim) (t : nat) : res sim :=
  let s1 := with_rx s (im_update (rx_queue s) t tneg) in
  enqueue_op s1 t [] OY.

(** lib.rs:619-624 [flush_rx].  [mcrotation] is called with no controls, where
    [mcx(&[], t)] is [x(t)] (lib.rs:654-657) and [mcy(&[], t)] is [y(t)]
    (lib.rs:709-712); this unrolls the mutual recursion of the Rust code. *)
Definition flush_rx (s : sim) (t : nat) : res sim :=
  match im_get (rx_queue s) t with
  | Some theta =>
      let* s1 := mcrotation_with (fun s _ t => gate_x s t) (fun s _ t => gate_y s t)
                   s [] theta t false in
      Ok (with_rx s1 (im_remove (rx_queue s1) t))
  | None => Ok s
  end.

(** lib.rs:626-631 [flush_ry]. *)
Definition flush_ry (s : sim) (t : nat) : res sim :=
  match im_get (ry_queue s) t with
  | Some theta =>
      let* s1 := mcrotation_with (fun s _ t => gate_x s t) (fun s _ t => gate_y s t)
                   s [] theta t true in
      Ok (with_ry s1 (im_remove (ry_queue s1) t))
  | None => Ok s
  end.

(** lib.rs:591-604, one iteration of [flush_queue]. *)
Definition flush_one (lv : level) (s : sim) (t : nat) : res sim :=
  let* s1 := (if bit (h_flag s) t then
                let* s' := apply_mch s [] t in
                Ok (with_h s' (set_bit (h_flag s') t false))
              else Ok s) in
  match lv with
  | LH => Ok s1
  | LHRx => flush_rx s1 t
  | LHRxRy => let* s2 := flush_rx s1 t in flush_ry s2 t
  end.

(** lib.rs:590-608 [flush_queue]. *)
Definition flush_queue (s : sim) (qs : list nat) (lv : level) : res sim :=
  let* s1 := foldM (flush_one lv) qs s in flush_ops s1.

(** lib.rs:584-588 [maybe_flush_queue]. *)
Definition maybe_flush_queue (s : sim) (qs : list nat) (lv : level) : res sim :=
  if existsb (has_queued_hrxy s) qs then flush_queue s qs lv else Ok s.

(** lib.rs:653-684 [mcx]. *)
Definition gate_mcx (s : sim) (ctls : list nat) (target : nat) : res sim :=
  match ctls with
  | [] => gate_x s target
  | c0 :: rest =>
      let* s1 := (if im_contains (ry_queue s) target
                  then flush_queue s [target] LHRxRy else Ok s) in
      let* s2 :=
        (match rest with
         | _ :: _ => maybe_flush_queue s1 ctls LHRxRy
         | [] =>
             if im_contains (ry_queue s1) c0 || im_contains (rx_queue s1) c0
                || (bit (h_flag s1) c0 && negb (bit (h_flag s1) target))
             then flush_queue s1 ctls LHRxRy else Ok s1
         end) in
      if bit (h_flag s2) target then
        match rest with
        | [] => if bit (h_flag s2) c0 then enqueue_op s2 c0 [target] OX
                else enqueue_op s2 target ctls OZ
        | _ :: _ => enqueue_op s2 target ctls OZ
        end
      else enqueue_op s2 target ctls OX
  end.

(** lib.rs:708-729 [mcy]. *)
Definition gate_mcy (s : sim) (ctls : list nat) (target : nat) : res sim :=
  match ctls with
  | [] => gate_y s target
  | c0 :: rest =>
      let* s1 := maybe_flush_queue s ctls LHRxRy in
      let* s2 := (if im_contains (rx_queue s1) target
                  then flush_queue s1 [target] LHRx else Ok s1) in
      let* s3 := (if bit (h_flag s2) target then enqueue_op s2 c0 rest OZ else Ok s2) in
      enqueue_op s3 target ctls OY
  end.

(** lib.rs:1032-1136 [mcrotation] as called with any controls. *)
Definition mcrotation := mcrotation_with gate_mcx gate_mcy.

(** lib.rs:745-756 [mcphase]. *)
Definition gate_mcphase (s : sim) (ctls : list nat) (phase : amp) (target : nat) : res sim :=
  let* s1 := flush_queue s ctls LHRxRy in
  let* s2 := flush_queue s1 [target] LHRxRy in
  let* (t, cs) := resolve_and_check_qubits s2 target ctls in
  Ok (with_state s2
        (map (fun iv => if all_set cs (fst iv) then phase_transform phase t iv else iv)
             (state s2))).

(** lib.rs:764-781 [z]. *)
Definition gate_z (s : sim) (t : nat) : res sim :=
  let s1 := with_ry s (im_update (ry_queue s) t tneg) in
  let s2 := with_rx s1 (im_update (rx_queue s1) t tneg) in
  if bit (h_flag s2) t then enqueue_op s2 t [] OX else enqueue_op s2 t [] OZ.

(** lib.rs:791-804: weight of one qubit in the count of [mcz]. *)
Definition pend_weight (s : sim) (q : nat) : nat :=
  (if bit (h_flag s) q then 1 else 0) +
  (if im_contains (rx_queue s) q || im_contains (ry_queue s) q then 2 else 0).

(** lib.rs:784-830 [mcz]. *)
Definition gate_mcz (s : sim) (ctls : list nat) (target : nat) : res sim :=
  match ctls with
  | [] => gate_z s target
  | _ :: _ =>
      let count := fold_left (fun acc c => acc + pend_weight s c) ctls 0
                   + pend_weight s target in
      if Nat.eqb count 1 then
        match find (fun c => bit (h_flag s) c) ctls with
        | Some h_ctl =>
            enqueue_op s h_ctl
              (map (fun c => if Nat.eqb c h_ctl then target else c) ctls) OX
        | None => enqueue_op s target ctls OX
        end
      else
        let* s1 := flush_queue s ctls LHRxRy in
        let* s2 := flush_queue s1 [target] LHRxRy in
        enqueue_op s2 target ctls OZ
  end.

(** Common shape of lib.rs:838-841, 856-859, 878-881, 900-903, 921-924. *)
Definition gate_diag (op : opcode) (s : sim) (target : nat) : res sim :=
  let* s1 := maybe_flush_queue s [target] LHRxRy in
  enqueue_op s1 target [] op.
(** Common shape of lib.rs:844-848, 862-866, 884-888, 906-910, 927-931. *)
Definition gate_mcdiag (op : opcode) (s : sim) (ctls : list nat) (target : nat) : res sim :=
  let* s1 := maybe_flush_queue s ctls LHRxRy in
  let* s2 := maybe_flush_queue s1 [target] LHRxRy in
  enqueue_op s2 target ctls op.

(** lib.rs:838-931: s, mcs, sadj, mcsadj, t, mct, tadj, mctadj, rz, mcrz. *)
Definition gate_s := gate_diag OS.
Definition gate_mcs := gate_mcdiag OS.
Definition gate_sadj := gate_diag OSadj.
Definition gate_mcsadj := gate_mcdiag OSadj.
Definition gate_t := gate_diag OT.
Definition gate_mct := gate_mcdiag OT.
Definition gate_tadj := gate_diag OTadj.
Definition gate_mctadj := gate_mcdiag OTadj.
Definition gate_rz (s : sim) (theta : ang) (t : nat) := gate_diag (ORz theta) s t.
Definition gate_mcrz (s : sim) (ctls : list nat) (theta : ang) (t : nat) :=
  gate_mcdiag (ORz theta) s ctls t.

(** lib.rs:934-947 [h]. *)
Definition gate_h (s : sim) (t : nat) : res sim :=
  let s1 := with_ry s (im_update (ry_queue s) t tneg) in
  let* s2 := (if im_contains (rx_queue s1) t then flush_queue s1 [t] LHRx else Ok s1) in
  Ok (with_h s2 (set_bit (h_flag s2) t (negb (bit (h_flag s2) t)))).

(** lib.rs:950-957 [mch]. *)
Definition gate_mch (s : sim) (ctls : list nat) (target : nat) : res sim :=
  let* s1 := flush_queue s ctls LHRxRy in
  let* s2 := (if im_contains (ry_queue s1) target || im_contains (rx_queue s1) target
              then flush_queue s1 [target] LHRxRy else Ok s1) in
  apply_mch s2 ctls target.

(** The accumulation in lib.rs:1143-1150 and 1168-1175. *)
Definition queue_angle (q : imap ang) (t : nat) (theta : ang) : imap ang :=
  match im_get q t with
  | Some old =>
      let new := tadd old theta in
      if tnz new then im_remove (im_update q t (fun _ => new)) t
      else im_update q t (fun _ => new)
  | None => im_insert q t theta
  end.

(** lib.rs:1139-1151 [rx]. *)
Definition gate_rx (s : sim) (theta : ang) (t : nat) : res sim :=
  let* s1 := (if bit (h_flag s) t || im_contains (ry_queue s) t
              then flush_queue s [t] LHRxRy else Ok s) in
  Ok (with_rx s1 (queue_angle (rx_queue s1) t theta)).

(** lib.rs:1154-1164 [mcrx]. *)
Definition gate_mcrx (s : sim) (ctls : list nat) (theta : ang) (target : nat) : res sim :=
  let* s1 := flush_queue s ctls LHRxRy in
  let* s2 := (if im_contains (ry_queue s1) target then flush_queue s1 [target] LHRxRy
              else if bit (h_flag s1) target then flush_queue s1 [target] LH else Ok s1) in
  mcrotation s2 ctls theta target false.

(** lib.rs:1167-1176 [ry]. *)
Definition gate_ry (s : sim) (theta : ang) (t : nat) : res sim :=
  Ok (with_ry s (queue_angle (ry_queue s) t theta)).

(** lib.rs:1179-1189 [mcry]. *)
Definition gate_mcry (s : sim) (ctls : list nat) (theta : ang) (target : nat) : res sim :=
  let* s1 := flush_queue s ctls LHRxRy in
  let* s2 := (if im_contains (rx_queue s1) target then flush_queue s1 [target] LHRx
              else if bit (h_flag s1) target then flush_queue s1 [target] LH else Ok s1) in
  mcrotation s2 ctls theta target true.

(** [sort_unstable] on keys, as insertion sort. *)
(** lib.rs:156; exp.rs:62. *)
Fixpoint insert_nat (x : nat) (l : list nat) : list nat :=
  match l with [] => [x] | y :: l' => if Nat.leb x y then x :: l else y :: insert_nat x l' end.
(** lib.rs:156; exp.rs:62. *)
Definition sort_nat (l : list nat) : list nat := fold_right insert_nat [] l.

(** lib.rs:157-162 and 163-168: the end of the run 0,1,2,... at the start of a
    sorted list. *)
Definition first_gap (l : list nat) : nat :=
  let fix take_while (i : nat) (l : list nat) : list nat :=
    match l with
    | [] => []
    | k :: l' => if Nat.eqb i k then k :: take_while (S i) l' else []
    end in
  match rev (take_while 0 l) with [] => 0 | k :: _ => S k end.

(** lib.rs:151-173 [allocate]. *)
Definition allocate (s : sim) : sim * nat :=
  let sorted_keys := im_keys (id_map s) in
  let sorted_vals := sort_nat (im_values (id_map s)) in
  let new_key := first_gap sorted_keys in
  let new_val := first_gap sorted_vals in
  (with_id_map s (im_insert (id_map s) new_key new_val), new_key).

(** [count_ones() & 1] of the masked index, lib.rs:402 and 452. *)
Definition masked_parity (mask : N) (k : N) : bool := parity (N.land k mask).

(** lib.rs:393-408 [check_joint_probability]. *)
Definition check_joint_probability (s : sim) (locs : list nat) : res (prb * sim) :=
  let mask := mask_of locs in
  let* (ops, s1) := take_ops s in
  let st := map (apply_ops ops) (state s1) in
  let p := fold_left (fun acc iv =>
             if masked_parity mask (fst iv) then padd acc (psqr (snd iv)) else acc) st prb0 in
  Ok (p, with_state s1 st).

(** lib.rs:435-459 [joint_collapse]. *)
Definition joint_collapse (s : sim) (locs : list nat) (val : bool) (p : prb) : sim :=
  let mask := mask_of locs in
  let scaling := pscale (if val then p else pcompl p) in
  with_state s
    (flat_map (fun iv => if Bool.eqb (masked_parity mask (fst iv)) val
                         then [(fst iv, amul (snd iv) scaling)] else []) (state s)).

(** lib.rs:428-430 [collapse]. *)
Definition collapse (s : sim) (loc : nat) (val : bool) (p : prb) : sim :=
  joint_collapse s [loc] val p.

(** lib.rs:283-300 [joint_probability]. *)
Definition joint_probability (s : sim) (ids : list nat) : res (prb * sim) :=
  let* s1 := maybe_flush_queue s ids LHRxRy in
  let* _ := check_for_duplicates ids in
  let* locs := mapM (find_qubit s1) ids in
  check_joint_probability s1 locs.

(** lib.rs:303-305 [qubit_is_zero]. *)
Definition qubit_is_zero (s : sim) (id : nat) : res (bool * sim) :=
  let* (p, s1) := joint_probability s [id] in Ok (pnz p, s1).

(** lib.rs:312-327 [measure]. *)
Definition measure (s : sim) (id : nat) : res (bool * sim) :=
  let* s1 := maybe_flush_queue s [id] LHRxRy in
  let* loc := find_qubit s1 id in
  let '(sample, g) := draw (rng s1) in
  let s2 := with_rng s1 g in
  let* (p, s3) := check_joint_probability s2 [loc] in
  let r := plt sample p in
  Ok (r, collapse s3 loc r p).

(** lib.rs:338-358 [force_collapse]. *)
Definition force_collapse (s : sim) (val : bool) (id : nat) : res (prb * sim) :=
  let* s1 := maybe_flush_queue s [id] LHRxRy in
  let* loc := find_qubit s1 id in
  let* (p, s2) := check_joint_probability s1 [loc] in
  let s3 := if (val && negb (pnz p)) || (negb val && negb (pnz (pcompl p)))
            then collapse s2 loc val p else s2 in
  Ok (if val then p else pcompl p, s3).

(** lib.rs:367-388 [joint_measure]. *)
Definition joint_measure (s : sim) (ids : list nat) : res (bool * sim) :=
  let* s1 := maybe_flush_queue s ids LHRxRy in
  let* _ := check_for_duplicates ids in
  let* locs := mapM (find_qubit s1) ids in
  let '(sample, g) := draw (rng s1) in
  let s2 := with_rng s1 g in
  let* (p, s3) := check_joint_probability s2 locs in
  let r := plt sample p in
  Ok (r, joint_collapse s3 locs r p).

(** lib.rs:180-210 [release]. *)
Definition release (s : sim) (id : nat) : res sim :=
  let* s1 :=
    (if Nat.eqb (length (im_iter (id_map s))) 1 then
       Ok (mkSim [(0%N, amp1)] (id_map s) (rng s) 0%N im_empty im_empty [])
     else
       let* (r, s') := measure s id in
       let* loc := find_qubit s' id in
       Ok (if r then with_state s'
                (map (fun iv => (if bit (fst iv) loc then set_bit (fst iv) loc false else fst iv,
                                 snd iv)) (state s'))
           else s')) in
  Ok (with_id_map s1 (im_remove (id_map s1) id)).

(** lib.rs:475-499: exchange the entries of two keys of a queue. *)
Definition swap_entries {V} (q : imap V) (q1 q2 : nat) : imap V :=
  let a1 := im_get q q1 in
  let a2 := im_get q q2 in
  let q' := match a1 with Some a => im_insert q q2 a | None => im_remove q q2 end in
  match a2 with Some a => im_insert q' q1 a | None => im_remove q' q1 end.

(** lib.rs:464-511 [swap_qubit_ids]. *)
Definition swap_qubit_ids (s : sim) (q1 q2 : nat) : res sim :=
  let* s1 := flush_ops s in
  let h1 := bit (h_flag s1) q1 in
  let h2 := bit (h_flag s1) q2 in
  let s2 := with_h s1 (set_bit (set_bit (h_flag s1) q1 h2) q2 h1) in
  let s3 := with_rx s2 (swap_entries (rx_queue s2) q1 q2) in
  let s4 := with_ry s3 (swap_entries (ry_queue s3) q1 q2) in
  let* l1 := find_qubit s4 q1 in
  let* l2 := find_qubit s4 q2 in
  Ok (with_id_map s4
        (im_update (im_update (id_map s4) q1 (fun _ => l2)) q2 (fun _ => l1))).

(** lib.rs:525-530: exchange two bits of an index. *)
Definition swap_bits (q1 q2 : nat) (k : N) : N :=
  if Bool.eqb (bit k q1) (bit k q2) then k
  else set_bit (set_bit k q1 (negb (bit k q1))) q2 (negb (bit k q2)).

(** lib.rs:514-532 [swap_qubit_state].  The arguments are locations; as in the
    code they are also passed to [flush_queue], which expects identifiers. *)
Definition swap_qubit_state (s : sim) (q1 q2 : nat) : res sim :=
  if Nat.eqb q1 q2 then Ok s
  else
    let* s1 := flush_queue s [q1; q2] LHRxRy in
    Ok (with_state s1 (map (fun iv => (swap_bits q1 q2 (fst iv), snd iv)) (state s1))).

(** [self.id_map.iter().find(|&(_, &value)| value == loc)]. *)
(** lib.rs:127-128. *)
Definition key_of_loc (m : imap nat) (loc : nat) : option nat :=
  match find (fun kv => Nat.eqb (snd kv) loc) (im_iter m) with
  | Some (k, _) => Some k
  | None => None
  end.

(** lib.rs:124-140 (same as 223-239), one iteration. *)
Definition place_key (s : sim) (ik : nat * nat) : res sim :=
  let '(index, key) := ik in
  let* cur := find_qubit s key in
  if Nat.eqb index cur then Ok s
  else
    let* s1 := swap_qubit_state s cur index in
    let* cur1 := find_qubit s1 key in
    let m1 := match key_of_loc (id_map s1) index with
              | Some swapped => im_update (id_map s1) swapped (fun _ => cur1)
              | None => id_map s1
              end in
    Ok (with_id_map s1 (im_update m1 key (fun _ => index))).

Fixpoint enumerate_from {X} (i : nat) (l : list X) : list (nat * X) :=
  match l with [] => [] | x :: l' => (i, x) :: enumerate_from (S i) l' end.
Definition enumerate {X} (l : list X) := enumerate_from 0 l.

(** lib.rs:143 and 265 [sort_unstable_by(|a, b| a.0.cmp(&b.0))]. *)
Fixpoint insert_entry (x : N * amp) (l : sstate) : sstate :=
  match l with
  | [] => [x]
  | y :: l' => if N.leb (fst x) (fst y) then x :: l else y :: insert_entry x l'
  end.
Definition sort_state (l : sstate) : sstate := fold_right insert_entry [] l.

(** lib.rs:121-140 (and 219-239): flush, then move the i-th smallest identifier
    to location i. *)
Definition canonicalize (s : sim) : res (sim * list nat) :=
  let keys := im_keys (id_map s) in
  let* s1 := flush_queue s keys LHRxRy in
  let* s2 := foldM place_key (enumerate keys) s1 in
  Ok (s2, keys).

(** lib.rs:118-145 [get_state]. *)
Definition get_state (s : sim) : res (sstate * nat * sim) :=
  let* (s1, keys) := canonicalize s in
  Ok (sort_state (state s1), length keys, s1).

(** lib.rs:216-242 [dump] and 247-274 [dump_impl]: the list of entries printed;
    the text is in DumpText.  [dump_impl] sorts in place. *)
Definition dump (s : sim) : res (sstate * sim) :=
  let* (s1, _) := canonicalize s in
  let st := sort_state (state s1) in
  Ok (st, with_state s1 st).

End Sim.
