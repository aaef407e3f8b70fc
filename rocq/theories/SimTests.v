(** * The repository's unit tests, run on the model with machine floats

    Source: sparsesim/src/lib.rs:1326-2049 and exp.rs:206-245.  These are tests
    of the model, not proofs about it. *)
From Coq Require Import NArith List Bool Arith Floats.
From Verif Require Import Arith ArithF IndexMap Bits Sim SimExp SimApply.
Import ListNotations.

Definition feq (a b : float) : bool := fnz (PrimFloat.sub a b).

(** Commands of the tests, interpreted on the model. *)
Inductive cmd :=
| Alloc (expect : nat) | Rel (q : nat)
| X (q : nat) | Y (q : nat) | Z (q : nat) | H (q : nat) | S_ (q : nat) | Sadj (q : nat)
| T (q : nat) | Tadj (q : nat)
| Rx (t : float) (q : nat) | Ry (t : float) (q : nat) | Rz (t : float) (q : nat)
| MCX (c : list nat) (q : nat) | MCY (c : list nat) (q : nat) | MCZ (c : list nat) (q : nat)
| MCH (c : list nat) (q : nat)
| MCRX (c : list nat) (t : float) (q : nat) | MCRY (c : list nat) (t : float) (q : nat)
| MCRZ (c : list nat) (t : float) (q : nat)
| Phase (c : list nat) (p : float * float) (q : nat)
| Swap (a b : nat)
| Exp (ps : list pauli) (t : float) (qs : list nat)
| Apply (u : matrix) (qs : list nat) (c : option (list nat))
| Prob (expect : float) (qs : list nat)
| Touch (qs : list nat)
| Meas (expect : bool) (q : nat)
| JMeas (expect : bool) (qs : list nat)
| Force (v : bool) (q : nat) (expect : float)
| Dump
| StateLen (n : nat).

Inductive outcome := Pass (s : sim) | FailAt (n : nat) | PanicAt (n : nat) (e : perr).

Definition step (s : sim) (c : cmd) : res (bool * sim) :=
  let ok m := let* s' := m in Ok (true, s') in
  match c with
  | Alloc e => let '(s', k) := allocate s in Ok (Nat.eqb k e, s')
  | Rel q => ok (release s q)
  | X q => ok (gate_x s q) | Y q => ok (gate_y s q) | Z q => ok (gate_z s q)
  | H q => ok (gate_h s q) | S_ q => ok (gate_s s q) | Sadj q => ok (gate_sadj s q)
  | T q => ok (gate_t s q) | Tadj q => ok (gate_tadj s q)
  | Rx t q => ok (gate_rx s t q) | Ry t q => ok (gate_ry s t q) | Rz t q => ok (gate_rz s t q)
  | MCX c q => ok (gate_mcx s c q) | MCY c q => ok (gate_mcy s c q)
  | MCZ c q => ok (gate_mcz s c q) | MCH c q => ok (gate_mch s c q)
  | MCRX c t q => ok (gate_mcrx s c t q) | MCRY c t q => ok (gate_mcry s c t q)
  | MCRZ c t q => ok (gate_mcrz s c t q)
  | Phase c p q => ok (gate_mcphase s c p q)
  | Swap a b => ok (swap_qubit_ids s a b)
  | Exp ps t qs => ok (exp_gate s ps t qs)
  | Apply u qs c => ok (apply_matrix s u qs c)
  | Prob e qs => let* (p, s') := joint_probability s qs in Ok (feq e p, s')
  | Touch qs => let* (p, s') := joint_probability s qs in Ok (true, s')
  | Meas e q => let* (b, s') := measure s q in Ok (Bool.eqb e b, s')
  | JMeas e q => let* (b, s') := joint_measure s q in Ok (Bool.eqb e b, s')
  | Force v q e => let* (p, s') := force_collapse s v q in Ok (feq e p, s')
  | Dump => let* (_, s') := dump s in Ok (true, s')
  | StateLen n => Ok (Nat.eqb (length (state s)) n, s)
  end.

Fixpoint run (n : nat) (l : list cmd) (s : sim) : outcome :=
  match l with
  | [] => Pass s
  | c :: l' =>
      match step s c with
      | Ok (true, s') => run (S n) l' s'
      | Ok (false, _) => FailAt n
      | Panic e => PanicAt n e
      end
  end.
Definition start : sim := new_sim [0.25; 0.75; 0.125; 0.875]%float.
Definition passes (l : list cmd) : bool :=
  match run 0 l start with Pass _ => true | _ => false end.

Definition fpi7 := (fpi / 7)%float.
Definition n (x : float) := PrimFloat.opp x.

Example test_alloc_release :
  passes (map Alloc (seq 0 16) ++ [Rel 4; Rel 7; Rel 12; Alloc 4] ++
          map Rel (seq 0 7) ++ map Rel (seq 8 4) ++ map Rel (seq 13 3)) = true.
Proof. vm_compute. reflexivity. Qed.

Example test_probability :
  passes [Alloc 0; Alloc 1; Prob 0 [0]; X 0; Prob 1 [0]; X 0; Prob 0 [0]; H 0; Prob 0.5 [0];
          H 0; Prob 0 [0]; X 0; H 0; S_ 0; Prob 0.5 [0]; Sadj 0; H 0; X 0; Prob 0 [0];
          Rel 1; Rel 0] = true.
Proof. vm_compute. reflexivity. Qed.

Example test_measure :
  passes [Alloc 0; Alloc 1; Meas false 0; X 0; Meas true 0; X 0; H 0; Meas true 0; Prob 1 [0];
          X 0; Prob 0 [0]; Rel 1; Rel 0] = true.
Proof. vm_compute. reflexivity. Qed.

Example test_out_of_order_release :
  passes ([Alloc 0; X 0; Alloc 1; X 1; Alloc 2; X 2; Alloc 3; X 3; Alloc 4; X 4; Rel 3;
           StateLen 1; Prob 1 [0]; Prob 1 [1]; Prob 1 [2]; Prob 1 [4]; Alloc 3; Prob 0 [3]]
          ++ map Rel (seq 0 5) ++ [StateLen 1]) = true.
Proof. vm_compute. reflexivity. Qed.

Example test_joint_probability :
  passes [Alloc 0; Alloc 1; Prob 0 [0;1]; X 0; Prob 1 [0;1]; X 1; Prob 0 [0;1]; Prob 1 [0];
          Prob 1 [1]; H 0; Prob 0.5 [0;1]; Rel 1; Rel 0] = true.
Proof. vm_compute. reflexivity. Qed.

Example test_joint_measurement :
  passes [Alloc 0; Alloc 1; JMeas false [0;1]; X 0; JMeas true [0;1]; X 1; JMeas false [0;1];
          JMeas true [0]; JMeas true [1]; H 0; JMeas false [0;1]; Prob 0 [0;1]; Rel 1; Rel 0]
  = true.
Proof. vm_compute. reflexivity. Qed.

Example test_force_collapse :
  passes [Alloc 0; Alloc 1; H 0; MCX [0] 1; Prob 0.5 [0]; Prob 0.5 [1]; Force false 0 0.5;
          Prob 0 [0]; Prob 0 [1]; Rel 1; Rel 0] = true.
Proof. vm_compute. reflexivity. Qed.

Example test_force_collapse_to_non_existent_state :
  passes [Alloc 0; X 0; Prob 1 [0]; Force false 0 0; Prob 1 [0]; Rel 0] = true.
Proof. vm_compute. reflexivity. Qed.

Example test_multiple_controls :
  passes [Alloc 0; Alloc 1; Alloc 2; Prob 0 [0]; H 0; Prob 0.5 [0]; H 0; Prob 0 [0];
          MCH [1] 0; Prob 0 [0]; X 1; MCH [1] 0; Prob 0.5 [0]; MCH [2;1] 0; Prob 0.5 [0];
          X 2; MCH [2;1] 0; Prob 0 [0]; X 0; X 1; Rel 2; Rel 1; Rel 0] = true.
Proof. vm_compute. reflexivity. Qed.

Example test_duplicate_target :
  run 0 [Alloc 0; MCX [0] 0; Dump] start = PanicAt 2 (EDuplicate 0).
Proof. vm_compute. reflexivity. Qed.
Example test_duplicate_control :
  run 0 [Alloc 0; Alloc 1; MCX [1;1] 0; Dump] start = PanicAt 3 (EDuplicate 1).
Proof. vm_compute. reflexivity. Qed.
Example test_target_in_control :
  run 0 [Alloc 0; Alloc 1; MCX [1;0] 0; Dump] start = PanicAt 3 (EDuplicate 0).
Proof. vm_compute. reflexivity. Qed.

Example test_swap_dump : passes [Alloc 0; Alloc 1; Swap 0 1; Rel 1; Dump] = true.
Proof. vm_compute. reflexivity. Qed.

Example test_swap_rotations :
  passes [Alloc 0; Alloc 1; Rx fpi7 0; Ry fpi7 1; Swap 0 1; Rx (n fpi7) 1; Ry (n fpi7) 0;
          Prob 0 [0]; Prob 0 [1]] = true.
Proof. vm_compute. reflexivity. Qed.

Example test_rx_queue_nearly_zero :
  passes [Alloc 0; Rx (fpi/4) 0; StateLen 1; Rx (n (fpi/4)) 0; StateLen 1; Prob 0 [0]] = true.
Proof. vm_compute. reflexivity. Qed.
Example test_ry_queue_nearly_zero :
  passes [Alloc 0; Ry (fpi/4) 0; StateLen 1; Ry (n (fpi/4)) 0; StateLen 1; Prob 0 [0]] = true.
Proof. vm_compute. reflexivity. Qed.
Example test_rx_pi_flushed : passes [Alloc 0; Rx fpi 0; Prob 1 [0]] = true.
Proof. vm_compute. reflexivity. Qed.
Example test_ry_pi_flushed : passes [Alloc 0; Ry fpi 0; Prob 1 [0]] = true.
Proof. vm_compute. reflexivity. Qed.
Example test_mcry_pi :
  passes [Alloc 0; Alloc 1; H 0; X 0; MCRY [0] fpi 1; X 0; Prob 1 [0;1]] = true.
Proof. vm_compute. reflexivity. Qed.
Example test_mcry_2pi :
  passes [Alloc 0; Alloc 1; H 0; MCRY [0] (2*fpi) 1; H 0; Prob 1 [0;1]] = true.
Proof. vm_compute. reflexivity. Qed.

(** lib.rs:1731-1826 [assert_operation_equal_referenced]: control qubit 0,
    entangled with qubits 1..count; for each kind of queued operation. *)
Definition equal_referenced (op reference : list cmd) (count : nat) : bool :=
  let qs := seq 1 count in
  forallb (fun pq : list cmd * list cmd =>
    let '(pre, post) := pq in
    passes ([Alloc 0; H 0] ++ flat_map (fun q => [Alloc q; MCX [0] q]) qs
            ++ pre ++ op ++ [Touch qs] ++ reference ++ [Touch qs] ++ post ++ [Touch qs]
            ++ map (fun q => MCX [0] q) qs ++ [H 0; Prob 0 [0]]
            ++ map (fun q => Prob 0 [q]) qs ++ [Dump; StateLen 1]))
    [ ([], []); (map H qs, map H qs);
      (map (Rx fpi7) qs, map (Rx (n fpi7)) qs); (map (Ry fpi7) qs, map (Ry (n fpi7)) qs) ].

Example test_gates :
  forallb (fun t : list cmd * list cmd * nat => let '(a, b, c) := t in equal_referenced a b c)
   [ ([H 1], [H 1], 1); ([X 1], [X 1], 1); ([Y 1], [Y 1], 1); ([Z 1], [Z 1], 1);
     ([S_ 1], [Sadj 1], 1); ([Sadj 1], [S_ 1], 1); ([T 1], [Tadj 1], 1); ([Tadj 1], [T 1], 1);
     ([MCX [1] 2], [MCX [1] 2], 2); ([MCY [1] 2], [MCY [1] 2], 2); ([MCZ [1] 2], [MCZ [1] 2], 2);
     ([MCX [1;2] 3], [MCX [1;2] 3], 3); ([MCZ [1;2] 3], [MCZ [1;2] 3], 3);
     ([Swap 1 2], [Swap 1 2], 2);
     ([Rz fpi7 1], [Rz (n fpi7) 1], 1); ([Rx fpi7 1], [Rx (n fpi7) 1], 1);
     ([Ry fpi7 1], [Ry (n fpi7) 1], 1);
     ([MCRX [1] fpi7 2], [MCRX [1] (n fpi7) 2], 2); ([MCRY [1] fpi7 2], [MCRY [1] (n fpi7) 2], 2);
     ([MCRZ [1] fpi7 2], [MCRZ [1] (n fpi7) 2], 2);
     ([Phase [3] (fcos (fpi7/2), n (fsin (fpi7/2))) 2],
      [Phase [3] (fcos (fpi7/2), fsin (fpi7/2)) 2], 3) ]
  = true.
Proof. vm_compute. reflexivity. Qed.

(** lib.rs:2014-2031. *)
Example test_cx_after_h_ry :
  equal_referenced [H 1; Ry fpi 1; H 2; MCX [2] 1] [MCX [2] 1; H 2; Ry (n fpi) 1; H 1] 2 = true.
Proof. vm_compute. reflexivity. Qed.

(** lib.rs:2033-2048. *)
Example test_global_phase_dropped :
  (let* s := match run 0 [Alloc 0; X 0; Z 0; Rel 0; Alloc 0] start with
             | Pass s => Ok s | _ => Panic EUnwrap end in
   let* (st, n, _) := get_state s in Ok (st, n)) = Ok ([(0%N, (1%float, 0%float))], 1).
Proof. vm_compute. reflexivity. Qed.

(** exp.rs:212-244. *)
Example test_exp_from_cnot :
  passes [Alloc 0; Alloc 1; Alloc 2; H 2; MCX [2] 0; MCX [2] 1;
          Rx (n (fpi/2)) 1; Rz (n (fpi/2)) 0; Exp [PZ_; PX_] (n (fpi/4)) [0;1];
          MCX [0] 1; MCX [2] 1; MCX [2] 0; H 2; Prob 0 [2]; Prob 0 [1]; Prob 0 [0]; StateLen 1]
  = true.
Proof. vm_compute. reflexivity. Qed.

(** Behaviour found while reading the code. *)
Example rx_pi_then_ry_loses_sign :
  passes [Alloc 0; Rx fpi 0; Ry (fpi/2) 0; H 0; Prob 0 [0]] = true /\
  (* flushing in between gives the right answer, 1 *)
  passes [Alloc 0; Rx fpi 0; Touch [0]; Ry (fpi/2) 0; H 0; Prob 1 [0]] = true.
Proof. vm_compute. split; reflexivity. Qed.

Example apply_with_hole_panics :
  run 0 [Alloc 0; Alloc 1; Rel 0; Apply (mkMatrix 2 2 (fun r c => if Nat.eqb r c then amp0 else amp1)) [1] None]
    start = PanicAt 3 EUnwrap.
Proof. vm_compute. reflexivity. Qed.
