(** * Specification of the reference-counted objects *)
From Coq Require Import ZArith List Bool Arith.
From Verif Require Import Text Heap.
Import ListNotations.

(** The object [a] has [n] references, [al] aliases and the value [v]. *)
Definition alive (h : heap) (a n al : nat) (v : hval) : Prop :=
  n <> 0 /\ exists c, nth_error h a = Some c /\
    held c = true /\ strong c = n /\ weak_count c = al /\ val c = Some v /\ weak c <> 0.
(** Its value has been dropped; its memory has been given back. *)
Definition dropped (h : heap) (a : nat) : Prop := exists c, nth_error h a = Some c /\ strong c = 0 /\ val c = None.
Definition freed (h : heap) (a : nat) : Prop := exists c, nth_error h a = Some c /\ held c = false.
(** Objects other than [a] that existed before are as they were. *)
Definition others_same (h h' : heap) (a : nat) : Prop :=
  forall b, b <> a -> b < length h -> nth_error h' b = nth_error h b.

(** ** Accounts of references *)
Inductive kind := KArr | KTup | KCall | KStr | KBig.
Definition kind_of (v : hval) : kind :=
  match v with VArr _ _ => KArr | VTup _ => KTup | VCall _ => KCall | VStr _ => KStr | VBig _ => KBig end.
Record entry := mkEntry { e_kind : kind; e_refs : nat; e_aliases : nat }.
Definition ledger := list entry.
Definition add_refs (e : entry) (k : Z) : entry := mkEntry (e_kind e) (Z.to_nat (Z.of_nat (e_refs e) + k)) (e_aliases e).
Definition add_aliases (e : entry) (k : Z) : entry := mkEntry (e_kind e) (e_refs e) (Z.to_nat (Z.of_nat (e_aliases e) + k)).
Fixpoint change (l : ledger) (a : nat) (f : entry -> entry) : ledger :=
  match l, a with [], _ => [] | e :: l', O => f e :: l' | e :: l', S a' => e :: change l' a' f end.
(** The kind of object a call returns. *)
Definition makes (c : hcall) : kind :=
  match c with
  | HArrayCreate _ _ | HArrayCopy _ _ | HConcat _ _ | HSlice _ _ => KArr
  | HTupleCreate _ | HTupleCopy _ _ => KTup
  | HCallCreate _ _ _ | HCallCopy _ _ => KCall
  | HStrCreate _ | HStrConcat _ _ => KStr
  | _ => KBig
  end.
(** What a call does to the accounts: an object returned is either a new one, with one reference, or one reference
    more to an object there was. *)
Definition lstep (l : ledger) (c : hcall) (r : hreply) : ledger :=
  match c, r with
  | HRef a k, _ => change l a (fun e => add_refs e k)
  | HAlias a k, _ => change l a (fun e => add_aliases e k)
  | _, RObj a => if Nat.eqb a (length l) then l ++ [mkEntry (makes c) 1 0] else change l a (fun e => add_refs e 1)
  | _, _ => l
  end.
Fixpoint ledger_of (l : ledger) (cs : list hcall) (rs : list hreply) : ledger :=
  match cs, rs with c :: cs', r :: rs' => ledger_of (lstep l c r) cs' rs' | _, _ => l end.

(** Someone holds a reference to object [a], which is of kind [k]. *)
Definition usable (l : ledger) (a : nat) (k : kind) : Prop :=
  exists e, nth_error l a = Some e /\ e_kind e = k /\ e_refs e <> 0.
(** Bytes [sz * i .. sz * i + n - 1] lie inside the array [a]. *)
Definition inside (h : heap) (a : nat) (i : Z) (n : nat) : Prop :=
  exists c sz d, nth_error h a = Some c /\ val c = Some (VArr sz d) /\
    (0 <= sz * i < 2 ^ 64)%Z /\ (sz * i + Z.of_nat n <= Z.of_nat (length d))%Z.
Definition inside_tuple (h : heap) (a i : nat) : Prop :=
  exists c d, nth_error h a = Some c /\ val c = Some (VTup d) /\ 8 * i + 8 <= length d.
(** Calls that name objects to which a reference is held, of the right kind, take back no more references and aliases
    than there are, and address memory inside the object. *)
Definition hvalid (h : heap) (l : ledger) (c : hcall) : Prop :=
  match c with
  | HArrayCreate sz n => (0 <= sz < 2 ^ 32)%Z /\ (0 <= n < 2 ^ 64)%Z
  | HTupleCreate size => (0 <= size < 2 ^ 64 - 8)%Z
  | HCallCreate _ _ _ | HStrCreate _ | HBigCreate _ | HBigBytes _ => True
  | HArrayCopy a _ | HSlice a _ | HSize a => usable l a KArr
  | HLoad a i n => usable l a KArr /\ inside h a i n
  | HStore a i bs => usable l a KArr /\ inside h a i (length bs)
  | HConcat a b => usable l a KArr /\ usable l b KArr
  | HTupleCopy a _ => usable l a KTup
  | HTupleSet a i _ => usable l a KTup /\ inside_tuple h a i
  | HCallCopy a _ | HAdjoint a | HControlled a => usable l a KCall
  | HStrConcat a b | HStrEqual a b => usable l a KStr /\ usable l b KStr
  | HStrLength a => usable l a KStr
  | HBig2 _ a b | HBigCmp _ a b => usable l a KBig /\ usable l b KBig
  | HBig1 _ a | HBigPow a _ | HBigShift a _ _ | HBigData a | HBigLength a => usable l a KBig
  | HRef a k => exists e, nth_error l a = Some e /\ e_refs e <> 0 /\ (0 <= Z.of_nat (e_refs e) + k)%Z
  | HAlias a k =>
      exists e, nth_error l a = Some e /\ e_refs e <> 0 /\ (0 <= Z.of_nat (e_aliases e) + k)%Z /\
        (e_kind e = KArr \/ e_kind e = KTup \/ e_kind e = KCall)
  end.
Section Proper.
Context {M : Mode}.
Fixpoint hproper (h : heap) (l : ledger) (cs : list hcall) : Prop :=
  match cs with
  | [] => True
  | c :: cs' => hvalid h l c /\ forall r h', hcall1 c h = HOk r h' -> hproper h' (lstep l c r) cs'
  end.
End Proper.
(** The memory agrees with the account. *)
Definition agrees (h : heap) (a : nat) (e : entry) : Prop :=
  (e_refs e <> 0 -> exists v, alive h a (e_refs e) (e_aliases e) v /\ kind_of v = e_kind e) /\
  (e_refs e = 0 -> dropped h a /\ (freed h a <-> e_aliases e = 0)).

(** ** Arrays *)

(** Array [a] has elements [els] of [sz] bytes each. *)
Definition array_is (h : heap) (a n al : nat) (sz : Z) (els : list (list mval)) : Prop :=
  alive h a n al (VArr sz (concat els)) /\ Forall (fun x => Z.of_nat (length x) = sz) els.
(** The indices of a range, in order. *)
Definition range_list (r : range) (l : list Z) : Prop :=
  forall k i, nth_error l k = Some i <->
    i = (r_start r + Z.of_nat k * r_step r)%Z /\ (if Z.ltb 0 (r_step r) then (i <= r_end r)%Z else (r_end r <= i)%Z).
(** The byte offsets of the range fit in 64 bits. *)
Definition range_fits (sz : Z) (r : range) : Prop :=
  Forall (fun z => (- 2 ^ 63 <= z < 2 ^ 63)%Z) [r_start r * sz; r_end r * sz; Z.abs (r_step r); Z.abs (r_step r) * sz]%Z.

(** ** Strings and big integers *)

(** The call makes a new object with value [v] and one reference, and changes nothing else. *)
Definition makes_object (m : Hp hreply) (h : heap) (v : hval) : Prop :=
  exists b h', m h = HOk (RObj b) h' /\ nth_error h b = None /\ alive h' b 1 0 v /\
    forall x, x < length h -> nth_error h' x = nth_error h x.
Definition str_is (h : heap) (a : nat) (t : text) : Prop := exists n al, alive h a n al (VStr t).
Definition big_is (h : heap) (a : nat) (z : Z) : Prop := exists n al, alive h a n al (VBig z).
(** The i-th bit of the two's complement of [x]. *)
Definition bit_of (x i : Z) : bool := Z.odd (x / 2 ^ i).

(** ** Callables *)

(** Tuple [a] is a chain of tuples, each beginning with a control array; [ds] are the contents of these arrays, outermost
    first, and [rest] is what follows the innermost one. *)
Fixpoint controls_at (h : heap) (sz : Z) (a : nat) (ds : list (list mval)) (rest : list mval) : Prop :=
  match ds with
  | [] => False
  | [d] => exists n al c cn cal,
      alive h a n al (VTup (ptr_bytes (PObj c) ++ rest)) /\ alive h c cn cal (VArr sz d)
  | d :: ds' => exists n al c cn cal inner tail,
      alive h a n al (VTup (ptr_bytes (PObj c) ++ ptr_bytes (PObj inner) ++ tail)) /\
      alive h c cn cal (VArr sz d) /\ controls_at h sz inner ds' rest
  end.
(** Nothing an observer of counts could notice. *)
Definition same_counts (h h' : heap) (a : nat) : Prop :=
  exists c c', nth_error h a = Some c /\ nth_error h' a = Some c' /\
    strong c' = strong c /\ weak c' = weak c /\ held c' = held c /\ (val c' = None <-> val c = None).
(** A function that gives back all it takes: counts are as before, what it created is gone, and it leaves the tuple of
    arguments [args] and the callable [cal] alone. *)
Definition balanced (h h' : heap) (cal : nat) (args : option nat) : Prop :=
  length h <= length h' /\
  (forall a, a < length h -> same_counts h h' a) /\
  (forall a, length h <= a < length h' -> dropped h' a /\ freed h' a) /\
  nth_error h' cal = nth_error h cal /\
  match args with None => True | Some t => nth_error h' t = nth_error h t end.
(** The function called does so whenever it returns. *)
Definition gives_back (callee : nat -> nat -> option ptr -> option nat -> Hp unit) (cal : nat) : Prop :=
  forall t i cap args h h', cal < length h -> (forall x, args = Some x -> x < length h) ->
    callee t i cap args h = HOk tt h' -> balanced h h' cal args.
