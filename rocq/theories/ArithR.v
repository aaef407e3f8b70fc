(** * Exact instance of the numeric interface over the reals

    [tol] is the threshold of nearly_zero.rs:11-15 (1e-10 in the code); it is a
    parameter.  The rounding of [f64] is not modelled. *)
From Coq Require Import Reals NArith List Bool.
From Verif Require Import Cx Arith.
Local Open Scope R_scope.

Definition Rleb (x y : R) : bool := if Rle_dec x y then true else false.
Definition Rltb (x y : R) : bool := if Rlt_dec x y then true else false.
Definition Reqb (x y : R) : bool := if Req_EM_T x y then true else false.

(** nearly_zero.rs:11-15: max(x,0) - min(0,x) is the absolute value. *)
Definition rnz (tol x : R) : bool := Rleb (Rabs x) tol.

Class Tol := { tol : R }.

#[export] Instance RArith {T : Tol} : Arith := {|
  amp := C; ang := R; prb := R;
  amp0 := C0; amp1 := C1; ampi := Ci;
  ars2 := RtoC (/ sqrt 2);
  aadd := Cadd; asub := Csub; amul := Cmul; aopp := Copp;
  anz := fun a => rnz tol (fst a) && rnz tol (snd a);
  ais1 := fun a => Reqb (fst a) 1 && Reqb (snd a) 0;
  tadd := Rplus; tneg := Ropp; tnz := rnz tol;
  chalf := fun t => RtoC (cos (t / 2)); shalf := fun t => RtoC (sin (t / 2));
  cfull := fun t => RtoC (cos t); sfull := fun t => RtoC (sin t);
  prb0 := 0; padd := Rplus; pcompl := fun p => 1 - p;
  psqr := Cn2; plt := Rltb; pnz := rnz tol;
  pscale := fun p => RtoC (1 / sqrt p)
|}.

#[global] Arguments ang : simpl never.
#[global] Arguments prb : simpl never.

(** Reduce the operations of the instance to operations on [C] and [R]. *)
Ltac ared := cbn [amp ang prb amp0 amp1 ampi ars2 aadd asub amul aopp anz ais1 tadd tneg tnz
  chalf shalf cfull sfull prb0 padd pcompl psqr plt pnz pscale RArith] in *.
Ltac toC := match goal with |- @eq _ ?a ?b => change (@eq C a b) end; ared.
Ltac aring := toC; ring.
