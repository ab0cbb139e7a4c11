(** IEEE double instance of the number operations. *)
From Verif Require Import Base Num.
From Coq Require Import Floats FloatAxioms SpecFloat ZArith Lia.

(** IEEE double arithmetic (round to nearest even), as performed by the
    library on [double]; Coq's primitive floats. *)
Definition FNum : Num := {|
  nT := float; nlt := PrimFloat.ltb; nle := PrimFloat.leb;
  nadd := PrimFloat.add; nsub := PrimFloat.sub; nmul := PrimFloat.mul;
  ndiv := PrimFloat.div; nsqrt := PrimFloat.sqrt;
  nzero := 0%float; ntwo := 2%float; nneg1 := (-1)%float;
  nmax := 0x1.fffffffffffffp+1023%float |}.

(** Not NaN. *)
Definition fok (x : float) : Prop := PrimFloat.is_nan x = false.
