(** * Samples as C++ [float]s with their special values

    IEEE 754 binary32 with signed zeros, subnormal numbers, infinities and NaN, rounding to nearest even (the operations of the
    standard library's SpecFloat).  The library functions behind [std::exp] and [std::pow] are parameters.  Simplification: there
    is one NaN, and a complex product is always the textbook formula (C++ implementations may patch a product that comes
    out as NaN + NaN i when a factor is infinite). *)
From Coq Require Import ZArith Floats.SpecFloat.
From Verif.Model Require Import Base Arith.

(** No code: the conversion of an integer to IEEE binary32. *)
Definition ieee_of_nat (n : nat) : spec_float := binary_normalize 24 128 (Z.of_nat n) 0 false.
(** No code: the instance of [arith] with IEEE binary32, infinities and NaNs included; cos, sin and pow are
    parameters. *)
Definition IEEE (cosf sinf : nat -> spec_float) (powf : spec_float * spec_float -> nat -> spec_float * spec_float) : arith := {|
  sample := spec_float;
  s0 := S754_zero false;
  s1 := ieee_of_nat 1;
  sadd := SFadd 24 128;
  smul := SFmul 24 128;
  ssub := SFsub 24 128;
  sopp := SFopp;
  shalf := SFdiv 24 128 (ieee_of_nat 1) (ieee_of_nat 2);
  sinvn := fun n => SFdiv 24 128 (ieee_of_nat 1) (ieee_of_nat n);
  scos := cosf;
  ssin := sinf;
  spow := powf
|}.
