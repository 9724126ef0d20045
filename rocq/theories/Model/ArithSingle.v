(** * Single precision samples

    C++ [float]: IEEE binary32, every operation rounded to nearest, ties to even (Flocq's [round], with the
    subnormals).  A sample is a real number; the results of operations are then numbers a [float] can hold.
    Simplification: no overflow (a sum or product above 3.4e38 is not turned into an infinity), and no NaN.

    [sinvn] is only used as [(target - current) * sinvn n] with [target - current = 1] or [-1]
    (SmoothedValue.v), where it is the division in [LinearSmoothedValue::setTargetValue].

    [std::pow] on complex numbers is a library function of unspecified accuracy: it is a parameter. *)
From Coq Require Import Reals.
From Flocq Require Import Core.
From Verif.Model Require Import Base Arith.
Open Scope R_scope.

(** No code: rounding to IEEE binary32 without overflow (the C++ [float] of the target). *)
Definition single (x : R) : R := round radix2 (FLT_exp (-149) 24) ZnearestE x.

(** No code: the instance of [arith] with rounded operations; [std::pow] is a parameter. *)
Definition SingleWith (pow : R * R -> nat -> R * R) : arith := {|
  sample := R; s0 := 0; s1 := 1;
  sadd := fun x y => single (x + y);
  smul := fun x y => single (x * y);
  ssub := fun x y => single (x - y);
  sopp := Ropp;
  shalf := 1 / 2;
  sinvn := fun n => single (/ INR n);
  scos := fun n => single (cos (2 * PI / INR n));
  ssin := fun n => single (sin (2 * PI / INR n));
  spow := pow
|}.
(** where no transform is involved *)
Definition Single : arith := SingleWith (fun w _ => w).
