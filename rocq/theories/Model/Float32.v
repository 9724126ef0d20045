(** * Single precision arithmetic used for sizes

    Some sizes are computed in [float] (Partitioning.cpp:44-46, 60-63, 79-80,
    Partitioning.h:28-32, ConvolutionEngine.cpp:113-116, 142-151).  This file models
    IEEE binary32 with round-to-nearest-even on the non-negative values that occur
    there.  Simplification: no overflow and no subnormals, because all values lie
    between 2^-31 and 2^63. *)
From Coq Require Import ZArith Bool.
Local Open Scope Z_scope.

(** The non-negative float [f_man * 2^f_exp]. *)
Record f32 : Type := { f_man : Z; f_exp : Z }.

(** Round [p / q] to the nearest integer, ties to even. *)
(** No code: IEEE 754, round to nearest, ties to even. *)
Definition round_half_even (p q : Z) : Z :=
  let d := p / q in
  let r := p mod q in
  if 2 * r <? q then d
  else if q <? 2 * r then d + 1
  else if Z.even d then d else d + 1.

(** [p * 2^e] and [q] scaled to integers: the pair [(p', q')] with
    [p' / q' = p / (q * 2^e)]. *)
(** No code: part of [f_rnd]. *)
Definition scale_num (p e : Z) : Z := if 0 <=? e then p else p * 2 ^ (- e).
(** No code: part of [f_rnd]. *)
Definition scale_den (q e : Z) : Z := if 0 <=? e then q * 2 ^ e else q.

(** The exponent [e] with [2^23 <= (p/q) / 2^e < 2^24]. *)
(** No code: part of [f_rnd]. *)
Definition f_exponent (p q : Z) : Z :=
  let e := Z.log2 p - Z.log2 q - 23 in
  if scale_den q e * 2 ^ 23 <=? scale_num p e then e else e - 1.

(** The float nearest to the rational [p / q], for [0 <= p] and [0 < q]. *)
(** No code of its own: the rounding of every [float] operation. *)
Definition f_rnd (p q : Z) : f32 :=
  if p <=? 0 then {| f_man := 0; f_exp := 0 |}
  else let e := f_exponent p q in
       {| f_man := round_half_even (scale_num p e) (scale_den q e); f_exp := e |}.

(** a float as a rational number: numerator and denominator *)
(** No code: part of the operations below. *)
Definition f_num (f : f32) : Z := if 0 <=? f_exp f then f_man f * 2 ^ f_exp f else f_man f.
(** No code: part of the operations below. *)
Definition f_den (f : f32) : Z := if 0 <=? f_exp f then 1 else 2 ^ (- f_exp f).

(** [static_cast<float> (n)] for an integer n >= 0 *)
(** (Partitioning.h:28-32, Partitioning.cpp:44-46, 60-63, ConvolutionEngine.cpp:113-116) *)
Definition f_of_Z (n : Z) : f32 := f_rnd n 1.
(** [a / b] and [a * b] *)
(** (Partitioning.h:28-32, Partitioning.cpp:44-46, 60-63) *)
Definition f_div (a b : f32) : f32 := f_rnd (f_num a * f_den b) (f_den a * f_num b).
(** (ConvolutionEngine.cpp:113-116, 142-152) *)
Definition f_mul (a b : f32) : f32 := f_rnd (f_num a * f_num b) (f_den a * f_den b).
(** [static_cast<int> (std::ceil (f))] and [static_cast<int> (std::floor (f))] *)
(** (Partitioning.h:28-32, Partitioning.cpp:44-46, ConvolutionEngine.cpp:113-116, 142-152) *)
Definition f_ceil (f : f32) : Z := - ((- f_num f) / f_den f).
(** (Partitioning.cpp:60-63) *)
Definition f_floor (f : f32) : Z := f_num f / f_den f.
