(** * An executable exact sample arithmetic: the field with 8191 elements

    8191 = 2^13 - 1 is a Mersenne prime, so -1 is not a square and
    F_8191[i] contains unit-circle points of every order 2^k <= 8192, with
    complex conjugation and real parts behaving as over the reals.  Used only to
    run the model on concrete data ([Example]s and tests). *)
From Verif.Model Require Import Base Arith.
Local Open Scope Z_scope.

(** No code: this file is an instance of [arith] for examples that can be computed (the integers modulo
    8191). *)
Definition pmod : Z := 8191.
(** No code (see the head of the file). *)
Definition zm (x : Z) : Z := x mod pmod.

(** No code. *)
Fixpoint zpow_nat (fuel : nat) (b e : Z) : Z :=
  match fuel with
  | O => 1
  | S f => if e =? 0 then 1
           else let h := zpow_nat f (zm (b * b)) (e / 2) in
                if Z.odd e then zm (b * h) else h
  end.
(** (The fuel is 14; written so that it is computed only when [x] is known.) *)
Definition zinv (x : Z) : Z := zpow_nat (Z.to_nat (Z.min 14 (zm x + 14))) (zm x) (pmod - 2).

(** complex arithmetic over Z/8191 on raw pairs *)
Definition pmul (a b : Z * Z) : Z * Z :=
  (zm (fst a * fst b - snd a * snd b), zm (fst a * snd b + snd a * fst b)).
(** No code. *)
Fixpoint psquare (n : nat) (a : Z * Z) : Z * Z :=
  match n with O => a | S n' => psquare n' (pmul a a) end.

(** A point of order exactly 8192 on the unit circle: g / conj g = g^2 / |g|^2
    for g = 4 + i. *)
Definition pgen : Z * Z :=
  let g := (4, 1) in
  let n := zinv (4 * 4 + 1 * 1) in
  let c := pmul g g in (zm (fst c * n), zm (snd c * n)).

(** unit-circle point of order [2^k] (k <= 13) *)
Definition pcis (k : nat) : Z * Z := psquare (13 - k) pgen.

(** No code: the instance. *)
Definition Zarith : arith := {|
  sample := Z; s0 := 0; s1 := 1;
  sadd := fun a b => zm (a + b); smul := fun a b => zm (a * b);
  ssub := fun a b => zm (a - b); sopp := fun a => zm (- a);
  shalf := 4096;
  sinvn := fun n => zinv (Z.of_nat n);
  scos := fun n => fst (pcis (Nat.log2 n));
  ssin := fun n => snd (pcis (Nat.log2 n));
  spow := npow (1, 0) pmul
|}.

Example pcis_table :
  pcis 0 = (1, 0) /\ pcis 1 = (8190, 0) /\
  forallb (fun k => let c := pcis (S k) in
                    let q := pmul c c in
                    (fst q =? fst (pcis k)) && (snd q =? snd (pcis k))
                    && (zm (fst c * fst c + snd c * snd c) =? 1))%bool (seq 0 13) = true.
Proof. vm_compute. repeat split. Qed.

(** arrays of real points, for the examples *)
(** No code. *)
Definition zreal (l : list Z) : list (cplx Zarith) := map (@creal Zarith) l.

(** Plain integers, for examples that involve no transform (the roots of unity and inverses
    are dummies). *)
Definition Zint : arith := {|
  sample := Z; s0 := 0; s1 := 1; sadd := Z.add; smul := Z.mul; ssub := Z.sub; sopp := Z.opp;
  shalf := 0; sinvn := fun _ => 0; scos := fun _ => 0; ssin := fun _ => 0;
  spow := fun _ _ => (0, 0)
|}.
Definition zint (l : list Z) : list (cplx Zint) := map (@creal Zint) l.
