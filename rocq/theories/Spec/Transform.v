(** * Specification: sums, the discrete Fourier transform, bit reversal, circular
      convolution *)
From Verif.Model Require Import Base Arith.

(** bit reversal of the [k]-bit number [p] *)
Fixpoint bitrev (k p : nat) : nat :=
  match k with
  | 0 => 0
  | S k' => (p mod 2) * 2 ^ k' + bitrev k' (p / 2)
  end.

Section Transform.
  Context {A : arith}.

  (** sum of [f 0 .. f (n-1)] *)
  Fixpoint csum (n : nat) (f : nat -> cplx A) : cplx A :=
    match n with 0 => c0 | S n' => cadd (csum n' f) (f n') end.
  Fixpoint ssum (n : nat) (f : nat -> sample A) : sample A :=
    match n with 0 => s0 | S n' => sadd (ssum n' f) (f n') end.

  (** The [k]-th coefficient of the discrete Fourier transform of the first [n] points
      of [x]:  sum_j x[j] exp (-2 pi i j k / n). *)
  Definition dft (n : nat) (x : list (cplx A)) (k : nat) : cplx A :=
    csum n (fun j => cmul (nth j x c0) (cpow (cis_neg n) (j * k))).

  (** circular convolution of two arrays of [n] points *)
  Definition circ_conv (n : nat) (x y : list (cplx A)) (t : nat) : cplx A :=
    csum n (fun j => cmul (nth j x c0) (nth ((t + n - j) mod n) y c0)).
End Transform.
