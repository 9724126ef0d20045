(** * Specification: accuracy of convolvers in single precision

    Everything here is about exact real numbers. *)
From Coq Require Import Reals.
From Verif.Model Require Import Base Arith ArithReal Juce.
From Verif.Spec Require Import Transform Signal.
Open Scope R_scope.

(** the unit roundoff of [float], 2^-24 *)
Definition u24 : R := / 16777216.
(** the level, 2^-50 (about -300 dB), below which signals are treated as having this level: underflow
    is then too small to matter *)
Definition floor50 : R := / 1125899906842624.

(** sum of [f 0 .. f (n-1)] and the root of the sum of squares *)
Fixpoint rsum (n : nat) (f : nat -> R) : R := match n with O => 0 | S n' => rsum n' f + f n' end.
Definition energy (n : nat) (f : nat -> R) : R := sqrt (rsum n (fun i => f i * f i)).
(** modulus of a complex number, and the distance of two *)
Definition modulus (z : R * R) : R := sqrt (fst z * fst z + snd z * snd z).
Definition cdist (z w : R * R) : R := modulus (fst z - fst w, snd z - snd w).

(** The powers of the roots of unity that a transform of at most [2^k] points takes are right within [tau]:
    [pow] is given the rounded root. *)
Definition pow_accurate (pow : R * R -> nat -> R * R) (root root_neg : nat -> R * R) (k : nat) (tau : R) : Prop :=
  forall j e, (j < k)%nat -> (e < 2 ^ j)%nat ->
    cdist (pow (root_neg (2 * 2 ^ j)%nat) e) (@cpow Rarith (@cis_neg Rarith (2 * 2 ^ j)) e) <= tau /\
    cdist (pow (root (2 * 2 ^ j)%nat) e) (@cpow Rarith (@cis Rarith (2 * 2 ^ j)) e) <= tau.

(** ** signals *)
(** [ins] stays below [X] with some room *)
Definition peak_below (X : R) (ins : list (audio Rarith)) : Prop :=
  forall c t, Rabs (nth t (channel c ins) 0) + floor50 <= X.

(** [outs] are blocks of the same lengths as [ins], and every sample of channel [c] of them is within [E c] of
    the exact convolution of channel [c] of [ins] with [h c], [d] samples late *)
Definition convolved_within (n d : nat) (h : nat -> list R) (E : nat -> R) (ins outs : list (audio Rarith)) : Prop :=
  length outs = length ins /\
  (forall i, (i < length ins)%nat ->
     exists m, block_of n m (nth i ins []) /\ block_of n m (nth i outs [])) /\
  forall c t, (c < n)%nat -> (t < length (channel c ins))%nat ->
    Rabs (nth t (channel c outs) 0 - nth t (@delayed Rarith d (@convolve Rarith (h c) (channel c ins))) 0) <= E c.

(** Whatever blocks (of [good] sizes) it is fed, with resets anywhere between them, the processor puts out the
    convolution with [h] of what it was fed since the last reset, within [E X] when the input stays below [X]. *)
Definition convolves_within {St} (n d : nat) (good : nat -> Prop) (h : nat -> list R) (E : R -> nat -> R)
           (process : St -> audio Rarith -> res (St * audio Rarith)) (reset : St -> St) (s : St) : Prop :=
  forall sessions,
  (forall blocks, In blocks sessions -> forall b, In b blocks -> exists m, good m /\ block_of n m b) ->
  exists s' outs, feed_sessions process reset s sessions = Ok (s', outs) /\
    Forall2 (fun ins outs => forall X, peak_below X ins -> convolved_within n d h (E X) ins outs) sessions outs.

(** ** error bounds *)
(** the energy of partition [r] of [P] samples of a response, with some room *)
Definition part_level (P : nat) (h : list R) (r : nat) : R :=
  energy P (fun q => nth (r * P + q) h 0) + sqrt (INR P) * floor50.
(** relative error of a product of [K] pairs of spectra of [2^k] points: about [3k (tau + 12u) + 2(K+3)u] *)
Definition blowup (tau : R) (k K : nat) : R := (1 + (tau + 12 * u24)) ^ (3 * k) * (1 + 2 * u24) ^ (K + 3) - 1.
(** convolver with two overlapping windows *)
Definition td_error (tau : R) (k K P : nat) (h : list R) (X : R) : R :=
  blowup tau k K * (2 * (sqrt (INR P) * X * rsum K (part_level P h))).
(** number of partitions *)
Definition parts (P m : nat) : nat := ((m + P - 1) / P)%nat.

(** ** transforms *)
(** relative error of a transform of [2^k] points: about [k (tau + 12u)] *)
Definition transform_error (tau : R) (k : nat) : R := (1 + (tau + 12 * u24)) ^ k - 1.
(** the energy of [2^k] complex numbers, with some room *)
Definition data_level (k : nat) (x : list (R * R)) : R :=
  energy (2 ^ k) (fun i => modulus (nth i x (0, 0))) + sqrt (INR (2 ^ k)) * floor50.

(** ** the external real transform (juce::dsp::FFT) in single precision

    Accuracy contract for a transform of [2^k] points, on arrays of [2 * 2^k] floats.
    Forward: all the errors of the coefficients 0 .. 2^(k-1) together are a fraction [delta] of the energy of the
    data (times [sqrt (2^k)], the factor of the transform).
    Inverse, on the coefficients of a real signal [x] up to errors that add up to [E]: every sample is right up to
    these errors and a fraction [delta] of the sum of the coefficients.  (Twice, since every coefficient stands for
    two, and over [2^k], the factor of the inverse.) *)
Definition floor104 : R := floor50 * floor50 / 16.
Record rfft_accurate (fwd inv : nat -> list R -> list R) (k : nat) (delta : R) : Prop := {
  acc_fwd_length : forall k d, (0 < k)%nat -> length d = (2 * 2 ^ k)%nat -> length (fwd k d) = (2 * 2 ^ k)%nat;
  acc_inv_length : forall k d, (0 < k)%nat -> length d = (2 * 2 ^ k)%nat -> length (inv k d) = (2 * 2 ^ k)%nat;
  acc_fwd : forall d, length d = (2 * 2 ^ k)%nat ->
    energy (2 ^ (k - 1) + 1) (fun b => cdist (nth b (@pairs Rarith (fwd k d)) (0, 0))
                                             (@dft Rarith (2 ^ k) (map (@creal Rarith) (firstn (2 ^ k) d)) b))
    <= delta * (sqrt (INR (2 ^ k)) *
                (energy (2 ^ k) (fun i => nth i d 0) + sqrt (INR (2 ^ k)) * floor50));
  acc_inv : forall d x E V, length d = (2 * 2 ^ k)%nat -> length x = (2 ^ k)%nat ->
    rsum (2 ^ (k - 1) + 1) (fun b => cdist (nth b (@pairs Rarith d) (0, 0)) (@dft Rarith (2 ^ k) (map (@creal Rarith) x) b)) <= E ->
    rsum (2 ^ (k - 1) + 1) (fun b => modulus (@dft Rarith (2 ^ k) (map (@creal Rarith) x) b)) <= V ->
    forall t, (t < 2 ^ k)%nat ->
      Rabs (nth t (inv k d) 0 - nth t x 0) <= 2 / INR (2 ^ k) * ((1 + delta) * E + delta * (V + INR (2 ^ k) * floor104))
}.

(** convolver with one window of [N] samples and [K] partitions of [P] samples *)
Definition upc_error (delta : R) (K N P : nat) (h : list R) (X : R) : R :=
  ((1 + delta) ^ 3 * (1 + 2 * u24) ^ (K + 3) - 1) *
  (2 * (sqrt (INR N) * X * rsum K (fun r => energy P (fun q => nth (r * P + q) h 0) + sqrt (INR N) * floor50))).
