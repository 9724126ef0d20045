(** * Contract of the external real transform (juce::dsp::FFT)

    The convolvers call [performRealOnlyForwardTransform] / [performRealOnlyInverseTransform]
    of JUCE.  The theorems about them quantify over every implementation [R] that meets this
    contract, which is what the JUCE documentation promises for a transform of size
    [N = 2^k]: the forward transform leaves the coefficients 0 .. N/2 (and anything at all in
    the others); the inverse transform only has to be right on arrays that hold in their
    coefficients 0 .. N/2 the transform of a real signal. *)
From Verif.Model Require Import Base Arith Juce.
From Verif.Spec Require Import Transform.

Record rfft_ok {A : arith} (R : rfft A) : Prop := {
  fwd_length : forall k d, 0 < k -> length d = 2 * 2 ^ k -> length (rfft_fwd R k d) = 2 * 2 ^ k;
  fwd_bins : forall k d b, 0 < k -> length d = 2 * 2 ^ k -> b <= 2 ^ (k - 1) ->
    nth b (pairs (rfft_fwd R k d)) c0 = dft (2 ^ k) (map creal (firstn (2 ^ k) d)) b;
  inv_length : forall k d, 0 < k -> length d = 2 * 2 ^ k -> length (rfft_inv R k d) = 2 * 2 ^ k;
  inv_real : forall k d x, 0 < k -> length d = 2 * 2 ^ k -> length x = 2 ^ k ->
    (forall b, b <= 2 ^ (k - 1) -> nth b (pairs d) c0 = dft (2 ^ k) (map creal x) b) ->
    firstn (2 ^ k) (rfft_inv R k d) = x
}.
