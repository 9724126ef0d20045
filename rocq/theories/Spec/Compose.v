(** * Specification helpers: ways of combining calls of the transform routines

    Only calls of the modelled functions, in some order; nothing is computed here. *)
From Verif.Model Require Import Base Arith FFT FFTDecomposition DecompositionSchedule.

Section Compose.
  Context {A : arith}.
  Notation C := (cplx A).

  (** do the numbered steps of a list, in that order *)
  Fixpoint run_steps (step : nat -> list C -> res (list C)) (order : list nat) (d : list C)
    : res (list C) :=
    match order with
    | [] => Ok d
    | i :: t => d' <- step i d ;; run_steps step t d'
    end.

  (** [nd] levels of the segmented forward (inverse) decomposition of a buffer of [n]
      points, each level in a single step *)
  Definition decompose (n nd : nat) (d : list C) : res (list C) :=
    for_n nd (fun level => SegmentedForwardDecompositionRadix2 n (2 ^ level) 1 0) d.
  Definition recompose (n nd : nat) (d : list C) : res (list C) :=
    for_down nd (fun level1 => SegmentedInverseDecompositionRadix2 n (2 ^ (level1 - 1)) 1 0) d.

  (** a routine run on each of the [m] sub-buffers of [len] points *)
  Definition on_all_slices (f : list C -> res (list C)) (len m : nat) (d : list C) : res (list C) :=
    for_n m (fun i => on_slice f (i * len) len) d.

  (** the transform of [2^k] points by way of [nd] levels of decomposition *)
  Definition forward_via (k nd : nat) (d : list C) : res (list C) :=
    d <- decompose (2 ^ k) nd d ;;
    on_all_slices (ForwardFFTUnordered (2 ^ (k - nd))) (2 ^ (k - nd)) (2 ^ nd) d.
  Definition inverse_via (k nd : nat) (d : list C) : res (list C) :=
    d <- on_all_slices (InverseFFTUnordered (2 ^ (k - nd))) (2 ^ (k - nd)) (2 ^ nd) d ;;
    recompose (2 ^ k) nd d.

  (** overwrite the points of [d] from [off] on by those of [l] *)
  Definition write_at (off : nat) (l d : list C) : list C :=
    firstn off d ++ l ++ skipn (off + length l) d.

  (** A partition arrives one block per phase: in phase [p] the points of block [p] are
      written and ForwardDecompositionSchedule is called. *)
  Definition stream_forward (nd fft_size num_blocks : nat) (blocks : nat -> list C) (B : nat)
             (d : list C) : res (list C) :=
    for_n num_blocks (fun p d =>
      ForwardDecompositionSchedule nd fft_size num_blocks p (write_at (p * B) (blocks p) d)) d.

  (** The phases 0 .. n-1 of InverseDecompositionSchedule. *)
  Definition stream_inverse (nd fft_size num_blocks n : nat) (d : list C) : res (list C) :=
    for_n n (fun p => InverseDecompositionSchedule nd fft_size num_blocks p) d.
End Compose.
