(** * Specification: robustness and finite memory, in any arithmetic *)
From Verif.Model Require Import Base Arith Juce.
From Verif.Spec Require Import Transform Signal.

(** All that is assumed of the external real transform: on an array of the right size it works in place, and how many
    values it leaves never depends on the values it is given. *)
Record rfft_sized {A : arith} (R : rfft A) : Prop := {
  sized_fwd : forall k d, 0 < k -> length d = 2 * 2 ^ k -> length (rfft_fwd R k d) = 2 * 2 ^ k;
  sized_inv : forall k d, 0 < k -> length d = 2 * 2 ^ k -> length (rfft_inv R k d) = 2 * 2 ^ k;
  blind_fwd : forall k d d', length d = length d' -> length (rfft_fwd R k d) = length (rfft_fwd R k d');
  blind_inv : forall k d d', length d = length d' -> length (rfft_inv R k d) = length (rfft_inv R k d')
}.

Section Memory.
  Context {A : arith}.
  (** blocks of the same sizes, whatever they hold *)
  Definition same_shape (b b' : audio A) : Prop := map (@length _) b = map (@length _) b'.
  Definition same_shapes (bs bs' : list (audio A)) : Prop := Forall2 same_shape bs bs'.

  (** in each of the [w] channels, the samples from number [T] on are the same *)
  Definition agree_from (w T : nat) (bs bs' : list (audio A)) : Prop :=
    forall c, c < w -> skipn T (channel c bs) = skipn T (channel c bs').

  (** After so many samples, a convolver with a response of [m] samples that works in blocks of [B] samples has forgotten
      its input. *)
  Definition settling (m B : nat) : nat := 5 * m / 2 + 5 * B.
End Memory.
