(** * Specification: accuracy of convolvers with a partition scheme in single precision

    A scheme is a list of (size in blocks, number) of partitions; the first are made of one block. *)
From Coq Require Import Reals.
From Verif.Model Require Import Base Arith ArithReal Juce Partitioning.
From Verif.Spec Require Import Transform Signal Routing Precision.
Open Scope R_scope.

(** energy of the part of [h] of [P] samples that starts [r * P] samples after [off] *)
Definition part_energy (off P : nat) (h : list R) (r : nat) : R := energy P (fun q => nth (off + r * P + q) h 0).

(** The partitions of one block, done by the uniformly partitioned convolver with transforms of [N] points.
    [e] is the number of additions that follow. *)
Definition head_error (delta : R) (N B e K : nat) (h : list R) (X : R) : R :=
  ((1 + delta) ^ 3 * (1 + 2 * u24) ^ (K + 3 + e) - 1) *
  (2 * (sqrt (INR N) * X * rsum K (fun r => part_energy 0 B h r + sqrt (INR N) * floor50))).

(** The larger partitions, done by the time-distributed convolvers; the first starts [off] samples into the response *)
Fixpoint tails_error (tau : R) (B e off : nat) (l : list layout) (h : list R) (X : R) : R :=
  match l with
  | [] => 0
  | a :: t =>
      let P := (Z.to_nat (pl_size a) * B)%nat in
      let K := Z.to_nat (pl_num a) in
      ((1 + (tau + 12 * u24)) ^ (3 * Nat.log2 (2 * P)) * (1 + 2 * u24) ^ (K + 3 + e) - 1) *
      (2 * (sqrt (INR P) * X * rsum K (fun r => part_energy off P h r + sqrt (INR P) * floor50)))
      + tails_error tau B e (off + P * K) t h X
  end.

(** the whole scheme [l], for blocks of [B] samples; [e] additions follow *)
Definition scheme_error (delta tau : R) (N B e : nat) (l : list layout) (h : list R) (X : R) : R :=
  match l with
  | [] => 0
  | a :: t =>
      let K := Z.to_nat (pl_num a) in
      head_error delta N B (length l + e) K h X + tails_error tau B (length l + e) (K * B) t h X
  end.

(** [outs] are blocks of [w] channels, as long as [ins], and every sample of output channel [o] is within [E o] of the
    sum, over the [n] response channels routed to it, of the convolution with what came in *)
Definition routed_within (w n : nat) (h : nat -> list R) (inputs outputs : list nat) (E : nat -> R)
           (ins outs : list (audio Rarith)) : Prop :=
  length outs = length ins /\
  (forall i, (i < length ins)%nat ->
     exists m, block_of w m (nth i ins []) /\ block_of w m (nth i outs [])) /\
  forall o t, (o < w)%nat -> (t < length (channel o ins))%nat ->
    Rabs (nth t (channel o outs) 0 - nth t (@mixed Rarith n h inputs outputs ins o) 0) <= E o.

Definition convolves_routed_within {St} (w n : nat) (h : nat -> list R) (inputs outputs : list nat) (E : R -> nat -> R)
           (process : St -> audio Rarith -> res (St * audio Rarith)) (reset : St -> St) (s : St) : Prop :=
  forall sessions, (forall blocks, In blocks sessions -> blocks_of w blocks) ->
  exists s' outs, feed_sessions process reset s sessions = Ok (s', outs) /\
    Forall2 (fun ins outs => forall X, peak_below X ins -> routed_within w n h inputs outputs (E X) ins outs) sessions outs.
