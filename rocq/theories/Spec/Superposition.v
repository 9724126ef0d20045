(** * Specification: sums of inputs, loudness, channels *)
From Coq Require Import Reals.
From Verif.Model Require Import Base Arith ArithReal Juce Convolver ConvolutionEngine.
From Verif.Spec Require Import Transform Signal Memory Precision.

Open Scope nat_scope.
Section Linear.
  Context {A : arith}.
  (** the block [a x + b y], sample by sample *)
  Definition weighted (a b : sample A) (x y : audio A) : audio A := zipw (zipw (fun u v => sadd (smul a u) (smul b v))) x y.
  (** three histories with the same calls; each block of the third is the weighted sum of those of the others *)
  Inductive sum_of_calls (I : conv_if A) (a b : sample A) : op I -> op I -> op I -> Prop :=
  | su_process x y : same_shape x y -> sum_of_calls I a b (Process I x) (Process I y) (Process I (weighted a b x y))
  | su_same o : (forall x, o <> Process I x) -> sum_of_calls I a b o o o.
  Inductive sum_of_histories (I : conv_if A) (a b : sample A) : list (op I) -> list (op I) -> list (op I) -> Prop :=
  | sh_nil : sum_of_histories I a b [] [] []
  | sh_cons x y z xs ys zs : sum_of_calls I a b x y z -> sum_of_histories I a b xs ys zs -> sum_of_histories I a b (x :: xs) (y :: ys) (z :: zs).

  (** two histories with the same calls; the blocks agree on the channels in [feeds] *)
  Definition same_on (feeds : nat -> Prop) (x y : audio A) : Prop :=
    same_shape x y /\ forall c, feeds c -> nth c x [] = nth c y [].
  Inductive same_calls_on (I : conv_if A) (feeds : nat -> Prop) : op I -> op I -> Prop :=
  | so_process x y : same_on feeds x y -> same_calls_on I feeds (Process I x) (Process I y)
  | so_same o : (forall x, o <> Process I x) -> same_calls_on I feeds o o.
  (** every response channel that is routed to [o] takes its input from a channel in [feeds] *)
  Definition takes_from (feeds : nat -> Prop) (o : nat) (spec : conv_spec) (ir : audio A) : Prop :=
    forall c, c < length ir -> nth c (cs_out spec) 0 = o -> feeds (nth c (cs_in spec) 0).
End Linear.

Section Loud.
  Local Open Scope R_scope.
  (** no sample is larger than [p] *)
  Definition no_louder (p : R) (b : audio Rarith) : Prop := forall c x, In c b -> In x c -> Rabs x <= p.
  (** how much louder a response can make what goes to channel [o]: the sum of the moduli of the response channels routed to it *)
  Definition loudness (spec : conv_spec) (ir : audio Rarith) (o : nat) : R :=
    rsum (length ir) (fun c => if (nth c (cs_out spec) 0%nat =? o)%nat
                               then rsum (length (nth c ir [])) (fun j => Rabs (nth j (nth c ir []) 0)) else 0).
  (** the same shape, and every sample differs by at most [d] *)
  Definition close (d : R) (x y : audio Rarith) : Prop :=
    same_shape x y /\ forall c i, Rabs (nth i (nth c x []) 0 - nth i (nth c y []) 0) <= d.
  Inductive close_calls (I : conv_if Rarith) (d : R) : op I -> op I -> Prop :=
  | cl_process x y : close d x y -> close_calls I d (Process I x) (Process I y)
  | cl_same o : (forall x, o <> Process I x) -> close_calls I d o o.
End Loud.
