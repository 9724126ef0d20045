(** * Specification: [float] signals and responses, their values *)
From Coq Require Import Reals ZArith Floats.SpecFloat.
From Flocq Require Import Core BinarySingleNaN.
From Verif.Model Require Import Base Arith Juce Partitioning PartitionSchemes Convolver ConvolutionEngine.
From Verif.Spec Require Import Transform Signal.
Open Scope R_scope.

(** the real numbers that a block of [float]s stands for *)
Definition values (b : list (list spec_float)) : list (list R) := map (map (SF2R radix2)) b.
(** all samples are finite binary32 numbers of at most [X] in size *)
Definition finite_below (X : R) (b : list (list spec_float)) : Prop :=
  forall c x, In c b -> In x c -> valid_binary 24 128 x = true /\ is_finite_SF x = true /\ Rabs (SF2R radix2 x) <= X.
(** A response whose convolver stays within the range of [float]: at most 1024 channels, all samples finite and at most 65536 in
    size; the transforms of its parts have at most [2^kt] points. *)
Definition tame {A : arith} (below : audio A -> Prop) (kt : nat) (r : audio A * conv_spec) (p : process_spec) : Prop :=
  let '(ir, sp) := r in
  below ir /\ (length ir <= 1024)%nat /\
  forall m e l, block_of (length ir) m ir -> conv_block_size (Z.of_nat (ps_max_block p)) (cs_internal sp) = Ok (Z.of_nat (2 ^ e)) ->
    GetPartitionScheme kGarciaResults (Z.of_nat (2 ^ e)) (Z.of_nat m) = Ok l ->
    forall q, In q (tl l) -> (2 * (Z.to_nat (pl_size q) * 2 ^ e) <= 2 ^ kt)%nat.
