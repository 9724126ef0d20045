(** * Specification: the whole engine in single precision *)
From Coq Require Import Reals.
From Verif.Model Require Import Base Arith ArithReal ArithSingle Juce Partitioning PartitionSchemes Convolver.
From Verif.Spec Require Import Transform Signal Routing Precision PrecisionScheme.
Open Scope R_scope.

(** The library functions are accurate enough for the convolver that is made of a response of [m] samples for blocks of
    at most [M] samples: the real transform of twice its block size [b] within [delta] ([rfft_accurate]), and the powers
    of the roots of unity for the transforms of the larger partitions of its scheme [l] within [tau]. *)
Definition precise {pow} (Rf : rfft (SingleWith pow)) (delta tau : R) (m M : nat) (spec : conv_spec) : Prop :=
  0 <= delta /\ 0 <= tau <= / 4 /\
  forall b l, conv_block_size (Z.of_nat M) (cs_internal spec) = Ok b ->
    GetPartitionScheme kGarciaResults b (Z.of_nat m) = Ok l ->
    rfft_accurate (@rfft_fwd _ Rf) (@rfft_inv _ Rf) (S (Nat.log2 (Z.to_nat b))) delta /\
    exists kt, pow_accurate pow (@cis (SingleWith pow)) (@cis_neg (SingleWith pow)) kt tau /\
      forall q, In q (tl l) -> (2 * (Z.to_nat (pl_size q) * Z.to_nat b) <= 2 ^ kt)%nat.

(** What its output [o] may then be away from the exact result, while the input stays below [X]: the error of C60 of
    every channel [c] of the response that is routed to [o]. *)
Definition convolver_error (delta tau : R) (m M : nat) (ir : audio Rarith) (spec : conv_spec) (X : R) (o : nat) : R :=
  match conv_block_size (Z.of_nat M) (cs_internal spec) with
  | Ok b => match GetPartitionScheme kGarciaResults b (Z.of_nat m) with
            | Ok l => rsum (length ir) (fun c =>
                if (nth c (cs_out spec) 0 =? o)%nat
                then scheme_error delta tau (2 * Z.to_nat b) (Z.to_nat b) (length ir) l (nth c ir []) X else 0)
            | _ => 0
            end
  | _ => 0
  end.

(** what a fade adds, at sample [t] of [n], to sounds of the levels [a] and [b] *)
Definition fade_error (n t : nat) (a b : R) : R := (a + b) * ((INR (Nat.min t n) + 3) / 2 ^ 23) + / 2 ^ 148.
