(** * Specification: [float] computations without overflow

    What is assumed of the library behind the convolvers (C++'s [std::exp] and [std::pow], JUCE's real transform), for comparing
    the IEEE 754 numbers of ArithIEEE.v with the real numbers of ArithSingle.v. *)
From Coq Require Import Reals Floats.SpecFloat.
From Flocq Require Import Core BinarySingleNaN.
From Verif.Model Require Import Base Arith ArithSingle ArithIEEE.
From Verif.Spec Require Import Transform Signal.
Open Scope R_scope.

(** [x] is a finite binary32 number, neither infinite nor NaN, and its value is [r] *)
Definition number (x : spec_float) (r : R) : Prop :=
  valid_binary 24 128 x = true /\ is_finite_SF x = true /\ SF2R radix2 x = r.

(** ** the real transform *)
(** The transform of [float]s, of at most [2^12] points: no value is more than twice what the exact transform can reach, [2^k]
    times the largest value it is given. *)
Record rfft_bounded (fwd inv : nat -> list R -> list R) : Prop := {
  bounded_fwd : forall k d M, (0 < k <= 12)%nat -> length d = (2 * 2 ^ k)%nat -> 1 <= M -> (forall x, In x d -> Rabs x <= M) ->
    forall y, In y (fwd k d) -> Rabs y <= 2 * 2 ^ k * M;
  bounded_inv : forall k d M, (0 < k <= 12)%nat -> length d = (2 * 2 ^ k)%nat -> 1 <= M -> (forall x, In x d -> Rabs x <= M) ->
    forall y, In y (inv k d) -> Rabs y <= 2 * 2 ^ k * M
}.
(** Two implementations of the transform in different arithmetics leave equally many values, and where the data are numbers up
    to 2^100 and the transform has at most 2^12 points (so that nothing comes near the largest [float]), the same values. *)
Record same_transform {A : arith} (rel : sample A -> R -> Prop) (fwd inv : nat -> list (sample A) -> list (sample A))
       (fwd' inv' : nat -> list R -> list R) : Prop := {
  same_fwd_length : forall k d d', length d = length d' -> length (fwd k d) = length (fwd' k d');
  same_inv_length : forall k d d', length d = length d' -> length (inv k d) = length (inv' k d');
  same_fwd : forall k d d', (0 < k <= 12)%nat -> length d = (2 * 2 ^ k)%nat -> Forall2 rel d d' ->
    (forall x, In x d' -> Rabs x <= 2 ^ 100) -> Forall2 rel (fwd k d) (fwd' k d');
  same_inv : forall k d d', (0 < k <= 12)%nat -> length d = (2 * 2 ^ k)%nat -> Forall2 rel d d' ->
    (forall x, In x d' -> Rabs x <= 2 ^ 100) -> Forall2 rel (inv k d) (inv' k d')
}.

(** ** the roots of unity *)
(** [root] and [root_neg] give the same numbers in both arithmetics, for transforms of up to [2^k] points *)
Definition same_roots {A : arith} (rel : sample A -> R -> Prop) (k : nat) (pow : R * R -> nat -> R * R) : Prop :=
  forall j e, (j <= k)%nat -> (2 * e < 2 ^ j)%nat ->
    let same (z : cplx A) (w : R * R) := rel (fst z) (fst w) /\ rel (snd z) (snd w) in
    same (spow (@cis A (2 ^ j)) e) (pow (@cis (SingleWith pow) (2 ^ j)) e) /\
    same (spow (@cis_neg A (2 ^ j)) e) (pow (@cis_neg (SingleWith pow) (2 ^ j)) e).

(** ** signals *)
(** a block of [float]s, all of them finite, and their values; no value is above [X] *)
Definition same_block (b : list (list spec_float)) (r : list (list R)) : Prop := Forall2 (Forall2 number) b r.
Definition block_below (X : R) (r : list (list R)) : Prop := forall c x, In c r -> In x c -> Rabs x <= X.
(** the blocks of several sessions *)
Definition same_sessions (s : list (list (list (list spec_float)))) (r : list (list (list (list R)))) : Prop :=
  Forall2 (Forall2 same_block) s r.
