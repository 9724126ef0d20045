(** * Specification: histories that differ only in the samples *)
From Verif.Model Require Import Base Arith Juce ConvolutionEngine.
From Verif.Spec Require Import Memory.

(** the same call of the engine (or the same actions of other threads), or process with a block of the same size *)
Inductive same_call {A : arith} (I : conv_if A) : op I -> op I -> Prop :=
| sc_process b b' : same_shape b b' -> same_call I (Process I b) (Process I b')
| sc_same o : (forall b, o <> Process I b) -> same_call I o o.
