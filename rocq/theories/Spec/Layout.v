(** * Specification: sizes of partition layouts *)
From Verif.Model Require Import Base Partitioning.
Local Open Scope Z_scope.

(** samples covered by a layout, for blocks of [B] samples *)
Fixpoint layout_samples (B : Z) (l : list layout) : Z :=
  match l with [] => 0 | a :: t => pl_size a * pl_num a * B + layout_samples B t end.

(** A power of two of at least two blocks. *)
Definition pow2_blocks (n : Z) : Prop := exists e, 1 <= e /\ n = 2 ^ e.
