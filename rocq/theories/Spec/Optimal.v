(** * Specification: divisions of a response into partitions, and their cost

    Sizes are in blocks. *)
From Verif.Model Require Import Base Partitioning.

(** A division into partitions: the first is one block; the others are powers of two, each at least as long as the
    one before, and each begins late enough for its result to be computed in time (its own length of input, and
    its length again to compute, minus one block). *)
Inductive division : list nat -> Prop :=
| division_one : division [1]
| division_more : forall ps s, division ps -> (exists k, s = 2 ^ k) -> last ps 0 <= s -> 2 * s <= list_sum ps + 1 -> division (ps ++ [s]).

(** It has as many partitions as are needed for [n] blocks and no more. *)
Definition covers (n : nat) (ps : list nat) : Prop := list_sum (removelast ps) < n <= list_sum ps.

(** The cost: [unit] for every partition but the first, and [big s] when a new size [s] begins. *)
Section Cost.
  Variable unit : Z.
  Variable big : nat -> Z.
  Fixpoint cost_after (previous : nat) (ps : list nat) : Z :=
    match ps with
    | [] => 0
    | s :: t => (if s =? previous then unit else big s + unit) + cost_after s t
    end.
  Definition cost (ps : list nat) : Z := match ps with [] => 0 | s :: t => cost_after s t end.
  (** no division for [n] blocks is cheaper *)
  Definition cheapest (n : nat) (ps : list nat) : Prop :=
    division ps /\ covers n ps /\ forall ps', division ps' -> covers n ps' -> (cost ps <= cost ps')%Z.
End Cost.

(** the partitions of a layout, one by one *)
Definition partitions (l : list layout) : list nat :=
  flat_map (fun a => repeat (Z.to_nat (pl_size a)) (Z.to_nat (pl_num a))) l.
