(** * zones_convolver/util/Partitioning.h and .cpp *)
From Verif.Model Require Import Base Float32.
Local Open Scope Z_scope.

(** Partitioning.h:8-17.  C++ [int]s are unbounded integers here; the sizes that occur
    stay far below 2^31 for the responses of up to 2^24 samples the theorems are
    about. *)
Record layout : Type := { pl_size : Z; pl_num : Z }.
(** Partitioning.h:13-16 (GetSubConvolverSizeSamples) *)
Definition pl_samples (l : layout) (block_size : Z) : Z := pl_size l * pl_num l * block_size.

(** Partitioning.h:19-23 *)
Record scheme : Type := { ps_ir : Z; ps_layout : list layout }.

(** Partitioning.h:28-32.  Division by zero gives an infinity or a NaN, whose
    conversion to int is undefined. *)
Definition GetNumPartitionsRequiredForSegment (partition_size segment_size : Z) : res Z :=
  if partition_size <=? 0 then Undef
  else Ok (f_ceil (f_div (f_of_Z segment_size) (f_of_Z partition_size))).

(** [std::sort] with the comparison of Partitioning.cpp:9-12.  Simplification:
    insertion sort; [std::sort] may order schemes of equal size differently, but no
    table has two schemes of the same size. *)
Fixpoint insert_scheme (s : scheme) (l : list scheme) : list scheme :=
  match l with
  | [] => [s]
  | a :: t => if ps_ir s <=? ps_ir a then s :: l else a :: insert_scheme s t
  end.
(** Partitioning.cpp:5-12 *)
Fixpoint sort_schemes (l : list scheme) : list scheme :=
  match l with [] => [] | a :: t => insert_scheme a (sort_schemes t) end.

(** Partitioning.cpp:14-28: the search loop from scheme_index on; [lower] is the
    scheme at scheme_index - 1.  At the end of the list [lower] is [back ()]
    (Partitioning.cpp:30). *)
Fixpoint find_nearest_from (lower : scheme) (rest : list scheme) (ir_num_samples : Z) : scheme :=
  match rest with
  | [] => lower
  | s :: t =>
      if ir_num_samples <? ps_ir s then
        let lower_dif := Z.abs (ir_num_samples - ps_ir lower) in
        let higher_dif := Z.abs (ir_num_samples - ps_ir s) in
        if higher_dif <? lower_dif then s else lower
      else find_nearest_from s t ir_num_samples
  end.
(** Partitioning.cpp:5-31 *)
Definition FindNearestPartitionScheme (results : list scheme) (ir_num_samples : Z) : res scheme :=
  match sort_schemes results with
  | [] => Undef
  | s :: t => Ok (find_nearest_from s t ir_num_samples)
  end.

(** [layout.back ()] and an assignment through that reference *)
(** (Partitioning.cpp:41-47, 52-71) *)
Definition back (l : list layout) : res layout :=
  match rev l with [] => Undef | a :: _ => Ok a end.
(** (Partitioning.cpp:47, 64-65) *)
Definition set_back (l : list layout) (a : layout) : list layout := removelast l ++ [a].

(** Partitioning.cpp:39-48 *)
Definition ExtendSchemeToFitIR (l : list layout) (sample_difference block_size : Z)
  : res (list layout) :=
  last_partition <- back l ;;
  let last_partition_size_samples := block_size * pl_size last_partition in
  _ <- assert (0 <? last_partition_size_samples) ;;
  let num_partitions_to_add :=
    f_ceil (f_div (f_of_Z sample_difference) (f_of_Z last_partition_size_samples)) in
  Ok (set_back l {| pl_size := pl_size last_partition;
                    pl_num := pl_num last_partition + num_partitions_to_add |}).

(** Partitioning.cpp:50-72; each recursive call pops one element, so [length l + 1]
    calls are enough to reach [back ()] of an empty vector. *)
Fixpoint reduce_scheme (fuel : nat) (l : list layout) (sample_difference block_size : Z)
  : res (list layout) :=
  match fuel with
  | O => Diverge
  | S fuel' =>
      let remaining_samples_to_remove := Z.abs sample_difference in
      last_partition <- back l ;;
      let num_samples_in_last_partition := pl_samples last_partition block_size in
      if remaining_samples_to_remove <? num_samples_in_last_partition then
        let last_partition_size_samples := block_size * pl_size last_partition in
        _ <- assert (0 <? last_partition_size_samples) ;;
        let num_partitions_to_remove :=
          f_floor (f_div (f_of_Z remaining_samples_to_remove)
                         (f_of_Z last_partition_size_samples)) in
        Ok (set_back l {| pl_size := pl_size last_partition;
                          pl_num := pl_num last_partition - num_partitions_to_remove |})
      else
        reduce_scheme fuel' (removelast l)
                      (remaining_samples_to_remove - num_samples_in_last_partition) block_size
  end.
(** Partitioning.cpp:50-72 *)
Definition ReduceSchemeToFitIR (l : list layout) (sample_difference block_size : Z)
  : res (list layout) := reduce_scheme (S (length l)) l sample_difference block_size.

(** [garcia_results.find (block_size)] *)
(** (Partitioning.cpp:74-90) *)
Fixpoint find_results (g : list (Z * list scheme)) (block_size : Z) : option (list scheme) :=
  match g with
  | [] => None
  | (b, r) :: t => if b =? block_size then Some r else find_results t block_size
  end.

(** Partitioning.cpp:96: front ().num_partitions += 1 *)
Definition bump_front (l : list layout) : res (list layout) :=
  match l with
  | [] => Undef
  | a :: t => Ok ({| pl_size := pl_size a; pl_num := pl_num a + 1 |} :: t)
  end.

(** Partitioning.cpp:74-98 *)
Definition GetPartitionScheme (garcia_results : list (Z * list scheme))
           (block_size ir_num_samples : Z) : res (list layout) :=
  match find_results garcia_results block_size with
  | None =>
      n <- GetNumPartitionsRequiredForSegment block_size ir_num_samples ;;
      Ok [ {| pl_size := 1; pl_num := n |} ]
  | Some results =>
      nearest <- FindNearestPartitionScheme results ir_num_samples ;;
      let sample_difference := ir_num_samples - ps_ir nearest in
      l <- (if 0 <? sample_difference
            then ExtendSchemeToFitIR (ps_layout nearest) sample_difference block_size
            else ReduceSchemeToFitIR (ps_layout nearest) sample_difference block_size) ;;
      bump_front l
  end.
