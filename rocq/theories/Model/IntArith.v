(** * The C++ [int] arithmetic of the constructors and of one block

    The other model files compute sizes and indices in unbounded integers.  This file repeats the
    computations of sizes, offsets and indices with every C++ [int] operation checked: a result
    outside [-2^31, 2^31) is undefined behaviour.  It contains no samples, only the integers.
    Operations whose operands C++ converts to an unsigned type are taken modulo that type. *)
From Verif.Model Require Import Base Float32 Partitioning PartitionSchemes.
Local Open Scope Z_scope.

(** the result of a signed 32-bit operation *)
Definition int32 (z : Z) : res Z := if (- 2 ^ 31 <=? z) && (z <? 2 ^ 31) then Ok z else Undef.

(** Partitioning.h:13-16: (partition_size_blocks * num_partitions) * block_size *)
Definition GetSubConvolverSizeSamples_int (l : layout) (block_size : Z) : res Z :=
  blocks <- int32 (pl_size l * pl_num l) ;;
  int32 (blocks * block_size).

(** Partitioning.h:28-32: the conversion of the float to int *)
Definition GetNumPartitionsRequiredForSegment_int (partition_size segment_size : Z) : res Z :=
  n <- GetNumPartitionsRequiredForSegment partition_size segment_size ;;
  int32 n.

(** Partitioning.cpp:14-30; [std::abs] of the least int is undefined *)
Fixpoint find_nearest_from_int (lower : scheme) (rest : list scheme) (ir_num_samples : Z)
  : res scheme :=
  match rest with
  | [] => Ok lower
  | s :: t =>
      if ir_num_samples <? ps_ir s then
        dl <- int32 (ir_num_samples - ps_ir lower) ;;
        lower_dif <- int32 (Z.abs dl) ;;
        dh <- int32 (ir_num_samples - ps_ir s) ;;
        higher_dif <- int32 (Z.abs dh) ;;
        Ok (if higher_dif <? lower_dif then s else lower)
      else find_nearest_from_int s t ir_num_samples
  end.
(** Partitioning.cpp:5-31 *)
Definition FindNearestPartitionScheme_int (results : list scheme) (ir_num_samples : Z)
  : res scheme :=
  match sort_schemes results with
  | [] => Undef
  | s :: t => find_nearest_from_int s t ir_num_samples
  end.

(** Partitioning.cpp:39-48 *)
Definition ExtendSchemeToFitIR_int (l : list layout) (sample_difference block_size : Z)
  : res (list layout) :=
  last_partition <- back l ;;
  last_partition_size_samples <- int32 (block_size * pl_size last_partition) ;;
  _ <- assert (0 <? last_partition_size_samples) ;;
  num_partitions_to_add <-
    int32 (f_ceil (f_div (f_of_Z sample_difference) (f_of_Z last_partition_size_samples))) ;;
  num <- int32 (pl_num last_partition + num_partitions_to_add) ;;
  Ok (set_back l {| pl_size := pl_size last_partition; pl_num := num |}).

(** Partitioning.cpp:50-72 *)
Fixpoint reduce_scheme_int (fuel : nat) (l : list layout) (sample_difference block_size : Z)
  : res (list layout) :=
  match fuel with
  | O => Diverge
  | S fuel' =>
      remaining_samples_to_remove <- int32 (Z.abs sample_difference) ;;
      last_partition <- back l ;;
      num_samples_in_last_partition <- GetSubConvolverSizeSamples_int last_partition block_size ;;
      if remaining_samples_to_remove <? num_samples_in_last_partition then
        last_partition_size_samples <- int32 (block_size * pl_size last_partition) ;;
        _ <- assert (0 <? last_partition_size_samples) ;;
        num_partitions_to_remove <-
          int32 (f_floor (f_div (f_of_Z remaining_samples_to_remove)
                                (f_of_Z last_partition_size_samples))) ;;
        num <- int32 (pl_num last_partition - num_partitions_to_remove) ;;
        Ok (set_back l {| pl_size := pl_size last_partition; pl_num := num |})
      else
        d <- int32 (remaining_samples_to_remove - num_samples_in_last_partition) ;;
        reduce_scheme_int fuel' (removelast l) d block_size
  end.
(** Partitioning.cpp:50-72 *)
Definition ReduceSchemeToFitIR_int (l : list layout) (sample_difference block_size : Z)
  : res (list layout) := reduce_scheme_int (S (length l)) l sample_difference block_size.

(** Partitioning.cpp:96 *)
Definition bump_front_int (l : list layout) : res (list layout) :=
  match l with
  | [] => Undef
  | a :: t => num <- int32 (pl_num a + 1) ;; Ok ({| pl_size := pl_size a; pl_num := num |} :: t)
  end.

(** Partitioning.cpp:74-98 *)
Definition GetPartitionScheme_int (garcia_results : list (Z * list scheme))
           (block_size ir_num_samples : Z) : res (list layout) :=
  match find_results garcia_results block_size with
  | None =>
      n <- GetNumPartitionsRequiredForSegment_int block_size ir_num_samples ;;
      Ok [ {| pl_size := 1; pl_num := n |} ]
  | Some results =>
      nearest <- FindNearestPartitionScheme_int results ir_num_samples ;;
      sample_difference <- int32 (ir_num_samples - ps_ir nearest) ;;
      l <- (if 0 <? sample_difference
            then ExtendSchemeToFitIR_int (ps_layout nearest) sample_difference block_size
            else ReduceSchemeToFitIR_int (ps_layout nearest) sample_difference block_size) ;;
      bump_front_int l
  end.

(** [for (auto i = 0; i < n; ++i)] over a body that only computes integers; the counter is an
    int as well, and so is its last value [n]. *)
Definition for_int (n : Z) (body : Z -> res unit) : res unit :=
  _ <- int32 n ;;
  fold_left (fun acc i => _ <- acc ;; _ <- int32 (Z.of_nat i) ;; body (Z.of_nat i))
            (seq 0 (Z.to_nat n)) (Ok tt).

(** the partitions of a segment, TimeDistributedUPCMulti.cpp:38-45 and
    UniformPartitionedConvolver.cpp:20-29: their number *)
Definition partition_ints (partition_size segment_size : Z) : res Z :=
  num_partitions <- GetNumPartitionsRequiredForSegment_int partition_size segment_size ;;
  _ <- for_int num_partitions (fun partition_index =>
         offset <- int32 (partition_index * partition_size) ;;
         _ <- int32 (segment_size - offset) ;;
         Ok tt) ;;
  Ok num_partitions.

(** UniformPartitionedConvolver.cpp:9-29: the number of partitions.  [juce::nextPowerOfTwo]
    of a power of two is that power, which the caller guarantees. *)
Definition upc_make_int (block_size segment_size : Z) : res Z :=
  fft_size <- int32 (block_size * 2) ;;
  _ <- int32 (fft_size - block_size) ;;
  partition_ints block_size segment_size.

(** TimeDistributedUPC.cpp:18-22: the product is unsigned; the cast back to int must not change
    its value *)
Definition td_make_int (block_size partition_size_blocks : Z) : res Z :=
  partition_size_samples <- int32 ((block_size * partition_size_blocks) mod 2 ^ 32) ;;
  int32 (2 * partition_size_samples).

(** TimeDistributedUPCMulti.cpp:60-76: one group of channels *)
Definition group_ints (block_size partition_size_blocks channel_offset power_of_2 : Z)
  : res unit :=
  let num_decompositions := Z.max 0 (Z.log2 (partition_size_blocks / 2) - Z.log2 power_of_2) in
  nd1 <- int32 (num_decompositions + 1) ;;
  channel_phase_size <- int32 (2 ^ nd1) ;;
  for_int power_of_2 (fun channel_index =>
    _ <- int32 (channel_index * channel_phase_size) ;;
    _ <- int32 (channel_index + channel_offset) ;;
    _ <- td_make_int block_size partition_size_blocks ;;
    Ok tt).
(** TimeDistributedUPCMulti.cpp:17-23 and 57-77.  The groups: repeatedly the largest power of
    two that fits. *)
Fixpoint groups_ints (fuel : nat) (block_size partition_size_blocks channel_offset n : Z)
  : res unit :=
  if 0 <? n then
    match fuel with
    | O => Diverge
    | S fuel' =>
        largest <- int32 (2 ^ Z.log2 n) ;;
        n' <- int32 (n - largest) ;;
        _ <- group_ints block_size partition_size_blocks channel_offset largest ;;
        channel_offset' <- int32 (channel_offset + largest) ;;
        groups_ints fuel' block_size partition_size_blocks channel_offset' n'
    end
  else Ok tt.

(** TimeDistributedUPCMulti.cpp:28-78 *)
Definition multi_make_int (num_channels block_size partition_size_blocks segment_size : Z)
  : res Z :=
  partition_size_samples <- int32 (partition_size_blocks * block_size) ;;
  _ <- int32 (2 * partition_size_samples) ;;
  n <- partition_ints partition_size_samples segment_size ;;
  _ <- groups_ints (Z.to_nat num_channels) block_size partition_size_blocks 0 num_channels ;;
  Ok n.

(** TimeDistributedNUPC.cpp:26-38: for each sub-convolver the number of its partitions and its
    delay *)
Fixpoint nupc_subs_int (num_channels block_size ir_num_samples offset : Z) (l : list layout)
  : res (list (Z * Z)) :=
  match l with
  | [] => Ok []
  | a :: t =>
      tdupc_size <- GetSubConvolverSizeSamples_int a block_size ;;
      rest <- int32 (ir_num_samples - offset) ;;
      partition_size <- int32 (pl_size a * block_size) ;;
      n <- multi_make_int num_channels block_size (pl_size a) (Z.min tdupc_size rest) ;;
      twice <- int32 (2 * partition_size) ;;
      d <- int32 (offset - twice) ;;
      sub_convolver_delay <- int32 (d + block_size) ;;
      offset' <- int32 (offset + tdupc_size) ;;
      r <- nupc_subs_int num_channels block_size ir_num_samples offset' t ;;
      Ok ((n, sub_convolver_delay) :: r)
  end.

(** TimeDistributedNUPC.cpp:5-48: the number of partitions of the uniform convolver, and those
    of the sub-convolvers with their delays *)
Definition nupc_make_int (num_channels block_size ir_num_samples : Z) : res (Z * list (Z * Z)) :=
  scheme <- GetPartitionScheme_int kGarciaResults block_size ir_num_samples ;;
  match scheme with
  | [] => Undef
  | upc_layout :: rest =>
      upc_size <- GetSubConvolverSizeSamples_int upc_layout block_size ;;
      let offset := Z.min upc_size ir_num_samples in
      u <- upc_make_int block_size offset ;;
      subs <- nupc_subs_int num_channels block_size ir_num_samples offset rest ;;
      Ok (u, subs)
  end.

(** TimeDistributedUPC.cpp:33-118: the integers of one block, for a convolver of
    [partition_size_blocks] blocks in phase [phase].  [phase_ * block_size] is computed in
    std::size_t (block_size is one), and so is the position of a sample; both are then indices
    below [partition_size_samples], and line 111 casts the position back to int. *)
Definition td_process_int (block_size partition_size_blocks transform_offset num_decompositions
                           phase : Z) : res Z :=
  fft_num_points <- td_make_int block_size partition_size_blocks ;;
  num_ffts <- int32 (2 ^ num_decompositions) ;;
  num_active_phases <- int32 (num_ffts * 2) ;;
  let sub_fft_size := fft_num_points / num_ffts in
  let half_sub_fft_size := sub_fft_size / 2 in
  last_phase <- int32 (transform_offset + num_active_phases) ;;
  _ <- (if (transform_offset <=? phase) && (phase <? last_phase) then
          working_phase <- int32 (phase - transform_offset) ;;
          offset <- int32 (working_phase * half_sub_fft_size) ;;
          _ <- (if working_phase mod 2 =? 0
                then for_int sub_fft_size (fun point => _ <- int32 (offset + point) ;; Ok tt)
                else w <- int32 (working_phase - 1) ;;
                     _ <- int32 (w / 2 * sub_fft_size) ;; Ok tt) ;;
          for_int half_sub_fft_size (fun point => _ <- int32 (offset + point) ;; Ok tt)
        else Ok tt) ;;
  _ <- for_int block_size (fun sample =>
         stage_offset <- int32 ((phase * block_size + sample) mod 2 ^ 64) ;;
         _ <- int32 (stage_offset + fft_num_points / 2) ;; Ok tt) ;;
  next <- int32 (phase + 1) ;;
  Ok (next mod partition_size_blocks).
