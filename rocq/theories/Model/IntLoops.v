(** * The C++ [int] arithmetic of a call of Process, and of the transforms

    As in Model/IntArith.v: no samples, only the integers, and every C++ [int] operation checked.  Operations on std::size_t
    (the positions inside a segment, FFTDecomposition.cpp:16-19) are not [int] operations and do not appear. *)
From Verif.Model Require Import Base IntArith.
Local Open Scope Z_scope.

(** FrequencyDelayLine.cpp:18-28: the next head.  [%] truncates towards zero. *)
Definition fdl_next_int (head num_blocks : Z) : res Z :=
  a <- int32 (head - 1) ;;
  _ <- assert (negb (num_blocks =? 0)) ;;
  sum <- int32 (num_blocks + Z.rem a num_blocks) ;;
  Ok (Z.rem sum num_blocks).

(** UniformPartitionedConvolver.cpp:63-121, one round; the state is num_samples_collected_, the head of the delay line and
    num_samples_processed. *)
Definition upc_round_int (partition_size num_samples_to_discard num_partitions block_size : Z)
           (st : Z * Z * Z) : res (Z * Z * Z) :=
  let '(collected, head, processed) := st in
  head <- (if collected =? 0 then
             head <- fdl_next_int head num_partitions ;;
             _ <- for_int num_partitions (fun _ => Ok tt) ;;
             Ok head
           else Ok head) ;;
  rest <- int32 (block_size - processed) ;;
  room <- int32 (partition_size - collected) ;;
  let todo := Z.min rest room in
  _ <- int32 (num_samples_to_discard + collected) ;;
  processed <- int32 (processed + todo) ;;
  sum <- int32 (collected + todo) ;;
  _ <- assert (negb (partition_size =? 0)) ;;
  Ok (Z.rem sum partition_size, head, processed).
(** UniformPartitionedConvolver.cpp:54-122; line 60 converts the number of samples to int *)
Definition upc_process_int (partition_size num_samples_to_discard num_partitions block_size : Z)
           (st : Z * Z) : res (Z * Z) :=
  _ <- int32 block_size ;;
  ' (collected, head, _) <-
    while_ (Z.to_nat block_size) (fun s => snd s <? block_size)
           (upc_round_int partition_size num_samples_to_discard num_partitions block_size)
           (fst st, snd st, 0) ;;
  Ok (collected, head).

(** TimeDistributedNUPC.cpp:60-107, one round; the state is num_samples_collected_, the state of the uniform convolver and
    num_samples_processed. *)
Definition nupc_round_int (max_block_size num_samples_to_discard num_partitions num_tdupc block_size : Z)
           (st : Z * (Z * Z) * Z) : res (Z * (Z * Z) * Z) :=
  let '(collected, u, processed) := st in
  rest <- int32 (block_size - processed) ;;
  room <- int32 (max_block_size - collected) ;;
  let todo := Z.min rest room in
  sum <- int32 (collected + todo) ;;
  _ <- assert (negb (max_block_size =? 0)) ;;
  let fill := Z.rem sum max_block_size in
  _ <- (if (0 <? num_tdupc) && (fill =? 0) then for_int num_tdupc (fun _ => Ok tt) else Ok tt) ;;
  u <- upc_process_int max_block_size num_samples_to_discard num_partitions todo u ;;
  _ <- (if 0 <? num_tdupc then
          _ <- int32 (collected + (if fill =? 0 then 0 else max_block_size)) ;; Ok tt
        else Ok tt) ;;
  processed <- int32 (processed + todo) ;;
  Ok (fill, u, processed).
(** TimeDistributedNUPC.cpp:50-108 *)
Definition nupc_process_int (max_block_size num_samples_to_discard num_partitions num_tdupc block_size : Z)
           (st : Z * (Z * Z)) : res (Z * (Z * Z)) :=
  _ <- int32 block_size ;;
  ' (collected, u, _) <-
    while_ (Z.to_nat block_size) (fun s => snd s <? block_size)
           (nupc_round_int max_block_size num_samples_to_discard num_partitions num_tdupc block_size)
           (fst st, snd st, 0) ;;
  Ok (collected, u).

(** Convolver.cpp:57-91, one round *)
Definition conv_round_int (num_channels max_block_size num_samples_to_discard num_partitions num_tdupc block_size : Z)
           (st : Z * (Z * Z) * Z) : res (Z * (Z * Z) * Z) :=
  let '(collected, u, processed) := st in
  rest <- int32 (block_size - processed) ;;
  let todo := Z.min rest max_block_size in
  _ <- for_int num_channels (fun _ => Ok tt) ;;
  n <- nupc_process_int max_block_size num_samples_to_discard num_partitions num_tdupc todo (collected, u) ;;
  processed <- int32 (processed + todo) ;;
  Ok (fst n, snd n, processed).
(** Convolver.cpp:49-92 *)
Definition conv_process_int (num_channels max_block_size num_samples_to_discard num_partitions num_tdupc block_size : Z)
           (st : Z * (Z * Z)) : res (Z * (Z * Z)) :=
  _ <- int32 block_size ;;
  ' (collected, u, _) <-
    while_ (Z.to_nat block_size) (fun s => snd s <? block_size)
           (conv_round_int num_channels max_block_size num_samples_to_discard num_partitions num_tdupc block_size)
           (fst st, snd st, 0) ;;
  Ok (collected, u).

(** FFT.cpp:9-30 and 38-59: one depth of ForwardFFTUnordered or InverseFFTUnordered.  num_points and num_groups are
    std::size_t, the loop counters are int. *)
Definition fft_level_int (num_points depth : Z) : res unit :=
  num_elements_in_group <- int32 (2 ^ depth) ;;
  _ <- assert (negb (num_elements_in_group =? 0)) ;;
  let num_groups := num_points / num_elements_in_group in
  let half_num_elements_in_group := num_elements_in_group / 2 in
  for_int num_groups (fun group_index =>
    _ <- int32 (group_index * num_elements_in_group) ;;
    for_int half_num_elements_in_group (fun element_index =>
      _ <- int32 (element_index + half_num_elements_in_group) ;; Ok tt)).
(** FFT.cpp:5-32 and 34-61: the depths from 1 to log2 (num_points), in either order *)
Definition fft_int (num_points : Z) : res unit :=
  for_int (Z.log2 num_points) (fun i => depth <- int32 (i + 1) ;; fft_level_int num_points depth).

(** DecompositionSchedule.cpp:41-59 with FFTDecomposition.cpp:23: the counter of the segments is an int *)
Definition forward_schedule_int (num_decompositions num_blocks phase : Z) : res unit :=
  for_int num_decompositions (fun decomposition_level =>
    num_segments <- int32 (2 ^ decomposition_level) ;;
    _ <- assert (negb (num_segments =? 0)) ;;
    let num_steps := num_blocks / num_segments in
    first <- int32 (num_blocks - num_steps) ;;
    if first <=? phase then
      _ <- assert (negb (num_steps =? 0)) ;;
      for_int num_segments (fun _ => Ok tt)
    else Ok tt).
(** DecompositionSchedule.cpp:61-76 with FFTDecomposition.cpp:57 *)
Definition inverse_schedule_int (num_decompositions num_blocks phase : Z) : res unit :=
  _ <- int32 (num_decompositions - 1) ;;
  for_int num_decompositions (fun decomposition_level =>
    num_segments <- int32 (2 ^ decomposition_level) ;;
    _ <- assert (negb (num_segments =? 0)) ;;
    let num_steps := num_blocks / num_segments in
    if phase <? num_steps then for_int num_segments (fun _ => Ok tt) else Ok tt).

(** What TimeDistributedUPC.cpp:33-118 calls in one block: the next block of the delay line (line 40), the two schedules
    (lines 53, 102), in the active phases one transform (lines 71, 97) and the loop over the partitions (line 81).
    DecompositionSchedule.cpp:16-33: the stages. *)
Definition td_calls_int (fft_num_points num_phases transform_offset num_decompositions num_partitions
                         stage_head fdl_head phase : Z) : res (Z * Z) :=
  heads <- (if phase =? 0 then
              s <- int32 (stage_head + 1) ;;
              h <- fdl_next_int fdl_head num_partitions ;;
              Ok (Z.rem s 3, h)
            else Ok (stage_head, fdl_head)) ;;
  _ <- for_int 3 (fun stage => d <- int32 (stage - fst heads) ;; _ <- int32 (d + 3) ;; Ok tt) ;;
  _ <- forward_schedule_int num_decompositions num_phases phase ;;
  num_ffts <- int32 (2 ^ num_decompositions) ;;
  num_active_phases <- int32 (num_ffts * 2) ;;
  _ <- (if (transform_offset <=? phase) && (phase <? transform_offset + num_active_phases) then
          _ <- fft_int (fft_num_points / num_ffts) ;;
          for_int num_partitions (fun _ => Ok tt)
        else Ok tt) ;;
  _ <- inverse_schedule_int num_decompositions num_phases phase ;;
  Ok heads.
