(** * zones_convolver/time_distributed/TimeDistributedUPCMulti.h and .cpp *)
From Verif.Model Require Import Base Arith Juce ComplexBuffer FFT Partitioning TimeDistributedUPC.

(** TimeDistributedUPCMulti.cpp:5-11; floor (log2 (n)) is the integer logarithm *)
Definition LargestPowerOf2In (n : nat) : nat := if n =? 0 then 0 else 2 ^ Nat.log2 n.

(** TimeDistributedUPCMulti.cpp:13-26; [fuel] bounds the rounds of the while loop *)
Fixpoint powers_loop (fuel n : nat) : res (list nat) :=
  if 0 <? n then
    match fuel with
    | 0 => Diverge
    | S fuel' =>
        let largest := LargestPowerOf2In n in
        rest <- powers_loop fuel' (n - largest) ;;
        Ok (largest :: rest)
    end
  else Ok [].
(** TimeDistributedUPCMulti.cpp:13-26 *)
Definition GetPowersOf2In (n : nat) : res (list nat) := powers_loop n n.

Section Multi.
  Context {A : arith}.

  (** TimeDistributedUPCMulti.h:18-19 *)
  Record multi : Type := { m_tdupcs : list (tdupc A); m_filters : list (cbuf A) }.

  (** TimeDistributedUPCMulti.cpp:43-54: one filter partition *)
  Definition multi_filter (partition_size_samples : nat) (ir_segment : audio A)
             (partition_index : nat) : res (cbuf A) :=
    let fft_num_points := 2 * partition_size_samples in
    let offset := partition_index * partition_size_samples in
    rest <- usub (num_samples ir_segment) offset ;;
    filter_partition_block <- blk_sub ir_segment offset (Nat.min partition_size_samples rest) ;;
    let filter_partition := cb_clear (cb_make fft_num_points (length ir_segment)) in
    filter_partition <- cb_copy_from_audio_block filter_partition filter_partition_block ;;
    for_n (length ir_segment) (fun channel flt =>
      ch <- cb_read flt channel ;;
      ch <- ForwardFFTUnordered fft_num_points ch ;;
      cb_write flt channel ch) filter_partition.

  (** TimeDistributedUPCMulti.cpp:60-63.  [log2 (0)] is -inf, whose conversion is
      undefined; truncating [log2 (h) - reduction] and taking the maximum with 0 is the
      truncated difference of the integer logarithms. *)
  Definition multi_nd (partition_size_blocks power_of_2 : nat) : res nat :=
    _ <- assert (0 <? partition_size_blocks / 2) ;;
    Ok (Nat.log2 (partition_size_blocks / 2) - Nat.log2 power_of_2).

  (** TimeDistributedUPCMulti.cpp:60-76: the convolvers of one group of channels *)
  Definition multi_group (max_block_size partition_size_blocks ir_num_channels : nat)
             (filters : list (cbuf A)) (channel_offset power_of_2 : nat) : res (list (tdupc A)) :=
    nd <- multi_nd partition_size_blocks power_of_2 ;;
    let channel_phase_size := 2 ^ (nd + 1) in
    mapM (fun channel_index =>
      transform_offset <- umod (channel_index * channel_phase_size) partition_size_blocks ;;
      filter_channel <- umod (channel_index + channel_offset) ir_num_channels ;;
      Ok (td_make max_block_size partition_size_blocks filters filter_channel
                  transform_offset nd)) (seq 0 power_of_2).

  (** TimeDistributedUPCMulti.cpp:57-77: the loop over the groups *)
  Fixpoint multi_groups (max_block_size partition_size_blocks ir_num_channels : nat)
           (filters : list (cbuf A)) (channel_offset : nat) (powers : list nat)
    : res (list (tdupc A)) :=
    match powers with
    | [] => Ok []
    | p :: t =>
        g <- multi_group max_block_size partition_size_blocks ir_num_channels filters
                         channel_offset p ;;
        r <- multi_groups max_block_size partition_size_blocks ir_num_channels filters
                          (channel_offset + p) t ;;
        Ok (g ++ r)
    end.

  (** TimeDistributedUPCMulti.cpp:28-78.  The cited order is kept: the filters are
      complete before the first convolver refers to them. *)
  Definition multi_make (num_channels max_block_size partition_size_blocks : nat)
             (ir_segment : audio A) : res multi :=
    let partition_size_samples := partition_size_blocks * max_block_size in
    n <- GetNumPartitionsRequiredForSegment (Z.of_nat partition_size_samples)
                                            (Z.of_nat (num_samples ir_segment)) ;;
    filters <- mapM (multi_filter partition_size_samples ir_segment) (seq 0 (Z.to_nat n)) ;;
    powers <- GetPowersOf2In num_channels ;;
    ts <- multi_groups max_block_size partition_size_blocks (length ir_segment) filters 0 powers ;;
    Ok {| m_tdupcs := ts; m_filters := filters |}.

  (** TimeDistributedUPCMulti.cpp:80-91 *)
  Definition multi_process (m : multi) (block : audio A) : res (multi * audio A) :=
    ' (ts, block) <- for_n (length block) (fun c st =>
        let '(ts, block) := st in
        x <- get block c ;;
        t <- get ts c ;;
        ' (t, y) <- td_process t x ;;
        ts <- set ts c t ;;
        block <- set block c y ;;
        Ok (ts, block)) (m_tdupcs m, block) ;;
    Ok ({| m_tdupcs := ts; m_filters := m_filters m |}, block).

  (** TimeDistributedUPCMulti.cpp:93-97 *)
  Definition multi_reset (m : multi) : multi :=
    {| m_tdupcs := map td_reset (m_tdupcs m); m_filters := m_filters m |}.
End Multi.
Arguments multi : clear implicits.
