(** * zones_convolver/UniformPartitionedConvolver.h and .cpp *)
From Verif.Model Require Import Base Arith Juce ComplexBuffer FrequencyDelayLine SplitBlock
     CircularBuffer Partitioning.

Section UPC.
  Context {A : arith} (R : rfft A).

  (** ComplexBuffer.cpp:91-95: GetContinuousBlock, the channels seen as floats ... *)
  Definition cb_block (b : cbuf A) : audio A := map flat (cb_data b).
  (** ... and the buffer after its floats have been overwritten through that block. *)
  (** ComplexBuffer.cpp:91-95 *)
  Definition cb_set_block (b : cbuf A) (blk : audio A) : cbuf A :=
    {| cb_points := cb_points b; cb_data := map pairs blk |}.

  (** An in-place transform of channel [c] of a block of floats. *)
  (** (UniformPartitionedConvolver.cpp: calls of fft_ on one channel) *)
  Definition blk_transform (f : list (sample A) -> list (sample A)) (blk : audio A) (c : nat)
    : res (audio A) :=
    x <- get blk c ;; set blk c (f x).

  (** UniformPartitionedConvolver.h:19-31.  [fft_] is the oracle [R] at size
      [2^u_order]; circular_buffer_ refers to saved_inputs_ and its state is its head. *)
  Record upc : Type := {
    u_fft_size : nat;
    u_order : nat;
    u_discard : nat;
    u_collected : nat;
    u_partition : nat;
    u_fdl : fdl A;
    u_conv : cbuf A;       (* fdl_convolved_output_ *)
    u_ifft : cbuf A;
    u_filters : list (cbuf A);
    u_saved : audio A;
    u_head : nat
  }.

  (** UniformPartitionedConvolver.cpp:124-133 *)
  Definition upc_reset (u : upc) : upc :=
    {| u_fft_size := u_fft_size u; u_order := u_order u; u_discard := u_discard u;
       u_collected := 0; u_partition := u_partition u;
       u_fdl := fdl_clear (u_fdl u); u_conv := cb_clear (u_conv u);
       u_ifft := cb_clear (u_ifft u); u_filters := u_filters u;
       u_saved := audio_clear (u_saved u); u_head := u_head u |}.

  (** UniformPartitionedConvolver.cpp:27-43: one filter partition *)
  Definition upc_filter (num_channels fft_size order partition_size : nat) (ir : audio A)
             (partition_index : nat) : res (cbuf A) :=
    let ir_num_samples := num_samples ir in
    let partition_offset := partition_index * partition_size in
    rest <- usub ir_num_samples partition_offset ;;
    let partition_length := Nat.min partition_size rest in
    partition_block <- blk_sub ir partition_offset partition_length ;;
    let filter_partition := cb_clear (cb_make fft_size num_channels) in
    blk <- for_n num_channels (fun channel blk =>
      ir_channel <- umod channel (length ir) ;;
      src <- get partition_block ir_channel ;;
      dst <- get blk channel ;;
      dst' <- chan_apply f_copy 0 (firstn (length dst) src) dst ;;
      blk' <- set blk channel dst' ;;
      blk_transform (rfft_fwd R order) blk' channel) (cb_block filter_partition) ;;
    Ok (cb_set_block filter_partition blk).

  (** UniformPartitionedConvolver.cpp:5-52.  spec.maximumBlockSize is [partition_size]. *)
  Definition upc_make (num_channels partition_size : nat) (ir : audio A) : res upc :=
    _ <- assert (0 <? partition_size) ;;
    let fft_size := next_pow2 (partition_size * 2) in
    let order := Nat.log2 fft_size in
    n <- GetNumPartitionsRequiredForSegment (Z.of_nat partition_size)
                                            (Z.of_nat (num_samples ir)) ;;
    let num_partitions := Z.to_nat n in
    filters <- mapM (upc_filter num_channels fft_size order partition_size ir)
                    (seq 0 num_partitions) ;;
    Ok (upc_reset {|
      u_fft_size := fft_size; u_order := order; u_discard := fft_size - partition_size;
      u_collected := 0; u_partition := partition_size;
      u_fdl := fdl_make num_channels num_partitions fft_size;
      u_conv := cb_make fft_size num_channels; u_ifft := cb_make fft_size num_channels;
      u_filters := filters; u_saved := zeros num_channels fft_size; u_head := 0 |}).

  (** UniformPartitionedConvolver.cpp:65-83: what happens at the start of a partition *)
  Definition upc_begin_partition (u : upc) : res upc :=
    f <- fdl_next (u_fdl u) ;;
    let conv := cb_clear (u_conv u) in
    conv <- for_from 1 (length (u_filters u) - 1) (fun partition_index conv =>
      previous_fdl_block <- fdl_get f partition_index ;;
      partition <- get (u_filters u) partition_index ;;
      cb_multiply_accumulate_from conv previous_fdl_block partition) conv ;;
    ' (head, _) <- cbuf_next (num_samples (u_saved u)) (u_head u) (u_partition u) true ;;
    Ok {| u_fft_size := u_fft_size u; u_order := u_order u; u_discard := u_discard u;
          u_collected := u_collected u; u_partition := u_partition u;
          u_fdl := f; u_conv := conv; u_ifft := u_ifft u; u_filters := u_filters u;
          u_saved := u_saved u; u_head := head |}.

  (** UniformPartitionedConvolver.cpp:63-121: one round of the loop; the loop state is
      the convolver, the block being replaced and num_samples_processed. *)
  Definition upc_round (st : upc * audio A * nat) : res (upc * audio A * nat) :=
    let '(u, out, processed) := st in
    let num_channels := length out in
    let block_size := num_samples out in
    u <- (if u_collected u =? 0 then upc_begin_partition u else Ok u) ;;
    avail <- usub (u_partition u) (u_collected u) ;;
    let todo := Nat.min (block_size - processed) avail in
    (* lines 88-97 *)
    first <- fdl_get (u_fdl u) 0 ;;
    let first := cb_clear first in
    input <- blk_sub out processed todo ;;
    ' (_, sp) <- cbuf_next (num_samples (u_saved u)) (u_head u)
                           (u_discard u + u_collected u) false ;;
    saved <- sb_copy_from sp (u_saved u) input ;;
    ' (_, sp) <- cbuf_next (num_samples saved) (u_head u) 0 false ;;
    blk <- sb_copy_to sp saved (cb_block first) ;;
    (* lines 99-101 *)
    blk <- for_n num_channels (fun c blk => blk_transform (rfft_fwd R (u_order u)) blk c) blk ;;
    let first := cb_set_block first blk in
    f <- fdl_put (u_fdl u) 0 first ;;
    (* lines 103-111 *)
    filter0 <- get (u_filters u) 0 ;;
    ifft <- cb_multiply_from (u_ifft u) first filter0 ;;
    ifft <- cb_add_from ifft (u_conv u) ;;
    blk <- for_n num_channels (fun c blk => blk_transform (rfft_inv R (u_order u)) blk c)
                 (cb_block ifft) ;;
    let ifft := cb_set_block ifft blk in
    (* lines 113-116 *)
    v <- view_sub (whole out) processed todo ;;
    result <- blk_sub blk (u_discard u + u_collected u) todo ;;
    out <- blk_copy_from v out result ;;
    (* lines 118-120 *)
    collected <- umod (u_collected u + todo) (u_partition u) ;;
    Ok ({| u_fft_size := u_fft_size u; u_order := u_order u; u_discard := u_discard u;
           u_collected := collected; u_partition := u_partition u;
           u_fdl := f; u_conv := u_conv u; u_ifft := ifft; u_filters := u_filters u;
           u_saved := saved; u_head := u_head u |}, out, processed + todo).

  (** UniformPartitionedConvolver.cpp:54-122.  Every round of a well-formed convolver
      handles at least one sample. *)
  Definition upc_process (u : upc) (out : audio A) : res (upc * audio A) :=
    ' (u, out, _) <- while_ (num_samples out)
                            (fun st => snd st <? num_samples (snd (fst st)))
                            upc_round (u, out, 0) ;;
    Ok (u, out).
End UPC.
Arguments upc : clear implicits.
