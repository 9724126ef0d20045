(** * zones_convolver/time_distributed/TimeDistributedUPC.h and .cpp *)
From Verif.Model Require Import Base Arith Juce ComplexBuffer FFT FFTDecomposition
     DecompositionSchedule FrequencyDelayLine.

Section TDUPC.
  Context {A : arith}.

  (** TimeDistributedUPC.h:24-37.  [filter_partitions_] is a reference to a vector the
      owner never changes after construction; the model keeps its value.  The buffers
      have one channel; [t_tail] is the only channel of previous_tail_. *)
  Record tdupc : Type := {
    t_partition : nat;          (* partition_size_samples_ *)
    t_points : nat;             (* fft_num_points_ *)
    t_num_phases : nat;
    t_phase : nat;
    t_nd : nat;                 (* num_decompositions_ *)
    t_num_partitions : nat;
    t_offset : nat;             (* transform_offset_ *)
    t_filters : list (cbuf A);
    t_filter_channel : nat;
    t_fdl : fdl A;
    t_stages : stages A;
    t_tail : list (sample A)
  }.

  (** No code: assignment to the members Process changes (TimeDistributedUPC.cpp:41-118) *)
  Definition td_with (t : tdupc) (phase : nat) (f : fdl A) (s : stages A)
             (tail : list (sample A)) : tdupc :=
    {| t_partition := t_partition t; t_points := t_points t; t_num_phases := t_num_phases t;
       t_phase := phase; t_nd := t_nd t; t_num_partitions := t_num_partitions t;
       t_offset := t_offset t; t_filters := t_filters t;
       t_filter_channel := t_filter_channel t; t_fdl := f; t_stages := s; t_tail := tail |}.

  (** TimeDistributedUPC.cpp:120-125 *)
  Definition td_reset (t : tdupc) : tdupc :=
    td_with t (t_phase t) (fdl_clear (t_fdl t)) (st_clear (t_stages t))
            (map (fun _ => s0) (t_tail t)).

  (** TimeDistributedUPC.cpp:7-31 *)
  Definition td_make (max_block_size partition_size_blocks : nat) (filters : list (cbuf A))
             (filter_channel transform_offset num_decompositions : nat) : tdupc :=
    let partition_size_samples := max_block_size * partition_size_blocks in
    td_reset {|
      t_partition := partition_size_samples; t_points := 2 * partition_size_samples;
      t_num_phases := partition_size_blocks; t_phase := 0; t_nd := num_decompositions;
      t_num_partitions := length filters; t_offset := transform_offset; t_filters := filters;
      t_filter_channel := filter_channel;
      t_fdl := fdl_make 1 (length filters) (2 * partition_size_samples);
      t_stages := st_make (2 * partition_size_samples);
      t_tail := repeat s0 partition_size_samples |}.

  (** TimeDistributedUPC.cpp:35-42 *)
  Definition td_begin_partition (t : tdupc) : res tdupc :=
    let s := st_promote (t_stages t) in
    a <- st_get s kA ;;
    s <- st_put s kA (cb_clear a) ;;
    f <- fdl_next (t_fdl t) ;;
    first <- fdl_get f 0 ;;
    f <- fdl_put f 0 (cb_clear first) ;;
    Ok (td_with t (t_phase t) f s (t_tail t)).

  (** TimeDistributedUPC.cpp:49-51 *)
  Definition td_fill (phase : nat) (block : list (sample A)) (stage_a : list (cplx A))
    : res (list (cplx A)) :=
    for_n (length block) (fun i d =>
      x <- get block i ;; set d (phase * length block + i) (creal x)) stage_a.

  (** TimeDistributedUPC.cpp:74-78 *)
  Definition td_transfer (offset n : nat) (st : list (cplx A) * list (cplx A))
    : res (list (cplx A) * list (cplx A)) :=
    for_n n (fun i st =>
      let '(stage_b, first) := st in
      x <- get stage_b (offset + i) ;;
      first <- set first (offset + i) x ;;
      stage_b <- set stage_b (offset + i) c0 ;;
      Ok (stage_b, first)) st.

  (** TimeDistributedUPC.cpp:81-92 *)
  Definition td_multiply (t : tdupc) (f : fdl A) (offset n : nat) (stage_b : list (cplx A))
    : res (list (cplx A)) :=
    for_n (t_num_partitions t) (fun i stage_b =>
      blk <- fdl_get f i ;;
      fdl_block <- cb_read blk 0 ;;
      flt <- get (t_filters t) i ;;
      filter <- cb_read flt (t_filter_channel t) ;;
      for_n n (fun p stage_b =>
        b <- get stage_b (offset + p) ;;
        x <- get fdl_block (offset + p) ;;
        h <- get filter (offset + p) ;;
        set stage_b (offset + p) (cadd b (cmul x h))) stage_b) stage_b.

  (** TimeDistributedUPC.cpp:58-99: one sub-transform, in the active phases *)
  Definition td_active (t : tdupc) : bool :=
    (t_offset t <=? t_phase t) && (t_phase t <? t_offset t + 2 ^ t_nd t * 2).

  (** [fwd] and [inv] are the two transforms it calls *)
  (** TimeDistributedUPC.cpp:58-99. *)
  Definition td_sub_transform_with (fwd inv : nat -> list (cplx A) -> res (list (cplx A)))
             (t : tdupc) (f : fdl A) (stage_b : list (cplx A)) : res (fdl A * list (cplx A)) :=
    let num_ffts := 2 ^ t_nd t in
    let sub_fft_size := t_points t / num_ffts in
    let half_sub_fft_size := sub_fft_size / 2 in
    if td_active t then
      let working_phase := t_phase t - t_offset t in
      let offset := working_phase * half_sub_fft_size in
      ' (f, stage_b) <-
        (if working_phase mod 2 =? 0 then
           stage_b <- on_slice (fwd sub_fft_size) offset sub_fft_size stage_b ;;
           first <- fdl_get f 0 ;;
           ch <- cb_read first 0 ;;
           ' (stage_b, ch) <- td_transfer offset sub_fft_size (stage_b, ch) ;;
           first <- cb_write first 0 ch ;;
           f <- fdl_put f 0 first ;;
           Ok (f, stage_b)
         else Ok (f, stage_b)) ;;
      stage_b <- td_multiply t f offset half_sub_fft_size stage_b ;;
      stage_b <-
        (if negb (working_phase mod 2 =? 0) then
           on_slice (inv sub_fft_size) ((working_phase - 1) / 2 * sub_fft_size)
                    sub_fft_size stage_b
         else Ok stage_b) ;;
      Ok (f, stage_b)
    else Ok (f, stage_b).
  (** TimeDistributedUPC.cpp:58-99 *)
  Definition td_sub_transform := td_sub_transform_with ForwardFFTUnordered InverseFFTUnordered.

  (** TimeDistributedUPC.cpp:109-115 *)
  Definition td_output (t : tdupc) (stage_c : list (cplx A)) (tail block : list (sample A))
    : res (list (sample A) * list (sample A)) :=
    let block_size := length block in
    for_n block_size (fun i st =>
      let '(block, tail) := st in
      let stage_offset := t_phase t * block_size + i in
      c <- get stage_c stage_offset ;;
      p <- get tail stage_offset ;;
      block <- set block i (sadd (fst c) p) ;;
      c' <- get stage_c (stage_offset + t_partition t) ;;
      tail <- set tail stage_offset (fst c') ;;
      Ok (block, tail)) (block, tail).

  (** TimeDistributedUPC.cpp:33-118 on a block with one channel *)
  Definition td_process (t : tdupc) (block : list (sample A)) : res (tdupc * list (sample A)) :=
    t <- (if t_phase t =? 0 then td_begin_partition t else Ok t) ;;
    let s := t_stages t in
    (* lines 48-54 *)
    a <- st_get s kA ;;
    da <- cb_read a 0 ;;
    da <- td_fill (t_phase t) block da ;;
    da <- ForwardDecompositionSchedule (t_nd t) (t_points t) (t_num_phases t) (t_phase t) da ;;
    a <- cb_write a 0 da ;;
    s <- st_put s kA a ;;
    (* lines 56-99 *)
    b <- st_get s kB ;;
    db <- cb_read b 0 ;;
    ' (f, db) <- td_sub_transform t (t_fdl t) db ;;
    b <- cb_write b 0 db ;;
    s <- st_put s kB b ;;
    (* lines 101-103 *)
    c <- st_get s kC ;;
    dc <- cb_read c 0 ;;
    dc <- InverseDecompositionSchedule (t_nd t) (t_points t) (t_num_phases t) (t_phase t) dc ;;
    c <- cb_write c 0 dc ;;
    s <- st_put s kC c ;;
    (* lines 105-117 *)
    ' (block, tail) <- td_output t dc (t_tail t) block ;;
    phase <- umod (t_phase t + 1) (t_num_phases t) ;;
    Ok (td_with t phase f s tail, block).
End TDUPC.
Arguments tdupc : clear implicits.
