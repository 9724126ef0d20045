(** * zones_convolver/time_distributed/TimeDistributedNUPC.h and .cpp *)
From Verif.Model Require Import Base Arith Juce ComplexBuffer SplitBlock CircularBuffer
     Partitioning PartitionSchemes UniformPartitionedConvolver TimeDistributedUPC
     TimeDistributedUPCMulti.

Section NUPC.
  Context {A : arith} (R : rfft A).

  (** TimeDistributedNUPC.h:21-33.  result_buffer_ refers to
      sub_convolver_delay_buffer_ ([n_ring]); its state is its head. *)
  Record nupc : Type := {
    n_upc : upc A;
    n_tdupcs : list (multi A);
    n_block : nat;              (* max_block_size_ *)
    n_collected : nat;
    n_saved : audio A;
    n_delays : list nat;
    n_proc : audio A;
    n_ring : audio A;
    n_head : nat
  }.

  (** TimeDistributedNUPC.cpp:110-119 *)
  Definition nupc_reset (n : nupc) : nupc :=
    {| n_upc := upc_reset (n_upc n); n_tdupcs := map multi_reset (n_tdupcs n);
       n_block := n_block n; n_collected := 0; n_saved := audio_clear (n_saved n);
       n_delays := n_delays n; n_proc := audio_clear (n_proc n);
       n_ring := audio_clear (n_ring n); n_head := n_head n |}.

  (** A C++ [int] used as a size or an index: negative values are undefined. *)
  (** (TimeDistributedNUPC.cpp:8-38) *)
  Definition nat_of (z : Z) : res nat := if (z <? 0)%Z then Undef else Ok (Z.to_nat z).

  (** TimeDistributedNUPC.cpp:26-38: the sub-convolvers of the remaining layout and
      their delays *)
  Fixpoint nupc_subs (num_channels block : nat) (ir : audio A) (offset : nat)
           (l : list layout) : res (list (multi A) * list nat) :=
    match l with
    | [] => Ok ([], [])
    | a :: t =>
        tdupc_size <- nat_of (pl_samples a (Z.of_nat block)) ;;
        psb <- nat_of (pl_size a) ;;
        rest <- usub (num_samples ir) offset ;;
        ir_segment <- blk_sub ir offset (Nat.min tdupc_size rest) ;;
        let partition_size := psb * block in
        m <- multi_make num_channels block psb ir_segment ;;
        sub_convolver_delay <- usub (offset + block) (2 * partition_size) ;;
        ' (ms, ds) <- nupc_subs num_channels block ir (offset + tdupc_size) t ;;
        Ok (m :: ms, sub_convolver_delay :: ds)
    end.

  (** TimeDistributedNUPC.cpp:5-48 *)
  Definition nupc_make (ir : audio A) (num_channels max_block_size : nat) : res nupc :=
    let ir_num_samples := num_samples ir in
    _ <- assert (0 <? ir_num_samples) ;;
    scheme <- GetPartitionScheme kGarciaResults (Z.of_nat max_block_size)
                                 (Z.of_nat ir_num_samples) ;;
    match scheme with
    | [] => Undef
    | upc_layout :: rest =>
        upc_size <- nat_of (pl_samples upc_layout (Z.of_nat max_block_size)) ;;
        let offset := Nat.min upc_size ir_num_samples in
        upc_ir_segment <- blk_sub ir 0 offset ;;
        u <- upc_make R num_channels max_block_size upc_ir_segment ;;
        ' (subs, delays) <- nupc_subs num_channels max_block_size ir offset rest ;;
        let n0 := match subs with [] => 0 | _ => max_block_size end in
        let r0 := match subs with [] => 0 | _ => last delays 0 end in
        Ok (nupc_reset {|
          n_upc := u; n_tdupcs := subs; n_block := max_block_size; n_collected := 0;
          n_saved := zeros num_channels n0; n_delays := delays;
          n_proc := zeros num_channels n0;
          n_ring := zeros num_channels r0; n_head := 0 |})
    end.

  (** TimeDistributedNUPC.cpp:74-82: the sub-convolvers on a complete block *)
  Fixpoint nupc_run_subs (ms : list (multi A)) (ds : list nat) (saved proc ring : audio A)
           (head : nat) : res (list (multi A) * audio A * audio A) :=
    match ms with
    | [] => Ok ([], proc, ring)
    | m :: ms' =>
        match ds with
        | [] => Undef
        | d :: ds' =>
            proc <- blk_copy_from (whole proc) proc saved ;;
            ' (m, proc) <- multi_process m proc ;;
            ' (_, delayed_block) <- cbuf_next (num_samples ring) head d false ;;
            ring <- sb_add_from delayed_block ring proc ;;
            ' (ms', proc, ring) <- nupc_run_subs ms' ds' saved proc ring head ;;
            Ok (m :: ms', proc, ring)
        end
    end.

  (** TimeDistributedNUPC.cpp:60-107: one round of the loop *)
  Definition nupc_round (st : nupc * audio A * nat) : res (nupc * audio A * nat) :=
    let '(n, out, processed) := st in
    let block_size := num_samples out in
    let B := n_block n in
    avail <- usub B (n_collected n) ;;
    let todo := Nat.min (block_size - processed) avail in
    v <- view_sub (whole out) processed todo ;;
    sub <- view_read v out ;;
    let has_subs := 0 <? length (n_tdupcs n) in
    fill <- umod (n_collected n + todo) B ;;
    (* lines 68-86 *)
    ' (ms, saved, proc, ring, head) <-
      (if has_subs then
         vs <- view_sub (whole (n_saved n)) (n_collected n)
                        (num_samples (n_saved n) - n_collected n) ;;
         saved <- blk_copy_from vs (n_saved n) sub ;;
         if fill =? 0 then
           ' (ms, proc, ring) <- nupc_run_subs (n_tdupcs n) (n_delays n) saved (n_proc n)
                                               (n_ring n) (n_head n) ;;
           ' (head, _) <- cbuf_next (num_samples ring) (n_head n) B true ;;
           Ok (ms, saved, proc, ring, head)
         else Ok (n_tdupcs n, saved, n_proc n, n_ring n, n_head n)
       else Ok (n_tdupcs n, n_saved n, n_proc n, n_ring n, n_head n)) ;;
    (* line 88 *)
    ' (u, sub) <- upc_process R (n_upc n) sub ;;
    (* lines 90-102 *)
    ' (ring, sub) <-
      (if has_subs then
         let result_delay := n_collected n + (if fill =? 0 then 0 else B) in
         ' (_, sp) <- cbuf_next (num_samples ring) head result_delay false ;;
         delayed_result <- sb_sub_block sp todo ;;
         sub <- sb_add_to delayed_result ring sub ;;
         ring <- sb_clear delayed_result ring ;;
         Ok (ring, sub)
       else Ok (ring, sub)) ;;
    out <- blk_copy_from v out sub ;;
    Ok ({| n_upc := u; n_tdupcs := ms; n_block := B; n_collected := fill; n_saved := saved;
           n_delays := n_delays n; n_proc := proc; n_ring := ring; n_head := head |},
        out, processed + todo).

  (** TimeDistributedNUPC.cpp:50-108 *)
  Definition nupc_process (n : nupc) (out : audio A) : res (nupc * audio A) :=
    ' (n, out, _) <- while_ (num_samples out)
                            (fun st => snd st <? num_samples (snd (fst st)))
                            nupc_round (n, out, 0) ;;
    Ok (n, out).
End NUPC.
Arguments nupc : clear implicits.
