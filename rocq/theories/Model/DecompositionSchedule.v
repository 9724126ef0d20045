(** * zones_convolver/util/DecompositionSchedule.h and .cpp *)
From Verif.Model Require Import Base Arith Juce ComplexBuffer FFTDecomposition.

Section DecompositionSchedule.
  Context {A : arith}.

  (** DecompositionSchedule.h:9-14, the enumerators kA = 0, kB = 1, kC = 2 *)
  Inductive stage_id : Type := kA | kB | kC.
  (** DecompositionSchedule.h:9-14 *)
  Definition stage_num (s : stage_id) : Z :=
    match s with kA => 0 | kB => 1 | kC => 2 end%Z.

  (** DecompositionSchedule.h:21-24 *)
  Record stages : Type := { st_head : Z; st_bufs : list (cbuf A) }.

  (** DecompositionSchedule.cpp:7-14 *)
  Definition st_make (num_points : nat) : stages :=
    {| st_head := 0%Z; st_bufs := map cb_clear (repeat (cb_make num_points 1) 3) |}.

  (** DecompositionSchedule.cpp:16-28.  C++ [%] truncates towards zero ([Z.rem]);
      a negative index is out of bounds. *)
  Definition st_index (s : stages) (id : stage_id) : res nat :=
    let i := Z.rem (stage_num id - st_head s + 3) 3 in
    if (i <? 0)%Z then Undef else Ok (Z.to_nat i).
  (** DecompositionSchedule.cpp:16-28 and ComplexBuffer read through the pointer it returns *)
  Definition st_get (s : stages) (id : stage_id) : res (cbuf A) :=
    i <- st_index s id ;; get (st_bufs s) i.
  (** writing through the pointer returned by GetStage *)
  (** (DecompositionSchedule.cpp:16-28) *)
  Definition st_put (s : stages) (id : stage_id) (b : cbuf A) : res stages :=
    i <- st_index s id ;;
    l <- set (st_bufs s) i b ;;
    Ok {| st_head := st_head s; st_bufs := l |}.

  (** DecompositionSchedule.cpp:30-33 *)
  Definition st_promote (s : stages) : stages :=
    {| st_head := Z.rem (st_head s + 1) 3; st_bufs := st_bufs s |}.

  (** DecompositionSchedule.cpp:35-39 *)
  Definition st_clear (s : stages) : stages :=
    {| st_head := st_head s; st_bufs := map cb_clear (st_bufs s) |}.

  (** DecompositionSchedule.cpp:41-59.  [std::pow (2, level)] converted to int is
      exact.  A zero [num_steps] makes [phase % num_steps] undefined, when reached. *)
  Definition ForwardDecompositionSchedule
             (num_decompositions fft_size num_blocks phase : nat) (data : list (cplx A))
    : res (list (cplx A)) :=
    for_n num_decompositions (fun level data =>
      let num_segments := 2 ^ level in
      let num_steps := num_blocks / num_segments in
      if num_blocks - num_steps <=? phase then
        relative_phase <- umod phase num_steps ;;
        SegmentedForwardDecompositionRadix2 fft_size num_segments num_steps relative_phase data
      else Ok data) data.

  (** DecompositionSchedule.cpp:61-76: level = num_decompositions - 1 .. 0 *)
  Definition InverseDecompositionSchedule
             (num_decompositions fft_size num_blocks phase : nat) (data : list (cplx A))
    : res (list (cplx A)) :=
    for_down num_decompositions (fun level1 data =>
      let level := level1 - 1 in
      let num_segments := 2 ^ level in
      let num_steps := num_blocks / num_segments in
      if phase <? num_steps then
        SegmentedInverseDecompositionRadix2 fft_size num_segments num_steps phase data
      else Ok data) data.
End DecompositionSchedule.
Arguments stages : clear implicits.
