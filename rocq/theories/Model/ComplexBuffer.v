(** * zones_convolver/util/ComplexBuffer.h and .cpp *)
From Verif.Model Require Import Base Arith Juce.

Section ComplexBuffer.
  Context {A : arith}.

  (** ComplexBuffer.h:28-32.  [num_points_] and the data, one list of points per
      channel.  Simplification: [channel_data_] is one flat vector of
      [num_points * num_channels] points of which channel [c] is the part starting
      at [c * num_points] (ComplexBuffer.cpp:9-11); the model keeps the parts as a
      list.  Pointer aliasing by the copy constructor is modelled separately in
      Model/ComplexBufferHeap.v. *)
  Record cbuf : Type := { cb_points : nat; cb_data : list (list (cplx A)) }.

  (** ComplexBuffer.cpp:5-12 *)
  Definition cb_make (num_points num_channels : nat) : cbuf :=
    {| cb_points := num_points; cb_data := repeat (repeat c0 num_points) num_channels |}.

  (** ComplexBuffer.cpp:14-22 *)
  Definition cb_num_channels (b : cbuf) : nat := length (cb_data b).
  (** ComplexBuffer.cpp:19-22 *)
  Definition cb_num_points (b : cbuf) : nat := cb_points b.

  (** ComplexBuffer.cpp:24-28 (GetReadPointer) *)
  Definition cb_read (b : cbuf) (channel : nat) : res (list (cplx A)) := get (cb_data b) channel.

  (** ComplexBuffer.cpp:30-34 (GetWritePointer), together with the effect [c] of the
      writes made through it. *)
  Definition cb_write (b : cbuf) (channel : nat) (c : list (cplx A)) : res cbuf :=
    d <- set (cb_data b) channel c ;;
    Ok {| cb_points := cb_points b; cb_data := d |}.

  (** ComplexBuffer.cpp:46-49, clearing the 2 * num_points floats of every channel
      (GetContinuousBlock, ComplexBuffer.cpp:91-95) *)
  Definition cb_clear (b : cbuf) : cbuf :=
    {| cb_points := cb_points b; cb_data := map (map (fun _ => c0)) (cb_data b) |}.

  (** the two jasserts, ComplexBuffer.cpp:53-54, 62-63, 71-72 *)
  Definition cb_same_dims (a b : cbuf) : bool :=
    (cb_num_channels a =? cb_num_channels b) && (cb_points a =? cb_points b).

  (** ComplexBuffer.cpp:51-58 *)
  Definition cb_multiply_from (self a b : cbuf) : res cbuf :=
    _ <- assert (cb_same_dims self a && cb_same_dims a b) ;;
    Ok {| cb_points := cb_points self; cb_data := zipw (zipw cmul) (cb_data a) (cb_data b) |}.

  (** ComplexBuffer.cpp:60-67 *)
  Definition cb_add_from (self b : cbuf) : res cbuf :=
    _ <- assert (cb_same_dims self b) ;;
    Ok {| cb_points := cb_points self; cb_data := zipw (zipw cadd) (cb_data self) (cb_data b) |}.

  (** ComplexBuffer.cpp:69-77 *)
  Definition cb_multiply_accumulate_from (self a b : cbuf) : res cbuf :=
    _ <- assert (cb_same_dims self a && cb_same_dims a b) ;;
    Ok {| cb_points := cb_points self;
          cb_data := zipw (zipw cadd) (cb_data self) (zipw (zipw cmul) (cb_data a) (cb_data b)) |}.

  (** ComplexBuffer.cpp:79-89 *)
  Definition cb_copy_from_audio_block (self : cbuf) (block : audio A) : res cbuf :=
    _ <- assert (cb_num_channels self =? length block) ;;
    let fill_points := Nat.min (cb_points self) (num_samples block) in
    for_n (cb_num_channels self) (fun channel self =>
      for_n fill_points (fun point self =>
        src <- get block channel ;;
        x <- get src point ;;
        c <- cb_read self channel ;;
        c' <- set c point (creal x) ;;
        cb_write self channel c') self) self.
End ComplexBuffer.
Arguments cbuf : clear implicits.
