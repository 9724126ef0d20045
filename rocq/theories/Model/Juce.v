(** * The parts of JUCE the library relies on

    JUCE is an external dependency (cmake/AddJuce.cmake:1-6, JUCE 8.0.3); its
    source is not in /repo.  The definitions below render its documented
    behaviour and belong to the trusted base. *)
From Verif.Model Require Import Base Arith.

(** No code of its own: the loops over samples inside [FloatVectorOperations]. *)
Fixpoint zipw {A B C} (f : A -> B -> C) (la : list A) (lb : list B) : list C :=
  match la, lb with
  | a :: ta, b :: tb => f a b :: zipw f ta tb
  | _, _ => []
  end.

(** [juce::isPowerOfTwo] for positive arguments. *)
Definition is_pow2 (n : nat) : bool := 2 ^ Nat.log2 n =? n.

(** [juce::nextPowerOfTwo (n)]: the least power of two >= n (n >= 1). *)
Definition next_pow2 (n : nat) : nat := 2 ^ Nat.log2_up n.

Section Blocks.
  Context {A : arith}.

  (** The samples of an [AudioBuffer<float>] / [AudioBlock<float>]: one list per
      channel.  (A block with no channels has no samples.) *)
  Definition audio : Type := list (list (sample A)).

  (** [AudioBlock::getNumSamples], [AudioBuffer::getNumSamples] *)
  Definition num_samples (b : audio) : nat :=
    match b with [] => 0 | c :: _ => length c end.

  (** [AudioBlock::getSubBlock (off, len)] read as a value; both asserts of the
      JUCE function are preconditions. *)
  Definition chan_sub (off len : nat) (c : list (sample A)) : res (list (sample A)) :=
    if off + len <=? length c then Ok (firstn len (skipn off c)) else Undef.
  (** (JUCE 8.0.3) *)
  Definition blk_sub (b : audio) (off len : nat) : res audio :=
    _ <- assert (off <? num_samples b) ;;
    mapM (chan_sub off len) b.

  (** A block that is a window [v_start, v_start + v_len) of a buffer. *)
  (** (JUCE 8.0.3: AudioBlock, the members startSample and numSamples) *)
  Record view : Type := { v_start : nat; v_len : nat }.
  (** [AudioBlock<float> ()]: the empty block *)
  Definition empty_view : view := {| v_start := 0; v_len := 0 |}.
  (** [AudioBlock::getSubBlock (off, len)] as a window *)
  Definition view_sub (v : view) (off len : nat) : res view :=
    _ <- assert (off <? v_len v) ;;
    _ <- assert (off + len <=? v_len v) ;;
    Ok {| v_start := v_start v + off; v_len := len |}.
  (** the samples seen through a window *)
  Definition view_read (v : view) (b : audio) : res audio :=
    mapM (chan_sub (v_start v) (v_len v)) b.

  (** Combine the samples of [src] into a channel from position [start] on. *)
  (** (JUCE 8.0.3: FloatVectorOperations::copy and ::add) *)
  Definition chan_apply (f : sample A -> sample A -> sample A) (start : nat)
             (src c : list (sample A)) : res (list (sample A)) :=
    if start + length src <=? length c
    then Ok (firstn start c ++ zipw f (firstn (length src) (skipn start c)) src
             ++ skipn (start + length src) c)
    else Undef.

  (** [AudioBlock::copyFrom] and [AudioBlock::add] on a window of [b]: act on the
      common channels and the common number of samples. *)
  Fixpoint blk_apply (f : sample A -> sample A -> sample A) (v : view) (b src : audio)
    : res audio :=
    match b, src with
    | c :: cs, s :: ss =>
        c' <- chan_apply f (v_start v) (firstn (v_len v) s) c ;;
        cs' <- blk_apply f v cs ss ;;
        Ok (c' :: cs')
    | _, _ => Ok b
    end.
  (** copying, as the operation that drops the old sample *)
  Definition f_copy (_ y : sample A) : sample A := y.
  (** [AudioBlock::copyFrom] *)
  Definition blk_copy_from := blk_apply f_copy.
  (** [AudioBlock::add] *)
  Definition blk_add := blk_apply (@sadd A).
  (** [AudioBlock::clear] on a window *)
  Definition blk_clear (v : view) (b : audio) : res audio :=
    blk_copy_from v b (map (fun _ => repeat s0 (v_len v)) b).
  (** The whole of a block as a window. *)
  (** [AudioBlock (AudioBuffer&)] *)
  Definition whole (b : audio) : view := {| v_start := 0; v_len := num_samples b |}.

  (** [AudioBuffer::setSize] followed by [clear] (every buffer of the library is
      cleared by the constructor's call to [Reset]). *)
  Definition zeros (channels samples : nat) : audio := repeat (repeat s0 samples) channels.
  (** [AudioBuffer::clear] *)
  Definition audio_clear (b : audio) : audio := map (map (fun _ => s0)) b.
End Blocks.
Arguments audio : clear implicits.

Section RealFFT.
  Context {A : arith}.

  (** [reinterpret_cast] between an array of complex numbers and an array of
      floats. *)
  (** (UniformPartitionedConvolver.cpp, ComplexBuffer.cpp:91-101) *)
  Definition flat (l : list (cplx A)) : list (sample A) :=
    flat_map (fun c => [fst c; snd c]) l.
  (** The inverse of [flat] (ComplexBuffer.cpp:91-101) *)
  Fixpoint pairs (l : list (sample A)) : list (cplx A) :=
    match l with
    | a :: b :: t => (a, b) :: pairs t
    | _ => []
    end.

  (** [juce::dsp::FFT]: [performRealOnlyForwardTransform (d, true)] and
      [performRealOnlyInverseTransform (d)] for a transform of size [2^order],
      both on an array of [2 * 2^order] floats, in place. *)
  Record rfft : Type := {
    rfft_fwd : nat -> list (sample A) -> list (sample A);
    rfft_inv : nat -> list (sample A) -> list (sample A)
  }.
End RealFFT.
Arguments rfft : clear implicits.
