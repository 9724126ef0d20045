(** * zones_convolver/util/FrequencyDelayLine.h and .cpp *)
From Verif.Model Require Import Base Arith Juce ComplexBuffer.

Section FrequencyDelayLine.
  Context {A : arith}.

  (** FrequencyDelayLine.h:21-24 *)
  Record fdl : Type := { fdl_blocks : list (cbuf A); fdl_head : nat; fdl_num_blocks : nat }.

  (** FrequencyDelayLine.cpp:5-16 *)
  Definition fdl_make (num_channels num_blocks num_points_per_block : nat) : fdl :=
    {| fdl_blocks := repeat (cb_clear (cb_make num_points_per_block num_channels)) num_blocks;
       fdl_head := 0; fdl_num_blocks := num_blocks |}.

  (** FrequencyDelayLine.cpp:18-21; [int] remainder truncates towards zero and is
      undefined for b = 0; the conversion of a negative result to size_t wraps, which
      would make the following index out of range. *)
  Definition reverse_wrap (a b : Z) : res nat :=
    if (b =? 0)%Z then Undef
    else let r := Z.rem (b + Z.rem a b) b in
         if (r <? 0)%Z then Undef else Ok (Z.to_nat r).

  (** FrequencyDelayLine.cpp:23-28 (the reference returned is the block at the head) *)
  Definition fdl_next (f : fdl) : res fdl :=
    h <- reverse_wrap (Z.of_nat (fdl_head f) - 1) (Z.of_nat (fdl_num_blocks f)) ;;
    _ <- assert (h <? length (fdl_blocks f)) ;;
    Ok {| fdl_blocks := fdl_blocks f; fdl_head := h; fdl_num_blocks := fdl_num_blocks f |}.

  (** FrequencyDelayLine.cpp:30-33 *)
  Definition fdl_index (f : fdl) (offset : nat) : res nat :=
    umod (fdl_head f + offset) (fdl_num_blocks f).
  (** FrequencyDelayLine.cpp:30-33 *)
  Definition fdl_get (f : fdl) (offset : nat) : res (cbuf A) :=
    i <- fdl_index f offset ;; get (fdl_blocks f) i.
  (** writing through the reference returned by GetBlockWithOffset *)
  (** (FrequencyDelayLine.cpp:30-33) *)
  Definition fdl_put (f : fdl) (offset : nat) (b : cbuf A) : res fdl :=
    i <- fdl_index f offset ;;
    l <- set (fdl_blocks f) i b ;;
    Ok {| fdl_blocks := l; fdl_head := fdl_head f; fdl_num_blocks := fdl_num_blocks f |}.

  (** FrequencyDelayLine.cpp:35-39 *)
  Definition fdl_clear (f : fdl) : fdl :=
    {| fdl_blocks := map cb_clear (fdl_blocks f); fdl_head := fdl_head f;
       fdl_num_blocks := fdl_num_blocks f |}.
End FrequencyDelayLine.
Arguments fdl : clear implicits.
