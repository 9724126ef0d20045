(** * zones_convolver/util/CircularBuffer.h and .cpp

    CircularBuffer.h:16-18: the state is the head position; the buffer it refers to
    belongs to the owner and only its number of samples matters here. *)
From Verif.Model Require Import Base Arith Juce SplitBlock.

(** CircularBuffer.cpp:10-21: GetNext (advancement) *)
Definition cbuf_advance (buffer_samples head advancement : nat) : res (nat * split) :=
  head' <- umod (head + advancement) buffer_samples ;;
  let first_samples := buffer_samples - head' in
  let wrapped_samples := buffer_samples - first_samples in
  let block := {| v_start := 0; v_len := buffer_samples |} in
  v1 <- view_sub block head' first_samples ;;
  v2 <- view_sub block 0 wrapped_samples ;;
  Ok (head', {| sb_first := v1; sb_wrapped := v2 |}).

(** CircularBuffer.cpp:23-40: GetNext (delay, advance) *)
Definition cbuf_next (buffer_samples head delay : nat) (advance : bool) : res (nat * split) :=
  next_head <- umod (head + delay) buffer_samples ;;
  let first_samples := buffer_samples - next_head in
  let wrapped_samples := buffer_samples - first_samples in
  let head' := if advance then next_head else head in
  let block := {| v_start := 0; v_len := buffer_samples |} in
  v1 <- (if 0 <? first_samples then view_sub block next_head first_samples else Ok empty_view) ;;
  v2 <- (if 0 <? wrapped_samples then view_sub block 0 wrapped_samples else Ok empty_view) ;;
  Ok (head', {| sb_first := v1; sb_wrapped := v2 |}).
