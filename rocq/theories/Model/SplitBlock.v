(** * zones_convolver/util/SplitBlock.h and .cpp

    A split block is a pair of windows of one buffer [buf]. *)
From Verif.Model Require Import Base Arith Juce.

Section SplitBlock.
  Context {A : arith}.

  (** SplitBlock.h:22-26; total_num_samples_ is the sum (SplitBlock.cpp:10) *)
  Record split : Type := { sb_first : view; sb_wrapped : view }.
  (** SplitBlock.cpp:10 (total_num_samples_) *)
  Definition sb_total (s : split) : nat := v_len (sb_first s) + v_len (sb_wrapped s).

  (** SplitBlock.cpp:13-24 (CopyFrom) and 26-36 (AddFrom) *)
  Definition sb_apply (f : sample A -> sample A -> sample A) (s : split) (buf block : audio A)
    : res (audio A) :=
    let n := num_samples block in
    let first_samples := Nat.min n (v_len (sb_first s)) in
    let remaining_samples := n - first_samples in
    buf <- (if 0 <? first_samples
            then sub <- blk_sub block 0 first_samples ;; blk_apply f (sb_first s) buf sub
            else Ok buf) ;;
    (if 0 <? remaining_samples
     then sub <- blk_sub block first_samples remaining_samples ;;
          blk_apply f (sb_wrapped s) buf sub
     else Ok buf).
  (** SplitBlock.cpp:13-24 *)
  Definition sb_copy_from := sb_apply f_copy.
  (** SplitBlock.cpp:26-36 *)
  Definition sb_add_from := sb_apply (@sadd A).

  (** SplitBlock.cpp:38-45 (CopyTo) and 47-54 (AddTo): the result is the new content
      of [block]. *)
  Definition sb_apply_to (f : sample A -> sample A -> sample A) (s : split) (buf block : audio A)
    : res (audio A) :=
    let n := num_samples block in
    src1 <- view_read (sb_first s) buf ;;
    block <- blk_apply f (whole block) block src1 ;;
    let first_num_samples := v_len (sb_first s) in
    if (first_num_samples <? n) && (0 <? v_len (sb_wrapped s)) then
      v <- view_sub {| v_start := 0; v_len := n |} first_num_samples (n - first_num_samples) ;;
      src2 <- view_read (sb_wrapped s) buf ;;
      blk_apply f v block src2
    else Ok block.
  (** SplitBlock.cpp:38-45 *)
  Definition sb_copy_to := sb_apply_to f_copy.
  (** SplitBlock.cpp:47-54 *)
  Definition sb_add_to := sb_apply_to (@sadd A).

  (** SplitBlock.cpp:56-63 *)
  Definition sb_clear (s : split) (buf : audio A) : res (audio A) :=
    buf <- (if 0 <? v_len (sb_first s) then blk_clear (sb_first s) buf else Ok buf) ;;
    (if 0 <? v_len (sb_wrapped s) then blk_clear (sb_wrapped s) buf else Ok buf).

  (** SplitBlock.cpp:65-76 *)
  Definition sb_sub_block (s : split) (n : nat) : res split :=
    _ <- assert (n <=? sb_total s) ;;
    let first_samples := Nat.min n (v_len (sb_first s)) in
    let wrapped_samples := n - first_samples in
    v1 <- (if 0 <? first_samples then view_sub (sb_first s) 0 first_samples
           else Ok empty_view) ;;
    v2 <- (if 0 <? wrapped_samples then view_sub (sb_wrapped s) 0 wrapped_samples
           else Ok empty_view) ;;
    Ok {| sb_first := v1; sb_wrapped := v2 |}.
End SplitBlock.
