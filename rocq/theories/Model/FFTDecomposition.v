(** * zones_convolver/util/FFTDecomposition.cpp *)
From Verif.Model Require Import Base Arith Juce.

Section FFTDecomposition.
  Context {A : arith}.

  (** The jasserts, FFTDecomposition.cpp:11-14 and 45-48.  [num_points / num_segments]
      is computed after them. *)
  Definition dec_preconditions (num_points num_segments num_steps current_step : nat) : bool :=
    (0 <? num_segments) && is_pow2 num_segments &&
    ((0 <? num_points) && is_pow2 num_points) &&
    ((0 <? num_steps) && (num_steps <=? num_points) && is_pow2 num_steps) &&
    (current_step <? num_steps).

  (** FFTDecomposition.cpp:28-34: the loop body, on the segment starting at [base] *)
  Definition dec_fwd_point (w_n : cplx A) (base segment_num_points half point_index : nat)
             (data : list (cplx A)) : res (list (cplx A)) :=
    _ <- assert (half + point_index <? segment_num_points) ;;
    point <- get data (base + point_index) ;;
    other <- get data (base + (half + point_index)) ;;
    data <- set data (base + point_index) (cadd point other) ;;
    other <- get data (base + (half + point_index)) ;;
    set data (base + (half + point_index)) (cmul (csub point other) (spow w_n point_index)).

  (** FFTDecomposition.cpp:5-37 *)
  Definition SegmentedForwardDecompositionRadix2
             (num_points num_segments num_steps current_step : nat) (data : list (cplx A))
    : res (list (cplx A)) :=
    _ <- assert (dec_preconditions num_points num_segments num_steps current_step) ;;
    let segment_num_points := num_points / num_segments in
    let half_num_points := segment_num_points / 2 in
    let step_size := half_num_points / num_steps in
    let start_index := current_step * step_size in
    let w_n := cis_neg segment_num_points in
    for_n num_segments (fun segment_index =>
      for_from start_index step_size (fun point_index =>
        dec_fwd_point w_n (segment_index * segment_num_points) segment_num_points
                      half_num_points point_index)) data.

  (** FFTDecomposition.cpp:62-67 *)
  Definition dec_inv_point (w_n : cplx A) (base segment_num_points half point_index : nat)
             (data : list (cplx A)) : res (list (cplx A)) :=
    _ <- assert (half + point_index <? segment_num_points) ;;
    m <- get data (base + (point_index + half)) ;;
    let b_n := cmul m (spow w_n point_index) in
    e <- get data (base + point_index) ;;
    data <- set data (base + (half + point_index)) (cscale (csub e b_n) shalf) ;;
    e <- get data (base + point_index) ;;
    set data (base + point_index) (cscale (cadd e b_n) shalf).

  (** FFTDecomposition.cpp:39-70 *)
  Definition SegmentedInverseDecompositionRadix2
             (num_points num_segments num_steps current_step : nat) (data : list (cplx A))
    : res (list (cplx A)) :=
    _ <- assert (dec_preconditions num_points num_segments num_steps current_step) ;;
    let segment_num_points := num_points / num_segments in
    let half_num_points := segment_num_points / 2 in
    let step_size := half_num_points / num_steps in
    let start_index := current_step * step_size in
    let w_n := cis segment_num_points in
    for_n num_segments (fun segment_index =>
      for_from start_index step_size (fun point_index =>
        dec_inv_point w_n (segment_index * segment_num_points) segment_num_points
                      half_num_points point_index)) data.
End FFTDecomposition.
