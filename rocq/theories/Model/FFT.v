(** * zones_convolver/util/FFT.cpp *)
From Verif.Model Require Import Base Arith.

Section FFT.
  Context {A : arith}.

  (** FFT.cpp:22-29: one butterfly of the forward transform on the group that
      starts at [base]. *)
  Definition fft_fwd_point (w_n : cplx A) (base half element : nat) (data : list (cplx A))
    : res (list (cplx A)) :=
    let mirrored := element + half in
    point <- get data (base + element) ;;
    other <- get data (base + mirrored) ;;
    data <- set data (base + element) (cadd point other) ;;
    other <- get data (base + mirrored) ;;
    set data (base + mirrored) (cmul (csub point other) (spow w_n element)).

  (** FFT.cpp:9-30: one value of [depth]. *)
  Definition fft_fwd_level (num_points depth : nat) (data : list (cplx A)) : res (list (cplx A)) :=
    let num_elements := 2 ^ depth in
    let num_groups := num_points / num_elements in
    let half := num_elements / 2 in
    let w_n := cis_neg num_elements in
    for_n num_groups (fun group =>
      for_n half (fun element =>
        fft_fwd_point w_n (group * num_elements) half element)) data.

  (** FFT.cpp:5-32.  [std::log2] of a positive integer converted to [int] is its
      integer logarithm; [log2 (0)] is -inf, whose conversion is undefined. *)
  Definition ForwardFFTUnordered (num_points : nat) (data : list (cplx A)) : res (list (cplx A)) :=
    _ <- assert (negb (num_points =? 0)) ;;
    for_down (Nat.log2 num_points) (fft_fwd_level num_points) data.

  (** FFT.cpp:51-57 *)
  Definition fft_inv_point (w_n : cplx A) (base half element : nat) (data : list (cplx A))
    : res (list (cplx A)) :=
    let mirrored := element + half in
    m <- get data (base + mirrored) ;;
    let b_n := cmul m (spow w_n element) in
    e <- get data (base + element) ;;
    data <- set data (base + mirrored) (cscale (csub e b_n) shalf) ;;
    e <- get data (base + element) ;;
    set data (base + element) (cscale (cadd e b_n) shalf).

  (** FFT.cpp:37-60 *)
  Definition fft_inv_level (num_points depth : nat) (data : list (cplx A)) : res (list (cplx A)) :=
    let num_elements := 2 ^ depth in
    let num_groups := num_points / num_elements in
    let half := num_elements / 2 in
    let w_n := cis num_elements in
    for_n num_groups (fun group =>
      for_n half (fun element =>
        fft_inv_point w_n (group * num_elements) half element)) data.

  (** FFT.cpp:34-61: depth = 1 .. log2 (num_points) *)
  Definition InverseFFTUnordered (num_points : nat) (data : list (cplx A)) : res (list (cplx A)) :=
    _ <- assert (negb (num_points =? 0)) ;;
    for_from 1 (Nat.log2 num_points) (fft_inv_level num_points) data.

  (** Run an in-place routine on [&data[off]], [len] points long. *)
  (** (TimeDistributedUPC.cpp:58-99, FFTDecomposition.cpp:5-70: calls with a pointer into the data) *)
  Definition on_slice (f : list (cplx A) -> res (list (cplx A))) (off len : nat)
             (data : list (cplx A)) : res (list (cplx A)) :=
    if off + len <=? length data then
      s <- f (firstn len (skipn off data)) ;;
      Ok (firstn off data ++ s ++ skipn (off + len) data)
    else Undef.
End FFT.
