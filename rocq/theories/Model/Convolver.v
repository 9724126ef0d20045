(** * zones_convolver/Convolver.h and .cpp *)
From Verif.Model Require Import Base Arith Juce UniformPartitionedConvolver TimeDistributedNUPC.

(** 32-bit two's complement wrap around (left shifts are modular since C++20). *)
Definition wrap32 (z : Z) : Z := ((z + 2 ^ 31) mod 2 ^ 32 - 2 ^ 31)%Z.

(** Convolver.cpp:12-15 *)
Fixpoint po2_loop (fuel : nat) (po2 n : Z) : res Z :=
  if (po2 <=? n)%Z then
    match fuel with
    | 0 => Diverge
    | S fuel' => po2_loop fuel' (wrap32 (2 * po2)) n
    end
  else Ok po2.

(** Convolver.cpp:3-17, on 32-bit ints.  40 rounds are more than the loop needs when it
    ends: after 32 shifts [po2] is 0 and stays 0. *)
Definition powerOfTwoEqualOrBelow (n : Z) : res Z :=
  if (n <=? 0)%Z then Ok n
  else if (Z.land n (n - 1) =? 0)%Z then Ok n
  else po2 <- po2_loop 40 1 n ;; Ok (po2 / 2)%Z.

(** Convolver.h:10-14 *)
Inductive fade_strategy : Type := kInOut | kCrossfade.

(** Convolver.h:16-22.  Routing entries are channel numbers (a negative one would be
    out of range). *)
Record conv_spec : Type := {
  cs_in : list nat;
  cs_out : list nat;
  cs_fade : fade_strategy;
  cs_internal : option Z
}.

(** Convolver.cpp:27-34 *)
Definition conv_block_size (maximum_block_size : Z) (internal : option Z) : res Z :=
  let m := match internal with
           | Some b => if (b =? 0)%Z then maximum_block_size else Z.min maximum_block_size b
           | None => maximum_block_size
           end in
  p <- powerOfTwoEqualOrBelow m ;;
  Ok (Z.min 2048 (Z.max 32 p)).

Section Convolver.
  Context {A : arith} (R : rfft A).

  (** Convolver.h:34-40 *)
  Record convolver : Type := {
    c_routing : audio A;
    c_nupc : nupc A;
    c_spec : conv_spec;
    c_channels : nat;
    c_block : nat;
    c_num_samples : nat
  }.

  (** Convolver.cpp:19-47.  [routing_buffer_.setSize] leaves the samples uninitialised;
      Process clears them (Convolver.cpp:55). *)
  Definition conv_make (ir : audio A) (maximum_block_size : nat) (spec : conv_spec)
    : res convolver :=
    let num_channels := length ir in
    b <- conv_block_size (Z.of_nat maximum_block_size) (cs_internal spec) ;;
    let block := Z.to_nat b in
    n <- nupc_make R ir num_channels block ;;
    Ok {| c_routing := zeros num_channels block; c_nupc := n; c_spec := spec;
          c_channels := num_channels; c_block := block; c_num_samples := num_samples ir |}.

  (** Convolver.cpp:67-75 *)
  Definition conv_route_in (c : convolver) (sub routing_sub : audio A) : res (audio A) :=
    for_n (c_channels c) (fun ch routing_sub =>
      i <- get (cs_in (c_spec c)) ch ;;
      src <- get sub i ;;
      dst <- get routing_sub ch ;;
      dst <- chan_apply f_copy 0 (firstn (length dst) src) dst ;;
      set routing_sub ch dst) routing_sub.

  (** Convolver.cpp:79-88 *)
  Definition conv_route_out (c : convolver) (sub routing_sub : audio A) : res (audio A) :=
    for_n (c_channels c) (fun ch sub =>
      o <- get (cs_out (c_spec c)) ch ;;
      dst <- get sub o ;;
      src <- get routing_sub ch ;;
      dst <- chan_apply sadd 0 (firstn (length dst) src) dst ;;
      set sub o dst) (audio_clear sub).

  (** Convolver.cpp:58-91: one round of the loop *)
  Definition conv_round (st : convolver * audio A * nat) : res (convolver * audio A * nat) :=
    let '(c, out, processed) := st in
    let todo := Nat.min (num_samples out - processed) (c_block c) in
    v <- view_sub (whole out) processed todo ;;
    sub <- view_read v out ;;
    rv <- view_sub (whole (c_routing c)) 0 todo ;;
    routing_sub <- view_read rv (c_routing c) ;;
    routing_sub <- conv_route_in c sub routing_sub ;;
    ' (n, routing_sub) <- nupc_process R (c_nupc c) routing_sub ;;
    routing <- blk_copy_from rv (c_routing c) routing_sub ;;
    sub <- conv_route_out c sub routing_sub ;;
    out <- blk_copy_from v out sub ;;
    Ok ({| c_routing := routing; c_nupc := n; c_spec := c_spec c; c_channels := c_channels c;
           c_block := c_block c; c_num_samples := c_num_samples c |}, out, processed + todo).

  (** Convolver.cpp:49-92 *)
  Definition conv_process (c : convolver) (out : audio A) : res (convolver * audio A) :=
    let c := {| c_routing := audio_clear (c_routing c); c_nupc := c_nupc c; c_spec := c_spec c;
                c_channels := c_channels c; c_block := c_block c;
                c_num_samples := c_num_samples c |} in
    ' (c, out, _) <- while_ (num_samples out)
                            (fun st => snd st <? num_samples (snd (fst st)))
                            conv_round (c, out, 0) ;;
    Ok (c, out).

  (** Convolver.cpp:94-98 *)
  Definition conv_reset (c : convolver) : convolver :=
    {| c_routing := audio_clear (c_routing c); c_nupc := nupc_reset (c_nupc c);
       c_spec := c_spec c; c_channels := c_channels c; c_block := c_block c;
       c_num_samples := c_num_samples c |}.
End Convolver.
Arguments convolver : clear implicits.
