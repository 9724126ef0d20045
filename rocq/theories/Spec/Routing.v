(** * Specification: convolution with routing *)
From Verif.Model Require Import Base Arith Juce.
From Verif.Spec Require Import Transform Signal.

Section Routing.
  Context {A : arith}.

  (** What output channel [o] carries: the sum, over the [n] response channels [c] routed to it,
      of the convolution of response [h c] with what came in on the channel [c] is routed from. *)
  Definition mixed (n : nat) (h : nat -> list (sample A)) (inputs outputs : list nat)
             (ins : list (audio A)) (o : nat) : list (sample A) :=
    tab (length (channel o ins)) (fun t =>
      ssum n (fun c => if nth c outputs 0 =? o
                       then nth t (convolve (h c) (channel (nth c inputs 0) ins)) s0
                       else s0)).

  (** blocks of [w] channels, each as long as the one that came in *)
  Definition routed (w n : nat) (h : nat -> list (sample A)) (inputs outputs : list nat)
             (ins outs : list (audio A)) : Prop :=
    length outs = length ins /\
    (forall i, i < length ins ->
       exists m, block_of w m (nth i ins []) /\ block_of w m (nth i outs [])) /\
    forall o, o < w -> channel o outs = mixed n h inputs outputs ins o.

  Definition convolves_routed {St} (w n : nat) (h : nat -> list (sample A)) (inputs outputs : list nat)
             (process : St -> audio A -> res (St * audio A)) (reset : St -> St) (s : St) : Prop :=
    forall sessions, (forall blocks, In blocks sessions -> blocks_of w blocks) ->
    exists s' outs, feed_sessions process reset s sessions = Ok (s', outs) /\
                    Forall2 (routed w n h inputs outputs) sessions outs.

  (** After a reset, at any moment of any history (earlier sessions, each ended by a reset, then
      some more blocks), the processor answers every further sequence of acceptable blocks
      exactly as it did when it was new. *)
  Definition forgets {St Bl} (acceptable : Bl -> Prop) (process : St -> Bl -> res (St * Bl))
             (reset : St -> St) (new : St) : Prop :=
    forall history, (forall blocks, In blocks history -> forall b, In b blocks -> acceptable b) ->
    forall current, (forall b, In b current -> acceptable b) ->
    forall blocks, (forall b, In b blocks -> acceptable b) ->
    exists s1 outs1 s2 outs2 s3 s4 outs,
      feed_sessions process reset new history = Ok (s1, outs1) /\
      feed process s1 current = Ok (s2, outs2) /\
      feed process (reset s2) blocks = Ok (s3, outs) /\
      feed process new blocks = Ok (s4, outs).
End Routing.
