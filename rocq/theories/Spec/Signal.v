(** * Specification: signals, linear convolution, feeding a processor block by block *)
From Verif.Model Require Import Base Arith Juce.
From Verif.Spec Require Import Transform.

Section Signal.
  Context {A : arith}.

  (** sample [t] of the linear convolution of [h] and [x]: sum_j h[j] x[t - j] *)
  Definition conv_at (h x : list (sample A)) (t : nat) : sample A :=
    ssum (S t) (fun j => smul (nth j h s0) (nth (t - j) x s0)).
  (** the first [length x] samples of it: one output sample per input sample *)
  Definition convolve (h x : list (sample A)) : list (sample A) := tab (length x) (conv_at h x).

  (** what channel [c] carries in a sequence of blocks *)
  Definition channel (c : nat) (blocks : list (audio A)) : list (sample A) :=
    concat (map (fun b => nth c b []) blocks).

  (** a processor fed blocks one after the other: final state and the blocks that came out *)
  Fixpoint feed {St Bl} (process : St -> Bl -> res (St * Bl)) (s : St)
           (blocks : list Bl) : res (St * list Bl) :=
    match blocks with
    | [] => Ok (s, [])
    | b :: t => ' (s1, o) <- process s b ;;
                ' (s2, os) <- feed process s1 t ;;
                Ok (s2, o :: os)
    end.

  (** the same with a reset between any two sessions of blocks *)
  Fixpoint feed_sessions {St Bl} (process : St -> Bl -> res (St * Bl)) (reset : St -> St) (s : St)
           (sessions : list (list Bl)) : res (St * list (list Bl)) :=
    match sessions with
    | [] => Ok (s, [])
    | b :: t => ' (s1, o) <- feed process s b ;;
                ' (s2, os) <- feed_sessions process reset (reset s1) t ;;
                Ok (s2, o :: os)
    end.

  (** silence of [d] samples in front; as many samples as before *)
  Definition delayed (d : nat) (x : list (sample A)) : list (sample A) :=
    firstn (length x) (repeat s0 d ++ x).

  (** a block of [n] channels of [m] samples; blocks of [n] channels, of any lengths *)
  Definition block_of (n m : nat) (b : audio A) : Prop :=
    length b = n /\ forall c, In c b -> length c = m.
  Definition blocks_of (n : nat) (blocks : list (audio A)) : Prop :=
    forall b, In b blocks -> exists m, block_of n m b.

  (** [outs] are blocks of the same lengths as [ins], and channel [c] of them carries
      the convolution of channel [c] of [ins] with [h c] *)
  Definition convolved (n : nat) (h : nat -> list (sample A)) (ins outs : list (audio A)) : Prop :=
    length outs = length ins /\
    (forall i, i < length ins ->
       exists m, block_of n m (nth i ins []) /\ block_of n m (nth i outs [])) /\
    forall c, c < n -> channel c outs = convolve (h c) (channel c ins).

  (** whatever blocks it is fed, with resets anywhere between them, the processor puts out
      the convolution with [h] of what it was fed since the last reset *)
  Definition convolves {St} (n : nat) (h : nat -> list (sample A))
             (process : St -> audio A -> res (St * audio A)) (reset : St -> St) (s : St) : Prop :=
    forall sessions, (forall blocks, In blocks sessions -> blocks_of n blocks) ->
    exists s' outs, feed_sessions process reset s sessions = Ok (s', outs) /\
                    Forall2 (convolved n h) sessions outs.

  (** the same for a processor that only takes blocks of [m] samples and answers [d] samples
      late *)
  Definition convolved_late (n m d : nat) (h : nat -> list (sample A)) (ins outs : list (audio A))
    : Prop :=
    length outs = length ins /\
    (forall b, In b outs -> block_of n m b) /\
    forall c, c < n -> channel c outs = delayed d (convolve (h c) (channel c ins)).
  Definition convolves_late {St} (n m d : nat) (h : nat -> list (sample A))
             (process : St -> audio A -> res (St * audio A)) (reset : St -> St) (s : St) : Prop :=
    forall sessions,
    (forall blocks, In blocks sessions -> forall b, In b blocks -> block_of n m b) ->
    exists s' outs, feed_sessions process reset s sessions = Ok (s', outs) /\
                    Forall2 (convolved_late n m d h) sessions outs.
  (** one channel *)
  Definition convolves_late1 {St} (m d : nat) (h : list (sample A))
             (process : St -> list (sample A) -> res (St * list (sample A)))
             (reset : St -> St) (s : St) : Prop :=
    forall sessions,
    (forall blocks, In blocks sessions -> forall b, In b blocks -> length b = m) ->
    exists s' outs, feed_sessions process reset s sessions = Ok (s', outs) /\
      Forall2 (fun ins outs => length outs = length ins /\ (forall b, In b outs -> length b = m) /\
                 concat outs = delayed d (convolve h (concat ins))) sessions outs.
End Signal.
