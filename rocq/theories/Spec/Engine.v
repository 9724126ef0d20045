(** * Specification: what a log says about the convolvers; sound levels of fades *)
From Verif.Model Require Import Base Arith Juce SmoothedValue Convolver ConvolutionEngine.
From Verif.Spec Require Import Transform Signal.

(** the convolvers handed to the engine by the jobs; the convolvers destroyed so far *)
Definition handed_over (log : list log_entry) : list nat :=
  flat_map (fun e => match e with Delivered i | Rejected i => [i] | _ => [] end) log.
Definition destroyed (log : list log_entry) : list nat :=
  flat_map (fun e => match e with Destroyed _ i => [i] | _ => [] end) log.
(** ... on a given thread *)
Definition thread_eqb (a b : thread) : bool :=
  match a, b with Caller, Caller | Background, Background | Loader, Loader => true | _, _ => false end.
Definition destroyed_by (t : thread) (log : list log_entry) : list nat :=
  flat_map (fun e => match e with Destroyed u i => if thread_eqb t u then [i] else [] | _ => [] end) log.
(** the convolver most recently delivered since the last call of Clear *)
Fixpoint latest (cur : option nat) (log : list log_entry) : option nat :=
  match log with
  | [] => cur
  | Delivered i :: t => latest (Some i) t
  | ClearCalled :: t => latest None t
  | _ :: t => latest cur t
  end.

Section Owned.
  Context {A : arith} {I : conv_if A}.
  Definition slot_ids (o : option (held I)) : list nat := match o with Some h => [h_id I h] | None => [] end.
  (** the convolvers in the slots and in the queues *)
  Definition owned (e : engine I) : list nat :=
    slot_ids (e_conv I e) ++ slot_ids (e_fade I e) ++ slot_ids (e_pending I e) ++
    map (h_id I) (e_commands I e) ++ flat_map slot_ids (e_notes I e).
End Owned.

(** ** Legal histories *)
Section Legal.
  Context {A : arith} (I : conv_if A).

  (** [ok] describes convolvers for blocks of [w] channels: they process every such block, whatever
      its length, and stay so; they can be reset. *)
  Definition accepting (w : nat) (ok : cv I -> Prop) : Prop :=
    (forall c m b, ok c -> block_of w m b ->
       exists c' b', cv_process I c b = Ok (c', b') /\ ok c' /\ block_of w m b') /\
    (forall c, ok c -> ok (cv_reset I c)).

  (** a sample rate above 0 and up to 100 MHz *)
  Definition rate_ok (s : process_spec) : Prop :=
    (0 < ps_rate_num s)%Z /\ (0 < ps_rate_den s)%Z /\ (ps_rate_num s <= 100000000 * ps_rate_den s)%Z.
  Definition spec_ok (w : nat) (s : process_spec) : Prop :=
    ps_channels s = w /\ 0 < ps_max_block s /\ rate_ok s.
  (** the other threads only deliver such convolvers *)
  Definition delivers_ok (ok : cv I -> Prop) (l : list (action I)) : Prop :=
    forall h, In (Deliver I h) l -> ok (h_cv I h).

  (** [prepared]: the maximum block size of the last prepare, if any.  process, reset and Clear come
      after prepare; blocks have [w] channels and at most the announced length. *)
  Fixpoint legal (w : nat) (ok : cv I -> Prop) (prepared : option nat) (l : list (op I)) : Prop :=
    match l with
    | [] => True
    | Prepare _ s :: t => spec_ok w s /\ legal w ok (Some (ps_max_block s)) t
    | Process _ b :: t => (exists M m, prepared = Some M /\ m <= M /\ block_of w m b) /\ legal w ok prepared t
    | Reset _ :: t => prepared <> None /\ legal w ok prepared t
    | Clear _ :: t => prepared <> None /\ legal w ok prepared t
    | Others _ l :: t => delivers_ok ok l /\ legal w ok prepared t
    end.
  (** the blocks passed to process *)
  Definition blocks_in (l : list (op I)) : list (audio A) :=
    flat_map (fun o => match o with Process _ b => [b] | _ => [] end) l.
End Legal.

(** ** The line of convolvers *)
(** the last element of a list *)
Definition newest (l : list nat) : option nat := match rev l with [] => None | i :: _ => Some i end.

Section Line.
  Context {A : arith} {I : conv_if A}.
  (** the convolvers that are active, fading in, pending, waiting in the command queue: oldest first *)
  Definition in_line (e : engine I) : list (held I) :=
    let slot (o : option (held I)) := match o with Some h => [h] | None => [] end in
    slot (e_conv I e) ++ slot (e_fade I e) ++ slot (e_pending I e) ++ e_commands I e.
  Definition line (e : engine I) : list nat := map (h_id I) (in_line e).
  (** no more convolvers will be delivered *)
  Definition no_loads (e : engine I) : Prop :=
    forall l, In l (e_env I e) -> forall h, ~ In (Deliver I h) l.

  (** the blocks a history may contain after a prepare that announced [w] channels and at most [M] samples *)
  Definition fits (w M : nat) (bs : list (audio A)) : Prop :=
    forall b, In b bs -> exists m, m <= M /\ block_of w m b.
  (** the number of samples (per channel) in a sequence of blocks *)
  Definition total (bs : list (audio A)) : nat := list_sum (map num_samples bs).
  (** From now on process does what the convolver [c] does, or nothing if there is none. *)
  Definition plays (w M : nat) (e : engine I) (c : option (held I)) : Prop :=
    forall bs, fits w M bs -> exists e' outs, eng_run I e (map (Process I) bs) = Ok (e', outs) /\
      match c with
      | None => outs = bs
      | Some h => exists c', feed (cv_process I) (h_cv I h) bs = Ok (c', outs)
      end.
  (** the last [prepare] of a history *)
  Fixpoint last_spec (s : option process_spec) (l : list (op I)) : option process_spec :=
    match l with
    | [] => s
    | Prepare _ s :: t => last_spec (Some s) t
    | _ :: t => last_spec s t
    end.
  (** prepare, reset and Clear *)
  Definition restarts (o : op I) : Prop := match o with Prepare _ _ | Reset _ | Clear _ => True | _ => False end.
  (** In this history, whenever one of those is called, at most two convolvers are in line. *)
  Definition unhurried (e : engine I) (l : list (op I)) : Prop :=
    forall l1 o l2 e1 outs, l = l1 ++ o :: l2 -> restarts o -> eng_run I e l1 = Ok (e1, outs) ->
    length (line e1) <= 2.
  (** How many samples the longest fade can take, when blocks have at most [M] samples; a bound on the
      time the engine needs to settle. *)
  Definition longest_fade (b : bounds) (M : nat) : nat :=
    Nat.max (Z.to_nat (upper_fade_bound b)) (2 * Z.to_nat (in_out_fade_length b) + M).
  Definition settling_time (b : bounds) (M : nat) : nat := 2 * (longest_fade b M + M).
End Line.

(** ** Sound levels *)
Section Levels.
  Context {A : arith}.
  (** level at sample [t] (from 0) of a linear fade over [N] samples: rising, (t+1)/N up to 1; falling,
      1 - (t+1)/N down to 0 *)
  Definition rise (N t : nat) : sample A := smul (sofnat (Nat.min (S t) N)) (sinvn N).
  Definition fall (N t : nat) : sample A := smul (sofnat (N - S t)) (sinvn N).
  (** [x], sample [t] at level [g t]; the sum of two such signals *)
  Definition scaled (g : nat -> sample A) (x : list (sample A)) : list (sample A) :=
    tab (length x) (fun t => smul (nth t x s0) (g t)).
  Definition blend (g : nat -> sample A) (x : list (sample A)) (g' : nat -> sample A) (x' : list (sample A)) : list (sample A) :=
    tab (length x') (fun t => sadd (smul (nth t x s0) (g t)) (smul (nth t x' s0) (g' t))).
End Levels.

Section Rest.
  Context {A : arith} {I : conv_if A}.
  (** no fade is running or waiting, and the levels are where the last fade ended: incoming 0, outgoing 1 *)
  Definition at_rest (e : engine I) : Prop :=
    e_fade I e = None /\ e_pending I e = None /\ sm_target (e_in I e) = false /\ sm_target (e_out I e) = true.
End Rest.

Section Reached.
  Context {A : arith} (I : conv_if A).
  (** [e] is a new engine after the history [l]; inside the calls the other threads do [env]; [s] is the
      argument of the last prepare. *)
  Definition reached (w : nat) (ok : cv I -> Prop) (env : list (list (action I))) (l : list (op I))
             (s : process_spec) (e : engine I) : Prop :=
    Forall (delivers_ok I ok) env /\ legal I w ok None l /\ last_spec None l = Some s /\
    exists outs, eng_run I (eng_new I env) l = Ok (e, outs).
  (** no fade is running *)
  Definition idle (e : engine I) : Prop := e_fade I e = None /\ e_pending I e = None.
  (** In this history, whenever prepare, reset or Clear is called, there is at most one convolver in
      line, or there are two and neither is still in the queue. *)
  Definition undisturbed (e : engine I) (l : list (op I)) : Prop :=
    forall l1 o l2 e1 outs, l = l1 ++ o :: l2 -> restarts o -> eng_run I e l1 = Ok (e1, outs) ->
    length (line e1) <= 1 \/ (e_commands I e1 = [] /\ length (line e1) <= 2).
  (** the convolver [h], with all it heard forgotten *)
  Definition silenced (h : held I) : held I := {| h_id := h_id I h; h_cv := cv_reset I (h_cv I h) |}.
End Reached.

(** ** Positions in a fade *)
Section Position.
  Context {A : arith} {I : conv_if A}.
  (** The next levels of the incoming and of the outgoing convolver are those of a fade over [n] samples
      of which [j], resp. [k], are over. *)
  Definition levels (n j k : nat) (e : engine I) : Prop :=
    sm_count (e_in I e) = n - j /\ sm_count (e_out I e) = n - k /\
    (forall m, snd (sm_values m (e_in I e)) = tab m (fun t => rise n (j + t))) /\
    (forall m, snd (sm_values m (e_out I e)) = tab m (fun t => fall n (k + t))).
  Definition between (s : fade_strategy) (a h : held I) (e : engine I) : Prop :=
    e_conv I e = Some a /\ e_fade I e = Some h /\ e_strategy I e = s.
  (** The next block begins a fade from [a] to [h], the oldest convolver in the queue. *)
  Definition begins (b : bounds) (s : fade_strategy) (a h : held I) (n : nat) (e : engine I) : Prop :=
    at_rest e /\ e_conv I e = Some a /\ hd_error (e_commands I e) = Some h /\
    fade_of b (cv_samples I (h_cv I h)) (cv_fade I (h_cv I h)) = Ok (s, Z.of_nat n).
  (** [k] samples of a cross-fade over [n] samples from [a] to [h] are over. *)
  Definition crossing (b : bounds) (a h : held I) (n k : nat) (e : engine I) : Prop :=
    k < n /\ ((k = 0 /\ begins b kCrossfade a h n e) \/ (between kCrossfade a h e /\ levels n k k e)).
  (** [k] samples of the first half of an in/out fade from [a] to [h]; [j] samples of the second half *)
  Definition leaving (b : bounds) (a h : held I) (n k : nat) (e : engine I) : Prop :=
    k < n /\ ((k = 0 /\ begins b kInOut a h n e) \/ (between kInOut a h e /\ levels n 0 k e)).
  Definition entering (a h : held I) (n j : nat) (e : engine I) : Prop :=
    j < n /\ between kInOut a h e /\ exists k, n <= k /\ levels n j k e.
  (** The fade to [h] is over; no other fade is running, or another one begins with the next sample. *)
  Definition arrived (b : bounds) (h : held I) (e : engine I) : Prop :=
    e_conv I e = Some h /\
    (at_rest e \/ exists q n, crossing b h q n 0 e \/ leaving b h q n 0 e).
End Position.
