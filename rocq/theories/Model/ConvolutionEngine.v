(** * zones_convolver/ConvolutionEngine.h:118-180 and .cpp:53-243, 273-294

    The engine: the slots, the fades, the two queues.  (LoadIR, the jobs and the pool:
    Model/Loader.v.  The inside of the queues: Model/VisitorQueue.v.)

    - Convolvers are used through an interface, so that the engine's properties hold whatever
      the convolvers compute; [convolver_if] is the real one.  A convolver carries an
      identifier, which stands for the identity of the object a [unique_ptr] owns.
    - The queues are lists with the capacity of the [AbstractFifo] of 400 (399 commands); a slot
      is released only when the Service call that handled it returns ([e_cmd_busy],
      [e_note_busy]).  Theorems C29 and C30 justify this.
    - process, reset, Clear and prepare are not called concurrently with each other.  The
      background thread and the loading jobs are concurrent: [e_env] is an arbitrary script of what
      they do between any two queue operations of the caller.  It quantifies over schedules.
    - [e_log] records what happens; the code has no such thing.
    - [is_loading_] is in Model/Loader.v. *)
From Verif.Model Require Import Base Arith Juce Float32 SmoothedValue
     UniformPartitionedConvolver TimeDistributedNUPC Convolver.

(** What the engine uses of a convolver (Convolver.h:24-32). *)
Record conv_if (A : arith) : Type := {
  cv : Type;
  cv_process : cv -> audio A -> res (cv * audio A);
  cv_reset : cv -> cv;
  cv_samples : cv -> Z;            (* GetNumSamples *)
  cv_fade : cv -> fade_strategy    (* GetConvolverSpec ().fade_strategy *)
}.
Arguments cv {A} _.
Arguments cv_process {A} _ _ _.
Arguments cv_reset {A} _ _.
Arguments cv_samples {A} _ _.
Arguments cv_fade {A} _ _.

(** Convolver.h:24-32: the class Convolver *)
Definition convolver_if {A : arith} (R : rfft A) : conv_if A := {|
  cv := convolver A;
  cv_process := conv_process R;
  cv_reset := conv_reset;
  cv_samples := fun c => Z.of_nat (c_num_samples c);
  cv_fade := fun c => cs_fade (c_spec c)
|}.

(** ConvolutionEngine.h:52: [kMaxQueueSize]; an AbstractFifo of 400 holds 399 *)
Definition queue_capacity : nat := 399.

(** ConvolutionEngine.h:167-171, single precision constants *)
Definition kLowerFadeTimeS : f32 := f_rnd 1 10.
(** ConvolutionEngine.h:167-171 *)
Definition kUpperFadeTimeS : f32 := f_rnd 4 1.
(** ConvolutionEngine.h:167-171 *)
Definition kFadeRatio : f32 := f_rnd 14 100.
(** ConvolutionEngine.h:167-171 *)
Definition kMaxCrossFadeIrTimeS : f32 := f_rnd 10 1.
(** ConvolutionEngine.h:167-171 *)
Definition kInOutFadeTimeS : f32 := f_rnd 4 10.

(** [juce::dsp::ProcessSpec].  The sample rate (a double) is the rational
    [ps_rate_num / ps_rate_den]. *)
Record process_spec : Type := {
  ps_rate_num : Z; ps_rate_den : Z;
  ps_max_block : nat;
  ps_channels : nat
}.

(** ConvolutionEngine.h:173-176 *)
Record bounds : Type := {
  lower_fade_bound : Z; upper_fade_bound : Z; max_crossfade_ir_length : Z; in_out_fade_length : Z
}.
(** [static_cast<int>] of a float: undefined when the value does not fit *)
(** (ConvolutionEngine.cpp:113-116, 142-152) *)
Definition to_int (z : Z) : res Z := if (z <? 2 ^ 31)%Z then Ok z else Undef.
(** ConvolutionEngine.cpp:142-152 *)
Definition engine_bounds (s : process_spec) : res bounds :=
  let rate := f_rnd (ps_rate_num s) (ps_rate_den s) in
  lower <- to_int (f_ceil (f_mul kLowerFadeTimeS rate)) ;;
  upper <- to_int (f_ceil (f_mul kUpperFadeTimeS rate)) ;;
  longest <- to_int (f_ceil (f_mul kMaxCrossFadeIrTimeS rate)) ;;
  in_out <- to_int (f_ceil (f_mul kInOutFadeTimeS rate)) ;;
  Ok {| lower_fade_bound := lower; upper_fade_bound := upper;
        max_crossfade_ir_length := longest; in_out_fade_length := in_out |}.

(** ConvolutionEngine.cpp:103-123: strategy and length of the fade to a response of [ir_size]
    samples.  [std::clamp] requires its bounds to be ordered. *)
Definition fade_of (b : bounds) (ir_size : Z) (wanted : fade_strategy) : res (fade_strategy * Z) :=
  let strategy := if (max_crossfade_ir_length b <=? ir_size)%Z then kInOut else wanted in
  match strategy with
  | kCrossfade =>
      n <- to_int (f_ceil (f_mul kFadeRatio (f_of_Z ir_size))) ;;
      _ <- assert (lower_fade_bound b <=? upper_fade_bound b)%Z ;;
      Ok (kCrossfade, Z.max (lower_fade_bound b) (Z.min (upper_fade_bound b) n))
  | kInOut => Ok (kInOut, in_out_fade_length b)
  end.

(** Who runs a piece of code. *)
(** (ConvolutionEngine.h:118-180: the caller of process, the BackgroundThread, the jobs of the pool) *)
Inductive thread : Type := Caller | Background | Loader.

Section Engine.
  Context {A : arith} (I : conv_if A).

  (** the object a [unique_ptr<Convolver>] owns *)
  (** (ConvolutionEngine.h:153-155) *)
  Record held : Type := { h_id : nat; h_cv : cv I }.

  (** What the other threads do between two steps of the caller: a job pushes a finished
      convolver (ConvolutionEngine.cpp:29-38); the background thread, inside
      [notification_queue_.Service], destroys the oldest notification (cpp:62, 67-71) or returns
      from Service. *)
  Inductive action : Type :=
  | Deliver (h : held)
  | Dispose
  | Release.

  (** The log: a convolver accepted or rejected by the command queue, a convolver destroyed and by
      which thread, a call of Clear. *)
  Inductive log_entry : Type :=
  | Delivered (id : nat)
  | Rejected (id : nat)
  | Destroyed (t : thread) (id : nat)
  | ClearCalled.

  (** ConvolutionEngine.h:153-179 *)
  Record engine : Type := {
    e_conv : option held;            (* convolver_ *)
    e_fade : option held;            (* fade_convolver_ *)
    e_pending : option held;         (* pending_convolver_ *)
    e_in : smooth A;                 (* smoothed_value_in_ *)
    e_out : smooth A;                (* smoothed_value_out_ *)
    e_buffer : audio A;              (* fade_buffer_ *)
    e_bounds : option bounds;        (* None: uninitialised, before prepare *)
    e_strategy : fade_strategy;      (* current_fade_strategy_ *)
    e_commands : list held; e_cmd_busy : nat;
    e_notes : list (option held); e_note_busy : nat;
    e_env : list (list action);
    e_log : list log_entry
  }.

  (** ConvolutionEngine.cpp:44-51 and the member initialisers *)
  Definition eng_new (env : list (list action)) : engine :=
    {| e_conv := None; e_fade := None; e_pending := None; e_in := sm_new; e_out := sm_new;
       e_buffer := []; e_bounds := None; e_strategy := kInOut;
       e_commands := []; e_cmd_busy := 0; e_notes := []; e_note_busy := 0; e_env := env; e_log := [] |}.

  (** assignments to one or several members *)
  (** (ConvolutionEngine.h:153-155) *)
  Definition set_slots (c f p : option held) (e : engine) : engine :=
    {| e_conv := c; e_fade := f; e_pending := p; e_in := e_in e; e_out := e_out e;
       e_buffer := e_buffer e; e_bounds := e_bounds e; e_strategy := e_strategy e;
       e_commands := e_commands e; e_cmd_busy := e_cmd_busy e; e_notes := e_notes e; e_note_busy := e_note_busy e;
       e_env := e_env e; e_log := e_log e |}.
  (** (ConvolutionEngine.h:157-158) *)
  Definition set_smooth (i o : smooth A) (e : engine) : engine :=
    {| e_conv := e_conv e; e_fade := e_fade e; e_pending := e_pending e; e_in := i; e_out := o;
       e_buffer := e_buffer e; e_bounds := e_bounds e; e_strategy := e_strategy e;
       e_commands := e_commands e; e_cmd_busy := e_cmd_busy e; e_notes := e_notes e; e_note_busy := e_note_busy e;
       e_env := e_env e; e_log := e_log e |}.
  (** assignment to current_fade_strategy_ (cpp:106, 109) *)
  Definition set_strategy (s : fade_strategy) (e : engine) : engine :=
    {| e_conv := e_conv e; e_fade := e_fade e; e_pending := e_pending e; e_in := e_in e; e_out := e_out e;
       e_buffer := e_buffer e; e_bounds := e_bounds e; e_strategy := s;
       e_commands := e_commands e; e_cmd_busy := e_cmd_busy e; e_notes := e_notes e; e_note_busy := e_note_busy e;
       e_env := e_env e; e_log := e_log e |}.
  (** assignment to fade_buffer_ (cpp:153, 170, 179, 234) *)
  Definition set_buffer (b : audio A) (e : engine) : engine :=
    {| e_conv := e_conv e; e_fade := e_fade e; e_pending := e_pending e; e_in := e_in e; e_out := e_out e;
       e_buffer := b; e_bounds := e_bounds e; e_strategy := e_strategy e;
       e_commands := e_commands e; e_cmd_busy := e_cmd_busy e; e_notes := e_notes e; e_note_busy := e_note_busy e;
       e_env := e_env e; e_log := e_log e |}.
  (** assignment to the four bounds (cpp:142-152) *)
  Definition set_bounds (b : bounds) (e : engine) : engine :=
    {| e_conv := e_conv e; e_fade := e_fade e; e_pending := e_pending e; e_in := e_in e; e_out := e_out e;
       e_buffer := e_buffer e; e_bounds := Some b; e_strategy := e_strategy e;
       e_commands := e_commands e; e_cmd_busy := e_cmd_busy e; e_notes := e_notes e; e_note_busy := e_note_busy e;
       e_env := e_env e; e_log := e_log e |}.
  (** what command_queue_ holds (h:163) *)
  Definition set_commands (l : list held) (busy : nat) (e : engine) : engine :=
    {| e_conv := e_conv e; e_fade := e_fade e; e_pending := e_pending e; e_in := e_in e; e_out := e_out e;
       e_buffer := e_buffer e; e_bounds := e_bounds e; e_strategy := e_strategy e;
       e_commands := l; e_cmd_busy := busy; e_notes := e_notes e; e_note_busy := e_note_busy e;
       e_env := e_env e; e_log := e_log e |}.
  (** what notification_queue_ holds (h:164) *)
  Definition set_notes (l : list (option held)) (busy : nat) (e : engine) : engine :=
    {| e_conv := e_conv e; e_fade := e_fade e; e_pending := e_pending e; e_in := e_in e; e_out := e_out e;
       e_buffer := e_buffer e; e_bounds := e_bounds e; e_strategy := e_strategy e;
       e_commands := e_commands e; e_cmd_busy := e_cmd_busy e; e_notes := l; e_note_busy := busy;
       e_env := e_env e; e_log := e_log e |}.
  (** No code: the rest of the script of the other threads *)
  Definition set_env (env : list (list action)) (e : engine) : engine :=
    {| e_conv := e_conv e; e_fade := e_fade e; e_pending := e_pending e; e_in := e_in e; e_out := e_out e;
       e_buffer := e_buffer e; e_bounds := e_bounds e; e_strategy := e_strategy e;
       e_commands := e_commands e; e_cmd_busy := e_cmd_busy e; e_notes := e_notes e; e_note_busy := e_note_busy e;
       e_env := env; e_log := e_log e |}.
  (** No code: the log *)
  Definition add_log (l : list log_entry) (e : engine) : engine :=
    {| e_conv := e_conv e; e_fade := e_fade e; e_pending := e_pending e; e_in := e_in e; e_out := e_out e;
       e_buffer := e_buffer e; e_bounds := e_bounds e; e_strategy := e_strategy e;
       e_commands := e_commands e; e_cmd_busy := e_cmd_busy e; e_notes := e_notes e; e_note_busy := e_note_busy e;
       e_env := e_env e; e_log := e_log e ++ l |}.

  (** the destructor of a [unique_ptr] run by thread [t] *)
  (** (C++ standard; see the uses) *)
  Definition destroy (t : thread) (h : option held) : list log_entry :=
    match h with Some h => [Destroyed t (h_id h)] | None => [] end.

  (** One action of another thread.  A rejected delivery: the command goes out of scope in
      LoadIRJob::runJob (cpp:29-41). *)
  Definition act (e : engine) (a : action) : engine :=
    match a with
    | Deliver h =>
        if length (e_commands e) + e_cmd_busy e <? queue_capacity
        then add_log [Delivered (h_id h)] (set_commands (e_commands e ++ [h]) (e_cmd_busy e) e)
        else add_log [Rejected (h_id h); Destroyed Loader (h_id h)] e
    | Dispose =>
        match e_notes e with
        | [] => e
        | n :: t => add_log (destroy Background n) (set_notes t (S (e_note_busy e)) e)
        end
    | Release => set_notes (e_notes e) 0 e
    end.
  (** several actions in a row *)
  Definition acts (l : list action) (e : engine) : engine := fold_left act l e.
  (** a point where other threads may run *)
  (** No code of its own. *)
  Definition interrupt (e : engine) : engine :=
    match e_env e with [] => e | l :: t => acts l (set_env t e) end.

  (** [notification_queue_.PushCommand] (h:32-44) of a DisposeEngineCommand; when it is rejected, the
      command still owns the convolver and destroys it at the end of its scope. *)
  Definition push_note (n : option held) (e : engine) : engine :=
    let e := interrupt e in
    if length (e_notes e) + e_note_busy e <? queue_capacity
    then set_notes (e_notes e ++ [n]) (e_note_busy e) e
    else add_log (destroy Caller n) e.

  (** cpp:290-294 *)
  Definition eng_set_fade_time (n : Z) (e : engine) : engine :=
    set_smooth (sm_reset n (e_in e)) (sm_reset n (e_out e)) e.
  (** cpp:129-133 *)
  Definition eng_reset_fade (e : engine) : engine :=
    set_smooth (sm_set false (e_in e)) (sm_set true (e_out e)) e.
  (** cpp:101-127 *)
  Definition eng_begin_fade (e : engine) : res engine :=
    match e_fade e, e_bounds e with
    | Some f, Some b =>
        ' (strategy, n) <- fade_of b (cv_samples I (h_cv f)) (cv_fade I (h_cv f)) ;;
        let e := eng_set_fade_time n (set_strategy strategy e) in
        Ok (set_smooth (sm_set_target true (e_in e)) (sm_set_target false (e_out e)) e)
    | _, _ => Undef
    end.

  (** cpp:73-99 *)
  Definition eng_ready (e : engine) (h : held) : res engine :=
    match e_conv e with
    | None => Ok (set_slots (Some h) (e_fade e) (e_pending e) e)
    | Some _ =>
        let e := match e_pending e with
                 | Some p => push_note (Some p) (set_slots (e_conv e) (e_fade e) None e)
                 | None => e
                 end in
        match e_fade e with
        | Some _ => Ok (set_slots (e_conv e) (e_fade e) (Some h) e)
        | None => eng_begin_fade (set_slots (e_conv e) (Some h) (e_pending e) e)
        end
    end.

  (** [command_queue_.Service ()] (h:21-30): the number of commands is read first, then they are
      taken out and visited one by one; the slots are released at the end. *)
  Fixpoint eng_service_n (n : nat) (e : engine) : res engine :=
    match n with
    | 0 => Ok e
    | S n' =>
        let e := interrupt e in
        match e_commands e with
        | [] => Undef
        | h :: t => e <- eng_ready (set_commands t (S (e_cmd_busy e)) e) h ;; eng_service_n n' e
        end
    end.
  (** ConvolutionEngine.h:21-30 *)
  Definition eng_service (e : engine) : res engine :=
    e <- eng_service_n (length (e_commands e)) e ;;
    let e := interrupt e in
    Ok (set_commands (e_commands e) 0 e).

  (** [convolver_->Process], if there is one *)
  (** (cpp:173-176, 186-187, 193, 221-224) *)
  Definition proc (h : option held) (b : audio A) : res (option held * audio A) :=
    match h with
    | None => Ok (None, b)
    | Some h => ' (c, o) <- cv_process I (h_cv h) b ;; Ok (Some {| h_id := h_id h; h_cv := c |}, o)
    end.

  (** cpp:164-181: the cross-fade *)
  Definition eng_crossfade (e : engine) (out : audio A) : res (engine * audio A) :=
    v <- view_sub (whole (e_buffer e)) 0 (num_samples out) ;;
    buffer <- blk_copy_from v (e_buffer e) out ;;
    fade_block <- view_read v buffer ;;
    ' (c, out) <- proc (e_conv e) out ;;
    ' (f, fade_block) <- proc (e_fade e) fade_block ;;
    let '(out, sv_out) := blk_multiply_by out (e_out e) in
    let '(fade_block, sv_in) := blk_multiply_by fade_block (e_in e) in
    out <- blk_add (whole out) out fade_block ;;
    buffer <- blk_copy_from v buffer fade_block ;;
    Ok (set_buffer buffer (set_smooth sv_in sv_out (set_slots c f (e_pending e) e)), out).

  (** cpp:182-196: the in/out fade *)
  Definition eng_in_out (e : engine) (out : audio A) : res (engine * audio A) :=
    if sm_smoothing (e_out e) then
      ' (c, out) <- proc (e_conv e) out ;;
      let '(out, sv_out) := blk_multiply_by out (e_out e) in
      Ok (set_smooth (e_in e) sv_out (set_slots c (e_fade e) (e_pending e) e), out)
    else
      ' (f, out) <- proc (e_fade e) out ;;
      let '(out, sv_in) := blk_multiply_by out (e_in e) in
      Ok (set_smooth sv_in (e_out e) (set_slots (e_conv e) f (e_pending e) e), out).

  (** cpp:199-219: the fade has finished *)
  Definition eng_finish (e : engine) : res engine :=
    let e := push_note (e_conv e) (set_slots None (e_fade e) (e_pending e) e) in
    let e := eng_reset_fade (set_slots (e_fade e) None (e_pending e) e) in
    match e_pending e with
    | Some p => eng_begin_fade (set_slots (e_conv e) (Some p) None e)
    | None => Ok e
    end.

  (** cpp:158-225 *)
  Definition eng_process (e : engine) (out : audio A) : res (engine * audio A) :=
    e <- eng_service e ;;
    match e_fade e with
    | Some _ =>
        ' (e, out) <- (match e_strategy e with kCrossfade => eng_crossfade e out | kInOut => eng_in_out e out end) ;;
        e <- (if sm_smoothing (e_in e) then Ok e else eng_finish e) ;;
        Ok (e, out)
    | None =>
        ' (c, out) <- proc (e_conv e) out ;;
        Ok (set_slots c (e_fade e) (e_pending e) e, out)
    end.

  (** cpp:227-243.  Moving into [convolver_] destroys what it owned. *)
  Definition eng_reset (e : engine) : res engine :=
    e <- eng_service (eng_reset_fade e) ;;
    let e := set_buffer (audio_clear (e_buffer e)) e in
    let e := match e_pending e, e_fade e with
             | Some p, f => add_log (destroy Caller (e_conv e)) (set_slots (Some p) f None e)
             | None, Some f => add_log (destroy Caller (e_conv e)) (set_slots (Some f) None None e)
             | None, None => e
             end in
    Ok (match e_conv e with
        | Some c => set_slots (Some {| h_id := h_id c; h_cv := cv_reset I (h_cv c) |}) (e_fade e) (e_pending e) e
        | None => e
        end).

  (** cpp:273-278 *)
  Definition eng_clear (e : engine) : res engine :=
    e <- eng_reset (add_log [ClearCalled] e) ;;
    Ok (add_log (destroy Caller (e_conv e) ++ destroy Caller (e_pending e)) (set_slots None (e_fade e) None e)).

  (** cpp:135-156.  ([AudioBuffer::setSize] leaves the samples unspecified; reset clears them.) *)
  Definition eng_prepare (e : engine) (s : process_spec) : res engine :=
    b <- engine_bounds s ;;
    eng_reset (set_buffer (zeros (ps_channels s) (ps_max_block s)) (set_bounds b e)).

  (** cpp:53-56 and the destructors of the members: what the engine still owns is destroyed. *)
  Definition eng_destroy (e : engine) : list log_entry :=
    destroy Caller (e_conv e) ++ destroy Caller (e_fade e) ++ destroy Caller (e_pending e) ++
    flat_map (fun h => destroy Caller (Some h)) (e_commands e) ++ flat_map (destroy Caller) (e_notes e).

  (** A history: calls of the public functions, and actions of other threads between them. *)
  (** No code: the public functions of ConvolutionEngine.h:125-143 that the audio side calls *)
  Inductive op : Type :=
  | Prepare (s : process_spec)
  | Process (b : audio A)
  | Reset
  | Clear
  | Others (l : list action).
  (** No code: one call *)
  Definition eng_step (e : engine) (o : op) : res (engine * list (audio A)) :=
    match o with
    | Prepare s => e <- eng_prepare e s ;; Ok (e, [])
    | Process b => ' (e, out) <- eng_process e b ;; Ok (e, [out])
    | Reset => e <- eng_reset e ;; Ok (e, [])
    | Clear => e <- eng_clear e ;; Ok (e, [])
    | Others l => Ok (acts l e, [])
    end.
  (** No code: calls in a row *)
  Fixpoint eng_run (e : engine) (l : list op) : res (engine * list (audio A)) :=
    match l with
    | [] => Ok (e, [])
    | o :: t => ' (e, x) <- eng_step e o ;; ' (e, xs) <- eng_run e t ;; Ok (e, x ++ xs)
    end.
End Engine.
