(** * Loading: LoadIRJob, ConvolutionEngine::LoadIR and the thread pool
    (zones_convolver/ConvolutionEngine.h:92-111, 118-180 and .cpp:7-42, 53-56, 135-140, 227-230, 245-288)

    Any number of engines share one [juce::ThreadPool].  Threads: callers of LoadIR (any number), the
    workers of the pool, for every engine one thread that calls prepare, reset and Clear, and the
    message thread.  A schedule is a list of moves; one move is one step of one thread.  A step is one
    access to shared memory: one acquisition or release of [load_mutex_], one critical section of the
    pool's own lock, one read or write of [spec_] or [is_loading_], one push.  A thread that waits for
    the mutex does nothing when it is scheduled.

    - The inside of PushCommand is in Model/VisitorQueue.v, what the engine does with a convolver in
      Model/ConvolutionEngine.v; here a push is an event.  The result of PushCommand is ignored by the
      code (cpp:37), so nothing here depends on it.
    - [is_loading_] and [spec_] are plain members, read and written without the mutex (cpp:140, 230,
      282).  The model takes such accesses to be atomic; theorem C50 shows that they race.
    - The response is passed by value: [LoadIRJob]'s constructor copies it (cpp:21-23) while LoadIR runs.
    - [juce::ThreadPool] is external; its methods are rendered from JUCE 8.0.3.  Its destruction is not
      modelled.  [juce::Thread] (the background thread) is in Model/ConvolutionEngine.v.
    - The identifier of a load stands for the identity of the LoadIRJob object. *)
From Verif.Model Require Import Base ConvolutionEngine.

Section Loader.
  (** the arguments of LoadIR; convolvers; the constructor of Convolver (cpp:27) *)
  Context {request conv : Type}.
  Variable build : request -> process_spec -> res conv.
  (** the number of threads of the pool *)
  Variable workers : nat.

  (** LoadIRJob's members (h:105-110): the engine stands for [command_queue_], [load_mutex_] and the
      [this] of [on_loading_complete_]. *)
  Record load : Type := { l_id : nat; l_engine : nat; l_request : request; l_spec : process_spec }.
  (** a job in [ThreadPool::jobs]; [ThreadPoolJob::isActive] and [shouldStop] *)
  (** (JUCE 8.0.3: ThreadPool.h) *)
  Record job : Type := { j_load : load; j_active : bool; j_stop : bool }.

  (** Program points of a caller of LoadIR (cpp:245-271) *)
  Inductive caller : Type :=
  | CIdle
  | CLock (e : nat) (r : request)               (* cpp:248: lock *)
  | CRemove (e id : nat) (r : request)          (* cpp:251: removeAllJobs (true, 0) *)
  | CSpec (e id : nat) (r : request)            (* cpp:253: spec_ != nullopt *)
  | CFlag (e id : nat) (r : request)            (* cpp:255: is_loading_ = true *)
  | CEmit (e id : nat) (r : request)            (* cpp:256: EmitLoadingEvent *)
  | CAdd (e id : nat) (r : request)             (* cpp:258-269: new LoadIRJob (.. *spec_ ..), addJob *)
  | CUnlock (e id : nat).                       (* cpp:271: unlock *)

  (** Program points of a worker of the pool (ThreadPool::runNextJob, cpp:25-42) *)
  Inductive worker : Type :=
  | WIdle                                       (* pickNextJobToRun *)
  | WBuild (l : load)                           (* cpp:27: the convolver is constructed *)
  | WLock (l : load) (c : conv)                 (* cpp:33: lock *)
  | WCheck (l : load) (c : conv)                (* cpp:35: shouldExit *)
  | WPush (l : load) (c : conv)                 (* cpp:37: PushCommand *)
  | WFlag (l : load)                            (* cpp:38, 265: is_loading_ = false *)
  | WAsync (l : load)                           (* cpp:266-267: callAsync *)
  | WUnlock (l : load)                          (* cpp:42: unlock *)
  | WFinish (l : load).                         (* the job is removed from the pool *)

  (** No code: who holds load_mutex_ (ConvolutionEngine.h:178) *)
  Inductive owner : Type := ByCaller (t : nat) | ByWorker (w : nat).

  (** The members of an engine that matter for loading (h:161, 178-179) *)
  Record loader : Type := {
    n_alive : bool;                  (* not yet destroyed *)
    n_lock : option owner;           (* load_mutex_ *)
    n_spec : option process_spec;    (* spec_ *)
    n_loading : bool;                (* is_loading_ *)
    n_preparing : bool               (* the thread that calls prepare is inside it *)
  }.
  (** No code of its own: every engine, the program point of every thread, the pool
      (ConvolutionEngine.h:118-180) *)
  Record state : Type := {
    s_engine : nat -> loader;
    s_caller : nat -> caller;
    s_worker : nat -> worker;
    s_jobs : list job;               (* ThreadPool::jobs *)
    s_messages : list nat;           (* callbacks waiting for the message thread, by engine *)
    s_next : nat                     (* the identifier of the next load *)
  }.

  (** What happens, in order *)
  (** No code: what the theorems observe *)
  Inductive event : Type :=
  | Began (t id e : nat) (r : request)     (* a LoadIR call obtained the mutex *)
  | Cancelled (id e : nat)                 (* ... called removeAllJobs *)
  | Queued (id e : nat)                    (* ... added its job to the pool *)
  | Returned (t id e : nat)                (* ... returned *)
  | Pushed (id e : nat) (c : conv)         (* a job pushed its convolver onto the command queue *)
  | Notified (e : nat) (b : bool)          (* the listeners were called while IsLoading was [b] *)
  | Prepared (e : nat) (s : process_spec)  (* prepare stored its argument *)
  | ResetDone (e : nat) (b : bool)         (* reset stored false in is_loading_, which was [b] *)
  | EngineDestroyed (e : nat).

  (** No code: one entry of a map *)
  Definition upd {T} (f : nat -> T) (i : nat) (x : T) : nat -> T := fun j => if j =? i then x else f j.

  (** h:161, 178-179 and cpp:44-51 *)
  Definition loader_new : loader :=
    {| n_alive := true; n_lock := None; n_spec := None; n_loading := false; n_preparing := false |}.
  (** No code: nothing has been called yet *)
  Definition load_new : state :=
    {| s_engine := fun _ => loader_new; s_caller := fun _ => CIdle; s_worker := fun _ => WIdle;
       s_jobs := []; s_messages := []; s_next := 0 |}.

  (** assignments to one member *)
  (** No code: notation for the steps below *)
  Definition set_engine (e : nat) (n : loader) (s : state) : state :=
    {| s_engine := upd (s_engine s) e n; s_caller := s_caller s; s_worker := s_worker s;
       s_jobs := s_jobs s; s_messages := s_messages s; s_next := s_next s |}.
  (** No code: notation for the steps below *)
  Definition set_caller (t : nat) (c : caller) (s : state) : state :=
    {| s_engine := s_engine s; s_caller := upd (s_caller s) t c; s_worker := s_worker s;
       s_jobs := s_jobs s; s_messages := s_messages s; s_next := s_next s |}.
  (** No code: notation for the steps below *)
  Definition set_worker (w : nat) (k : worker) (s : state) : state :=
    {| s_engine := s_engine s; s_caller := s_caller s; s_worker := upd (s_worker s) w k;
       s_jobs := s_jobs s; s_messages := s_messages s; s_next := s_next s |}.
  (** No code: notation for the steps below *)
  Definition set_jobs (l : list job) (s : state) : state :=
    {| s_engine := s_engine s; s_caller := s_caller s; s_worker := s_worker s;
       s_jobs := l; s_messages := s_messages s; s_next := s_next s |}.
  (** No code: notation for the steps below *)
  Definition set_messages (l : list nat) (s : state) : state :=
    {| s_engine := s_engine s; s_caller := s_caller s; s_worker := s_worker s;
       s_jobs := s_jobs s; s_messages := l; s_next := s_next s |}.
  (** No code: a fresh identifier for the load that has just begun *)
  Definition next_id (s : state) : state :=
    {| s_engine := s_engine s; s_caller := s_caller s; s_worker := s_worker s;
       s_jobs := s_jobs s; s_messages := s_messages s; s_next := S (s_next s) |}.
  (** lock and unlock of load_mutex_ (cpp:33, 42, 248, 271) *)
  Definition with_lock (o : option owner) (n : loader) : loader :=
    {| n_alive := n_alive n; n_lock := o; n_spec := n_spec n; n_loading := n_loading n; n_preparing := n_preparing n |}.
  (** assignment to is_loading_ (cpp:230, 255, 265) *)
  Definition with_loading (b : bool) (n : loader) : loader :=
    {| n_alive := n_alive n; n_lock := n_lock n; n_spec := n_spec n; n_loading := b; n_preparing := n_preparing n |}.
  (** assignment to spec_ (cpp:140) *)
  Definition with_spec (p : process_spec) (n : loader) : loader :=
    {| n_alive := n_alive n; n_lock := n_lock n; n_spec := Some p; n_loading := n_loading n; n_preparing := n_preparing n |}.
  (** No code: prepare (cpp:135-156) has begun or ended *)
  Definition with_preparing (b : bool) (n : loader) : loader :=
    {| n_alive := n_alive n; n_lock := n_lock n; n_spec := n_spec n; n_loading := n_loading n; n_preparing := b |}.
  (** the destructor (cpp:53-56) *)
  Definition with_dead (n : loader) : loader :=
    {| n_alive := false; n_lock := n_lock n; n_spec := n_spec n; n_loading := n_loading n; n_preparing := n_preparing n |}.

  (** Access to an engine: undefined once it is destroyed. *)
  (** No code of its own: every access to a member. *)
  Definition engine_at (s : state) (e : nat) : res loader :=
    if n_alive (s_engine s e) then Ok (s_engine s e) else Undef.

  (** [ThreadPool::removeAllJobs (true, 0)]: active jobs are told to stop, the others removed; with a
      timeout of 0 it does not wait. *)
  Definition remove_all (l : list job) : list job :=
    map (fun j => {| j_load := j_load j; j_active := true; j_stop := true |}) (filter j_active l).
  (** [ThreadPool::pickNextJobToRun]: the first job that is not active is made active; those before it
      that were told to stop are removed. *)
  (** (JUCE 8.0.3: ThreadPool.cpp) *)
  Fixpoint pick (l : list job) : option load * list job :=
    match l with
    | [] => (None, [])
    | j :: t =>
        if j_active j then let '(o, t) := pick t in (o, j :: t)
        else if j_stop j then pick t
        else (Some (j_load j), {| j_load := j_load j; j_active := true; j_stop := j_stop j |} :: t)
    end.
  (** [ThreadPoolJob::shouldExit] of the job with identifier [id] *)
  (** (JUCE 8.0.3; cpp:35) *)
  Definition should_exit (id : nat) (l : list job) : bool :=
    existsb (fun j => (l_id (j_load j) =? id) && j_stop j) l.
  (** [jobs.removeFirstMatchingValue] (ThreadPool::runNextJob) *)
  (** (JUCE 8.0.3: ThreadPool.cpp) *)
  Definition finish (id : nat) (l : list job) : list job :=
    filter (fun j => negb (l_id (j_load j) =? id)) l.

  (** One step of a caller of LoadIR (cpp:245-271) *)
  Definition caller_step (t : nat) (s : state) : res (state * list event) :=
    match s_caller s t with
    | CIdle => Ok (s, [])
    | CLock e r =>
        n <- engine_at s e ;;
        match n_lock n with
        | Some _ => Ok (s, [])
        | None =>
            Ok (next_id (set_caller t (CRemove e (s_next s) r) (set_engine e (with_lock (Some (ByCaller t)) n) s)),
                [Began t (s_next s) e r])
        end
    | CRemove e id r =>
        Ok (set_caller t (CSpec e id r) (set_jobs (remove_all (s_jobs s)) s), [Cancelled id e])
    | CSpec e id r =>
        n <- engine_at s e ;;
        Ok (set_caller t (match n_spec n with Some _ => CFlag e id r | None => CUnlock e id end) s, [])
    | CFlag e id r =>
        n <- engine_at s e ;;
        Ok (set_caller t (CEmit e id r) (set_engine e (with_loading true n) s), [])
    | CEmit e id r =>
        n <- engine_at s e ;;
        Ok (set_caller t (CAdd e id r) s, [Notified e (n_loading n)])
    | CAdd e id r =>
        n <- engine_at s e ;;
        p <- match n_spec n with Some p => Ok p | None => Undef end ;;
        let l := {| l_id := id; l_engine := e; l_request := r; l_spec := p |} in
        Ok (set_caller t (CUnlock e id)
              (set_jobs (s_jobs s ++ [{| j_load := l; j_active := false; j_stop := false |}]) s), [Queued id e])
    | CUnlock e id =>
        n <- engine_at s e ;;
        Ok (set_caller t CIdle (set_engine e (with_lock None n) s), [Returned t id e])
    end.

  (** One step of a worker (ThreadPool::runNextJob, cpp:25-42) *)
  Definition worker_step (w : nat) (s : state) : res (state * list event) :=
    match s_worker s w with
    | WIdle =>
        let '(o, l) := pick (s_jobs s) in
        Ok (set_worker w (match o with Some ld => WBuild ld | None => WIdle end) (set_jobs l s), [])
    | WBuild ld =>
        c <- build (l_request ld) (l_spec ld) ;;
        Ok (set_worker w (WLock ld c) s, [])
    | WLock ld c =>
        n <- engine_at s (l_engine ld) ;;
        match n_lock n with
        | Some _ => Ok (s, [])
        | None => Ok (set_worker w (WCheck ld c) (set_engine (l_engine ld) (with_lock (Some (ByWorker w)) n) s), [])
        end
    | WCheck ld c =>
        Ok (set_worker w (if should_exit (l_id ld) (s_jobs s) then WUnlock ld else WPush ld c) s, [])
    | WPush ld c =>
        _ <- engine_at s (l_engine ld) ;;
        Ok (set_worker w (WFlag ld) s, [Pushed (l_id ld) (l_engine ld) c])
    | WFlag ld =>
        n <- engine_at s (l_engine ld) ;;
        Ok (set_worker w (WAsync ld) (set_engine (l_engine ld) (with_loading false n) s), [])
    | WAsync ld =>
        Ok (set_worker w (WUnlock ld) (set_messages (s_messages s ++ [l_engine ld]) s), [])
    | WUnlock ld =>
        n <- engine_at s (l_engine ld) ;;
        Ok (set_worker w (WFinish ld) (set_engine (l_engine ld) (with_lock None n) s), [])
    | WFinish ld =>
        Ok (set_worker w WIdle (set_jobs (finish (l_id ld) (s_jobs s)) s), [])
    end.

  (** Who moves next.  A call made by a thread that is still inside a call is not possible and
      ignored. *)
  (** No code: the schedule (ConvolutionEngine.h:125-143 for the calls) *)
  Inductive move : Type :=
  | CallLoadIR (t e : nat) (r : request)
  | StepCaller (t : nat)
  | StepWorker (w : nat)
  | CallPrepare (e : nat) (p : process_spec)
  | Preparing (e : nat)
  | CallReset (e : nat)
  | Message
  | DestroyEngine (e : nat).
  Definition load_move (s : state) (m : move) : res (state * list event) :=
    match m with
    | CallLoadIR t e r =>
        match s_caller s t with
        | CIdle => _ <- engine_at s e ;; Ok (set_caller t (CLock e r) s, [])
        | _ => Ok (s, [])
        end
    | StepCaller t => caller_step t s
    | StepWorker w => if w <? workers then worker_step w s else Ok (s, [])
    | CallPrepare e p =>                 (* cpp:140 *)
        n <- engine_at s e ;;
        if n_preparing n then Ok (s, [])
        else Ok (set_engine e (with_preparing true (with_spec p n)) s, [Prepared e p])
    | Preparing e =>                     (* cpp:155, 230 *)
        n <- engine_at s e ;;
        if n_preparing n then Ok (set_engine e (with_preparing false (with_loading false n)) s, [ResetDone e (n_loading n)])
        else Ok (s, [])
    | CallReset e =>                     (* cpp:230, 275 *)
        n <- engine_at s e ;;
        if n_preparing n then Ok (s, [])
        else Ok (set_engine e (with_loading false n) s, [ResetDone e (n_loading n)])
    | Message =>                         (* cpp:267, 285-288 *)
        match s_messages s with
        | [] => Ok (s, [])
        | e :: t => n <- engine_at s e ;; Ok (set_messages t s, [Notified e (n_loading n)])
        end
    | DestroyEngine e =>                 (* cpp:53-56; destroying a locked mutex is undefined *)
        n <- engine_at s e ;;
        match n_lock n with
        | Some _ => Undef
        | None => Ok (set_engine e (with_dead n) s, [EngineDestroyed e])
        end
    end.
  (** No code: the moves of a schedule in turn *)
  Fixpoint load_run (s : state) (ms : list move) : res (state * list event) :=
    match ms with
    | [] => Ok (s, [])
    | m :: t => ' (s, x) <- load_move s m ;; ' (s, xs) <- load_run s t ;; Ok (s, x ++ xs)
    end.
End Loader.
Arguments load : clear implicits.
Arguments job : clear implicits.
Arguments caller : clear implicits.
Arguments worker : clear implicits.
Arguments state : clear implicits.
Arguments event : clear implicits.
Arguments move : clear implicits.
Arguments load_new {request conv}.
Arguments CIdle {request}.
Arguments WIdle {request conv}.
Arguments WFlag {request conv} l.
Arguments WAsync {request conv} l.
Arguments WUnlock {request conv} l.
Arguments WFinish {request conv} l.
Arguments WBuild {request conv} l.
Arguments Cancelled {request conv} id e.
Arguments Queued {request conv} id e.
Arguments Returned {request conv} t id e.
Arguments Began {request conv} t id e r.
Arguments Pushed {request conv} id e c.
Arguments Notified {request conv} e b.
Arguments Prepared {request conv} e s.
Arguments ResetDone {request conv} e b.
Arguments EngineDestroyed {request conv} e.
Arguments CallPrepare {request} e p.
Arguments Preparing {request} e.
Arguments CallReset {request} e.
Arguments Message {request}.
Arguments DestroyEngine {request} e.
Arguments CUnlock {request} e id.
Arguments StepCaller {request} t.
Arguments StepWorker {request} w.

(** ConvolutionEngine.cpp:7-27, Convolver.cpp:19-47: what is built of the arguments of LoadIR and of
    [spec_] *)
From Verif.Model Require Import Arith Juce UniformPartitionedConvolver Convolver.
(** ConvolutionEngine.cpp:7-27, Convolver.cpp:19-47 *)
Definition convolver_build {A : arith} (R : rfft A) (r : audio A * conv_spec) (p : process_spec) : res (convolver A) :=
  conv_make R (fst r) (ps_max_block p) (snd r).
