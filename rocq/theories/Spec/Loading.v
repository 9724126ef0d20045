(** * Specification: what a history of loading events says *)
From Verif.Model Require Import Base ConvolutionEngine Loader.

Section Loading.
  Context {request conv : Type}.
  Notation trace := (list (event request conv)).

  (** the LoadIR calls of engine [e], in the order in which they obtained the mutex; the last one *)
  Definition began (e : nat) (tr : trace) : list nat :=
    flat_map (fun x => match x with Began _ id e' _ => if e' =? e then [id] else [] | _ => [] end) tr.
  Definition last_began (e : nat) (tr : trace) : option nat := hd_error (rev (began e tr)).
  (** the loads whose convolver was pushed onto the command queue of engine [e] *)
  Definition pushed (e : nat) (tr : trace) : list nat :=
    flat_map (fun x => match x with Pushed id e' _ => if e' =? e then [id] else [] | _ => [] end) tr.
  (** the argument of the last prepare of engine [e] *)
  Definition last_prepared (e : nat) (tr : trace) : option process_spec :=
    hd_error (rev (flat_map (fun x => match x with Prepared e' s => if e' =? e then [s] else [] | _ => [] end) tr)).
  (** what a listener of engine [e] that asks IsLoading whenever it is called knows *)
  Definition last_notified (e : nat) (tr : trace) : bool :=
    last (flat_map (fun x => match x with Notified e' b => if e' =? e then [b] else [] | _ => [] end) tr) false.

  (** nobody is inside LoadIR of engine [e], and no job is delivering to it *)
  Definition settled (e : nat) (s : state request conv) : Prop := n_lock (s_engine s e) = None.
  (** nothing is going on: no LoadIR call, no job *)
  Definition quiescent (s : state request conv) : Prop :=
    (forall t, s_caller s t = CIdle) /\ (forall w, s_worker s w = WIdle) /\ s_jobs s = [].

  (** the engine a LoadIR call is for *)
  Definition call_engine (c : caller request) : option nat :=
    match c with
    | CIdle => None
    | CLock e _ | CRemove e _ _ | CSpec e _ _ | CFlag e _ _ | CEmit e _ _ | CAdd e _ _ | CUnlock e _ => Some e
    end.
  (** nothing of engine [e] is going on: no LoadIR call, no job, no callback waiting *)
  Definition forgotten (e : nat) (s : state request conv) : Prop :=
    (forall t, call_engine (s_caller s t) <> Some e) /\
    (forall j, In j (s_jobs s) -> l_engine (j_load j) <> e) /\ ~ In e (s_messages s).
  (** moves of the user of engine [e] *)
  Definition uses (e : nat) (m : move request) : Prop :=
    match m with
    | CallLoadIR _ e' _ | CallPrepare e' _ | Preparing e' | CallReset e' | DestroyEngine e' => e' = e
    | _ => False
    end.

  (** What a careful user may do in state [s]: nothing with an engine that is destroyed, no LoadIR with
      a response of which no convolver can be made, prepare only with specifications from which one can
      be made, and an engine is destroyed only when nothing of it is going on. *)
  Variable build : request -> process_spec -> res conv.
  Variable workers : nat.
  Variable valid : process_spec -> Prop.
  Definition permitted (s : state request conv) (m : move request) : Prop :=
    (forall e, uses e m -> n_alive (s_engine s e) = true) /\
    (forall t e r, m = CallLoadIR t e r -> forall p, valid p -> exists c, build r p = Ok c) /\
    (forall e p, m = CallPrepare e p -> valid p) /\
    (forall e, m = DestroyEngine e -> forgotten e s).
  Fixpoint careful (s : state request conv) (ms : list (move request)) : Prop :=
    match ms with
    | [] => True
    | m :: t => permitted s m /\ match load_move build workers s m with Ok (s, _) => careful s t | _ => True end
    end.

  (** What the next step of a thread reads or writes ([true]) of the plain members of an engine, and of
      its queue.  A listener asks IsLoading. *)
  Inductive member := Spec | IsLoading | Queue.
  Definition touches (s : state request conv) (m : move request) : option (nat * member * bool) :=
    match m with
    | StepCaller t =>
        match s_caller s t with
        | CSpec e _ _ => Some (e, Spec, false)
        | CFlag e _ _ => Some (e, IsLoading, true)
        | CEmit e _ _ => Some (e, IsLoading, false)
        | CAdd e _ _ => Some (e, Spec, false)
        | _ => None
        end
    | StepWorker w =>
        match s_worker s w with
        | WPush l _ => Some (l_engine l, Queue, true)
        | WFlag l => Some (l_engine l, IsLoading, true)
        | _ => None
        end
    | CallPrepare e _ => Some (e, Spec, true)
    | Preparing e | CallReset e => Some (e, IsLoading, true)
    | Message => match s_messages s with e :: _ => Some (e, IsLoading, false) | [] => None end
    | _ => None
    end.
  (** two threads are about to access the same thing, and one of them to write it *)
  Definition race (s : state request conv) (m m' : move request) : Prop :=
    exists e a w w', touches s m = Some (e, a, w) /\ touches s m' = Some (e, a, w') /\ (w || w') = true.

  (** moves of threads inside a call, of the pool and of the message thread *)
  Definition steps (m : move request) : Prop :=
    match m with StepCaller _ | StepWorker _ | Message => True | _ => False end.
  (** a round in which only these move, and each of them at least once; LoadIR is called by the threads
      below [callers] *)
  Definition fair (callers : nat) (b : list (move request)) : Prop :=
    (forall m, In m b -> steps m) /\ (forall t, t < callers -> In (StepCaller t) b) /\
    (forall w, w < workers -> In (StepWorker w) b) /\ In Message b.
End Loading.
