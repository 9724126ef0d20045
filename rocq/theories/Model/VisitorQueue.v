(** * ConvolutionVisitorQueue (zones_convolver/ConvolutionEngine.h:12-58)

    A queue shared by one pushing and one servicing thread.  The shared memory is the two
    atomic integers of the [juce::AbstractFifo] and the vector [storage_]; every load and store
    of it is one step, and a schedule interleaves the steps of the two threads in any way
    (sequential consistency: [juce::Atomic] is sequentially consistent, and the theorem
    [C29_no_data_race] shows that the accesses to [storage_] never race).

    [juce::AbstractFifo] is external; its methods are rendered from JUCE 8.0.3. *)
From Verif.Model Require Import Base.

(** [AbstractFifo::getNumReady], [getFreeSpace] on the two values loaded *)
(** (JUCE 8.0.3, external) *)
Definition fifo_num_ready (size vs ve : nat) : nat := if vs <=? ve then ve - vs else size - (vs - ve).
(** [AbstractFifo::getFreeSpace] (JUCE 8.0.3, external) *)
Definition fifo_free_space (size vs ve : nat) : nat := size - fifo_num_ready size vs ve - 1.
(** [AbstractFifo::prepareToWrite]: (startIndex1, blockSize1, startIndex2, blockSize2) *)
Definition fifo_prepare_write (size vs ve num : nat) : nat * nat * nat * nat :=
  let free := if vs <=? ve then size - (ve - vs) else vs - ve in
  let num := Nat.min num (free - 1) in
  if num =? 0 then (0, 0, 0, 0)
  else let b1 := Nat.min (size - ve) num in
       let num := num - b1 in
       (ve, b1, 0, if num =? 0 then 0 else Nat.min num vs).
(** [AbstractFifo::prepareToRead] *)
(** (JUCE 8.0.3, external) *)
Definition fifo_prepare_read (size vs ve num : nat) : nat * nat * nat * nat :=
  let num := Nat.min num (fifo_num_ready size vs ve) in
  if num =? 0 then (0, 0, 0, 0)
  else let b1 := Nat.min (size - vs) num in
       let num := num - b1 in
       (vs, b1, 0, if num =? 0 then 0 else Nat.min num ve).
(** [finishedWrite], [finishedRead]: the new index from the old *)
(** (JUCE 8.0.3, external) *)
Definition fifo_advance (size old num : nat) : nat :=
  if size <=? old + num then old + num - size else old + num.
(** the indices [ScopedReadWrite::forEach] visits *)
(** (JUCE 8.0.3, external) *)
Definition fifo_indices (r : nat * nat * nat * nat) : list nat :=
  let '(s1, b1, s2, b2) := r in seq s1 b1 ++ seq s2 b2.
(** the sum of the two block sizes, what [ScopedReadWrite] passes to the finish functions (JUCE 8.0.3) *)
Definition fifo_blocks (r : nat * nat * nat * nat) : nat := let '(_, b1, _, b2) := r in b1 + b2.

Section Queue.
  Context {T : Type}.
  (** [kMaxQueueSize] (ConvolutionEngine.h:52); the model is generic in it *)
  Variable size : nat.

  (** The program point of a thread inside PushCommand (ConvolutionEngine.h:32-44) *)
  Inductive push_pc : Type :=
  | PIdle
  | PFree1                          (* line 34: getFreeSpace loads validStart *)
  | PFree2 (vs : nat)               (* ... loads validEnd and compares with 0 *)
  | PPrep1                          (* line 37: prepareToWrite loads validStart *)
  | PPrep2 (vs : nat)               (* ... loads validEnd *)
  | PStore (w : nat * nat * nat * nat) (* lines 38-41: the store into storage_ *)
  | PFin1 (num : nat)               (* line 43: ~ScopedWrite, finishedWrite loads validEnd *)
  | PFin2 (ve : nat)                (* ... stores validEnd *)
  | PRet (b : bool).

  (** ... inside Service (ConvolutionEngine.h:21-30) *)
  Inductive service_pc : Type :=
  | SIdle
  | SReady1                         (* line 23: getNumReady loads validStart *)
  | SReady2 (vs : nat)              (* ... loads validEnd *)
  | SPrep1 (num : nat)              (* line 23: prepareToRead loads validStart *)
  | SPrep2 (num vs : nat)           (* ... loads validEnd *)
  | SLoop (todo : list nat) (num : nat) (* line 27: move out of storage_[index] *)
  | SVisit (c : option T) (todo : list nat) (num : nat) (* line 28: std::visit *)
  | SFin1 (num : nat)               (* ~ScopedRead, finishedRead loads validStart *)
  | SFin2 (vs : nat)                (* ... stores validStart *)
  | SRet.

  (** [storage_]: [None] is a moved-from command.  [q_cmd]: the variable of the caller of
      PushCommand, [None] once moved from. *)
  (** ConvolutionEngine.h:51-57 and the two indices of the AbstractFifo *)
  Record queue : Type := {
    q_start : nat; q_end : nat; q_storage : list (option T);
    q_cmd : option T; q_push : push_pc; q_service : service_pc
  }.
  (** ConvolutionEngine.h:16-19, 52-57 *)
  Definition q_init : queue :=
    {| q_start := 0; q_end := 0; q_storage := repeat None size;
       q_cmd := None; q_push := PIdle; q_service := SIdle |}.

  (** What can be observed from outside: calls and returns of the two functions, and the visits. *)
  (** No code. *)
  Inductive event : Type :=
  | EvPush (c : T) | EvPushed (b : bool)
  | EvService | EvVisit (c : option T) | EvServiced.

  (** No code: the pushing thread moves on *)
  Definition with_push (q : queue) (p : push_pc) : queue :=
    {| q_start := q_start q; q_end := q_end q; q_storage := q_storage q; q_cmd := q_cmd q;
       q_push := p; q_service := q_service q |}.
  (** No code: the servicing thread moves on *)
  Definition with_service (q : queue) (p : service_pc) : queue :=
    {| q_start := q_start q; q_end := q_end q; q_storage := q_storage q; q_cmd := q_cmd q;
       q_push := q_push q; q_service := p |}.

  (** One step of the pushing thread (ConvolutionEngine.h:32-44). *)
  Definition push_step (q : queue) : res (queue * list event) :=
    match q_push q with
    | PIdle => Ok (q, [])
    | PFree1 => Ok (with_push q (PFree2 (q_start q)), [])
    | PFree2 vs => Ok (with_push q (if fifo_free_space size vs (q_end q) =? 0 then PRet false else PPrep1), [])
    | PPrep1 => Ok (with_push q (PPrep2 (q_start q)), [])
    | PPrep2 vs => Ok (with_push q (PStore (fifo_prepare_write size vs (q_end q) 1)), [])
    | PStore w =>
        let '(s1, b1, s2, b2) := w in
        if negb (b1 =? 0) then
          st <- set (q_storage q) s1 (q_cmd q) ;;
          Ok ({| q_start := q_start q; q_end := q_end q; q_storage := st; q_cmd := None;
                 q_push := PFin1 (b1 + b2); q_service := q_service q |}, [])
        else if negb (b2 =? 0) then
          st <- set (q_storage q) s2 (q_cmd q) ;;
          Ok ({| q_start := q_start q; q_end := q_end q; q_storage := st; q_cmd := None;
                 q_push := PFin1 (b1 + b2); q_service := q_service q |}, [])
        else Ok (with_push q (PFin1 (b1 + b2)), [])
    | PFin1 num => Ok (with_push q (PFin2 (fifo_advance size (q_end q) num)), [])
    | PFin2 ve =>
        Ok ({| q_start := q_start q; q_end := ve; q_storage := q_storage q; q_cmd := q_cmd q;
               q_push := PRet true; q_service := q_service q |}, [])
    | PRet b => Ok (with_push q PIdle, [EvPushed b])
    end.

  (** One step of the servicing thread (ConvolutionEngine.h:21-30). *)
  Definition service_step (q : queue) : res (queue * list event) :=
    match q_service q with
    | SIdle => Ok (q, [])
    | SReady1 => Ok (with_service q (SReady2 (q_start q)), [])
    | SReady2 vs => Ok (with_service q (SPrep1 (fifo_num_ready size vs (q_end q))), [])
    | SPrep1 num => Ok (with_service q (SPrep2 num (q_start q)), [])
    | SPrep2 num vs =>
        let r := fifo_prepare_read size vs (q_end q) num in
        Ok (with_service q (SLoop (fifo_indices r) (fifo_blocks r)), [])
    | SLoop [] num => Ok (with_service q (SFin1 num), [])
    | SLoop (i :: todo) num =>
        c <- get (q_storage q) i ;;
        st <- set (q_storage q) i None ;;
        Ok ({| q_start := q_start q; q_end := q_end q; q_storage := st; q_cmd := q_cmd q;
               q_push := q_push q; q_service := SVisit c todo num |}, [])
    | SVisit c todo num => Ok (with_service q (SLoop todo num), [EvVisit c])
    | SFin1 num => Ok (with_service q (SFin2 (fifo_advance size (q_start q) num)), [])
    | SFin2 vs =>
        Ok ({| q_start := vs; q_end := q_end q; q_storage := q_storage q; q_cmd := q_cmd q;
               q_push := q_push q; q_service := SRet |}, [])
    | SRet => Ok (with_service q SIdle, [EvServiced])
    end.

  (** A schedule: who moves next.  A call made while the thread is still inside its function
      is not possible and ignored. *)
  (** No code. *)
  Inductive move : Type := CallPush (c : T) | CallService | StepPush | StepService.
  (** No code of its own: the calls of ConvolutionEngine.h:21-44 and the steps of the two threads *)
  Definition q_move (q : queue) (m : move) : res (queue * list event) :=
    match m with
    | CallPush c =>
        match q_push q with
        | PIdle => Ok ({| q_start := q_start q; q_end := q_end q; q_storage := q_storage q;
                          q_cmd := Some c; q_push := PFree1; q_service := q_service q |}, [EvPush c])
        | _ => Ok (q, [])
        end
    | CallService =>
        match q_service q with
        | SIdle => Ok (with_service q SReady1, [EvService])
        | _ => Ok (q, [])
        end
    | StepPush => push_step q
    | StepService => service_step q
    end.
  (** No code: the moves of a schedule in turn *)
  Fixpoint q_run (q : queue) (ms : list move) : res (queue * list event) :=
    match ms with
    | [] => Ok (q, [])
    | m :: t => ' (q, e) <- q_move q m ;; ' (q, es) <- q_run q t ;; Ok (q, e ++ es)
    end.

  (** [HasPendingCommands] (ConvolutionEngine.h:46-49), not called in the library *)
  Definition q_pending (q : queue) : bool := 0 <? fifo_num_ready size (q_start q) (q_end q).
End Queue.
Arguments queue : clear implicits.
Arguments move : clear implicits.
Arguments event : clear implicits.
Arguments service_pc : clear implicits.
