(** * Specification: a queue whose operations take place in one instant *)
From Verif.Model Require Import Base VisitorQueue.

Section Linear.
  Context {T : Type}.
  (** how many commands it can hold, those being handled included *)
  Variable capacity : nat.

  (** a call of PushCommand: not called; called; it has taken place, with this result *)
  Inductive apush : Type := PushIdle | PushCalled (c : T) | PushDone (b : bool).
  (** a call of Service: not called; called; [n] commands are left to handle; it is over *)
  Inductive aservice : Type := ServiceIdle | ServiceCalled | Serving (n : nat) | ServiceDone.
  (** [a_waiting]: the commands in the queue, oldest first; [a_busy]: how many the running Service has
      already taken out *)
  Record aqueue : Type := { a_waiting : list T; a_busy : nat; a_push : apush; a_service : aservice }.
  Definition a_init : aqueue := {| a_waiting := []; a_busy := 0; a_push := PushIdle; a_service := ServiceIdle |}.

  (** [atomic a events a']: one step; the events are what can be seen from outside. *)
  Inductive atomic : aqueue -> list (event T) -> aqueue -> Prop :=
  | Call_push w b s c :
      atomic {| a_waiting := w; a_busy := b; a_push := PushIdle; a_service := s |} [EvPush c]
             {| a_waiting := w; a_busy := b; a_push := PushCalled c; a_service := s |}
  | Push_room w b s c : length w + b < capacity ->
      atomic {| a_waiting := w; a_busy := b; a_push := PushCalled c; a_service := s |} []
             {| a_waiting := w ++ [c]; a_busy := b; a_push := PushDone true; a_service := s |}
  | Push_full w b s c : capacity <= length w + b ->
      atomic {| a_waiting := w; a_busy := b; a_push := PushCalled c; a_service := s |} []
             {| a_waiting := w; a_busy := b; a_push := PushDone false; a_service := s |}
  | Return_push w b s r :
      atomic {| a_waiting := w; a_busy := b; a_push := PushDone r; a_service := s |} [EvPushed r]
             {| a_waiting := w; a_busy := b; a_push := PushIdle; a_service := s |}
  | Call_service w b p :
      atomic {| a_waiting := w; a_busy := b; a_push := p; a_service := ServiceIdle |} [EvService]
             {| a_waiting := w; a_busy := b; a_push := p; a_service := ServiceCalled |}
  | Count w b p :
      atomic {| a_waiting := w; a_busy := b; a_push := p; a_service := ServiceCalled |} []
             {| a_waiting := w; a_busy := b; a_push := p; a_service := Serving (length w) |}
  | Visit c w b p n :
      atomic {| a_waiting := c :: w; a_busy := b; a_push := p; a_service := Serving (S n) |} [EvVisit (Some c)]
             {| a_waiting := w; a_busy := S b; a_push := p; a_service := Serving n |}
  | Free w b p :
      atomic {| a_waiting := w; a_busy := b; a_push := p; a_service := Serving 0 |} []
             {| a_waiting := w; a_busy := 0; a_push := p; a_service := ServiceDone |}
  | Return_service w b p :
      atomic {| a_waiting := w; a_busy := b; a_push := p; a_service := ServiceDone |} [EvServiced]
             {| a_waiting := w; a_busy := b; a_push := p; a_service := ServiceIdle |}.
  Inductive atomic_run : aqueue -> list (event T) -> aqueue -> Prop :=
  | Run_nil a : atomic_run a [] a
  | Run_cons a e b es c : atomic a e b -> atomic_run b es c -> atomic_run a (e ++ es) c.
End Linear.
Arguments aqueue : clear implicits.
Arguments apush : clear implicits.
