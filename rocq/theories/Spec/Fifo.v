(** * Specification: what a log of calls, returns and visits says about a queue *)
From Verif.Model Require Import Base VisitorQueue.

Section Fifo.
  Context {T : Type}.

  (** The commands whose push returned true, in order, and the command whose push has been
      called but has not returned yet. *)
  Fixpoint pushes (acc : list T) (cur : option T) (log : list (event T)) : list T * option T :=
    match log with
    | [] => (acc, cur)
    | EvPush c :: t => pushes acc (Some c) t
    | EvPushed true :: t => pushes (match cur with Some c => acc ++ [c] | None => acc end) None t
    | EvPushed false :: t => pushes acc None t
    | _ :: t => pushes acc cur t
    end.
  Definition accepted (log : list (event T)) : list T := fst (pushes [] None log).
  Definition in_progress (log : list (event T)) : list T :=
    match snd (pushes [] None log) with Some c => [c] | None => [] end.
  (** what was handed to the visitor, in order *)
  Definition visited (log : list (event T)) : list (option T) :=
    flat_map (fun e => match e with EvVisit c => [c] | _ => [] end) log.
  (** how many of them by calls of Service that have returned *)
  Fixpoint completed (before now : nat) (log : list (event T)) : nat :=
    match log with
    | [] => before
    | EvVisit _ :: t => completed before (S now) t
    | EvServiced :: t => completed now now t
    | _ :: t => completed before now t
    end.
  Definition serviced (log : list (event T)) : nat := completed 0 0 log.
  Definition prefix {X} (a b : list X) : Prop := exists rest, b = a ++ rest.
End Fifo.
