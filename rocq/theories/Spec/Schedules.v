(** * Specification: schedules that differ only in what the background thread does *)
From Verif.Model Require Import Base Arith Juce ConvolutionEngine.

Section Schedules.
  Context {A : arith} (I : conv_if A).
  (** the convolvers that loading jobs push into the command queue, in this piece of a schedule *)
  Definition pushed (l : list (action I)) : list (held I) :=
    flat_map (fun a => match a with Deliver _ h => [h] | _ => [] end) l.
  (** the same pushes between the same steps of the caller; the background thread may run at any other moment, or never *)
  Definition same_pushes (env env' : list (list (action I))) : Prop :=
    forall n, pushed (nth n env []) = pushed (nth n env' []).
  (** the same call, or the same pushes between two calls *)
  Inductive same_but_background : op I -> op I -> Prop :=
  | sb_same o : same_but_background o o
  | sb_others l l' : pushed l = pushed l' -> same_but_background (Others I l) (Others I l').
  (** the convolvers delivered and rejected, in order *)
  Definition arrivals (log : list log_entry) : list log_entry :=
    filter (fun x => match x with Delivered _ | Rejected _ | ClearCalled => true | Destroyed _ _ => false end) log.
End Schedules.
