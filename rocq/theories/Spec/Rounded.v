(** * Specification: sound levels of a fade, as real numbers *)
From Coq Require Import Reals.
From Verif.Model Require Import Base.
Open Scope R_scope.

(** the level the incoming convolver should have at sample [t] (from 0) of a fade over [n] samples:
    (t+1)/n, at most 1.  The outgoing one should have the rest. *)
Definition share (n t : nat) : R := INR (Nat.min (S t) n) / INR n.
(** the mix of two sounds *)
Definition mix (x old new : R) : R := old * (1 - x) + new * x.
