(** * Outcomes, arrays and loops

    Shared vocabulary of the model.  Nothing here models a particular file of
    /repo; it fixes how C++ control flow and memory accesses are rendered. *)
From Coq Require Export List Arith ZArith Lia Bool.
Export ListNotations.

(** The outcome of running a piece of C++ code.
    - [Ok a]    it finished and produced [a];
    - [Undef]   undefined behaviour (out-of-range access, division by zero,
                [back()] of an empty vector, ...) or a violated [jassert];
    - [Diverge] a loop that was still running when the fuel the model gives it
                was exhausted. *)
Inductive res (A : Type) : Type :=
| Ok : A -> res A
| Undef : res A
| Diverge : res A.
Arguments Ok {A} _.
Arguments Undef {A}.
Arguments Diverge {A}.

(** No code of its own: sequencing; the rest of the code does not run after undefined behaviour. *)
Definition bind {A B} (r : res A) (k : A -> res B) : res B :=
  match r with Ok a => k a | Undef => Undef | Diverge => Diverge end.

Declare Scope res_scope.
Delimit Scope res_scope with res.
Notation "x <- e ;; k" := (bind e (fun x => k))
  (at level 61, e at next level, right associativity) : res_scope.
Notation "' p <- e ;; k" := (bind e (fun x => match x with p => k end))
  (at level 61, p pattern, e at next level, right associativity) : res_scope.
Open Scope res_scope.

(** [assert b] is a [jassert], or a precondition of a library call. *)
Definition assert (b : bool) : res unit := if b then Ok tt else Undef.

(** Array read [l[i]] and write [l[i] = v]. *)
Definition get {A} (l : list A) (i : nat) : res A :=
  match nth_error l i with Some a => Ok a | None => Undef end.

Fixpoint upd {A} (l : list A) (i : nat) (v : A) : list A :=
  match l, i with
  | [], _ => []
  | _ :: t, 0 => v :: t
  | a :: t, S i' => a :: upd t i' v
  end.

Definition set {A} (l : list A) (i : nat) (v : A) : res (list A) :=
  if i <? length l then Ok (upd l i v) else Undef.

(** [for (i = a; i < a + n; ++i) body]. *)
Fixpoint for_from {St} (a n : nat) (body : nat -> St -> res St) (s : St) : res St :=
  match n with
  | 0 => Ok s
  | S n' => s' <- body a s ;; for_from (S a) n' body s'
  end.

(** [for (i = 0; i < n; ++i) body]. *)
Definition for_n {St} (n : nat) (body : nat -> St -> res St) (s : St) : res St :=
  for_from 0 n body s.

(** [for (i = n; i > 0; --i) body]. *)
Fixpoint for_down {St} (n : nat) (body : nat -> St -> res St) (s : St) : res St :=
  match n with
  | 0 => Ok s
  | S n' => s' <- body (S n') s ;; for_down n' body s'
  end.

(** Apply an operation to every element (for instance every channel). *)
Fixpoint mapM {A B} (f : A -> res B) (l : list A) : res (list B) :=
  match l with
  | [] => Ok []
  | a :: t => b <- f a ;; t' <- mapM f t ;; Ok (b :: t')
  end.

(** The array of length [n] whose [i]-th element is [f i]. *)
Definition tab {A} (n : nat) (f : nat -> A) : list A := map f (seq 0 n).

(** C++ unsigned remainder and quotient: division by zero is undefined. *)
Definition umod (a b : nat) : res nat := if b =? 0 then Undef else Ok (a mod b).
Definition udiv (a b : nat) : res nat := if b =? 0 then Undef else Ok (a / b).

(** Unsigned subtraction that must not wrap around. *)
Definition usub (a b : nat) : res nat := if b <=? a then Ok (a - b) else Undef.

(** [while (cond) body]; [Diverge] when it has not ended after [fuel] rounds. *)
Fixpoint while_ {St} (fuel : nat) (cond : St -> bool) (body : St -> res St) (s : St) : res St :=
  if cond s then
    match fuel with
    | 0 => Diverge
    | S fuel' => s' <- body s ;; while_ fuel' cond body s'
    end
  else Ok s.
