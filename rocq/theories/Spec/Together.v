(** * Specification: from LoadIR to what is heard *)
From Verif.Model Require Import Base Arith Juce Convolver ConvolutionEngine Loader.
From Verif.Spec Require Import Transform Signal Engine Loading.

(** [ys] is the end of [xs] *)
Definition ending {T} (ys xs : list T) : Prop := exists zs, xs = zs ++ ys.

Section Heard.
  Context {A : arith} {I : conv_if A}.
  (** the convolvers that the jobs hand over, inside the calls ([env]) or between them ([l]) *)
  Definition delivers (env : list (list (action I))) (l : list (op I)) (h : held I) : Prop :=
    (exists a, In a env /\ In (Deliver I h) a) \/ (exists a, In (Others I a) l /\ In (Deliver I h) a).
  (** [h] is [h0] after sessions of blocks, each ended by a reset, and then the blocks [past] *)
  Definition grown (h0 : held I) (history : list (list (audio A))) (past : list (audio A)) (h : held I) : Prop :=
    h_id I h = h_id I h0 /\
    exists c outs outs', feed_sessions (cv_process I) (cv_reset I) (h_cv I h0) history = Ok (c, outs) /\
                         feed (cv_process I) c past = Ok (h_cv I h, outs').
  (** the arguments of prepare *)
  Definition prepares (l : list (op I)) : list process_spec :=
    flat_map (fun o => match o with Prepare _ s => [s] | _ => [] end) l.
End Heard.

Section Same.
  Context {request conv : Type}.
  Definition prepared (e : nat) (tr : list (event request conv)) : list process_spec :=
    flat_map (fun x => match x with Prepared e' s => if e' =? e then [s] else [] | _ => [] end) tr.
End Same.

(** The two models describe the same execution: [tr] is what happened in the loader, [env], [l] the history of
    engine number [e] and [log] its log.  What the jobs pushed is what the engine was handed, and the calls of
    prepare are the same. *)
Definition same_execution {A : arith} {I : conv_if A} {request : Type} (e : nat) (tr : list (event request (cv I)))
           (env : list (list (action I))) (l : list (op I)) (log : list log_entry) : Prop :=
  (forall h, delivers env l h -> In (Pushed (h_id I h) e (h_cv I h)) tr) /\
  handed_over log = pushed e tr /\ prepares l = prepared e tr.
