(** * Specification vocabulary for buffers, rings, split blocks, stages and delay lines *)
From Verif.Model Require Import Base Arith Juce ComplexBuffer SplitBlock DecompositionSchedule
     FrequencyDelayLine.

(** [n] channels of [m] elements each *)
Definition matrix {T} (n m : nat) (b : list (list T)) : Prop :=
  length b = n /\ forall c, In c b -> length c = m.
(** element [i] of channel [c] *)
Definition elem {T} (d : T) (b : list (list T)) (c i : nat) : T := nth i (nth c b []) d.

Section Buffers.
  Context {A : arith}.

  (** a complex buffer of [n] channels of [m] points; point [p] of channel [c] *)
  Definition has_dims (n m : nat) (b : cbuf A) : Prop :=
    cb_points b = m /\ matrix n m (cb_data b).
  Definition point (b : cbuf A) (c p : nat) : cplx A := elem c0 (cb_data b) c p.

  (** what is seen through a split block, channel by channel *)
  Definition read_split (s : split) (c : list (sample A)) : list (sample A) :=
    firstn (v_len (sb_first s)) (skipn (v_start (sb_first s)) c) ++
    firstn (v_len (sb_wrapped s)) (skipn (v_start (sb_wrapped s)) c).
  Definition in_view (v : view) (i : nat) : Prop := v_start v <= i < v_start v + v_len v.
  (** two windows of a buffer of [m] samples that do not overlap *)
  Definition proper_split (m : nat) (s : split) : Prop :=
    v_start (sb_first s) + v_len (sb_first s) <= m /\
    v_start (sb_wrapped s) + v_len (sb_wrapped s) <= m /\
    (v_start (sb_first s) + v_len (sb_first s) <= v_start (sb_wrapped s) \/
     v_start (sb_wrapped s) + v_len (sb_wrapped s) <= v_start (sb_first s)).

  (** Histories of a set of stage buffers; the specification keeps the contents of A, B
      and C. *)
  Inductive stage_op : Type := Promote | WriteStage (id : stage_id) (b : cbuf A) | ClearStages.
  Definition stage_step (s : stages A) (o : stage_op) : res (stages A) :=
    match o with
    | Promote => Ok (st_promote s)
    | WriteStage id b => st_put s id b
    | ClearStages => Ok (st_clear s)
    end.
  Fixpoint stage_run (s : stages A) (l : list stage_op) : res (stages A) :=
    match l with [] => Ok s | o :: t => s' <- stage_step s o ;; stage_run s' t end.
  Definition stage_spec (x : cbuf A * cbuf A * cbuf A) (o : stage_op) : cbuf A * cbuf A * cbuf A :=
    let '(a, b, c) := x in
    match o with
    | Promote => (c, a, b)
    | WriteStage kA v => (v, b, c)
    | WriteStage kB v => (a, v, c)
    | WriteStage kC v => (a, b, v)
    | ClearStages => (cb_clear a, cb_clear b, cb_clear c)
    end.

  (** Histories of a frequency delay line.  [Push b]: GetNextBlock, then the block returned
      is overwritten by [b]; [Rewrite b]: the current block is overwritten again. *)
  Inductive fdl_op : Type := Push (b : cbuf A) | Rewrite (b : cbuf A) | ClearLine.
  Definition fdl_step (f : fdl A) (o : fdl_op) : res (fdl A) :=
    match o with
    | Push b => f <- fdl_next f ;; fdl_put f 0 b
    | Rewrite b => fdl_put f 0 b
    | ClearLine => Ok (fdl_clear f)
    end.
  Fixpoint fdl_run (f : fdl A) (l : list fdl_op) : res (fdl A) :=
    match l with [] => Ok f | o :: t => f' <- fdl_step f o ;; fdl_run f' t end.
  (** the blocks written since construction or the last Clear, newest first; [None]: none *)
  Definition fdl_spec (h : list (cbuf A)) (o : fdl_op) (zero : cbuf A) : list (cbuf A) :=
    match o with
    | Push b => b :: h
    | Rewrite b => b :: tl h
    | ClearLine => []
    end.
End Buffers.
