(** * zones_convolver/util/ComplexBuffer.h and .cpp: storage and pointers

    Model/ComplexBuffer.v treats a complex buffer as a value.  Here the vectors' storage
    and the pointers into it are explicit, to describe what the implicitly declared copy
    and move constructors do. *)
From Verif.Model Require Import Base Arith.

Section Heap.
  Context {A : arith}.

  (** the heap: the storages of the [channel_data_] vectors; an address is the number of a
      storage together with an offset *)
  Definition heap : Type := list (list (cplx A)).

  (** ComplexBuffer.h:28-32.  [h_store] is the storage owned by [channel_data_]. *)
  Record hbuf : Type := {
    h_channels : nat; h_points : nat; h_store : nat; h_ptrs : list (nat * nat)
  }.

  (** ComplexBuffer.cpp:5-12 *)
  Definition h_new (h : heap) (num_points num_channels : nat) : heap * hbuf :=
    (h ++ [repeat c0 (num_points * num_channels)],
     {| h_channels := num_channels; h_points := num_points; h_store := length h;
        h_ptrs := tab num_channels (fun c => (length h, c * num_points)) |}).

  (** The copy constructor, which ComplexBuffer.h:6-33 leaves implicit, copies member by
      member: [channel_data_] gets a storage of its own, the pointers are copied as they
      are. *)
  Definition h_copy (h : heap) (b : hbuf) : res (heap * hbuf) :=
    data <- get h (h_store b) ;;
    Ok (h ++ [data],
        {| h_channels := h_channels b; h_points := h_points b; h_store := length h;
           h_ptrs := h_ptrs b |}).

  (** The implicit move constructor: moving a vector hands over its storage, so the
      pointers stay right. *)
  Definition h_move (b : hbuf) : hbuf := b.

  (** ComplexBuffer.cpp:24-28: reading point [p] of channel [c] through GetReadPointer *)
  Definition h_read (h : heap) (b : hbuf) (c p : nat) : res (cplx A) :=
    _ <- assert (c <? h_channels b) ;;
    ' (s, o) <- get (h_ptrs b) c ;;
    st <- get h s ;; get st (o + p).

  (** ComplexBuffer.cpp:30-34: writing it through GetWritePointer *)
  Definition h_write (h : heap) (b : hbuf) (c p : nat) (v : cplx A) : res heap :=
    _ <- assert (c <? h_channels b) ;;
    ' (s, o) <- get (h_ptrs b) c ;;
    st <- get h s ;; st <- set st (o + p) v ;; set h s st.

  (** the point as the arithmetic of ComplexBuffer.cpp:51-77 sees it, which indexes
      [channel_data_] *)
  Definition h_data (h : heap) (b : hbuf) (c p : nat) : res (cplx A) :=
    st <- get h (h_store b) ;; get st (c * h_points b + p).
End Heap.
