(** * ArraySpec: legal client code, reachable states, who owns what. *)
From Coq Require Import List Arith Lia Bool.
From Verif Require Import Base ArrayModel.
Import ListNotations.

(** Before any array exists: [n] variables, some user buffers. *)
Definition initial (h : heap) : Prop :=
  (forall s o, nth_error (h_arrs h) s = Some o -> o = None) /\
  (forall d b, nth_error (h_bufs h) d = Some b -> b_kind b = BExt /\ b_alive b = true /\ b_frees b = 0) /\
  h_ctrs h = [].

Definition holds (h : heap) (s : nat) (a : arr) : Prop := nth_error (h_arrs h) s = Some (Some a).
Definition unused (h : heap) (s : nat) : Prop := nth_error (h_arrs h) s = Some None.
Definition moved_from (a : arr) : Prop := a_cnt a = None.

(** The memory an object points to may be read over its whole size: automatic for
    owning objects (theorem [C27_owning_arrays_readable]); for wrapped memory it is the
    client's duty to keep that memory alive. *)
Definition readable (h : heap) (a : arr) : Prop :=
  a_size a = 0 \/ exists d b, a_data a = Some d /\ nth_error (h_bufs h) d = Some b /\ b_alive b = true /\ a_size a <= b_len b.

(** What C++ itself asks of the client: construct only fresh variables, use only
    constructed ones, wrap only existing memory, deep-copy or regrow only objects whose
    memory is there; and, in addition, do not copy from an object after its contents
    were moved away. *)
Definition legal (o : aop) (h : heap) : Prop :=
  match o with
  | ODefault s | ONew s _ _ | OCopyFrom s _ _ => unused h s
  | OWrap s n p => unused h s /\ p < length (h_bufs h)
  | OCopy d s => unused h d /\ exists a, holds h s a /\ ~ moved_from a
  | OClone d s => unused h d /\ exists a, holds h s a /\ (a_status a = OWN \/ readable h a)
  | OMove d s => unused h d /\ exists a, holds h s a
  | OAssign d s => (exists t, holds h d t) /\ exists a, holds h s a /\ ~ moved_from a
  | OMoveAssign d s | OSwap d s => (exists t, holds h d t) /\ exists a, holds h s a
  | OResize s _ _ _ | OReserve s _ _ => exists a, holds h s a /\ (a_status a = OWN \/ readable h a)
  | OSteal s | ODestroy s => exists a, holds h s a
  end.

Inductive reach : heap -> Prop :=
| reach0 : forall h, initial h -> reach h
| reachS : forall h o h', reach h -> legal o h -> astep o h = Ok h' -> reach h'.

(** The object owns (possibly with others) buffer [d]. *)
Definition owns (a : arr) (d : nat) : Prop := a_status a = OWN /\ a_data a = Some d.
