(** * RcmSpec: graphs and orderings. *)
From Coq Require Import List Arith ZArith.
From Verif Require Import Base Scalar CSModel CSSpec.
Import ListNotations.

(** [i -> j]: the compressed storage lists [j] under [i]. *)
Definition edge {O : Ops} (B : CS O) (i j : nat) : Prop :=
  exists k, st B i <= k /\ k < st B (S i) /\ ix B k = j.

(** The graph is undirected. *)
Definition sym_graph {O : Ops} (B : CS O) : Prop :=
  forall i j, i < psize B -> edge B i j -> edge B j i.

(** The start array the call leaves in the (const) argument: one-based. *)
Definition one_based {O : Ops} (B : CS O) : list Z := map (fun v => (Z.of_nat v + 1)%Z) (ind_start B).
