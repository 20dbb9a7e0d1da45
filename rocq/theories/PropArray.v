(** * C27: shared arrays are released exactly once and never used after release. *)
From Coq Require Import List Arith Lia Bool.
From Verif Require Import Base ArrayModel ArraySpec ArrayProofs.
Import ListNotations.

(** Legal client code never makes the library touch a released counter, release memory
    twice, or release memory it does not own: each of these is [UB] in the model, and
    no legal operation is [UB] in any reachable state, allocation failures included. *)
Theorem C27_no_double_free : forall h o, reach h -> legal o h -> exists h', astep o h = Ok h'.
Proof. intros h o R L. destruct (step_inv o h (reach_inv h R) L) as (h' & E & _). eauto. Qed.
Print Assumptions C27_no_double_free.

(** At any point of any history: a buffer allocated by the library that was not handed
    over with [steal] is still allocated exactly when some array object owns it, and has
    been released exactly once otherwise. *)
Theorem C27_released_exactly_with_last_owner : forall h d b, reach h ->
  nth_error (h_bufs h) d = Some b -> b_kind b = BOwned ->
  (b_alive b = true <-> exists s a, holds h s a /\ owns a d) /\
  b_frees b = (if b_alive b then 0 else 1).
Proof.
  intros h d b R E K. pose proof (reach_inv h R) as I. split; [|eapply iv_free; eauto]. split.
  - intros Al. destruct (iv_leak _ _ I d b E K Al) as [?|H]; [discriminate|auto].
  - intros (s & a & Ha & Es & Ed). destruct (iv_own _ _ I _ _ Ha Es) as (d' & c & b' & r & E1 & _ & E3 & _ & _ & _ & E7 & _).
    rewrite Ed in E1. inversion E1; subst d'. congruence.
Qed.
Print Assumptions C27_released_exactly_with_last_owner.

(** Memory of the user (wrapped, or taken over by [steal]) is never released. *)
Theorem C27_external_never_freed : forall h d b, reach h ->
  nth_error (h_bufs h) d = Some b -> b_kind b = BExt -> b_alive b = true /\ b_frees b = 0.
Proof.
  intros h d b R E K. destruct (iv_free _ _ (reach_inv h R) d b E) as (F & A). rewrite (A K) in F. auto.
Qed.
Print Assumptions C27_external_never_freed.

(** Reading an element of an owning array, through whichever of the sharing objects and
    whatever happened to the others, never touches released memory. *)
Theorem C27_owning_arrays_readable : forall h s a i, reach h -> holds h s a -> a_status a = OWN -> i < a_size a ->
  aread h s i = Ok tt.
Proof.
  intros h s a i R Ha Es Hi. pose proof (reach_inv h R) as I.
  destruct (iv_own _ _ I _ _ Ha Es) as (d & c & b & r & E1 & _ & E3 & _ & E5 & E6 & E7 & _).
  unfold aread. rewrite (object_ok _ _ _ Ha). simpl. rewrite E1, (get_error _ _ _ _ E3). simpl. rewrite E7.
  destruct (Nat.ltb_spec i (b_len b)); auto; lia.
Qed.
Print Assumptions C27_owning_arrays_readable.

(** When every array has been destroyed nothing allocated by the library is left. *)
Theorem C27_no_leak : forall h, reach h -> (forall s a, ~ holds h s a) ->
  forall d b, nth_error (h_bufs h) d = Some b -> b_kind b = BOwned -> b_alive b = false /\ b_frees b = 1.
Proof.
  intros h R N d b E K. destruct (C27_released_exactly_with_last_owner h d b R E K) as (A & F).
  destruct (b_alive b) eqn:Al; auto. destruct (proj1 A eq_refl) as (s & a & Ha & _). destruct (N s a Ha).
Qed.
Print Assumptions C27_no_leak.

(** Limits found in the code. *)

(** Three variables, one user buffer of length 4. *)
Definition h0 : heap := mkHeap [None; None; None] [mkBuf 4 BExt true 0] [].
Lemma h0_initial : initial h0.
Proof.
  split; [|split; [|reflexivity]].
  - intros [|[|[|s]]] o H; simpl in H; try (inversion H; reflexivity). destruct s; discriminate.
  - intros [|d] b H; simpl in H; [inversion H; subst; simpl; auto|destruct d; discriminate].
Qed.

(** Copying (or copy-assigning) from an array whose contents were moved away
    dereferences a null counter. *)
Theorem C27_copy_of_moved_from_refuted : exists h1, aruns [ONew 0 3 true; OMove 1 0] h0 = Ok h1 /\
  (exists a, holds h1 0 a) /\ unused h1 2 /\ astep (OCopy 2 0) h1 = UB.
Proof. eexists. split; [vm_compute; reflexivity|]. split; [eexists; reflexivity|]. split; reflexivity. Qed.
Print Assumptions C27_copy_of_moved_from_refuted.

(** [Array(n, data)] (copying constructor) with a failed allocation keeps size [n] with a
    null pointer: its elements cannot be accessed although [size() = n]. *)
Theorem C27_failed_copy_keeps_size_refuted : exists h1 a, astep (OCopyFrom 0 3 false) h0 = Ok h1 /\
  holds h1 0 a /\ a_size a = 3 /\ aread h1 0 0 = UB.
Proof. eexists. eexists. split; [vm_compute; reflexivity|]. split; [reflexivity|]. split; reflexivity. Qed.
Print Assumptions C27_failed_copy_keeps_size_refuted.

(** Assignment compares data pointers only: assigning an owner to a wrapper of the same
    memory does nothing, so the "copy" does not keep the memory alive. *)
Theorem C27_assign_to_alias_refuted : exists h1 h2, aruns [ONew 0 3 true; OWrap 1 3 1; OAssign 1 0] h0 = Ok h1 /\
  aread h1 1 0 = Ok tt /\ astep (ODestroy 0) h1 = Ok h2 /\ aread h2 1 0 = UB.
Proof. eexists. eexists. split; [vm_compute; reflexivity|]. split; [reflexivity|]. split; [vm_compute; reflexivity|]. reflexivity. Qed.
Print Assumptions C27_assign_to_alias_refuted.

(** Assignment between wrappers of the same memory does not copy the size either. *)
Theorem C27_assign_keeps_stale_size_refuted : exists h1 a b, aruns [OWrap 0 2 0; OWrap 1 4 0; OAssign 0 1] h0 = Ok h1 /\
  holds h1 0 a /\ holds h1 1 b /\ a_size a <> a_size b.
Proof. eexists. eexists. eexists. split; [vm_compute; reflexivity|]. split; [reflexivity|]. split; [reflexivity|]. discriminate. Qed.
Print Assumptions C27_assign_keeps_stale_size_refuted.

(** A non-trivial legal history: allocate, share, grow one of the sharers, steal, assign, destroy. *)
Example C27_hyps : exists h1, reach h1 /\ (exists a, holds h1 1 a /\ a_status a = OWN /\ a_size a = 3) /\
  nth_error (h_bufs h1) 1 = Some (mkBuf 3 BOwned true 0) /\ nth_error (h_bufs h1) 2 = Some (mkBuf 6 BOwned false 1).
Proof.
  assert (R0 : reach h0) by (apply reach0, h0_initial).
  destruct (astep (ONew 0 3 true) h0) as [h1| |] eqn:E1; vm_compute in E1; try discriminate.
  assert (R1 : reach h1). { eapply (reachS h0 (ONew 0 3 true)); eauto. reflexivity. }
  destruct (astep (OCopy 1 0) h1) as [h2| |] eqn:E2; inversion E1; subst h1; vm_compute in E2; try discriminate.
  assert (R2 : reach h2). { eapply (reachS _ (OCopy 1 0)); eauto. split; [reflexivity|]. eexists; split; [reflexivity|]. discriminate. }
  destruct (astep (OResize 0 5 6 true) h2) as [h3| |] eqn:E3; inversion E2; subst h2; vm_compute in E3; try discriminate.
  assert (R3 : reach h3). { eapply (reachS _ (OResize 0 5 6 true)); eauto. eexists; split; [reflexivity|]. left; reflexivity. }
  destruct (astep (ODestroy 0) h3) as [h4| |] eqn:E4; inversion E3; subst h3; vm_compute in E4; try discriminate.
  assert (R4 : reach h4). { eapply (reachS _ (ODestroy 0)); eauto. eexists; reflexivity. }
  inversion E4; subst h4. eexists. split; [exact R4|]. split; [eexists; split; [reflexivity|]; auto|]. auto.
Qed.
