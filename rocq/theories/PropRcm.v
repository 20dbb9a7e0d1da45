(** * PropRcm: C34, the RCM reordering. *)
From Coq Require Import List Arith Lia Bool ZArith Permutation.
From Verif Require Import Base Scalar Spec CSModel CSSpec CSProofs RcmModel RcmSpec RcmProofs4 VecProofs PropCS.
Import ListNotations.

(** C34 for undirected graphs, of any size and with any number of components: the
    reordering returns (no step bound is hit, no array is left), whatever the output
    array held before, and its result is a permutation of [0..n-1].  The start array
    of the argument, which the call is allowed to see as [const], is left one-based. *)
Theorem C34_permutation_partial : forall (O : Ops) (B : CS O) (p0 : list nat),
  wf B -> psize B = ssize B -> length (ind_start B) = psize B + 1 -> length p0 = ssize B ->
  sym_graph B ->
  exists P, run_rcm B p0 = Ok (P, one_based B) /\ is_perm (ssize B) P.
Proof.
  intros O B p0 W SQ LS L0 Sy. destruct (run_rcm_l O B W SQ LS p0 L0) as (A' & R' & E & ND & RA & LL & HR).
  rewrite (HR Sy) in *. rewrite app_nil_r in E. eexists; split; [exact E|].
  apply is_perm_Permutation. symmetry. apply (perm_pred O B SQ LS A' ND RA). simpl in LL. lia.
Qed.
Print Assumptions C34_permutation_partial.

(** For every graph, directed or not: it terminates inside its arrays; the nodes it did
    number, the front part of the result, are distinct. *)
Theorem C34_terminates : forall (O : Ops) (B : CS O) (p0 : list nat),
  wf B -> psize B = ssize B -> length (ind_start B) = psize B + 1 -> length p0 = ssize B ->
  exists P numbered rest, run_rcm B p0 = Ok (P, one_based B) /\ P = numbered ++ rest /\ length P = ssize B /\
    NoDup numbered /\ (forall v, In v numbered -> v < ssize B).
Proof.
  intros O B p0 W SQ LS L0. destruct (run_rcm_l O B W SQ LS p0 L0) as (A' & R' & E & ND & RA & LL & HR).
  exists (map (fun v => v - 1) A' ++ R'), (map (fun v => v - 1) A'), R'. do 2 (split; [solve [auto]|]).
  split. { rewrite app_length, map_length. auto. } split.
  - clear - ND RA. induction A'; simpl; constructor; inversion ND; subst.
    + intros H. apply in_map_iff in H. destruct H as (x & E & Hx). apply H1. replace a with x; auto.
      pose proof (RA x ltac:(simpl; auto)). pose proof (RA a ltac:(simpl; auto)). lia.
    + apply IHA'; auto. intros; apply RA; simpl; auto.
  - intros v Hv. apply in_map_iff in Hv. destruct Hv as (x & <- & Hx). specialize (RA x Hx). lia.
Qed.
Print Assumptions C34_terminates.

(** The claim fails for directed graphs: with edges 0->1 and 0->2 the search for a
    better root moves to node 1, from which 0 is not reachable; 0 is never numbered
    and the result lists 2 twice. *)
Definition gdir : CS OZ := @mkCS OZ 3 3 [0; 2; 2; 2] [1; 2] [1%Z; 1%Z].
Theorem C34_directed_refuted : exists P x,
  wf gdir /\ psize gdir = ssize gdir /\ length (ind_start gdir) = psize gdir + 1 /\
  run_rcm gdir [0; 0; 0] = Ok (P, x) /\ ~ is_perm (ssize gdir) P /\ ~ In 0 P.
Proof.
  exists [1; 2; 2], (one_based gdir). split. { apply wfb_wf. vm_compute. reflexivity. }
  do 2 (split; [reflexivity|]). split. { vm_compute. reflexivity. } split.
  - intros (_ & _ & H). specialize (H 1 2 ltac:(simpl; lia) ltac:(simpl; lia) eq_refl). discriminate.
  - simpl. lia.
Qed.
Print Assumptions C34_directed_refuted.

(** Non-vacuity: a path 0-3-1-4 with a loop at 1, an isolated node 2 and a triangle 5-6-7. *)
Definition gsym : CS OZ := @mkCS OZ 8 8
  [0; 1; 4; 4; 6; 7; 9; 11; 13] [3; 1; 3; 4; 0; 1; 1; 6; 7; 5; 7; 5; 6]
  [1%Z; 1%Z; 1%Z; 1%Z; 1%Z; 1%Z; 1%Z; 1%Z; 1%Z; 1%Z; 1%Z; 1%Z; 1%Z].

Lemma edge_dec : forall i j, edge gsym i j <-> In j (slice (st gsym i) (st gsym (S i) - st gsym i) (indices gsym)) \/
  exists k, st gsym i <= k /\ k < st gsym (S i) /\ length (indices gsym) <= k /\ j = 0.
Proof.
  intros i j. unfold edge. split.
  - intros (k & H1 & H2 & E). destruct (Nat.lt_ge_cases k (length (indices gsym))).
    + left. destruct (Nat.lt_ge_cases (length (indices gsym)) (st gsym (S i))).
      * exfalso. assert (st gsym (S i) <= 13); [|simpl in *; lia].
        unfold st, gsym. cbn [ind_start]. do 10 (destruct i as [|i]; [simpl; lia|]). simpl. destruct i; lia.
      * rewrite <- E. unfold ix. replace k with (st gsym i + (k - st gsym i)) by lia.
        rewrite <- (nth_slice _ (st gsym i) (st gsym (S i) - st gsym i)) by lia. apply nth_In. rewrite slice_length; lia.
    + right. exists k. do 3 (split; [solve [auto]|]). rewrite <- E. unfold ix. apply nth_overflow. auto.
  - intros [H|(k & H1 & H2 & H3 & ->)].
    + destruct (In_nth _ _ 0 H) as (k & Hk & E).
      assert (Hk' : k < st gsym (S i) - st gsym i).
      { unfold slice in Hk. rewrite firstn_length in Hk. lia. }
      rewrite nth_slice in E by auto. exists (st gsym i + k). split; [lia|]. split; [lia|]. exact E.
    + exists k. do 2 (split; [solve [auto]|]). unfold ix. apply nth_overflow. auto.
Qed.

Example gsym_sym : sym_graph gsym.
Proof.
  intros i j Hi H. apply edge_dec in H. destruct H as [H|(k & H1 & H2 & H3 & _)].
  - apply edge_dec. left. change (psize gsym) with 8 in Hi.
    do 8 (destruct i as [|i]; [vm_compute in H; repeat (destruct H as [<-|H]); try contradiction; vm_compute; tauto|]). lia.
  - exfalso. change (psize gsym) with 8 in Hi. do 8 (destruct i as [|i]; [vm_compute in H2, H3; lia|]). lia.
Qed.

Example C34_case : wf gsym /\ psize gsym = ssize gsym /\ length (ind_start gsym) = psize gsym + 1 /\ sym_graph gsym /\
  run_rcm gsym (repeat 9 8) = Ok ([4; 1; 3; 0; 2; 7; 5; 6], one_based gsym).
Proof.
  split. { apply wfb_wf. vm_compute. reflexivity. } do 2 (split; [reflexivity|]). split. apply gsym_sym.
  vm_compute. reflexivity.
Qed.
