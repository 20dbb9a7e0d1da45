(** * PropAug: the augmented storage (C40). *)
From Coq Require Import List Arith Lia Bool ZArith.
From Verif Require Import Base Scalar CSModel CSSpec ConvModel ConvSpec AugModel AugSpec AugProofs1 AugProofs2 AugProofs3 AugProofs4.
From Verif Require Import PropCS.
Import ListNotations.

(** C40.  After any legal history of row pushes, column interchanges and column
    deferrals on a fresh storage, nothing was accessed out of bounds and every loop
    ended; the rows are stored in increasing column order with exactly the entries of
    the matrix obtained by appending rows, exchanging columns and moving columns; for
    every column, walking its list gives exactly its entries from top to bottom, and
    its count is their number. *)
Theorem C40_history : forall (O : Ops) (A : CS O) ops, legal_run O (ssize A) [] ops ->
  exists s, arun O A ops = Ok s /\ shows O (ssize A) s (mrun O ops []).
Proof.
  intros O A ops H. destruct (arun_from O (ssize A) ops (aug_begin O A) [] (good_begin O A) H) as (s & E & G).
  exists s. split; auto. now apply good_shows.
Qed.
Print Assumptions C40_history.

(** C40, starting from a finished matrix: [build_aug] leaves the matrix as it is
    and creates the lists; the same holds after any further legal history. *)
Theorem C40_from_matrix : forall (O : Ops) (A : CS O) ops, valid A -> tight A ->
  legal_run O (ssize A) (rows_of A (psize A)) ops ->
  exists s0 s, build_aug O A = Ok s0 /\ a_cs s0 = A /\ shows O (ssize A) s0 (rows_of A (psize A)) /\
    for_list ops (astep O) s0 = Ok s /\ shows O (ssize A) s (mrun O ops (rows_of A (psize A))).
Proof.
  intros O A ops V TI H. destruct (build_l O A V TI) as (s0 & E0 & G0 & EA).
  destruct (arun_from O (ssize A) ops s0 _ G0 H) as (s & E & G).
  exists s0, s. split; auto. split; auto. split. { now apply good_shows. } split; auto. now apply good_shows.
Qed.
Print Assumptions C40_from_matrix.

Lemma swap_entry : forall O i k M r c, entry O (mstep O (ASwap O i k) M) r c = entry O M r (sw i k c).
Proof. intros. cbn [mstep]. rewrite entry_map by (natb; auto). unfold entry, sw. natb; auto. Qed.

(** C40, one interchange: exactly the two columns change places, nothing else
    changes, and interchanging again restores every entry. *)
Theorem C40_interchange : forall (O : Ops) (A : CS O) ops i k, legal_run O (ssize A) [] ops ->
  i < ssize A -> k < ssize A ->
  exists s s' s'', arun O A ops = Ok s /\ interchange O i k s = Ok s' /\ interchange O i k s' = Ok s'' /\
    let M := mrun O ops [] in
    (forall j, j < ssize A -> j <> i -> j <> k -> walk_col O s' j = walk_col O s j) /\
    walk_col O s' i = walk_col O s k /\ walk_col O s' k = walk_col O s i /\
    (forall r c v, r < length M -> (stored (a_cs s'') r c v <-> stored (a_cs s) r c v)).
Proof.
  intros O A ops i k H Hi Hk. destruct (arun_from O (ssize A) ops (aug_begin O A) [] (good_begin O A) H) as (s & E & G).
  set (M := mrun O ops []) in *.
  destruct (astep_l O (ssize A) s M (ASwap O i k) G (conj Hi Hk)) as (s' & E' & G').
  destruct (astep_l O (ssize A) s' _ (ASwap O i k) G' (conj Hi Hk)) as (s'' & E'' & G'').
  exists s, s', s''. split; auto. split; auto. split; auto.
  pose proof (good_shows O _ _ _ G) as S0. pose proof (good_shows O _ _ _ G') as S1. pose proof (good_shows O _ _ _ G'') as S2.
  assert (COL : forall f M r0 j, (forall r : nat -> option (T O), f r j = r j) -> column_from O r0 (map (fun r => f r) M) j = column_from O r0 M j).
  { intros f M0. induction M0; intros r0 j HF; simpl; auto. rewrite HF, !IHM0 by auto. reflexivity. }
  assert (COL2 : forall f M r0 j j', (forall r : nat -> option (T O), f r j = r j') -> column_from O r0 (map (fun r => f r) M) j = column_from O r0 M j').
  { intros f M0. induction M0; intros r0 j j' HF; simpl; auto. rewrite HF, !(IHM0 _ _ j') by auto. reflexivity. }
  cbn zeta. split; [|split; [|split]].
  - intros j Hj N1 N2. rewrite (sh_walk O _ _ _ S1), (sh_walk O _ _ _ S0) by auto. f_equal. unfold column, mstep.
    apply COL. intros r. destruct (Nat.eqb_spec j i); [contradiction|]. destruct (Nat.eqb_spec j k); [contradiction|]. auto.
  - rewrite (sh_walk O _ _ _ S1), (sh_walk O _ _ _ S0) by auto. f_equal. unfold column, mstep.
    apply COL2. intros r. now rewrite Nat.eqb_refl.
  - rewrite (sh_walk O _ _ _ S1), (sh_walk O _ _ _ S0) by auto. f_equal. unfold column, mstep.
    apply COL2. intros r. rewrite Nat.eqb_refl. destruct (Nat.eqb_spec k i); [now subst|auto].
  - intros r c v Hr. assert (L2 : length (mstep O (ASwap O i k) (mstep O (ASwap O i k) M)) = length M) by (simpl; now rewrite !map_length).
    rewrite (sh_stored O _ _ _ S2) by (rewrite L2; auto). rewrite (sh_stored O _ _ _ S0) by auto.
    rewrite !swap_entry, sw_sw. tauto.
Qed.
Print Assumptions C40_interchange.

(** ** Non-vacuity *)
Definition ex_ops : list (aop OZ) :=
  [APush OZ 0 (Push OZ [0; 2; 3] [10; 0; 12; 13; 0; 0]%Z);
   APush OZ 1 (Push2 OZ [1] [0; 21; 0; 0; 0; 0]%Z [2] [0; 0; 22; 0; 0; 0]%Z);
   ASwap OZ 0 2;
   APush OZ 2 (PushEmpty OZ);
   ADefer OZ 1 4;
   APush OZ 3 (Push OZ [0; 4] [40; 0; 0; 0; 44; 0]%Z);
   ASwap OZ 4 3;
   ADefer OZ 2 5].
Definition ex_A : CS OZ := mkCS 4 6 [] [] [].
Ltac ex_row := unfold entry; cbn [mstep mrun fold_left map app nth pushed assoc];
  repeat (match goal with |- context[?a =? ?b] => destruct (Nat.eqb_spec a b) end); try lia; try reflexivity; try congruence.
Ltac ex_list := intros a b Ha Hb; destruct b as [|[|[|b]]]; destruct a as [|[|[|a]]]; cbn in *; lia.
Example C40_hyps : legal_run OZ (ssize ex_A) [] ex_ops.
Proof.
  cbn [legal_run ex_ops]. repeat split; try (simpl; lia); try (simpl; intros; intuition lia); try ex_list.
  - intros [|[|[|[|r]]]]; ex_row.
  - intros [|[|[|[|r]]]] c; ex_row.
  - intros [|[|[|[|[|r]]]]]; ex_row.
  - intros [|[|[|[|[|r]]]]] c; ex_row.
Qed.
Example C40_run : exists s, arun OZ ex_A ex_ops = Ok s /\
  ind_start (a_cs s) = [0; 3; 5; 5; 7] /\ indices (a_cs s) = [0; 4; 5; 0; 3; 0; 3] /\
  vals (a_cs s) = [12; 13; 10; 22; 21; 40; 44]%Z /\
  map (walk_col OZ s) [0; 1; 2; 3; 4; 5] =
   [Ok [(0, 12%Z); (1, 22%Z); (3, 40%Z)]; Ok []; Ok []; Ok [(1, 21%Z); (3, 44%Z)]; Ok [(0, 13%Z)]; Ok [(0, 10%Z)]] /\
  map (nnz_in_col OZ s) [0; 3; 5] = [Ok 3; Ok 2; Ok 1].
Proof. vm_compute. eexists. split; [reflexivity|]. repeat split. Qed.

Definition ex_B : CS OZ := @mkCS OZ 3 4 [0; 2; 2; 4] [0; 3; 1; 3] [1; 2; 3; 4]%Z.
Example C40_build_hyps : valid ex_B /\ tight ex_B /\ legal_run OZ 4 (rows_of ex_B 3) [ASwap OZ 3 1; ASwap OZ 0 3].
Proof.
  split; [|split].
  - split; [apply wfb_wf|apply sortedb_sorted]; vm_compute; reflexivity.
  - apply tightb_tight. vm_compute. reflexivity.
  - cbn [legal_run legal]. repeat split; lia.
Qed.
