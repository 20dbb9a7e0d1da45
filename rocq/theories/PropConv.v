(** * Properties C04, C05, C09, C10, C11, C13, C43: conversions between storages. *)
From Coq Require Import List Arith Lia Bool ZArith.
From Verif Require Import Base Scalar Spec CSModel CSSpec ConvModel ConvSpec
  BucketProofs ConvProofs ConvProofs2 ConvProofs3 ConvProofs4 PropCS.
Import ListNotations.

(** ** C04: CRS <-> CCS *)

(** [ji], [jv]: the arbitrary initial contents of freshly allocated arrays. *)
Theorem C04_conversion_keeps_entries : forall O (A : CS O) ji jv, wf A -> tight A ->
  exists B, other_storage O ji jv A = Ok B /\ wf B /\ tight B /\
    psize B = ssize A /\ ssize B = psize A /\ nnz_of B = nnz_of A /\
    (forall i j v, i < psize A -> j < ssize A -> (stored B j i v <-> stored A i j v)) /\
    (distinct A -> sorted B) /\
    (RingLaws O -> meq (psize A) (ssize A) (ccs_mat B) (crs_mat A)).
Proof.
  intros O A ji jv W T. destruct (C04_l O A ji jv W T) as (B & H1 & H2 & H3 & H4 & H5 & H6 & H7 & H8 & H9). exists B.
  repeat (split; [assumption|]). intros RL i j Hi Hj. now apply H9.
Qed.
Print Assumptions C04_conversion_keeps_entries.

Theorem C04_round_trip : forall O (A : CS O) ji jv ji' jv', wf A -> tight A -> sorted A ->
  exists B, other_storage O ji jv A = Ok B /\ other_storage O ji' jv' B = Ok A.
Proof. exact C04_round_l. Qed.
Print Assumptions C04_round_trip.

Example C04_hyps : wf exA /\ tight exA /\ sorted exA.
Proof.
  split; [apply wfb_wf|split; [apply tightb_tight|apply sortedb_sorted]]; vm_compute; reflexivity.
Qed.
Example C04_run : other_storage OZ 7 9%Z exA = Ok exAc /\ other_storage OZ 7 9%Z exAc = Ok exA.
Proof. split; vm_compute; reflexivity. Qed.

(** ** C05: COO triplets *)

Theorem C05_coo : forall O ji jv prim sec pidx sids (cv : list (T O)),
  length sids = length pidx -> length cv = length pidx ->
  (forall t, t < length pidx -> nth t pidx 0 < prim /\ nth t sids 0 < sec) ->
  (forall t u, t < u -> u < length pidx -> nth t pidx 0 = nth u pidx 0 -> nth t sids 0 <> nth u sids 0) ->
  exists B, convert_coo2cs O ji jv prim sec pidx sids cv = Ok B /\ valid B /\ tight B /\
    psize B = prim /\ ssize B = sec /\
    (forall i j v, i < prim -> (stored B i j v <->
       exists t, t < length pidx /\ nth t pidx 0 = i /\ nth t sids 0 = j /\ nth t cv (t0 O) = v)) /\
    (RingLaws O -> (forall t, t < length pidx -> ent B (nth t pidx 0) (nth t sids 0) = nth t cv (t0 O)) /\
       forall i j, i < prim -> (forall t, t < length pidx -> nth t pidx 0 = i -> nth t sids 0 <> j) ->
         ent B i j = t0 O).
Proof.
  intros O ji jv prim sec pidx sids cv H1 H2 H3 H4.
  destruct (coo_rows O ji jv prim sec pidx sids cv H1 H2 H3 H4) as (B & E & V & T & P1 & P2 & S).
  exists B. repeat (split; [assumption|]). intros RL. split.
  - intros t Ht. apply ent_stored_eq; auto.
    + apply valid_nodup; [apply V|]. rewrite P1. now apply H3.
    + apply S. { now apply H3. } exists t. auto.
  - intros i j Hi Hn. apply ent_not_stored; auto. intros v Hv. apply S in Hv; auto.
    destruct Hv as (t & Ht & A1 & A2 & _). exact (Hn t Ht A1 A2).
Qed.
Print Assumptions C05_coo.

(** Triplets of [exA] in scrambled order, two of them out of order in row 0. *)
Example C05_hyps :
  (forall t, t < 3 -> nth t [0;1;0] 0 < 2 /\ nth t [2;1;0] 0 < 3) /\
  (forall t u, t < u -> u < 3 -> nth t [0;1;0] 0 = nth u [0;1;0] 0 -> nth t [2;1;0] 0 <> nth u [2;1;0] 0).
Proof.
  split; intros.
  - destruct t as [|[|[|t]]]; simpl; lia.
  - destruct u as [|[|[|u]]], t as [|[|[|t]]]; simpl in *; lia.
Qed.
Example C05_run : convert_coo2cs OZ 7 9%Z 2 3 [0;1;0] [2;1;0] [2;3;1]%Z = Ok exA.
Proof. vm_compute. reflexivity. Qed.
(** Outside the property: a repeated position in an unsorted row stores the
    last value twice (neither kept apart nor summed). *)
Example C05_duplicates_not_summed :
  convert_coo2cs OZ 7 9%Z 1 2 [0;0;0] [1;0;1] [5;6;7]%Z = Ok (@mkCS OZ 1 2 [0;3] [0;1;1] [6;7;7]%Z).
Proof. vm_compute. reflexivity. Qed.

(** ** C09: permutation *)

(** [leading = 0] asks for the whole matrix, [leading > 0] for that leading block;
    [q] is the inverse of the argument [qt]. *)
Theorem C09_permuted : forall O (A : CS O) p q qt leading ji jv, valid A ->
  length p = psize A -> (forall i, i < psize A -> nth i p 0 < psize A) ->
  is_inv (ssize A) q qt ->
  leading <= psize A -> leading <= ssize A -> 0 < ssize A ->
  let np := if leading =? 0 then psize A else leading in
  let ns := if leading =? 0 then ssize A else leading in
  exists B, compute_perm O A p qt leading false ji jv = Ok B /\ valid B /\ tight B /\
    psize B = np /\ ssize B = ns /\
    (forall i j v, i < np -> j < ns -> (stored B i j v <-> stored A (nth i p 0) (nth j q 0) v)) /\
    (RingLaws O -> meq np ns (crs_mat B) (fun i j => crs_mat A (nth i p 0) (nth j q 0))).
Proof.
  intros O A p q qt leading ji jv V Lp Hp HI HL1 HL2 HS np ns.
  destruct (C09_l O A p q qt leading ji jv V Lp Hp HI HL1 HL2 HS) as (B & E & (VB & TB & P1 & P2 & S) & _).
  fold np in P1, S. fold ns in P2, S.
  exists B. repeat (split; [assumption|]).
  assert (S' : forall i j v, i < np -> j < ns -> (stored B i j v <-> stored A (nth i p 0) (nth j q 0) v)).
  { intros i j v Hi Hj. rewrite S by auto. tauto. }
  split; auto. intros RL i j Hi Hj. apply ent_same; auto.
  - apply valid_nodup; [apply VB|lia].
  - apply valid_nodup; [apply V|]. apply Hp. subst np. destruct (leading =? 0); lia.
Qed.
Print Assumptions C09_permuted.

(** The structure-only call returns the same pattern without values. *)
Theorem C09_struct_only : forall O (A : CS O) p q qt leading ji jv, valid A ->
  length p = psize A -> (forall i, i < psize A -> nth i p 0 < psize A) ->
  is_inv (ssize A) q qt -> leading <= psize A -> leading <= ssize A -> 0 < ssize A ->
  exists B, compute_perm O A p qt leading false ji jv = Ok B /\
    compute_perm O A p qt leading true ji jv = Ok (mkCS (psize B) (ssize B) (ind_start B) (indices B) []).
Proof.
  intros O A p q qt leading ji jv V Lp Hp HI HL1 HL2 HS.
  destruct (C09_l O A p q qt leading ji jv V Lp Hp HI HL1 HL2 HS) as (B & E & (VB & TB & P1 & P2 & S) & E').
  exists B. split; auto. now rewrite E', P1, P2.
Qed.
Print Assumptions C09_struct_only.

Example C09_hyps : valid exA /\ is_inv 3 [1;2;0] [2;0;1] /\ 2 <= psize exA /\ 2 <= ssize exA.
Proof.
  split; [split; [apply wfb_wf|apply sortedb_sorted]; vm_compute; reflexivity|].
  split; [|simpl; lia]. split; [|split; [|split]]; try reflexivity; intros i Hi; lt_cases; simpl; lia.
Qed.
Example C09_run :
  compute_perm OZ exA [1;0] [2;0;1] 0 false 7 9%Z = Ok (@mkCS OZ 2 3 [0;1;3] [0;1;2] [3;2;1]%Z) /\
  compute_perm OZ exA [1;0] [2;0;1] 2 false 7 9%Z = Ok (@mkCS OZ 2 2 [0;1;2] [0;1] [3;2]%Z).
Proof. split; vm_compute; reflexivity. Qed.

(** ** C10: splitting at secondary index m *)

Theorem C10_split : forall O (A : CS O) m ji jv, valid A -> tight A -> m <= ssize A ->
  exists B1 B2, split O false m A ji jv = Ok B1 /\ split O true m A ji jv = Ok B2 /\
    is_storage B1 (psize A) m (fun i j v => j < m /\ stored A i j v) /\
    is_storage B2 (psize A) (ssize A - m) (fun i j v => stored A i (m + j) v) /\
    nnz_of B1 + nnz_of B2 = nnz_of A.
Proof.
  intros O A m ji jv V T Hm.
  destruct (split_rows O false m A ji jv V T Hm) as (B1 & E1 & WB1 & TB1 & _ & _ & R1).
  destruct (split_rows O true m A ji jv V T Hm) as (B2 & E2 & WB2 & TB2 & _ & _ & R2).
  destruct (C10_split_l O false m A ji jv V T Hm) as (B1' & E1' & H1).
  destruct (C10_split_l O true m A ji jv V T Hm) as (B2' & E2' & H2).
  assert (B1' = B1) by congruence. assert (B2' = B2) by congruence. subst B1' B2'.
  exists B1, B2. split; auto. split; auto. split; [|split; auto].
  - destruct H1 as (A1 & A2 & A3 & A4 & A5). repeat (split; [assumption|]).
    intros. rewrite A5 by auto. tauto.
  - pose proof H1 as (_ & _ & P1 & _). pose proof H2 as (_ & _ & P2 & _).
    rewrite !(nnz_flat O) by (auto; apply V). rewrite P1, P2.
    assert (G : forall n, n <= psize A -> length (flat O (rowl B1) n) + length (flat O (rowl B2) n) = length (flat O (rowl A) n)).
    { induction n; intros Hn; auto. rewrite !flat_S, !app_length.
      specialize (IHn ltac:(lia)). rewrite R1, R2 by lia.
      assert (length (part O false m (rowl A n)) + length (part O true m (rowl A n)) = length (rowl A n)); [|lia].
      unfold part. rewrite map_length. clear. induction (rowl A n); simpl; auto.
      destruct (Nat.ltb_spec (fst a) m), (Nat.leb_spec m (fst a)); simpl; lia. }
    now apply G.
Qed.
Print Assumptions C10_split.

(** With split positions supplied by the caller. *)
Theorem C10_split_at_positions : forall O (second : bool) m (A : CS O) start ji jv,
  valid A -> tight A -> m <= ssize A ->
  psize A <= length start -> (forall i, i < psize A -> splits O A m i (nth i start 0)) ->
  exists B, split_at O second m A start ji jv = Ok B /\
    is_storage B (psize A) (if second then ssize A - m else m)
      (fun i j v => if second then stored A i (m + j) v else stored A i j v /\ j < m).
Proof. exact C10_split_at_l. Qed.
Print Assumptions C10_split_at_positions.

(** Into the other storage (CRS::split_ccs, CCS::split_crs). *)
Theorem C10_split_dual : forall O (second : bool) m (A : CS O) ji jv, valid A -> tight A -> m <= ssize A ->
  exists B, split_dual O second m A ji jv = Ok B /\
    is_storage B (if second then ssize A - m else m) (psize A)
      (fun j i v => i < psize A /\ if second then stored A i (m + j) v else stored A i j v /\ j < m).
Proof. exact C10_dual_l. Qed.
Print Assumptions C10_split_dual.
(** The same with the start of the second part of each primary given. *)
Theorem C10_split_dual_at_positions : forall O (second : bool) m (A : CS O) start ji jv, valid A -> tight A -> m <= ssize A ->
  psize A <= length start -> (forall i, i < psize A -> splits O A m i (nth i start 0)) ->
  exists B, split_dual_start O second m A start ji jv = Ok B /\
    is_storage B (if second then ssize A - m else m) (psize A)
      (fun j i v => i < psize A /\ if second then stored A i (m + j) v else stored A i j v /\ j < m).
Proof. exact C10_dual_start_l. Qed.
Print Assumptions C10_split_dual_at_positions.

(** In terms of matrix entries: leading and trailing column blocks. *)
Theorem C10_split_entries : forall O, RingLaws O -> forall (A : CS O) m ji jv, valid A -> tight A -> m <= ssize A ->
  exists B1 B2, split O false m A ji jv = Ok B1 /\ split O true m A ji jv = Ok B2 /\
    meq (psize A) m (crs_mat B1) (crs_mat A) /\
    meq (psize A) (ssize A - m) (crs_mat B2) (fun i j => crs_mat A i (m + j)).
Proof.
  intros O RL A m ji jv V T Hm. destruct (C10_split O A m ji jv V T Hm) as (B1 & B2 & E1 & E2 & H1 & H2 & _).
  exists B1, B2. split; auto. split; auto.
  destruct H1 as (V1 & _ & P1 & _ & S1). destruct H2 as (V2 & _ & P2 & _ & S2). split; intros i j Hi Hj.
  - apply ent_same; auto; try (apply valid_nodup; [first [apply V1|apply V]|lia]).
    intros v. rewrite S1 by auto. tauto.
  - apply ent_same; auto; try (apply valid_nodup; [first [apply V2|apply V]|lia]).
Qed.
Print Assumptions C10_split_entries.

(** A split size beyond the matrix is rejected. *)
Theorem C10_too_large : forall O second m (A : CS O) ji jv, ssize A < m ->
  split O second m A ji jv = Err /\ split_dual O second m A ji jv = Err.
Proof.
  intros. unfold split, split_dual. destruct (Nat.ltb_spec (ssize A) m); [auto|lia].
Qed.
Print Assumptions C10_too_large.

Example C10_hyps : valid exA /\ tight exA /\ 1 <= ssize exA /\ splits OZ exA 1 0 1.
Proof.
  split; [split; [apply wfb_wf|apply sortedb_sorted]; vm_compute; reflexivity|].
  split; [apply tightb_tight; vm_compute; reflexivity|]. split; [simpl; lia|].
  split; [vm_compute; lia|]. split; intros k Hk; vm_compute in Hk.
  - replace k with 0 by lia. vm_compute. lia.
  - replace k with 1 by lia. vm_compute. lia.
Qed.
Example C10_run :
  split OZ false 1 exA 7 9%Z = Ok (@mkCS OZ 2 1 [0;1;1] [0] [1]%Z) /\
  split OZ true 1 exA 7 9%Z = Ok (@mkCS OZ 2 2 [0;1;2] [1;0] [2;3]%Z) /\
  split_dual OZ true 1 exA 7 9%Z = Ok (@mkCS OZ 2 2 [0;1;2] [1;0] [3;2]%Z).
Proof. repeat split; vm_compute; reflexivity. Qed.

(** ** C11: leading block *)

(** Missing for the full property: a leading block that stores no entry is
    refused with "memory allocation failed" (next two theorems), so the zero
    matrix is never returned. *)
Theorem C11_leading_partial : forall O m (A : CS O) ji jv, valid A -> m <= psize A ->
  (exists i j v, i < m /\ j < m /\ stored A i j v) ->
  exists B, extract_leading O m A ji jv = Ok B /\
    is_storage B m m (fun i j v => j < m /\ stored A i j v) /\
    (RingLaws O -> meq m m (crs_mat B) (crs_mat A)).
Proof.
  intros O m A ji jv V Hm HE. destruct (C11_l O m A ji jv V Hm HE) as (B & E & H).
  exists B. split; auto. split; auto. intros RL i j Hi Hj.
  destruct H as (VB & TB & P1 & P2 & S). apply ent_same; auto; try (apply valid_nodup; [first [apply VB|apply V]|lia]).
  intros v. rewrite S by auto. tauto.
Qed.
Print Assumptions C11_leading_partial.

Theorem C11_empty_block_raises : forall O m (A : CS O) ji jv, valid A -> m <= psize A ->
  (forall i j v, i < m -> j < m -> ~ stored A i j v) ->
  extract_leading O m A ji jv = Err.
Proof. exact C11_empty_l. Qed.
Print Assumptions C11_empty_block_raises.

(** A valid matrix whose 2x2 leading block is zero. *)
Definition exN : CS OZ := @mkCS OZ 3 3 [0;1;2;3] [2;2;0] [4;5;6]%Z.
Theorem C11_zero_block_refuted :
  ~ (forall O m (A : CS O) ji jv, valid A -> m <= psize A -> m <= ssize A ->
       exists B, extract_leading O m A ji jv = Ok B).
Proof.
  intros H. destruct (H OZ 2 exN 7 9%Z) as (B & E).
  - split; [apply wfb_wf|apply sortedb_sorted]; vm_compute; reflexivity.
  - vm_compute; lia.
  - vm_compute; lia.
  - vm_compute in E. discriminate.
Qed.
Print Assumptions C11_zero_block_refuted.

Example C11_hyps : valid exA /\ 2 <= psize exA /\ stored exA 1 1 3%Z.
Proof.
  split; [split; [apply wfb_wf|apply sortedb_sorted]; vm_compute; reflexivity|].
  split; [simpl; lia|]. vm_compute. auto.
Qed.
Example C11_run : extract_leading OZ 2 exA 7 9%Z = Ok (@mkCS OZ 2 2 [0;1;2] [0;1] [1;3]%Z).
Proof. vm_compute. reflexivity. Qed.

(** ** C13: assembly *)

Theorem C13_assembled_rows : forall O (A : CS O) ops,
  (forall o, In o ops -> push_ok O o) ->
  (forall o e, In o ops -> In e (pushed O o) -> fst e < ssize A) ->
  exists B, assemble O A ops = Ok B /\ wf B /\ tight B /\ psize B = length ops /\ ssize B = ssize A /\
    (forall i, i < length ops -> rowl B i = pushed O (nth i ops (PushEmpty O))) /\
    ((forall o, In o ops -> Sorted.StronglySorted lt (map fst (pushed O o))) -> sorted B).
Proof.
  intros O A ops H1 H2. exists (canon O (length ops) (ssize A) (nrow O ops)).
  split; [now apply C13_l|].
  destruct (canon_spec O (length ops) (ssize A) (nrow O ops)) as (B1 & B2 & B3).
  { intros i e Hi He. apply (H2 (nth i ops (PushEmpty O))); auto. now apply nth_In. }
  repeat (split; [assumption|]). split; [reflexivity|]. split; [reflexivity|]. split; [exact B3|].
  intros HS. apply sorted_asc. simpl. intros i Hi. rewrite B3 by auto.
  assert (HI : Sorted.StronglySorted lt (map fst (nrow O ops i))) by (apply HS; now apply nth_In).
  clear -HI. induction HI; simpl; auto. split; auto. intros y Hy.
  rewrite Forall_forall in H. auto.
Qed.
Print Assumptions C13_assembled_rows.

Definition exOps : list (push OZ) :=
  [ Push OZ [0;2] [1;8;2]%Z; PushEmpty OZ; Push2 OZ [1] [8;3]%Z [2] [8;8;4]%Z ].
Example C13_hyps :
  (forall o, In o exOps -> push_ok OZ o) /\
  (forall o e, In o exOps -> In e (pushed OZ o) -> fst e < ssize exA) /\
  (forall o, In o exOps -> Sorted.StronglySorted lt (map fst (pushed OZ o))).
Proof.
  split; [|split].
  - intros o [<-|[<-|[<-|[]]]]; simpl; auto.
    + intros j [<-|[<-|[]]]; lia.
    + split; intros j [<-|[]]; lia.
  - intros o e [<-|[<-|[<-|[]]]]; simpl; intuition; subst; simpl; lia.
  - intros o [<-|[<-|[<-|[]]]]; simpl; repeat constructor; auto.
Qed.
Example C13_run : assemble OZ exA exOps = Ok (@mkCS OZ 3 3 [0;2;2;4] [0;2;1;2] [1;2;3;4]%Z).
Proof. vm_compute. reflexivity. Qed.

(** ** C43: dense copies (column-major arrays) *)

Theorem C43_dense_of_crs : forall O, RingLaws O -> forall A : CS O, valid A ->
  exists d, dense_of_crs O A = Ok d /\ length d = psize A * ssize A /\
    forall i j, i < psize A -> j < ssize A -> nth (i + j * psize A) d (t0 O) = crs_mat A i j.
Proof.
  intros O RL A (W & SA). unfold dense_of_crs.
  pose proof (dense_wp O A (fun r j => r + j * psize A) (psize A * ssize A) W SA) as G.
  apply wp_inv in G.
  - destruct G as (d & E & L & H). exists d. split; auto. split; auto. intros i j Hi Hj.
    destruct (H i j Hi Hj) as [H1 H2]. destruct (stored_dec O A i j) as [[v Hv]|Hn].
    + rewrite (H1 v Hv). symmetry. apply ent_stored_eq; auto. now apply valid_nodup.
    + rewrite (H2 Hn). symmetry. now apply ent_not_stored.
  - intros i j Hi Hj. nia.
  - intros i j i' j' Hi Hj Hi' Hj' E.
    assert (j = j').
    { destruct (Nat.lt_trichotomy j j') as [L|[L|L]]; auto.
      - exfalso. assert ((S j) * psize A <= j' * psize A) by (apply Nat.mul_le_mono_r; lia). simpl in *. lia.
      - exfalso. assert ((S j') * psize A <= j * psize A) by (apply Nat.mul_le_mono_r; lia). simpl in *. lia. }
    subst. split; auto. lia.
Qed.
Print Assumptions C43_dense_of_crs.

Theorem C43_dense_of_ccs : forall O, RingLaws O -> forall A : CS O, valid A ->
  exists d, dense_of_ccs O A = Ok d /\ length d = ssize A * psize A /\
    forall i j, i < ssize A -> j < psize A -> nth (i + j * ssize A) d (t0 O) = ccs_mat A i j.
Proof.
  intros O RL A (W & SA). unfold dense_of_ccs.
  pose proof (dense_wp O A (fun c j => c * ssize A + j) (ssize A * psize A) W SA) as G.
  apply wp_inv in G.
  - destruct G as (d & E & L & H). exists d. split; auto. split; auto. intros i j Hi Hj.
    replace (i + j * ssize A) with (j * ssize A + i) by lia. unfold ccs_mat.
    destruct (H j i Hj Hi) as [H1 H2]. destruct (stored_dec O A j i) as [[v Hv]|Hn].
    + rewrite (H1 v Hv). symmetry. apply ent_stored_eq; auto. now apply valid_nodup.
    + rewrite (H2 Hn). symmetry. now apply ent_not_stored.
  - intros i j Hi Hj. nia.
  - intros i j i' j' Hi Hj Hi' Hj' E.
    assert (i = i').
    { destruct (Nat.lt_trichotomy i i') as [L|[L|L]]; auto.
      - exfalso. assert ((S i) * ssize A <= i' * ssize A) by (apply Nat.mul_le_mono_r; lia). simpl in *. lia.
      - exfalso. assert ((S i') * ssize A <= i * ssize A) by (apply Nat.mul_le_mono_r; lia). simpl in *. lia. }
    subst. split; auto. lia.
Qed.
Print Assumptions C43_dense_of_ccs.

Example C43_hyps : valid exA /\ valid exAc.
Proof. split; (split; [apply wfb_wf|apply sortedb_sorted]; vm_compute; reflexivity). Qed.
Example C43_run : dense_of_crs OZ exA = Ok [1;0;0;3;2;0]%Z /\ dense_of_ccs OZ exAc = Ok [1;0;0;3;2;0]%Z.
Proof. split; vm_compute; reflexivity. Qed.
