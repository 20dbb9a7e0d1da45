(** * Properties C12, C45, C47: validation, pruning, search and rotation helpers. *)
From Coq Require Import List Arith Lia Bool ZArith QArith Qcanon.
From Verif Require Import Base Scalar Spec CSModel CSSpec ConvModel ConvSpec ConvProofs2
  ValidModel ValidSpec ValidProofs Mag PruneModel PruneSpec PruneProofs PropCS.
Import ListNotations.
Close Scope Q_scope. Close Scope Qc_scope. Open Scope nat_scope.

(** ** C12: validation *)

(** Whatever the arrays contain: what [check_validity] accepts is a valid sorted
    matrix (every kernel theorem applies to it). *)
Theorem C12_check_accepts_only_valid : forall (A : ZCS) (O : Ops) (vals : list (T O)),
  zdef A = true -> length (zstart A) = zp A + 1 -> length vals = znv A ->
  check_validity A = Ok tt -> zvalid A /\ valid (zcs A vals).
Proof.
  intros A O vals D L LV H. assert (V : zvalid A) by now apply check_sound.
  split; auto. now apply zvalid_valid.
Qed.
Print Assumptions C12_check_accepts_only_valid.

(** Missing for the full property: start arrays that decrease somewhere (then the
    check itself runs over an invalid range, below) and matrices whose index
    array was never allocated (accepted unchecked, below). *)
Theorem C12_check_decides_partial : forall A : ZCS,
  zdef A = true -> length (zstart A) <= zp A + 1 -> zmono A ->
  (check_validity A = Ok tt /\ zvalid A) \/ (check_validity A = Err /\ ~ zvalid A).
Proof. exact check_decides. Qed.
Print Assumptions C12_check_decides_partial.

Definition exZ : ZCS := mkZ 2 3 true [0;2;3]%Z [0;2;1]%Z 3.
Definition exZdec : ZCS := mkZ 2 3 true [0;2;1]%Z [0;2;1]%Z 3.
Definition exZundef : ZCS := mkZ 2 3 false [0;5;9]%Z [] 0.

Theorem C12_decreasing_start_refuted :
  exists A, zdef A = true /\ length (zstart A) = zp A + 1 /\ ~ zvalid A /\ check_validity A = UB.
Proof.
  exists exZdec. repeat (split; [reflexivity|]). split; [|vm_compute; reflexivity].
  intros V. pose proof (zv_mono _ V 1 ltac:(simpl; lia)) as H. vm_compute in H. congruence.
Qed.
Print Assumptions C12_decreasing_start_refuted.

Theorem C12_unallocated_refuted : exists A, ~ zvalid A /\ check_validity A = Ok tt.
Proof.
  exists exZundef. split; [|reflexivity].
  intros V. pose proof (zv_inds _ V) as H. vm_compute in H. congruence.
Qed.
Print Assumptions C12_unallocated_refuted.

(** [wrap_const_crs]: the start array must be non-decreasing within the index array
    and no index negative. *)
Theorem C12_wrap_crs_partial : forall A : ZCS,
  length (zstart A) = zp A + 1 -> zmono A ->
  (nth (zp A) (zstart A) 0 <= Z.of_nat (length (zind A)))%Z ->
  (nth (zp A) (zstart A) 0 <= Z.of_nat (znv A))%Z ->
  (forall k, k < length (zind A) -> (0 <= nth k (zind A) 0)%Z) ->
  (wrap_const_crs A = Ok tt /\ zvalid A) \/ (wrap_const_crs A = Err /\ ~ zvalid A).
Proof. exact wrap_decides. Qed.
Print Assumptions C12_wrap_crs_partial.

(** [wrap_const_ccs]: in addition the matrix must be square. *)
Theorem C12_wrap_ccs_square_partial : forall A : ZCS, zs A = zp A ->
  length (zstart A) = zp A + 1 -> zmono A ->
  (nth (zp A) (zstart A) 0 <= Z.of_nat (length (zind A)))%Z ->
  (nth (zp A) (zstart A) 0 <= Z.of_nat (znv A))%Z ->
  (forall k, k < length (zind A) -> (0 <= nth k (zind A) 0)%Z) ->
  (wrap_const_ccs A = Ok tt /\ zvalid A) \/ (wrap_const_ccs A = Err /\ ~ zvalid A).
Proof. intros A E. unfold wrap_const_ccs. rewrite E. apply wrap_decides. Qed.
Print Assumptions C12_wrap_ccs_square_partial.

Theorem C12_wrap_negative_index_refuted :
  exists A, length (zstart A) = zp A + 1 /\ zmono A /\ wrap_const_crs A = Ok tt /\ ~ zvalid A.
Proof.
  exists (mkZ 1 3 true [0;2]%Z [-5;1]%Z 2). split; [reflexivity|]. split.
  - intros i Hi. simpl in Hi. replace i with 0 by lia. vm_compute. discriminate.
  - split; [reflexivity|]. intros V. pose proof (zv_range _ V 0 ltac:(reflexivity)) as H. vm_compute in H. destruct H. congruence.
Qed.
Print Assumptions C12_wrap_negative_index_refuted.

(** More columns than rows: the columns beyond [nrows] are not looked at. *)
Theorem C12_wrap_ccs_wide_refuted :
  exists A, length (zstart A) = zp A + 1 /\ zmono A /\ wrap_const_ccs A = Ok tt /\ ~ zvalid A.
Proof.
  exists (mkZ 2 1 true [0;1;2]%Z [0;7]%Z 2). split; [reflexivity|]. split.
  - intros i Hi. simpl in Hi. destruct i as [|[|i]]; [| |lia]; vm_compute; discriminate.
  - split; [reflexivity|]. intros V. pose proof (zv_range _ V 1 ltac:(reflexivity)) as H. vm_compute in H. destruct H. congruence.
Qed.
Print Assumptions C12_wrap_ccs_wide_refuted.

(** More rows than columns: a valid matrix makes the check read past the start array. *)
Theorem C12_wrap_ccs_tall_refuted :
  exists A, zvalid A /\ wrap_const_ccs A = UB.
Proof.
  exists (mkZ 1 2 true [0;2]%Z [0;1]%Z 2). split; [|reflexivity]. split; simpl; try lia.
  - intros i Hi. replace i with 0 by lia. simpl. lia.
  - intros i k l Hi Hk Hkl Hl. replace i with 0 in * by lia. simpl in *.
    assert (k = 0) by lia. assert (l = 1) by lia. subst. simpl. lia.
  - intros k Hk. destruct k as [|[|k]]; [| |lia]; simpl; lia.
Qed.
Print Assumptions C12_wrap_ccs_tall_refuted.

Example C12_hyps : zdef exZ = true /\ length (zstart exZ) = zp exZ + 1 /\ zmono exZ /\ check_validity exZ = Ok tt /\
  wrap_const_crs exZ = Ok tt /\ check_validity (mkZ 2 3 true [0;2;3]%Z [2;0;1]%Z 3) = Err.
Proof.
  repeat (split; [reflexivity|]). split; [|repeat split; vm_compute; reflexivity].
  intros i Hi. simpl in Hi. destruct i as [|[|i]]; [| |lia]; vm_compute; discriminate.
Qed.

(** ** C45: pruning *)

(** Default threshold: exactly the stored zeros go. *)
Theorem C45_zero_threshold : forall (O : Ops) (G : Mag O), MagLaws G ->
  forall (A : CS O) eps jm, wf A -> tight A -> mle G eps (m0 G) = true ->
  exists B n, prune G A eps jm = Ok (B, n) /\ wf B /\ tight B /\ psize B = psize A /\ ssize B = ssize A /\
    n = nnz_of A - nnz_of B /\ (sorted A -> sorted B) /\
    (forall i j v, i < psize A -> (stored B i j v <-> stored A i j v /\ v <> t0 O)).
Proof. intros O G L. exact (C45_zero_l G L). Qed.
Print Assumptions C45_zero_threshold.

(** For a threshold at most one: nothing is removed that is not below both
    thresholds, and nothing above the row threshold is removed.  Missing: an
    entry below both thresholds may be kept (refuted next). *)
Theorem C45_prune_partial : forall (O : Ops) (G : Mag O), MagLaws G ->
  forall (A : CS O) eps jm, wf A -> tight A ->
  mle G (m0 G) eps = true -> (forall x, mle G (m0 G) x = true -> mle G (mmul G eps x) x = true) ->
  exists B n, prune G A eps jm = Ok (B, n) /\ wf B /\ tight B /\ psize B = psize A /\ ssize B = ssize A /\
    n = nnz_of A - nnz_of B /\ (sorted A -> sorted B) /\
    (forall i j v, i < psize A -> stored B i j v -> stored A i j v) /\
    (forall i j v rm cm, i < psize A -> stored A i j v -> is_row_max G A i rm -> is_col_max G A j cm ->
       stored B i j v \/ (mle G (mabs G v) (mmul G eps rm) = true /\ mle G (mabs G v) (mmul G eps cm) = true)) /\
    (forall i j v rm, i < psize A -> stored A i j v -> is_row_max G A i rm ->
       ~ mle G (mabs G v) (mmul G eps rm) = true -> stored B i j v).
Proof. intros O G L. exact (C45_l G L). Qed.
Print Assumptions C45_prune_partial.

Definition qz (z : Z) : Qc := Q2Qc (inject_Z z).
Definition qhalf : Qc := Q2Qc (1 # 2).
(** [[8 0][2 8][1 0]]-like: column 0 is 8, 3, 1 over three rows; rows 1 and 2 have a large
    second entry. *)
Definition exP : CS OQ := @mkCS OQ 3 2 [0;1;3;5] [0;0;1;0;1] [qz 8; qz 3; qz 8; qz 1; qz 8].

(** Entry (1,0) = 3 is below half the row maximum 8 and below half the column maximum 8, but stays:
    the column threshold is multiplied by eps once per later entry of the column. *)
Theorem C45_column_threshold_refuted :
  exists (A : CS OQ) eps jm B n i j v,
    wf A /\ tight A /\ sorted A /\ prune MQ A eps jm = Ok (B, n) /\
    i < psize A /\ stored A i j v /\
    (exists rm, is_row_max MQ A i rm /\ mle MQ (mabs MQ v) (mmul MQ eps rm) = true) /\
    (exists cm, is_col_max MQ A j cm /\ mle MQ (mabs MQ v) (mmul MQ eps cm) = true) /\
    stored B i j v.
Proof.
  exists exP, qhalf, (qz 0), (fst (match prune MQ exP qhalf (qz 0) with Ok r => r | _ => (exP, 0) end)),
    (snd (match prune MQ exP qhalf (qz 0) with Ok r => r | _ => (exP, 0) end)), 1, 0, (qz 3).
  split; [apply wfb_wf; vm_compute; reflexivity|]. split; [apply tightb_tight; vm_compute; reflexivity|].
  split; [apply sortedb_sorted; vm_compute; reflexivity|].
  split. { destruct (prune MQ exP qhalf (qz 0)) as [[B n]| |] eqn:E; [reflexivity| |]; vm_compute in E; discriminate. }
  split; [simpl; lia|].
  split; [unfold stored; vm_compute; auto|].
  split; [|split].
  - exists (qz 8). split; [|vm_compute; reflexivity]. split.
    + exists 1, (qz 8). split; [unfold stored; vm_compute; auto|vm_compute; reflexivity].
    + intros j v H. unfold stored in H. change (rowl exP 1) with [(0, qz 3); (1, qz 8)] in H.
      destruct H as [H|[H|[]]]; injection H; intros; subst; vm_compute; reflexivity.
  - exists (qz 8). split; [|vm_compute; reflexivity]. split.
    + exists 0, (qz 8). split; [simpl; lia|]. split; [unfold stored; vm_compute; auto|vm_compute; reflexivity].
    + intros i v Hi H. unfold stored in H. simpl in Hi.
      destruct i as [|[|[|i]]]; [| | |lia].
      * change (rowl exP 0) with [(0, qz 8)] in H.
        destruct H as [H|[]]; injection H; intros; subst; vm_compute; reflexivity.
      * change (rowl exP 1) with [(0, qz 3); (1, qz 8)] in H.
        destruct H as [H|[H|[]]]; injection H; intros; subst; vm_compute; reflexivity.
      * change (rowl exP 2) with [(0, qz 1); (1, qz 8)] in H.
        destruct H as [H|[H|[]]]; injection H; intros; subst; vm_compute; reflexivity.
  - unfold stored. vm_compute. auto.
Qed.
Print Assumptions C45_column_threshold_refuted.

Example C45_hyps : MagLaws MQ /\ wf exP /\ tight exP /\ mle MQ (m0 MQ) qhalf = true /\
  (forall x, mle MQ (m0 MQ) x = true -> mle MQ (mmul MQ qhalf x) x = true) /\ is_row_max MQ exP 1 (qz 8).
Proof.
  split; [exact MQ_laws|]. split; [apply wfb_wf; vm_compute; reflexivity|].
  split; [apply tightb_tight; vm_compute; reflexivity|]. split; [vm_compute; reflexivity|]. split.
  - intros x. simpl. rewrite !qle_iff. intros H.
    replace x with (Qcmult (qz 1) x) at 2 by (apply (Qcmult_1_l x)).
    apply Qcmult_le_compat_r; auto. apply qle_iff. vm_compute. reflexivity.
  - split.
    + exists 1, (qz 8). split; [unfold stored; vm_compute; auto|vm_compute; reflexivity].
    + intros j v H. unfold stored in H. change (rowl exP 1) with [(0, qz 3); (1, qz 8)] in H.
      destruct H as [H|[H|[]]]; injection H; intros; subst; vm_compute; reflexivity.
Qed.
(** One entry (2,0) = 1 goes. *)
Example C45_run : exists B, prune MQ exP qhalf (qz 0) = Ok (B, 1) /\ indices B = [0;0;1;1].
Proof. eexists. split; vm_compute; reflexivity. Qed.

(** ** C47: search and rotation *)

Theorem C47_find_sorted : forall a first last v, first <= last -> last <= length a ->
  (forall i j, first <= i -> i <= j -> j < last -> nth i a 0 <= nth j a 0) ->
  exists found pos, find_sorted a first last v = Ok (found, pos) /\ first <= pos <= last /\
    (forall k, first <= k < pos -> nth k a 0 < v) /\
    (forall k, pos <= k < last -> v <= nth k a 0) /\
    (found = true <-> exists k, first <= k < last /\ nth k a 0 = v).
Proof.
  intros a first last v H1 H2 H3. pose proof (find_sorted_wp a first last v H1 H2 H3) as G.
  apply wp_inv in G. destruct G as ([f p] & E & H). exists f, p. auto.
Qed.
Print Assumptions C47_find_sorted.

Theorem C47_rotate_left : forall X (d : X) n src v, 0 < n -> src + n <= length v ->
  exists w, rotate_left n src v = Ok w /\ length w = length v /\
    forall k, nth k w d = nth (if k <? src then k else if k <? src + n - 1 then S k
                               else if k =? src + n - 1 then src else k) v d.
Proof. exact rotate_left_l. Qed.
Print Assumptions C47_rotate_left.

Theorem C47_rotate_right : forall X (d : X) n src v, 0 < n -> n <= src + 1 -> src < length v ->
  exists w, rotate_right n src v = Ok w /\ length w = length v /\
    forall k, k < length v -> nth k w d = nth (if k <? src + 1 - n then k else if k =? src + 1 - n then src
                               else if k <=? src then k - 1 else k) v d.
Proof. exact rotate_right_l. Qed.
Print Assumptions C47_rotate_right.

Example C47_hyps : (forall i j, 0 <= i -> i <= j -> j < 3 -> nth i [2;5;7] 0 <= nth j [2;5;7] 0) /\ 3 <= length [2;5;7].
Proof. split; auto. intros. destruct j as [|[|[|j]]], i as [|[|[|i]]]; simpl; lia. Qed.
Example C47_run : find_sorted [2;5;7] 0 3 5 = Ok (true, 1) /\ find_sorted [2;5;7] 0 3 6 = Ok (false, 2) /\
  rotate_left 3 1 [10;11;12;13;14] = Ok [10;12;13;11;14] /\ rotate_right 3 3 [10;11;12;13;14] = Ok [10;13;11;12;14].
Proof. repeat split; vm_compute; reflexivity. Qed.
