(** * Properties C28, C29: work partition, threaded products. *)
From Coq Require Import List Arith Lia Bool ZArith.
From Verif Require Import Base Scalar Spec CSModel CSSpec MtModel MtProofs PropCS.
Import ListNotations.

(** ** C29 *)

(** The parts are consecutive, start at 0, end at [n], and have [n/threads] or one more elements. *)
Theorem C29_partition : forall n threads, 0 < threads ->
  fst (uniform_partition n threads 0) = 0 /\
  snd (uniform_partition n threads (threads - 1)) = n /\
  (forall t, S t < threads -> fst (uniform_partition n threads (S t)) = snd (uniform_partition n threads t)) /\
  (forall t, t < threads ->
     snd (uniform_partition n threads t) = fst (uniform_partition n threads t) + n / threads \/
     snd (uniform_partition n threads t) = fst (uniform_partition n threads t) + n / threads + 1).
Proof.
  intros n th H. split; [now apply part_first|]. split; [now apply part_last|]. split.
  - intros t Ht. now apply part_next.
  - intros t Ht. now apply part_size.
Qed.
Print Assumptions C29_partition.

(** Every index belongs to exactly one part. *)
Theorem C29_exactly_one : forall n threads i, 0 < threads -> i < n ->
  exists! t, t < threads /\ fst (uniform_partition n threads t) <= i < snd (uniform_partition n threads t).
Proof.
  intros n th i H Hi. destruct (part_cover n th i H Hi) as (t & Ht & K). exists t. split; auto.
  intros u (Hu & Ku). destruct (Nat.lt_trichotomy t u) as [C|[C|C]]; auto.
  - pose proof (part_disjoint n th t u H C Hu). unfold pstart, pend in *. lia.
  - pose proof (part_disjoint n th u t H C Ht). unfold pstart, pend in *. lia.
Qed.
Print Assumptions C29_exactly_one.

Example C29_run : map (uniform_partition 11 4) [0;1;2;3] = [(0,2);(2,5);(5,8);(8,11)].
Proof. reflexivity. Qed.

(** ** C28 *)
Section S.
  Variable O : Ops.
  Notation T := (T O).

  Lemma nt_serial : forall (A : CS O) x y,
    crs_multiply_nt_low O A x y =
    serial T (t0 O) (fun j v tmp => xj <- get x j ;; Ok (tadd O tmp (tmul O v xj))) 1 (fun tmp _ => Ok tmp) A (psize A) y.
  Proof.
    intros A x y. unfold crs_multiply_nt_low, crs_multiply_nt_part, serial, for_range. simpl.
    apply for_n_ext. intros i s _. destruct (row_iter _ _ _ _ _); simpl; auto.
    replace (i * 1 + 0) with i by lia. destruct (set s i a); auto.
  Qed.

  (** Writing a block, with or without reading the old value first. *)
  Lemma blk_write : forall N off (g : nat -> res T) y,
    (forall k, g k <> Err) ->
    blk_upd O N off (fun k _ => g k) y = for_range 0 N (fun c y => w <- g c ;; set y (off + c) w) y.
  Proof.
    intros N off g y Hg. unfold blk_upd, for_range. apply for_n_ext. intros k s _. specialize (Hg k).
    unfold get at 1. destruct (nth_error s (off + k)) eqn:E; simpl; auto.
    destruct (g k); simpl; try congruence; auto. unfold set. apply nth_error_None in E.
    destruct (Nat.ltb_spec (off + k) (length s)); auto; lia.
  Qed.

  Lemma mrhs_serial : forall N (A : CS O) x y,
    crs_multiply_mrhs_nt_part O N A x 0 (psize A) y =
    serial (list T) (repeat (t0 O) N)
      (fun j v tmp => blk_upd O N 0 (fun k a => xj <- get x (j * N + k) ;; Ok (tadd O a (tmul O v xj))) tmp) N
      (fun tmp k => get tmp k) A (psize A) y.
  Proof.
    intros N A x y. unfold crs_multiply_mrhs_nt_part, serial, for_range. simpl. apply for_n_ext. intros i s _.
    destruct (row_iter _ _ _ _ _) as [tmp| |]; simpl; auto. rewrite blk_write; auto.
    intros k. unfold get. destruct (nth_error tmp k); discriminate.
  Qed.

  Lemma cinit_inv : forall L init acc N out (A : CS O) y yf th, 0 < th ->
    rows_ok L init acc N out A (psize A) y yf ->
    cinv L init acc N A (psize A) y yf th th (cinit L A th th y).
  Proof.
    intros L init acc N out A y yf th Hth RO. unfold cinit. split; simpl; auto.
    - now rewrite map_length, seq_length.
    - intros t Ht. rewrite nth_indep with (d' := (let '(lo, hi) := uniform_partition (psize A) th 0 in (hi, RowStart lo)))
        by (rewrite map_length, seq_length; auto).
      rewrite (map_nth (fun t => let '(lo, hi) := uniform_partition (psize A) th t in (hi, @RowStart L lo))).
      rewrite seq_nth by auto. simpl. exists (RowStart (pstart (psize A) th t)).
      split. { unfold pstart, pend. destruct (uniform_partition (psize A) th t); auto. }
      simpl. split. { pose proof (part_le (psize A) th t Hth). lia. } intros; lia.
    - intros k Hk. symmetry. now apply (ro_rest _ _ _ _ _ _ _ _ _ RO).
  Qed.

  Lemma in_le_max : forall l m, In m l -> m <= fold_right Nat.max 0 l.
  Proof. induction l; simpl; intros m H; [contradiction|]. destruct H as [->|H]; [lia|]. specialize (IHl m H). lia. Qed.

  Lemma threaded : forall L init acc N out (A : CS O) y y' th, 0 < th ->
    serial L init acc N out A (psize A) y = Ok y' ->
    (forall sched, exists c, crun L init acc N out A sched (cinit L A th th y) = Ok c /\ (all_done c -> cy c = y')) /\
    (exists bound, forall sched, (forall t, t < th -> bound <= count_occ Nat.eq_dec sched t) ->
       exists c, crun L init acc N out A sched (cinit L A th th y) = Ok c /\ all_done c).
  Proof.
    intros L init acc N out A y y' th Hth E. apply serial_rows in E.
    pose proof (cinit_inv L init acc N out A y y' th Hth E) as I. split.
    - intros sched. destruct (crun_inv L init acc N out A (psize A) y y' E th Hth th sched _ (le_n _) I) as (c & Ec & Ic).
      exists c. split; auto. intros D. apply (cinv_done L init acc N out A (psize A) y y' E th Hth); auto.
    - set (ms := map (fun u => meas L N A (pend (psize A) th u) (snd (nth u (cthreads (cinit L A th th y)) (0, Done)))) (seq 0 th)).
      exists (fold_right Nat.max 0 ms). intros sched Hs.
      destruct (crun_inv L init acc N out A (psize A) y y' E th Hth th sched _ (le_n _) I) as (c & Ec & Ic).
      exists c. split; auto. apply (crun_done L init acc N out A (psize A) y y' E th Hth sched (cinit L A th th y) c I Ec).
      intros u Hu. eapply Nat.le_trans; [|apply Hs; auto].
      assert (Hin : In (meas L N A (pend (psize A) th u) (snd (nth u (cthreads (cinit L A th th y)) (0, Done)))) ms).
      { unfold ms. apply (in_map (fun u => meas L N A (pend (psize A) th u) (snd (nth u (cthreads (cinit L A th th y)) (0, Done))))).
        apply in_seq. lia. }
      apply in_le_max. exact Hin.
  Qed.
End S.

(** Whatever the schedule: no thread ever accesses outside an array, and once all
    threads are done the output is bit for bit the serial one. *)
Theorem C28_threads_equal_serial : forall (O : Ops) (A : CS O) x y y' nthreads, 0 < nthreads ->
  crs_multiply_nt_low O A x y = Ok y' ->
  forall sched, exists c, mt_nt_run nthreads nthreads A x y sched = Ok c /\ (all_done c -> cy c = y').
Proof. intros O A x y y' th Hth E. rewrite nt_serial in E. apply (threaded O _ _ _ _ _ _ _ _ th Hth E). Qed.
Print Assumptions C28_threads_equal_serial.

(** Every schedule that gives each thread enough turns finishes. *)
Theorem C28_threads_finish : forall (O : Ops) (A : CS O) x y y' nthreads, 0 < nthreads ->
  crs_multiply_nt_low O A x y = Ok y' ->
  exists bound, forall sched, (forall t, t < nthreads -> bound <= count_occ Nat.eq_dec sched t) ->
    exists c, mt_nt_run nthreads nthreads A x y sched = Ok c /\ all_done c /\ cy c = y'.
Proof.
  intros O A x y y' th Hth E. pose proof E as E0. rewrite nt_serial in E.
  destruct (threaded O _ _ _ _ _ _ _ _ th Hth E) as (H1 & b & H2). exists b. intros sched Hs.
  destruct (H2 sched Hs) as (c & Ec & D). destruct (H1 sched) as (c' & Ec' & D').
  exists c. split; [exact Ec|]. split; auto. assert (c' = c) by congruence. subst. auto.
Qed.
Print Assumptions C28_threads_finish.

(** In particular the threaded product is [A x]. *)
Theorem C28_threads_product : forall (O : Ops), RingLaws O -> forall (A : CS O) x y nthreads, 0 < nthreads ->
  wf A -> length x = ssize A -> length y = psize A ->
  exists y', veq (psize A) (v_ y') (mvec (ssize A) (crs_mat A) (v_ x)) /\
    forall sched, exists c, mt_nt_run nthreads nthreads A x y sched = Ok c /\ (all_done c -> cy c = y').
Proof.
  intros O RL A x y th Hth W Lx Ly. destruct (C01_crs_product O RL A x y W Lx Ly) as (y' & E & _ & V).
  exists y'. split; auto. apply C28_threads_equal_serial; auto. unfold crs_multiply, crs_multiply_nt in E.
  rewrite Lx, Ly, !Nat.eqb_refl in E. exact E.
Qed.
Print Assumptions C28_threads_product.

Theorem C28_mrhs_threads_equal_serial : forall (O : Ops) N (A : CS O) x y y' nthreads, 0 < nthreads ->
  crs_multiply_mrhs_nt_part O N A x 0 (psize A) y = Ok y' ->
  (forall sched, exists c, mt_mrhs_nt_run N nthreads nthreads A x y sched = Ok c /\ (all_done c -> cy c = y')) /\
  (exists bound, forall sched, (forall t, t < nthreads -> bound <= count_occ Nat.eq_dec sched t) ->
    exists c, mt_mrhs_nt_run N nthreads nthreads A x y sched = Ok c /\ all_done c).
Proof. intros O N A x y y' th Hth E. rewrite mrhs_serial in E. apply (threaded O _ _ _ _ _ _ _ _ th Hth E). Qed.
Print Assumptions C28_mrhs_threads_equal_serial.

(** No two threads ever write the same word of the output: a step of thread [t] only
    changes words of its own part. *)
Theorem C28_no_write_race : forall (O : Ops) (A : CS O) x y y' nthreads, 0 < nthreads ->
  crs_multiply_nt_low O A x y = Ok y' ->
  forall sched t c c', mt_nt_run nthreads nthreads A x y sched = Ok c ->
    mt_nt_run nthreads nthreads A x y (sched ++ [t]) = Ok c' ->
  forall k, nth k (cy c') (t0 O) <> nth k (cy c) (t0 O) ->
    t < nthreads /\ fst (uniform_partition (psize A) nthreads t) <= k < snd (uniform_partition (psize A) nthreads t).
Proof.
  intros O A x y y' th Hth E sched t c c' Ec Ec' k Hk. rewrite nt_serial in E. apply serial_rows in E.
  pose proof (cinit_inv O _ _ _ _ _ A y y' th Hth E) as I.
  destruct (crun_inv _ _ _ _ _ A (psize A) y y' E th Hth th sched _ (le_n _) I) as (c1 & Ec1 & Ic).
  assert (c1 = c) by (unfold mt_nt_run in Ec; congruence). subst c1.
  assert (ES : cstep _ (t0 O) (fun j v tmp => xj <- get x j ;; Ok (tadd O tmp (tmul O v xj))) 1 (fun tmp _ => Ok tmp) A t c = Ok c').
  { clear -Ec Ec'. unfold mt_nt_run, crun in *. revert Ec Ec'. generalize (cinit (T O) A th th y).
    induction sched; intros c0 Ec Ec'; simpl in *.
    - inversion Ec; subst. match goal with H : bind ?m _ = _ |- _ => destruct m; simpl in H; congruence end.
    - match type of Ec with bind ?m _ = _ => destruct m; simpl in Ec, Ec'; try discriminate end. eapply IHsched; eauto. }
  destruct Ic as [I1 I2 I3 I4]. unfold cstep in ES. destruct (nth_error (cthreads c) t) as [[hi l]|] eqn:En.
  2:{ inversion ES; subst. congruence. }
  assert (Ht : t < th). { rewrite <- I2. apply nth_error_Some. congruence. }
  split; auto.
  apply (nth_error_nth _ _ (0, Done)) in En. destruct (I3 t Ht) as (l0 & E0 & T0). rewrite En in E0. inversion E0; subst hi l0.
  destruct (tstep_inv _ _ _ _ _ A (psize A) y y' E (pstart (psize A) th t) (pend (psize A) th t) l (cy c)) as (l' & y1 & Es & T' & L' & W); auto.
  { now apply part_le. } { apply part_end_le; lia. }
  rewrite Es in ES. simpl in ES. inversion ES; subst c'. simpl in Hk.
  destruct W as [->|(i & cc & w & Hi & Hc & ->)]; [congruence|].
  destruct (Nat.eq_dec (i * 1 + cc) k) as [<-|Hn]; [unfold pstart, pend in Hi; lia|].
  rewrite nth_upd_neq in Hk by auto. congruence.
Qed.
Print Assumptions C28_no_write_race.

(** The row partition assumes that the parallel region really gets the requested
    number of threads.  OpenMP may deliver fewer (for instance inside another
    parallel region); then rows are left uncomputed. *)
Definition exM : CS OZ := @mkCS OZ 2 2 [0;1;2] [0;1] [1;1]%Z.
Theorem C28_smaller_team_refuted : exists (O : Ops) (A : CS O) x y y' sched c,
  wf A /\ length x = ssize A /\ length y = psize A /\
  crs_multiply_nt_low O A x y = Ok y' /\
  mt_nt_run 2 1 A x y sched = Ok c /\ all_done c /\ cy c <> y'.
Proof.
  exists OZ, exM, [5;6]%Z, [0;0]%Z, [5;6]%Z, (repeat 0 10). eexists.
  split; [apply wfb_wf; reflexivity|]. split; [reflexivity|]. split; [reflexivity|]. split; [reflexivity|].
  split; [vm_compute; reflexivity|]. split; [|vm_compute; intros H; discriminate H].
  intros hi l [H|[]]; inversion H; reflexivity.
Qed.
Print Assumptions C28_smaller_team_refuted.

Example C28_hyps : crs_multiply_nt_low OZ exM [5;6]%Z [0;0]%Z = Ok [5;6]%Z /\
  match mt_nt_run 2 2 exM [5;6]%Z [0;0]%Z [0;1;1;0;0;1;0;1;1;1;1;0;0;0;0] with
  | Ok c => cy c = [5;6]%Z /\ all_done c | _ => False end.
Proof.
  split; [reflexivity|]. vm_compute. split; auto. intros hi l [H|[H|[]]]; inversion H; reflexivity.
Qed.
