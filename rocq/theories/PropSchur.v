(** * PropSchur: blocks, offset dropping, Schur complement (C35, C36, C37). *)
From Coq Require Import List Arith Lia Bool Permutation ZArith QArith Qcanon.
From Verif Require Import Base Scalar Spec CSModel CSSpec ConvModel ConvSpec BucketProofs ConvProofs ConvProofs2
  ConvProofs3 ConvProofs4 Mag VecModel VecSpec VecProofs CroutModel CroutSpec CroutProofs3 CroutProofs9 SchurModel SchurSpec
  SchurProofs1 SchurProofs2 SchurProofs3 SchurProofs4 PropVec PropCrout.
Import ListNotations.
Close Scope Q_scope. Close Scope Qc_scope. Open Scope nat_scope.

(** ** C35: the blocks *)

(** [E] (column storage): the entries of rows [m..n), columns [0..m) of
    [diag(s) A diag(t)] permuted, and nothing else, sorted. *)
Theorem C35_lower_left : forall O n m s t (A : CS O) p q qinv ji jv,
  valid A -> psize A = n -> ssize A = n -> length s = n -> length t = n -> m <= n -> is_perm n p -> is_inv n q qinv ->
  exists E, extract_E s A t m p qinv ji jv = Ok E /\
    is_storage E m (n - m) (fun k a v => a < n - m /\
      exists w, stored A (nth (m + a) p 0) (nth k q 0) w /\ v = sval s t (nth (m + a) p 0) (nth k q 0) w) /\
    (RingLaws O -> forall a k, a < n - m -> k < m -> ccs_mat E a k = pscaled s t (crs_mat A) p q (m + a) k).
Proof.
  intros O n m s t A p q qinv ji jv V Pn Sn Ls Lt Hm Pp Iq.
  destruct (extract_E_l n m s t A p q qinv V Pn Sn Ls Lt Hm Pp Iq ji jv) as (E & HE & Hst). exists E. split; auto. split; auto.
  intros RL a k Ha Hk. destruct Hst as (VE & TE & PE & SE & IE). unfold ccs_mat, crs_mat, pscaled, scaled.
  assert (Hp : nth (m + a) p 0 < psize A) by (rewrite Pn; destruct Pp as (_ & R & _); apply R; lia).
  destruct (stored_dec O A (nth (m + a) p 0) (nth k q 0)) as [[w Hw]|Hn].
  - rewrite (ent_stored_eq O RL A _ _ w) by (auto; apply valid_nodup; auto; apply V).
    apply (ent_stored_eq O RL); [apply valid_nodup; [apply VE|lia]|]. apply IE; auto. split; auto. exists w. auto.
  - rewrite (ent_not_stored O RL A) by auto. rewrite (ru_mv RL). apply (ent_not_stored O RL). intros v Hv. apply IE in Hv; auto.
    destruct Hv as (_ & w & Hw & _). eapply Hn; eauto.
Qed.
Print Assumptions C35_lower_left.

(** [F] (column storage, from the column storage of [A]): rows [0..m), columns [m..n). *)
Theorem C35_upper_right : forall O n m s t (A : CS O) p pinv q buf ji jv,
  valid A -> psize A = n -> ssize A = n -> length s = n -> length t = n -> m <= n -> is_perm n q -> is_inv n p pinv ->
  m <= length buf ->
  exists F, extract_F s A t m pinv q buf ji jv = Ok F /\
    is_storage F (n - m) m (fun i k v => k < m /\
      exists w, stored A (nth (m + i) q 0) (nth k p 0) w /\ v = sval s t (nth k p 0) (nth (m + i) q 0) w) /\
    (RingLaws O -> forall k i, k < m -> i < n - m -> ccs_mat F k i = pscaled s t (ccs_mat A) p q k (m + i)).
Proof.
  intros O n m s t A p pinv q buf ji jv V Pn Sn Ls Lt Hm Pq Ip Lb.
  destruct (extract_F_l n m s t A p q pinv V Pn Sn Ls Lt Hm Pq Ip buf ji jv Lb) as (F & HF & (VF & TF & PF & SF & IF)). exists F. split; auto.
  split. { split; auto. split; auto. split; auto. split; auto. intros i k v Hi. rewrite (Nat.add_comm m i). now apply IF. }
  intros RL k i Hk Hi. unfold ccs_mat, pscaled, scaled. rewrite (Nat.add_comm m i).
  assert (Hp : nth (i + m) q 0 < psize A) by (rewrite Pn; destruct Pq as (_ & R & _); apply R; lia).
  destruct (stored_dec O A (nth (i + m) q 0) (nth k p 0)) as [[w Hw]|Hn].
  - rewrite (ent_stored_eq O RL A _ _ w) by (auto; apply valid_nodup; auto; apply V).
    apply (ent_stored_eq O RL); [apply valid_nodup; [apply VF|lia]|]. apply IF; auto. split; auto. exists w. auto.
  - rewrite (ent_not_stored O RL A) by auto. rewrite (ru_mv RL). apply (ent_not_stored O RL). intros v Hv. apply IF in Hv; auto.
    destruct Hv as (_ & w & Hw & _). eapply Hn; eauto.
Qed.
Print Assumptions C35_upper_right.

(** The diagonal, from the column storage of [A]. *)
Theorem C35_diagonal : forall O n m s t (A : CS O) p q jd,
  valid A -> psize A = n -> ssize A = n -> length s = n -> length t = n -> m <= n -> is_perm n p -> is_perm n q ->
  exists d, extract_perm_diag s A t m p q jd = Ok d /\ length d = m /\
    (RingLaws O -> forall i, i < m -> nth i d (t0 O) = pscaled s t (ccs_mat A) p q i i).
Proof.
  intros. apply wp_inv. now apply (diag_l n m).
Qed.
Print Assumptions C35_diagonal.

(** ** C36: the Schur complement *)

(** For every valid matrix, all permutations and scalings, every leading size, all
    (well formed, possibly unsorted) blocks [L_E], [U_F] and every work vector whose
    tags are below [n]: the result is a valid sorted storage of size [n-m]; its
    pattern is that of the trailing block joined with that of the product; its
    entries are [C - L_E D U_F]. *)
Theorem C36_schur : forall O n m s t d (A : CS O) p q qinv (L_E U_F : CS O) Nb (buf : SV O) bv ji jv,
  valid A -> psize A = n -> ssize A = n -> length s = n -> length t = n -> m < n -> is_perm n p -> is_inv n q qinv ->
  wf L_E -> psize L_E = n - m -> ssize L_E = m -> wf U_F -> psize U_F = m -> ssize U_F = n - m -> m <= length d ->
  n - m <= Nb -> sv_ok Nb buf -> (forall i k, nth i (sv_dtags buf) None = Some k -> k < n) -> n - m <= length bv ->
  exists S, compute_schur s t d A p qinv m L_E U_F buf bv ji jv = Ok S /\
    valid S /\ tight S /\ psize S = n - m /\ ssize S = n - m /\
    (forall i j, i < n - m -> j < n - m -> ((exists v, stored S i j v) <->
        (exists w, stored A (nth (m + i) p 0) (nth (m + j) q 0) w) \/
        (exists c x y, stored L_E i c x /\ stored U_F c j y))) /\
    (RingLaws O -> forall i j, i < n - m -> j < n - m ->
       crs_mat S i j = schur_of (fun i j => pscaled s t (crs_mat A) p q (m + i) (m + j)) m (crs_mat L_E) d (crs_mat U_F) i j).
Proof.
  intros O n m s t d A p q qinv L_E U_F Nb buf bv ji jv V Pn Sn Ls Lt Hm Pp Iq WL PL SL WU PU SU Ld HN Ok1 Tg HB.
  set (srow := srow m s t d A p qinv L_E U_F).
  exists (canon O (n - m) (n - m) srow). split.
  { apply (compute_schur_l n m s t d A p q qinv L_E U_F V Pn Sn Ls Lt Hm Pp Iq WL PL SL WU PU SU Ld Nb); auto.
    split; auto. intros i k _ E. apply Tg with i. exact E. }
  destruct (canon_spec O (n - m) (n - m) srow) as (Wc & Tc & Rc). { intros a e Ha He. eapply (srow_rng n m s t d A p q qinv L_E U_F); eauto. }
  split. { split; auto. apply sorted_asc. cbn [psize]. intros i Hi. rewrite Rc by exact Hi. unfold srow. rewrite srow_fst. apply ridx_asc. }
  split; auto. split; [reflexivity|]. split; [reflexivity|]. split.
  - intros i j Hi Hj.
    assert (X : (exists v, stored (canon O (n - m) (n - m) srow) i j v) <-> In j (pushl m s t d A p qinv L_E U_F i)).
    { rewrite <- ridx_in, <- srow_fst. unfold stored. rewrite Rc by auto. fold srow. split.
      - intros (v & Hv). now apply (in_map fst) in Hv.
      - intros Hv. apply in_map_iff in Hv. destruct Hv as ((a & v) & E & Hv). cbn in E. subst a. eauto. }
    rewrite X. unfold pushl. rewrite in_app_iff, or_comm. 
    assert (X1 : In j (map fst (crow m s t A p qinv i)) <-> exists w, stored A (nth (m + i) p 0) (nth (m + j) q 0) w).
    { rewrite in_map_iff. split.
      - intros ((a & v) & E & Hv). cbn in E. subst a. apply (crow_in n m s t d A p q qinv L_E U_F) in Hv; auto. destruct Hv as (_ & w & Hw & _). eauto.
      - intros (w & Hw). eexists (j, _). split; [reflexivity|]. apply (crow_in n m s t d A p q qinv L_E U_F); auto. split; auto. exists w. eauto. }
    assert (X2 : In j (map fst (updl d L_E U_F i)) <-> exists c x y, stored L_E i c x /\ stored U_F c j y).
    { unfold updl. rewrite map_flat_map, in_flat_map. split.
      - intros ((c & x) & Hc & Hj'). rewrite map_map in Hj'. apply in_map_iff in Hj'. destruct Hj' as ((a & y) & E & Hy). cbn in E. subst a.
        exists c, x, y. auto.
      - intros (c & x & y & H1 & H2). exists (c, x). split; auto. rewrite map_map. apply in_map_iff. exists (j, y). auto. }
    now rewrite X1, X2.
  - intros RL i j Hi Hj. now apply (schur_ent RL n m s t d A p q qinv L_E U_F).
Qed.
Print Assumptions C36_schur.

(** With an empty trailing block the result is the empty matrix. *)
Theorem C36_nothing_left : forall O n s t d (A : CS O) p qinv (L_E U_F : CS O) (buf : SV O) bv ji jv,
  psize A = n -> exists S, compute_schur s t d A p qinv n L_E U_F buf bv ji jv = Ok S /\ psize S = 0 /\ ssize S = 0 /\ indices S = [] /\ vals S = [].
Proof. intros. unfold compute_schur. rewrite H, Nat.eqb_refl. eexists. split; [reflexivity|]. auto. Qed.
Print Assumptions C36_nothing_left.

(** ** C37: dropping in the blocks *)

(** For every conforming [std::nth_element]: each primary keeps [min(nnz, lim)]
    entries, with [lim = ceil(alpha * ref)], or none at all if [alpha] is not
    positive; no kept entry is smaller in magnitude than a dropped one; the result is
    consistent. *)
Theorem C37_largest_kept : forall O (G : Mag O) ceil_mul nth_el ref alpha (A : CS O) buf gaps,
  nth_element_ok (mle G) nth_el ->
  wf A -> distinct A -> length (ind_start A) = psize A + 1 ->
  psize A + 1 <= length ref -> (forall i, i < psize A -> nth i ref 0 <= nth (S i) ref 0) ->
  (mlt G (m0 G) alpha = true -> forall i, i < psize A -> rowl A i <> [] -> 1 <= ceil_mul alpha (nth (S i) ref 0 - nth i ref 0)) ->
  ssize A <= length buf -> psize A <= length gaps ->
  exists B, drop_block G ceil_mul nth_el ref alpha A buf gaps = Ok B /\ wf B /\ tight B /\ distinct B /\
    largest_kept G (fun i => if mlt G (m0 G) alpha then ceil_mul alpha (nth (S i) ref 0 - nth i ref 0) else 0) A B.
Proof. intros. now apply drop_block_l. Qed.
Print Assumptions C37_largest_kept.

(** ** Concrete cases *)
Definition exs : list Qc := map qz [1;2;1;3]%Z.
Definition ext : list Qc := map qz [1;1;2;1]%Z.
Definition exp_ := [2;0;3;1].
Definition expi := [1;3;0;2].
Lemma exp_inv : is_inv 4 exp_ expi.
Proof. split; [reflexivity|]. split; [reflexivity|]. split; intros [|[|[|[|i]]]] H; simpl; lia. Qed.
Lemma exp_perm : is_perm 4 exp_.
Proof.
  split; [reflexivity|]. split; [intros [|[|[|[|i]]]] H; simpl; lia|].
  intros [|[|[|[|i]]]] [|[|[|[|j]]]] Hi Hj; simpl; intros; lia.
Qed.
Lemma ex_valid : valid ex_crs /\ valid ex_ccs.
Proof. split; (split; [apply wfb_wf|apply sortedb_sorted]; vm_compute; reflexivity). Qed.

Example C35_case : match extract_E (O:=OQ) exs ex_crs ext 2 exp_ expi 7 (qz 9),
                         extract_F (O:=OQ) exs ex_ccs ext 2 expi exp_ (repeat (qz 9) 2) 7 (qz 9),
                         extract_perm_diag (O:=OQ) exs ex_ccs ext 2 exp_ exp_ (qz 9) with
  | Ok E, Ok F, Ok d => indices E = [1;0;1] /\ map this (vals E) = map this (map qz [4;3;8]%Z) /\ indices F = [1;0;1] /\ map this (vals F) = map this (map qz [1;1;1]%Z) /\
      map this d = map this (map qz [6;2]%Z)
  | _, _, _ => False end.
Proof. vm_compute. repeat split; reflexivity. Qed.

Definition ex_L_E : CS OQ := @mkCS OQ 2 2 [0;2;3] [1;0;1] (map qz [2;1;3]%Z).
Definition ex_U_F : CS OQ := @mkCS OQ 2 2 [0;1;3] [1;0;1] (map qz [1;4;1]%Z).
Example C36_hyps : wf ex_L_E /\ wf ex_U_F /\ sv_ok 2 (@sv_new OQ 2 (repeat (qz 0) 2) [0;0]) /\
  (forall i k, nth i (sv_dtags (@sv_new OQ 2 (repeat (qz 0) 2) [0;0])) None = Some k -> k < 4).
Proof.
  split; [apply wfb_wf; vm_compute; reflexivity|]. split; [apply wfb_wf; vm_compute; reflexivity|]. split.
  - constructor; simpl; auto; try lia; try constructor; try (intros i []; fail).
  - intros [|[|i]] k; simpl; try discriminate. destruct i; discriminate.
Qed.
Example C36_case : match compute_schur (O:=OQ) exs ext (map qz [6;2]%Z) ex_crs exp_ expi 2 ex_L_E ex_U_F
                           (@sv_new OQ 2 (repeat (qz 0) 2) [0;0]) (repeat (qz 9) 2) 7 (qz 9) with
  | Ok Sc => ind_start Sc = [0;2;4] /\ indices Sc = [0;1;0;1] /\ map this (vals Sc) = map this (map qz [-1;-10;-24;-2]%Z)
  | _ => False end.
Proof. vm_compute. repeat split; reflexivity. Qed.

Definition qhalf : Qc := Q2Qc (1 # 2).
Definition ex_drop : CS OQ := @mkCS OQ 3 4 [0;3;4;7] [0;2;3;1;0;1;3] (map qz [1;-5;2;9;3;-4;1]%Z).
Example C37_case : wf ex_drop /\ distinct ex_drop /\ nth_element_ok (mle MQ) (sort_select MQ) /\
  match drop_block MQ ceilQ (sort_select MQ) [0;4;5;7] qhalf ex_drop (repeat (qz 0) 4) [9;9;9] with
  | Ok B => ind_start B = [0;2;3;4] /\ indices B = [2;3;1;1] | _ => False end /\
  match drop_block MQ ceilQ (sort_select MQ) [0;4;5;7] (qz 0) ex_drop (repeat (qz 0) 4) [9;9;9] with
  | Ok B => ind_start B = [0;0;0;0] /\ indices B = [] | _ => False end.
Proof.
  split; [apply wfb_wf; vm_compute; reflexivity|]. split.
  { intros [|[|[|i]]] Hi; [| | |cbn in Hi; lia]; vm_compute; repeat constructor; simpl; intuition lia. }
  split; [apply sort_select_ok, MQ_laws|]. split; vm_compute; split; reflexivity.
Qed.
