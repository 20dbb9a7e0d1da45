(** * PropPre: preprocessing (C33, C46, C48). *)
From Coq Require Import List Arith Lia Bool Permutation Sorted ZArith QArith Qcanon.
From Verif Require Import Base Scalar Spec CSModel CSSpec ConvModel ConvSpec BucketProofs ConvProofs ConvProofs2
  ConvProofs3 ConvProofs4 Mag VecModel VecProofs PruneModel PruneSpec PruneProofs PreModel PreSpec PreProofs PreProofs2 PreProofs3.
Import ListNotations.
Close Scope Q_scope. Close Scope Qc_scope. Open Scope nat_scope.

(** ** C33: static deferral *)

(** The acceptance rule: the entry (r,c) is stored and its magnitude exceeds
    [eps] times the largest magnitude of its row and column. *)
Definition acceptable {O} (G : Mag O) mone eps (A A_crs : CS O) (z : nat * nat) : Prop :=
  exists v mx, stored A (snd z) (fst z) v /\ is_local_max G mone A A_crs (fst z) (snd z) mx /\
    mlt G (mmul G mx eps) (mabs G v) = true.

Definition accb {O} (G : Mag O) mone eps (A A_crs : CS O) (z : nat * nat) : bool :=
  match is_good_diag G mone eps A A_crs (fst z) (snd z) with Ok b => b | _ => false end.

Lemma accb_spec : forall O (G : Mag O) mone eps (A A_crs : CS O), MagLaws G -> valid A -> wf A_crs ->
  forall r c, r < psize A_crs -> c < psize A ->
    is_good_diag G mone eps A A_crs r c = Ok (accb G mone eps A A_crs (r, c)) /\
    (accb G mone eps A A_crs (r, c) = true <-> acceptable G mone eps A A_crs (r, c)).
Proof.
  intros O G mone eps A A_crs L V W r c Hr Hc.
  destruct (good_l G L mone eps A A_crs r c V W Hc Hr) as (b & E & H).
  unfold accb. cbn [fst snd]. rewrite E. split; auto.
Qed.

(** Deferral never fails.  Of the first [m0] diagonal positions, the acceptable
    ones end up in front, in their order, and the others behind, in their order;
    [m] is the number of acceptable ones; positions from [m0] on are untouched;
    if [p], [q] were permutations they still are. *)
Theorem C33_static_deferral : forall O (G : Mag O) mone eps (A A_crs : CS O) m0 p0 q0 wp0 wq0,
  MagLaws G -> valid A -> wf A_crs -> m0 <= psize A -> m0 <= psize A_crs ->
  m0 <= length p0 -> m0 <= length q0 -> m0 <= length wp0 -> m0 <= length wq0 ->
  (forall i, i < m0 -> nth i p0 0 < psize A_crs /\ nth i q0 0 < psize A) ->
  exists p q wp wq m g, defer_tiny_diags (is_good_diag G mone eps A A_crs) m0 p0 q0 wp0 wq0 = Ok (p, q, wp, wq, m) /\
    (forall i, i < m0 -> g (diag_at p0 q0 i) = true <-> acceptable G mone eps A A_crs (diag_at p0 q0 i)) /\
    m = length (filter g (diags p0 q0 m0)) /\
    diags p q m0 = filter g (diags p0 q0 m0) ++ filter (fun z => negb (g z)) (diags p0 q0 m0) /\
    (forall i, i < m -> acceptable G mone eps A A_crs (diag_at p q i)) /\
    (forall i, m <= i < m0 -> ~ acceptable G mone eps A A_crs (diag_at p q i)) /\
    (forall i, m0 <= i -> diag_at p q i = diag_at p0 q0 i) /\
    (forall n, m0 <= n -> is_perm n p0 -> is_perm n q0 -> is_perm n p /\ is_perm n q).
Proof.
  intros O G mone eps A A_crs m0 p0 q0 wp0 wq0 L V W Ha Hc Lp Lq Lwp Lwq R.
  set (g := accb G mone eps A A_crs).
  assert (GG : forall i, i < m0 -> is_good_diag G mone eps A A_crs (nth i p0 0) (nth i q0 0) = Ok (g (diag_at p0 q0 i))).
  { intros i Hi. destruct (R i Hi). apply accb_spec; auto. }
  pose proof (defer_l _ g m0 p0 q0 GG Lp Lq wp0 wq0 Lwp Lwq) as D. apply wp_inv in D.
  destruct D as ([[[[p q] wp] wq] m] & E & D1 & D2 & D3 & D4 & D5 & D6 & D7).
  assert (GA : forall i, i < m0 -> g (diag_at p0 q0 i) = true <-> acceptable G mone eps A A_crs (diag_at p0 q0 i)).
  { intros i Hi. destruct (R i Hi). apply accb_spec; auto. }
  assert (GA' : forall z, In z (diags p0 q0 m0) -> g z = true <-> acceptable G mone eps A A_crs z).
  { intros z Hz. unfold diags in Hz. apply in_map_iff in Hz. destruct Hz as (i & <- & Hi). apply in_seq in Hi. apply GA. lia. }
  assert (Hlen : m + length (filter (fun z => negb (g z)) (diags p0 q0 m0)) = m0).
  { apply (f_equal (@length _)) in D6. rewrite app_length, diags_length in D6. lia. }
  exists p, q, wp, wq, m, g. split; [auto|]. split; [auto|]. split; [auto|]. split; [auto|]. split; [|split; [|split; [auto|]]].
  - intros i Hi. rewrite <- (nth_diags p q m0 i (0, 0)) by lia. rewrite D6, app_nth1 by lia.
    assert (I : In (nth i (filter g (diags p0 q0 m0)) (0, 0)) (filter g (diags p0 q0 m0))) by (apply nth_In; lia).
    apply filter_In in I. destruct I as (I1 & I2). apply GA'; auto.
  - intros i Hi. rewrite <- (nth_diags p q m0 i (0, 0)) by lia. rewrite D6, app_nth2 by lia.
    assert (I : In (nth (i - m) (filter (fun z => negb (g z)) (diags p0 q0 m0)) (0, 0)) (filter (fun z => negb (g z)) (diags p0 q0 m0)))
      by (apply nth_In; lia).
    rewrite <- D5. apply filter_In in I. destruct I as (I1 & I2). intros H. apply GA' in H; auto. rewrite H in I2. discriminate.
  - intros n Hn P1 P2. pose proof P1 as (X1 & _). pose proof P2 as (X2 & _).
    apply (perm_rearr n p0 q0 p q); auto; try lia.
    replace n with (m0 + (n - m0)) by lia. rewrite !diags_app. apply Permutation_app.
    + rewrite D6. apply filter_partition.
    + replace (map (diag_at p q) (seq m0 (n - m0))) with (map (diag_at p0 q0) (seq m0 (n - m0))); auto.
      apply map_ext_in. intros i Hi. apply in_seq in Hi. symmetry. apply D7. lia.
Qed.
Print Assumptions C33_static_deferral.

(** Example: 3x3, columns q = (1,2,0), rows p = (0,1,2):
    A = [0 4 0; 0 0 0; 5 0 0] (CCS): diagonals (0,1) good, (1,2) missing, (2,0) good. *)
Definition qz (z : Z) : Qc := Q2Qc (inject_Z z).
Definition exA : CS OQ := @mkCS OQ 3 3 [0; 1; 2; 2] [2; 0] [qz 5; qz 4].
Definition exA' : CS OQ := @mkCS OQ 3 3 [0; 1; 1; 2] [1; 0] [qz 4; qz 5].
Example C33_run : valid exA /\ wf exA' /\ MagLaws MQ /\
  defer_tiny_diags (is_good_diag MQ (qz 1) (Q2Qc (1 # 1000)%Q) exA exA') 3 [0;1;2] [1;2;0] [9;9;9] [9;9;9]
  = Ok ([0;2;1], [1;0;2], [1;9;9], [2;9;9], 2).
Proof.
  split. { split; [apply wfb_wf; vm_compute; reflexivity|apply sortedb_sorted; vm_compute; reflexivity]. }
  split. { apply wfb_wf; vm_compute; reflexivity. }
  split; [exact MQ_laws|]. vm_compute. reflexivity.
Qed.

(** ** C46: final permutations of preprocessing *)

(** [finish_preprocessing] is do_maching after the matching kernel, followed by
    the reordering step of do_preprocessing.  Whatever permutation the reordering
    returns for the leading block, the final [p] and [q] are permutations with
    correct inverses; position [i] of the leading block is position [ord i] of the
    acceptable diagonals of the matching; then the unacceptable ones in order;
    then the identity from [m0] on. *)
Theorem C46_preprocessing_permutations : forall O (G : Mag O) mone eps (A A_crs : CS O) n m0 p0 q0 pi0 qi0 reord,
  MagLaws G -> valid A -> wf A_crs -> psize A = n -> psize A_crs = n -> m0 <= n ->
  length p0 = n -> length q0 = n -> length pi0 = n -> length qi0 = n ->
  is_perm m0 (firstn m0 p0) -> is_perm m0 (firstn m0 q0) ->
  (forall f m, reord = Some f -> m <= m0 -> is_perm m (f m)) ->
  exists P Q m g, finish_preprocessing (is_good_diag G mone eps A A_crs) m0 p0 q0 pi0 qi0 reord = Ok (P, Q, m) /\
    (forall i, i < m0 -> g (diag_at p0 q0 i) = true <-> acceptable G mone eps A A_crs (diag_at p0 q0 i)) /\
    let goods := filter g (diags p0 q0 m0) in
    let bads := filter (fun z => negb (g z)) (diags p0 q0 m0) in
    let ord i := match reord with Some f => nth i (f m) 0 | None => i end in
    m = length goods /\
    is_perm n (bp P) /\ is_perm n (bp Q) /\ is_inv n (bp P) (bpi P) /\ is_inv n (bp Q) (bpi Q) /\
    (forall i, i < m -> diag_at (bp P) (bp Q) i = nth (ord i) goods (0, 0)) /\
    (forall i, m <= i < m0 -> diag_at (bp P) (bp Q) i = nth (i - m) bads (0, 0)) /\
    (forall i, m0 <= i < n -> diag_at (bp P) (bp Q) i = (i, i)).
Proof.
  intros O G mone eps A A_crs n m0 p0 q0 pi0 qi0 reord L V W HA HC Hm Lp Lq Lpi Lqi P1 P2 Hr.
  set (g := accb G mone eps A A_crs).
  destruct (finish_l (is_good_diag G mone eps A A_crs) g n m0 p0 q0 pi0 qi0 reord) as (P & Q & E & I1 & I2 & H1 & H2 & H3); auto.
  { intros r c Hr' Hc'. apply accb_spec; auto; lia. }
  assert (PERM : forall p pi, is_inv n p pi -> is_perm n p).
  { intros p pi (X1 & X2 & X3 & X4). split; [auto|]. split; [intros; now apply X3|].
    intros i j Hi Hj Eq. rewrite <- (proj2 (X3 i Hi)), <- (proj2 (X3 j Hj)). now rewrite Eq. }
  exists P, Q, (length (filter g (diags p0 q0 m0))), g. split; [exact E|]. split.
  { intros i Hi. unfold diag_at. apply accb_spec; auto.
    - rewrite <- (nth_firstn_lt _ m0) by auto. destruct P1 as (_ & X & _). specialize (X i Hi). lia.
    - rewrite <- (nth_firstn_lt _ m0) by auto. destruct P2 as (_ & X & _). specialize (X i Hi). lia. }
  cbv zeta. split; [auto|]. split; [eapply PERM; eauto|]. split; [eapply PERM; eauto|].
  split; [auto|]. split; [auto|]. split; [exact H1|]. split; [exact H2|exact H3].
Qed.
Print Assumptions C46_preprocessing_permutations.

Example C46_run : forall z, match finish_preprocessing (is_good_diag MQ (qz 1) (Q2Qc (1 # 1000)%Q) exA exA') 3 [0;1;2] [1;2;0] [z;z;z] [z;z;z]
    (Some (fun m => rev (seq 0 m))) with
  | Ok (P, Q, m) => m = 2 /\ bp P = [2;0;1] /\ bpi P = [1;2;0] /\ bp Q = [0;1;2] /\ bpi Q = [0;1;2]
  | _ => False end.
Proof. intros z. vm_compute. auto 10. Qed.

(** The pattern handed to the reordering (without symmetrisation) is exactly the
    pattern of the permuted leading block: column [c] holds, strictly increasing,
    the [k < m] with (p k, q c) stored in [A]. *)
Theorem C46_leading_pattern : forall O (A : CS O) n m p pinv q ji,
  valid A -> psize A = n -> ssize A = n -> m <= n -> is_inv n p pinv -> is_perm n q ->
  exists start ind, leading_block A m pinv q ji = Ok (start, ind) /\
    length start = m + 1 /\ nth 0 start 0 = 0 /\ nth m start 0 = length ind /\
    (forall c, c < m -> nth c start 0 <= nth (S c) start 0) /\
    (forall c i j, c < m -> nth c start 0 <= i -> i < j -> j < nth (S c) start 0 -> nth i ind 0 < nth j ind 0) /\
    (forall c k, c < m -> (exists i, nth c start 0 <= i < nth (S c) start 0 /\ nth i ind 0 = k) <->
       k < m /\ exists v, stored A (nth c q 0) (nth k p 0) v).
Proof.
  intros O A n m p pinv q ji [W Hs] HA HS Hm (I1 & I2 & I3 & I4) (Q1 & Q2 & Q3).
  destruct (leading_block_l A m n pinv q W HA HS I2 Hm Q1 Q2 ji) as (start & ind & E & L1 & L2 & L3).
  exists start, ind. split; [auto|]. split; [auto|].
  split. { rewrite L2 by lia. reflexivity. } split. { rewrite L2 by lia. now rewrite L3. }
  assert (SEG : forall c r, c < m -> r < length (lcol A m pinv q c) ->
    nth (lsz A m pinv q c + r) ind 0 = nth r (lcol A m pinv q c) 0).
  { intros c r Hc Hr. rewrite L3. replace m with (c + (1 + (m - S c))) by lia.
    replace (c + (1 + (m - S c))) with m at 2 by lia.
    rewrite seq_app, flat_map_app. unfold lsz.
    replace (c + (1 + (m - S c))) with m by lia.
    rewrite app_nth2 by lia.
    match goal with |- nth ?x _ _ = _ => replace x with r by lia end.
    cbn [seq Nat.add flat_map]. rewrite app_nth1; auto. }
  split. { intros c Hc. rewrite !L2 by lia. rewrite lsz_S. lia. }
  assert (ND : forall c, c < m -> NoDup (map fst (rowl A (nth c q 0)))).
  { intros c Hc. apply valid_nodup; [auto|]. rewrite HA. apply Q2. lia. }
  assert (RG : forall c e, c < m -> In e (rowl A (nth c q 0)) -> fst e < n).
  { intros c e Hc He. rewrite <- HS. eapply (wf_rowl_range O A W); [|exact He]. rewrite HA. apply Q2. lia. }
  assert (NDM : forall c, c < m -> NoDup (mapped m pinv (rowl A (nth c q 0)))).
  { intros c Hc. unfold mapped. apply NoDup_filter. rewrite <- (map_map fst (fun k => nth k pinv 0)).
    specialize (ND c Hc). assert (RG' : forall k, In k (map fst (rowl A (nth c q 0))) -> k < n).
    { intros k Hk. apply in_map_iff in Hk. destruct Hk as (e & <- & He). eauto. }
    induction (map fst (rowl A (nth c q 0))) as [|x l IH]; [constructor|].
    inversion ND; subst. simpl. constructor; [|apply IH; auto; intros; apply RG'; right; auto].
    intros H. apply in_map_iff in H. destruct H as (y & Hy1 & Hy2). apply H1.
    assert (x = y); [|congruence].
    destruct (I4 x (RG' x (or_introl eq_refl))) as (_ & X). destruct (I4 y (RG' y (or_intror Hy2))) as (_ & Y).
    congruence. }
  split.
  - intros c i j Hc Hi Hij Hj. rewrite L2 in Hi by lia. rewrite L2, lsz_S in Hj by lia.
    replace i with (lsz A m pinv q c + (i - lsz A m pinv q c)) by lia.
    replace j with (lsz A m pinv q c + (j - lsz A m pinv q c)) by lia.
    rewrite !SEG by lia. pose proof (isort_asc _ (NDM c Hc)) as AS. fold (lcol A m pinv q c) in AS.
    apply (proj1 (asc_nth _) AS); lia.
  - intros c k Hc. rewrite !L2 by lia. rewrite lsz_S. split.
    + intros (i & Hi & E1). replace i with (lsz A m pinv q c + (i - lsz A m pinv q c)) in E1 by lia.
      rewrite SEG in E1 by lia.
      assert (I : In k (mapped m pinv (rowl A (nth c q 0)))).
      { eapply Permutation_in; [apply isort_perm|]. rewrite <- E1. apply nth_In. fold (lcol A m pinv q c). lia. }
      unfold mapped in I. apply filter_In in I. destruct I as (I & K). apply Nat.ltb_lt in K. split; auto.
      apply in_map_iff in I. destruct I as ([r v] & X & Y). cbn [fst] in X. exists v. unfold stored.
      destruct (I4 r (RG c (r, v) Hc Y)) as (_ & Z). rewrite X in Z. now rewrite Z.
    + intros (Hk & v & S1).
      assert (I : In k (lcol A m pinv q c)).
      { eapply Permutation_in; [apply Permutation_sym, isort_perm|]. unfold mapped. apply filter_In.
        split; [|now apply Nat.ltb_lt]. apply in_map_iff. exists (nth k p 0, v). split; auto.
        cbn [fst]. apply I3. lia. }
      apply (In_nth _ _ 0) in I. destruct I as (r & Hr & Er).
      exists (lsz A m pinv q c + r). split; [lia|]. rewrite SEG by auto. auto.
Qed.
Print Assumptions C46_leading_pattern.

Example C46_pattern_run : leading_block exA 2 [0;2;1] [1;0;2] 7 = Ok ([0;1;2], [0;1]).
Proof. vm_compute. reflexivity. Qed.

(** With symmetrisation (chosen for a nonsymmetric matrix when the reordering is
    RCM) the routine tests [!masks\[ind\]] before [ind < m], where [masks] has
    only [m] entries: when something was deferred statically ([m < n]), a row
    of the leading block with an entry in a deferred column reads out of bounds. *)
Theorem C46_symmetrised_pattern_refuted : exists (A A_crs : CS OQ) m n p pinv q qinv,
  valid A /\ valid A_crs /\ psize A = n /\ ssize A = n /\ psize A_crs = n /\ ssize A_crs = n /\
  (forall i j v, i < n -> j < n -> stored A j i v <-> stored A_crs i j v) /\
  m <= n /\ is_inv n p pinv /\ is_inv n q qinv /\
  (forall ji, leading_block_apat A A_crs m p pinv q qinv ji = UB).
Proof.
  (* [4 1; 0 0]: the zero diagonal (1,1) has been deferred, m = 1 *)
  exists (@mkCS OQ 2 2 [0;1;2] [0;0] [qz 4; qz 1]), (@mkCS OQ 2 2 [0;2;2] [0;1] [qz 4; qz 1]), 1, 2, [0;1], [0;1], [0;1], [0;1].
  split. { split; [apply wfb_wf; vm_compute; reflexivity|apply sortedb_sorted; vm_compute; reflexivity]. }
  split. { split; [apply wfb_wf; vm_compute; reflexivity|apply sortedb_sorted; vm_compute; reflexivity]. }
  do 4 (split; [reflexivity|]).
  split. { intros i j v Hi Hj. unfold stored. destruct i as [|[|i]], j as [|[|j]]; try lia; cbn; intuition (try congruence). }
  split; [lia|].
  assert (X : is_inv 2 [0;1] [0;1]).
  { split; [auto|]. split; [auto|]. split; intros i Hi; destruct i as [|[|i]]; simpl; auto; lia. }
  split; [exact X|]. split; [exact X|]. intros ji. reflexivity.
Qed.
Print Assumptions C46_symmetrised_pattern_refuted.

(** ** C48: extreme-value scaling *)

(** For a square matrix (general case, IsSymm = false) and real arithmetic:
    scale factors are positive, the matrix becomes diag(rs) B diag(cs), every
    entry then has magnitude at most one, and every column that is not zero has
    an entry of magnitude exactly one. *)
Theorem C48_scaled_entries_bounded_partial : forall O (G : Mag O) mone mrec smul (B : CS O) rs cs,
  MagLaws G -> ScaleLaws G mone mrec smul -> wf B -> tight B -> ssize B = psize B ->
  length rs = psize B -> length cs = psize B ->
  exists B' rs' cs', scale_extreme_values G mone mrec smul false B rs cs = Ok (B', rs', cs') /\
    wf B' /\ is_scaled G smul B B' rs' cs' /\ length rs' = psize B /\ length cs' = psize B /\
    (forall i, i < psize B -> mlt G (m0 G) (nth i rs' (m0 G)) = true /\ mlt G (m0 G) (nth i cs' (m0 G)) = true) /\
    (forall i j v, i < psize B -> stored B' i j v -> mle G (mabs G v) mone = true) /\
    (forall j, j < psize B -> (exists i v, i < psize B /\ stored B i j v /\ v <> t0 O) ->
       exists i v, i < psize B /\ stored B' i j v /\ mabs G v = mone).
Proof. intros. apply (scale_l G H mone mrec smul H0); auto. Qed.
Print Assumptions C48_scaled_entries_bounded_partial.

Lemma qabs_nonneg : forall v, Qcle (Q2Qc 0) v -> qabs v = v.
Proof. intros v H. unfold qabs. apply qle_iff in H. now rewrite H. Qed.
Lemma qabs_nonpos : forall v, Qcle v (Q2Qc 0) -> qabs v = Qcopp v.
Proof.
  intros v H. unfold qabs. destruct (qle (Q2Qc 0) v) eqn:E; auto.
  apply qle_iff in E. assert (v = Q2Qc 0) by (apply Qcle_antisym; auto). subst. reflexivity.
Qed.
Lemma Qcmul_pos : forall x a, Qclt (Q2Qc 0) x -> Qclt (Q2Qc 0) a -> Qclt (Q2Qc 0) (Qcmult x a).
Proof. intros. rewrite <- (Qcmult_0_l a). apply Qcmult_lt_compat_r; auto. Qed.
Lemma Qcinv_pos : forall a, Qclt (Q2Qc 0) a -> Qclt (Q2Qc 0) (Qcinv a).
Proof.
  intros a H. destruct (Qclt_le_dec (Q2Qc 0) (Qcinv a)) as [|X]; auto. exfalso.
  pose proof (Qcmult_le_compat_r _ _ a X (Qclt_le_weak _ _ H)) as Y.
  rewrite Qcmult_0_l, Qcmult_comm, Qcmult_inv_r in Y.
  - apply (Qclt_not_le (Q2Qc 0) (Q2Qc 1)); auto. reflexivity.
  - intros E. subst a. apply (Qclt_not_eq _ _ H). auto.
Qed.

Lemma ScaleQ : ScaleLaws MQ (Q2Qc 1) Qcinv Qcmult.
Proof.
  assert (NZ : forall a, Qclt (Q2Qc 0) a -> a <> Q2Qc 0). { intros a H E. subst a. apply (Qclt_not_eq _ _ H). auto. }
  constructor; simpl.
  - reflexivity.
  - intros v a H. apply qlt_iff in H. pose proof (Qclt_le_weak _ _ H) as H'.
    destruct (Qclt_le_dec v (Q2Qc 0)) as [X|X].
    + apply Qclt_le_weak in X. rewrite (qabs_nonpos v X).
      rewrite qabs_nonpos. { now rewrite <- Qcopp_mult_distr_l || ring. }
      rewrite <- (Qcmult_0_l a). now apply Qcmult_le_compat_r.
    + rewrite (qabs_nonneg v X). apply qabs_nonneg. rewrite <- (Qcmult_0_l a). now apply Qcmult_le_compat_r.
  - intros a. rewrite !qlt_iff. apply Qcinv_pos.
  - intros x a. rewrite !qlt_iff. apply Qcmul_pos.
  - intros x a. rewrite qlt_iff, !qle_iff. intros H1 H2 H3.
    replace (Q2Qc 1) with (Qcmult a (Qcinv a)). 2:{ rewrite Qcmult_inv_r; auto. }
    apply Qcmult_le_compat_r; auto. apply Qclt_le_weak, Qcinv_pos; auto.
  - intros a. rewrite qlt_iff. intros H. rewrite Qcmult_inv_r; auto.
Qed.

Definition exB : CS OQ := @mkCS OQ 3 3 [0; 2; 2; 3] [0; 2; 0] [qz 4; qz (-8); qz (-5)].
Example C48_run : wf exB /\ tight exB /\ MagLaws MQ /\ ScaleLaws MQ (Q2Qc 1) Qcinv Qcmult /\
  match scale_extreme_values MQ (Q2Qc 1) Qcinv Qcmult false exB [qz 9;qz 9;qz 9] [qz 9;qz 9;qz 9] with
  | Ok (B', rs, cs) => vals B' = [Q2Qc (1#2)%Q; qz (-1); qz (-1)] /\ rs = [Q2Qc (1#8)%Q; qz 1; Q2Qc (1#5)%Q] /\ cs = [qz 1; qz 1; qz 1]
  | _ => False end.
Proof.
  split; [apply wfb_wf; vm_compute; reflexivity|]. split; [apply tightb_tight; vm_compute; reflexivity|].
  split; [exact MQ_laws|]. split; [exact ScaleQ|]. vm_compute. auto.
Qed.

(** In the symmetric mode the row factors are applied to the columns as well:
    the matrix diag(1/10) becomes diag(10), so entries larger than one remain. *)
Theorem C48_symmetric_mode_refuted : exists (B : CS OQ) rs cs,
  wf B /\ tight B /\ psize B = 1 /\ ssize B = 1 /\
  match scale_extreme_values MQ (Q2Qc 1) Qcinv Qcmult true B rs cs with
  | Ok (B', _, _) => exists v, stored B' 0 0 v /\ mlt MQ (Q2Qc 1) (mabs MQ v) = true
  | _ => False end.
Proof.
  exists (@mkCS OQ 1 1 [0;1] [0] [Q2Qc (1 # 10)%Q]), [qz 0], [qz 0].
  split; [apply wfb_wf; vm_compute; reflexivity|]. split; [apply tightb_tight; vm_compute; reflexivity|].
  split; [reflexivity|]. split; [reflexivity|].
  remember (scale_extreme_values _ _ _ _ _ _ _ _) as r eqn:E. vm_compute in E. subst r.
  exists (qz 10). split; [left; vm_compute; reflexivity|vm_compute; reflexivity].
Qed.
Print Assumptions C48_symmetric_mode_refuted.
